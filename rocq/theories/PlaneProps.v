(** Property C58 and part of C62: planes of lattices. *)
From Coq Require Import List Lia Bool Reals Lra ZArith Arith.
From Verif Require Import RUtil McModel McProofs ListUtil StdAlg StdAlgProofs MatModel MatProps CoreModel CoreProofs BcProofs LatProps.
Import ListNotations.
Open Scope nat_scope.

(* ------------------------------------------------------------ prefix sums over nat *)
Definition before (c : list nat) (i : nat) : nat := list_sum (firstn i c).
Lemma before_cons : forall x c i, before (x :: c) (S i) = x + before c i.
Proof. reflexivity. Qed.
Lemma before_S : forall c i a, nth_error c i = Some a -> before c (S i) = before c i + a.
Proof.
  induction c as [|x c IH]; intros [|i] a H; try discriminate.
  - injection H as ->. cbn. lia.
  - rewrite !before_cons. rewrite (IH i a H). lia.
Qed.
Lemma before_all : forall c, before c (length c) = list_sum c.
Proof. intros c. unfold before. now rewrite firstn_all. Qed.
Lemma before_mono : forall c i j, i <= j -> before c i <= before c j.
Proof.
  intros c i j H. induction H; auto. destruct (nth_error c m) as [a|] eqn:E.
  - rewrite (before_S c m a E). lia.
  - apply nth_error_None in E. unfold before in *. rewrite (firstn_all2 (n := S m)) by lia. rewrite (firstn_all2 (n := m)) in IHle by lia. exact IHle.
Qed.
Lemma before_find : forall c v, v < list_sum c -> exists i a r, nth_error c i = Some a /\ r < a /\ v = before c i + r.
Proof.
  induction c as [|x c IH]; intros v H; [cbn in H; lia|]. change (list_sum (x :: c)) with (x + list_sum c) in H.
  destruct (le_lt_dec x v) as [L|L].
  - destruct (IH (v - x) ltac:(lia)) as (i & a & r & E & R' & V). exists (S i), a, r. split; auto. split; auto.
    rewrite before_cons. lia.
  - exists 0, x, v. repeat split; auto.
Qed.
Lemma before_bound : forall c i a r, nth_error c i = Some a -> r < a -> before c i + r < list_sum c.
Proof.
  intros c i a r E R'. assert (i < length c) by (apply nth_error_Some; congruence).
  pose proof (before_mono c (S i) (length c) ltac:(lia)) as M. rewrite (before_S c i a E), before_all in M. lia.
Qed.
Lemma before_uniq : forall c i j a b r s, nth_error c i = Some a -> nth_error c j = Some b -> r < a -> s < b ->
  before c i + r = before c j + s -> i = j /\ r = s.
Proof.
  intros c i j a b r s A B Ha Hb E. destruct (lt_eq_lt_dec i j) as [[L| ->]|L].
  - pose proof (before_mono c (S i) j ltac:(lia)) as M. rewrite (before_S c i a A) in M. lia.
  - split; auto. lia.
  - pose proof (before_mono c (S j) i ltac:(lia)) as M. rewrite (before_S c j b B) in M. lia.
Qed.

(* ------------------------------------------------------------ planes *)
Definition lens (ls : list Lattice) : list nat := map (fun l => length (lat_pins l)) ls.

Lemma find_lat_spec : forall ls j l r i0, nth_error ls j = Some l -> r < length (lat_pins l) ->
  find_lat ls (before (lens ls) j + r) i0 = (i0 + j, r).
Proof.
  induction ls as [|a ls IH]; intros [|j] l r i0 H Hr; try discriminate.
  - injection H as ->. change (before (lens (l :: ls)) 0 + r) with r. cbn [find_lat].
    destruct (Nat.ltb_spec r (length (lat_pins l))); [|lia]. f_equal. lia.
  - cbn [nth_error] in H. change (lens (a :: ls)) with (length (lat_pins a) :: lens ls). rewrite before_cons. cbn [find_lat].
    destruct (Nat.ltb_spec (length (lat_pins a) + before (lens ls) j + r) (length (lat_pins a))); [lia|].
    replace (length (lat_pins a) + before (lens ls) j + r - length (lat_pins a)) with (before (lens ls) j + r) by lia.
    rewrite (IH j l r (S i0) H Hr). f_equal. lia.
Qed.
Lemma flat_nth : forall ls j l r, nth_error ls j = Some l -> r < length (lat_pins l) ->
  nth_error (flat_map lat_pins ls) (before (lens ls) j + r) = nth_error (lat_pins l) r.
Proof.
  induction ls as [|a ls IH]; intros [|j] l r H Hr; try discriminate.
  - injection H as ->. cbn. now rewrite nth_error_app1.
  - cbn [nth_error] in H. change (lens (a :: ls)) with (length (lat_pins a) :: lens ls). rewrite before_cons. cbn [flat_map].
    rewrite nth_error_app2 by lia. rewrite <- (IH j l r H Hr). f_equal. lia.
Qed.
Lemma flat_len : forall ls, length (flat_map lat_pins ls) = list_sum (lens ls).
Proof. induction ls as [|a ls IH]; auto. cbn [flat_map]. rewrite app_length, IH. reflexivity. Qed.

Lemma reads_map : forall {P Q} (l : list P) (f : P -> Q) idx q, reads l f idx = Some q ->
  length q = length idx /\ (forall k i, nth_error idx k = Some i -> exists p, nth_error l i = Some p /\ nth_error q k = Some (f p)).
Proof.
  intros P Q l f. induction idx as [|i idx IH]; intros q E; cbn [reads] in E.
  - injection E as <-. split; auto. intros [|k] i H; discriminate.
  - destruct (nth_error l i) as [p|] eqn:N; [|discriminate]. destruct (reads l f idx) as [r|] eqn:R'; [|discriminate].
    injection E as <-. destruct (IH r eq_refl) as [L H]. split; [cbn; lia|]. intros [|k] j J; cbn in J.
    + injection J as <-. exists p. auto.
    + cbn. auto.
Qed.
Lemma nth_seq : forall n k, k < n -> nth_error (seq 0 n) k = Some k.
Proof. intros n k H. rewrite nth_error_nth' with (d := 0) by (rewrite seq_length; lia). now rewrite seq_nth. Qed.

(** Pins per column (from the bottom row of lattices) and per row (from the left column). *)
Definition colpins (P : Plane) : list nat := map (fun X => match pl_at P X 0 with Some l => lat_nx l | None => 0 end) (seq 0 (pl_nx P)).
Definition rowpins (P : Plane) : list nat := map (fun Y => match pl_at P 0 Y with Some l => lat_ny l | None => 0 end) (seq 0 (pl_ny P)).

Record wf_plane (P : Plane) : Prop := {
  wp_nx : 1 <= pl_nx P; wp_ny : 1 <= pl_ny P; wp_len : length (pl_lats P) = pl_nx P * pl_ny P;
  wp_lat : forall L, In L (pl_lats P) -> wf_lat L;
  wp_nxpin : pl_nxpin P = list_sum (colpins P); wp_nypin : pl_nypin P = list_sum (rowpins P);
  wp_hx : pl_hx P = psums 0 (map (fun X => match pl_at P X 0 with Some l => lat_hx l | None => 0%R end) (seq 0 (pl_nx P)));
  wp_hy : pl_hy P = psums 0 (map (fun Y => match pl_at P 0 Y with Some l => lat_hy l | None => 0%R end) (seq 0 (pl_ny P)));
  wp_first : pl_first P = offsets 0 (map lat_nreg (pl_lats P));
  wp_nreg : pl_nreg P = list_sum (map lat_nreg (pl_lats P));
  wp_nxs : pl_nxs P = list_sum (map lat_nxs (pl_lats P));
  wp_npin : pl_npin P = length (flat_map lat_pins (pl_lats P));
  wp_nfuel : pl_nfuel P = length (filter pin_fuel (flat_map lat_pins (pl_lats P)))
}.

Lemma list_eq_nth : forall {A} (l m : list A), length l = length m -> (forall k a, nth_error l k = Some a -> nth_error m k = Some a) -> l = m.
Proof.
  intros A. induction l as [|x l IH]; intros [|y m] L H; try discriminate; auto.
  pose proof (H 0 x eq_refl) as E. injection E as ->. f_equal. apply IH; [auto|]. intros k a K. apply (H (S k) a K).
Qed.

Lemma reads_col : forall {Q} ls nx (f : Lattice -> Q) d q, reads ls f (seq 0 nx) = Some q ->
  q = map (fun X => match lats_at ls nx X 0 with Some l => f l | None => d end) (seq 0 nx).
Proof.
  intros Q ls nx f d q E. destruct (reads_map ls f _ q E) as [L H]. apply list_eq_nth; [now rewrite map_length|].
  intros k a K. assert (k < nx) as Kn by (assert (k < length q) by (apply nth_error_Some; congruence); rewrite L, seq_length in *; lia).
  destruct (H k k (nth_seq nx k Kn)) as (p & N & A). rewrite nth_error_map, nth_seq by auto. cbn.
  unfold lats_at. rewrite Nat.mul_0_r, Nat.add_0_r, N. congruence.
Qed.
Lemma reads_row : forall {Q} ls nx ny (f : Lattice -> Q) d q, reads ls f (map (fun iy => nx * iy) (seq 0 ny)) = Some q ->
  q = map (fun Y => match lats_at ls nx 0 Y with Some l => f l | None => d end) (seq 0 ny).
Proof.
  intros Q ls nx ny f d q E. destruct (reads_map ls f _ q E) as [L H]. rewrite map_length in L. apply list_eq_nth; [now rewrite map_length|].
  intros k a K. assert (k < ny) as Kn by (assert (k < length q) by (apply nth_error_Some; congruence); rewrite L, seq_length in *; lia).
  destruct (H k (nx * k)) as (p & N & A). { now rewrite nth_error_map, nth_seq. } rewrite nth_error_map, nth_seq by auto. cbn.
  unfold lats_at. cbn. rewrite N. congruence.
Qed.

Lemma made_plane : forall ulp ls nx ny P, 1 <= nx -> 1 <= ny -> length ls = nx * ny -> (forall L, In L ls -> wf_lat L) ->
  make_plane ulp ls nx ny = Got P -> wf_plane P /\ pl_lats P = ls /\ pl_nx P = nx /\ pl_ny P = ny.
Proof.
  intros ulp ls nx ny P Hx Hy Hl Hw E. unfold make_plane in E.
  destruct (reads ls lat_hx (seq 0 nx)) as [dx|] eqn:E1; [|discriminate].
  destruct (reads ls lat_nx (seq 0 nx)) as [cx|] eqn:E2; [|discriminate].
  destruct (reads ls lat_hy (map (fun iy => nx * iy) (seq 0 ny))) as [dy|] eqn:E3; [|discriminate].
  destruct (reads ls lat_ny (map (fun iy => nx * iy) (seq 0 ny))) as [cy|] eqn:E4; [|discriminate].
  destruct (fold_out _ tt (yx_loop nx ny)); try discriminate. injection E as <-. cbn. split; [|auto].
  constructor; cbn; auto.
  - now rewrite (reads_col ls nx lat_nx 0 cx E2).
  - now rewrite (reads_row ls nx ny lat_ny 0 cy E4).
  - now rewrite (reads_col ls nx lat_hx 0%R dx E1).
  - now rewrite (reads_row ls nx ny lat_hy 0%R dy E3).
Qed.

(** When lattices of a column have equal widths and those of a row equal heights, the plane is accepted. *)
Lemma plane_accepted : forall ulp ls nx ny, length ls = nx * ny -> 1 <= nx -> 1 <= ny ->
  (forall X Y L A B, X < nx -> Y < ny -> lats_at ls nx X Y = Some L -> lats_at ls nx X 0 = Some A -> lats_at ls nx 0 Y = Some B ->
     ulp (lat_hx L) (lat_hx A) = true /\ ulp (lat_hy L) (lat_hy B) = true) -> exists P, make_plane ulp ls nx ny = Got P.
Proof.
  intros ulp ls nx ny Hl Hx Hy H. unfold make_plane.
  assert (forall i, In i (seq 0 nx) -> i < length ls) as I1.
  { intros i I. apply in_seq in I. pose proof (index_bound nx ny 0 i ltac:(lia) ltac:(lia)). lia. }
  assert (forall i, In i (map (fun iy => nx * iy) (seq 0 ny)) -> i < length ls) as I2.
  { intros i I. apply in_map_iff in I. destruct I as (y & <- & I). apply in_seq in I. pose proof (index_bound nx ny y 0 ltac:(lia) ltac:(lia)). lia. }
  destruct (reads_spec ls lat_hx (seq 0 nx) I1) as (dx & E1 & _). destruct (reads_spec ls lat_nx (seq 0 nx) I1) as (cx & E2 & _).
  destruct (reads_spec ls lat_hy _ I2) as (dy & E3 & _). destruct (reads_spec ls lat_ny _ I2) as (cy & E4 & _).
  rewrite E1, E2, E3, E4.
  assert (forall q, In q (yx_loop nx ny) -> size_ok ulp nx ls dx dy q = Got true) as S.
  { intros [y x] Q. apply yx_loop_in in Q. destruct Q as [Y X]. unfold size_ok.
    rewrite (reads_col ls nx lat_hx 0%R dx E1), (reads_row ls nx ny lat_hy 0%R dy E3), !nth_error_map, !nth_seq by auto. cbn [option_map].
    pose proof (index_bound nx ny y x Y X). pose proof (index_bound nx ny 0 x ltac:(lia) X). pose proof (index_bound nx ny y 0 Y ltac:(lia)).
    destruct (lats_at ls nx x y) as [l|] eqn:L; [|unfold lats_at in L; apply nth_error_None in L; lia].
    destruct (lats_at ls nx x 0) as [a|] eqn:A; [|unfold lats_at in A; apply nth_error_None in A; lia].
    destruct (lats_at ls nx 0 y) as [b|] eqn:B; [|unfold lats_at in B; apply nth_error_None in B; lia].
    destruct (H x y l a b X Y L A B) as [-> ->]. reflexivity. }
  rewrite fold_check by (intros q Q; rewrite (S q Q); eauto).
  replace (forallb _ (yx_loop nx ny)) with true; [eauto|]. symmetry. apply forallb_forall. intros q Q. now rewrite (S q Q).
Qed.

(** Specification: lattices of one column have the same number of pins across, those of one row the same number up. *)
Definition conforming (P : Plane) : Prop := forall X Y L A B, X < pl_nx P -> Y < pl_ny P ->
  pl_at P X Y = Some L -> pl_at P X 0 = Some A -> pl_at P 0 Y = Some B -> lat_nx L = lat_nx A /\ lat_ny L = lat_ny B.

Lemma pl_at_ex : forall P, wf_plane P -> forall X Y, X < pl_nx P -> Y < pl_ny P -> exists L, pl_at P X Y = Some L /\ wf_lat L.
Proof.
  intros P W X Y HX HY. pose proof (index_bound _ _ _ _ HY HX) as B. unfold pl_at, lats_at.
  destruct (nth_error (pl_lats P) (X + pl_nx P * Y)) as [L|] eqn:E.
  - exists L. split; auto. apply (wp_lat P W). eapply nth_error_In; eauto.
  - apply nth_error_None in E. rewrite (wp_len P W) in E. lia.
Qed.

(** Position of pin (x, y) of lattice (X, Y). *)
Lemma position_of : forall P, wf_plane P -> forall X Y L x y, X < pl_nx P -> Y < pl_ny P -> pl_at P X Y = Some L ->
  x < lat_nx L -> y < lat_ny L ->
  let k := before (lens (pl_lats P)) (X + pl_nx P * Y) + (y * lat_nx L + x) in
  k < pl_npin P /\ nth_error (flat_map lat_pins (pl_lats P)) k = lat_at L x y /\
  pin_position P k = Some (before (colpins P) X + x, before (rowpins P) Y + y).
Proof.
  intros P W X Y L x y HX HY E Hx Hy k.
  assert (wf_lat L) as WL by (apply (wp_lat P W); unfold pl_at, lats_at in E; eapply nth_error_In; eauto).
  pose proof (index_bound _ _ _ _ Hy Hx) as IB. rewrite <- (wl_len L WL) in IB.
  assert (nth_error (pl_lats P) (X + pl_nx P * Y) = Some L) as EL by exact E.
  assert (nth_error (lens (pl_lats P)) (X + pl_nx P * Y) = Some (length (lat_pins L))) as El by (unfold lens; now rewrite nth_error_map, EL).
  assert (k < pl_npin P) as Hk by (rewrite (wp_npin P W), flat_len; unfold k; eapply before_bound; eauto).
  split; auto. split. { unfold k. rewrite (flat_nth _ _ _ _ EL IB). reflexivity. }
  unfold pin_position. destruct (Nat.eqb_spec (pl_npin P) 0); [lia|]. rewrite Nat.mod_small by auto.
  unfold k. rewrite (find_lat_spec _ _ _ _ 0 EL IB). cbn [Nat.add].
  pose proof (wp_nx P W). destruct (Nat.eqb_spec (pl_nx P) 0); [lia|].
  assert ((X + pl_nx P * Y) mod pl_nx P = X) as -> by (rewrite (Nat.mul_comm (pl_nx P)), Nat.mod_add, Nat.mod_small by lia; auto).
  assert ((X + pl_nx P * Y) / pl_nx P = Y) as -> by (rewrite (Nat.mul_comm (pl_nx P)), Nat.div_add, Nat.div_small by lia; auto).
  pose proof (wp_ny P W) as Hny.
  destruct (reads_spec (pl_lats P) lat_nx (seq 0 X)) as (cx & E1 & L1 & N1).
  { intros i I. apply in_seq in I. rewrite (wp_len P W). pose proof (index_bound (pl_nx P) (pl_ny P) 0 i ltac:(lia) ltac:(lia)). lia. }
  destruct (reads_spec (pl_lats P) lat_ny (map (fun iy => pl_nx P * iy) (seq 0 Y))) as (cy & E2 & L2 & N2).
  { intros i I. apply in_map_iff in I. destruct I as (j & <- & I). apply in_seq in I. rewrite (wp_len P W).
    pose proof (index_bound (pl_nx P) (pl_ny P) j 0 ltac:(lia) ltac:(lia)). lia. }
  rewrite E1, E2, E. destruct (Nat.eqb_spec (lat_nx L) 0); [pose proof (wl_nx L WL); lia|].
  assert ((y * lat_nx L + x) mod lat_nx L = x) as -> by (rewrite Nat.add_comm, Nat.mod_add, Nat.mod_small by lia; auto).
  assert ((y * lat_nx L + x) / lat_nx L = y) as -> by (rewrite Nat.add_comm, Nat.div_add, Nat.div_small by lia; auto).
  rewrite seq_length in L1. rewrite map_length, seq_length in L2.
  assert (cx = firstn X (colpins P)) as ->.
  { apply list_eq_nth.
    - rewrite firstn_length. unfold colpins. rewrite map_length, seq_length. lia.
    - intros j a J. assert (j < X) as Hj by (rewrite <- L1; apply nth_error_Some; congruence).
      rewrite nth_error_firstn_lt by auto. unfold colpins. rewrite nth_error_map, nth_seq by lia. cbn [option_map].
      destruct (pl_at_ex P W j 0 ltac:(lia) ltac:(lia)) as (M & EM & _). rewrite EM. rewrite <- J. symmetry.
      apply (N1 j j); [now apply nth_seq|]. unfold pl_at, lats_at in EM. rewrite Nat.mul_0_r, Nat.add_0_r in EM. exact EM. }
  assert (cy = firstn Y (rowpins P)) as ->.
  { apply list_eq_nth.
    - rewrite firstn_length. unfold rowpins. rewrite map_length, seq_length. lia.
    - intros j a J. assert (j < Y) as Hj by (rewrite <- L2; apply nth_error_Some; congruence).
      rewrite nth_error_firstn_lt by auto. unfold rowpins. rewrite nth_error_map, nth_seq by lia. cbn [option_map].
      destruct (pl_at_ex P W 0 j ltac:(lia) ltac:(lia)) as (M & EM & _). rewrite EM. rewrite <- J. symmetry.
      apply (N2 j (pl_nx P * j)); [now rewrite nth_error_map, nth_seq|]. exact EM. }
  reflexivity.
Qed.

(** Every pin index below the pin count belongs to exactly such a pin. *)
Lemma pin_of : forall P, wf_plane P -> forall k, k < pl_npin P -> exists X Y L x y, X < pl_nx P /\ Y < pl_ny P /\ pl_at P X Y = Some L /\
  x < lat_nx L /\ y < lat_ny L /\ k = before (lens (pl_lats P)) (X + pl_nx P * Y) + (y * lat_nx L + x).
Proof.
  intros P W k Hk. rewrite (wp_npin P W), flat_len in Hk. destruct (before_find _ _ Hk) as (i & a & r & E & Hr & ->).
  unfold lens in E. rewrite nth_error_map in E. destruct (nth_error (pl_lats P) i) as [L|] eqn:EL; [|discriminate]. cbn in E. injection E as <-.
  assert (i < pl_nx P * pl_ny P) as Hi by (rewrite <- (wp_len P W); apply nth_error_Some; congruence).
  destruct (index_split _ _ _ Hi) as (Y & X & HY & HX & ->).
  assert (wf_lat L) as WL by (apply (wp_lat P W); eapply nth_error_In; eauto).
  rewrite (wl_len L WL) in Hr. destruct (index_split _ _ _ Hr) as (y & x & Hy & Hx & ->).
  replace (Y * pl_nx P + X) with (X + pl_nx P * Y) in * by lia. exists X, Y, L, x, y. repeat (split; [assumption|]). reflexivity.
Qed.

(** C58 (position and pin agree).  Pin (x, y) of lattice (X, Y) has an index, the pin stored there is that pin, and its
    position is the pin counts of the columns to the left plus x and of the rows below plus y. *)
Theorem C58_position_agrees : forall ulp ls nx ny P, 1 <= nx -> 1 <= ny -> length ls = nx * ny -> (forall L, In L ls -> wf_lat L) ->
  make_plane ulp ls nx ny = Got P -> forall X Y L x y, X < nx -> Y < ny -> pl_at P X Y = Some L -> x < lat_nx L -> y < lat_ny L ->
  exists k, k < pl_npin P /\ nth_error (flat_map lat_pins ls) k = lat_at L x y /\
    pin_position P k = Some (before (colpins P) X + x, before (rowpins P) Y + y).
Proof.
  intros ulp ls nx ny P Hx Hy Hl Hw E X Y L x y HX HY EL A B. destruct (made_plane ulp ls nx ny P Hx Hy Hl Hw E) as (W & Ls & Nx & Ny).
  eexists. rewrite <- Ls. apply (position_of P W X Y L x y); auto; lia.
Qed.
Print Assumptions C58_position_agrees.

Lemma colpins_nth : forall P X A, X < pl_nx P -> pl_at P X 0 = Some A -> nth_error (colpins P) X = Some (lat_nx A).
Proof. intros P X A H E. unfold colpins. rewrite nth_error_map, nth_seq by auto. cbn [option_map]. now rewrite E. Qed.
Lemma rowpins_nth : forall P Y A, Y < pl_ny P -> pl_at P 0 Y = Some A -> nth_error (rowpins P) Y = Some (lat_ny A).
Proof. intros P X A H E. unfold rowpins. rewrite nth_error_map, nth_seq by auto. cbn [option_map]. now rewrite E. Qed.

(** C58 (bijection).  In a plane whose lattices conform, the positions of the pin indices 0 .. n_pin-1 are exactly the
    cells of the nx_pin by ny_pin map, each once. *)
Theorem C58_position_bijection : forall ulp ls nx ny P, 1 <= nx -> 1 <= ny -> length ls = nx * ny -> (forall L, In L ls -> wf_lat L) ->
  make_plane ulp ls nx ny = Got P -> conforming P ->
  (forall k, k < pl_npin P -> exists gx gy, pin_position P k = Some (gx, gy) /\ gx < pl_nxpin P /\ gy < pl_nypin P) /\
  (forall k k', k < pl_npin P -> k' < pl_npin P -> pin_position P k = pin_position P k' -> k = k') /\
  (forall gx gy, gx < pl_nxpin P -> gy < pl_nypin P -> exists k, k < pl_npin P /\ pin_position P k = Some (gx, gy)).
Proof.
  intros ulp ls nx ny P Hx Hy Hl Hw E C. destruct (made_plane ulp ls nx ny P Hx Hy Hl Hw E) as (W & Ls & Nx & Ny).
  pose proof (wp_nx P W) as W1. pose proof (wp_ny P W) as W2.
  assert (D : forall X Y L x y, X < pl_nx P -> Y < pl_ny P -> pl_at P X Y = Some L -> x < lat_nx L -> y < lat_ny L ->
     exists a b, nth_error (colpins P) X = Some a /\ x < a /\ nth_error (rowpins P) Y = Some b /\ y < b).
  { intros X Y L x y HX HY EL A B. destruct (pl_at_ex P W X 0 HX ltac:(lia)) as (M & EM & _). destruct (pl_at_ex P W 0 Y ltac:(lia) HY) as (N & EN & _).
    destruct (C X Y L M N HX HY EL EM EN) as [C1 C2]. exists (lat_nx M), (lat_ny N).
    rewrite (colpins_nth P X M HX EM), (rowpins_nth P Y N HY EN). repeat split; auto; lia. }
  split; [|split].
  - intros k Hk. destruct (pin_of P W k Hk) as (X & Y & L & x & y & HX & HY & EL & A & B & ->).
    destruct (position_of P W X Y L x y HX HY EL A B) as (_ & _ & Q). rewrite Q.
    destruct (D X Y L x y HX HY EL A B) as (a & b & D1 & D2 & D3 & D4).
    do 2 eexists. split; [reflexivity|]. rewrite (wp_nxpin P W), (wp_nypin P W). split; eapply before_bound; eauto.
  - intros k k' Hk Hk' Q.
    destruct (pin_of P W k Hk) as (X & Y & L & x & y & HX & HY & EL & A & B & ->).
    destruct (pin_of P W k' Hk') as (X' & Y' & L' & x' & y' & HX' & HY' & EL' & A' & B' & ->).
    destruct (position_of P W X Y L x y HX HY EL A B) as (_ & _ & Q1). destruct (position_of P W X' Y' L' x' y' HX' HY' EL' A' B') as (_ & _ & Q2).
    rewrite Q1, Q2 in Q. injection Q as Qx Qy.
    destruct (D X Y L x y HX HY EL A B) as (a & b & D1 & D2 & D3 & D4). destruct (D X' Y' L' x' y' HX' HY' EL' A' B') as (a' & b' & D1' & D2' & D3' & D4').
    destruct (before_uniq _ _ _ _ _ _ _ D1 D1' D2 D2' Qx) as [-> ->]. destruct (before_uniq _ _ _ _ _ _ _ D3 D3' D4 D4' Qy) as [-> ->].
    assert (L = L') by congruence. subst. reflexivity.
  - intros gx gy Gx Gy. rewrite (wp_nxpin P W) in Gx. rewrite (wp_nypin P W) in Gy.
    destruct (before_find _ _ Gx) as (X & a & x & D1 & D2 & ->). destruct (before_find _ _ Gy) as (Y & b & y & D3 & D4 & ->).
    assert (X < pl_nx P) as HX.
    { assert (X < length (colpins P)) as Q by (apply nth_error_Some; congruence). unfold colpins in Q. now rewrite map_length, seq_length in Q. }
    assert (Y < pl_ny P) as HY.
    { assert (Y < length (rowpins P)) as Q by (apply nth_error_Some; congruence). unfold rowpins in Q. now rewrite map_length, seq_length in Q. }
    destruct (pl_at_ex P W X Y HX HY) as (L & EL & _). destruct (pl_at_ex P W X 0 HX ltac:(lia)) as (M & EM & _).
    destruct (pl_at_ex P W 0 Y ltac:(lia) HY) as (N & EN & _). destruct (C X Y L M N HX HY EL EM EN) as [C1 C2].
    rewrite (colpins_nth P X M HX EM) in D1. rewrite (rowpins_nth P Y N HY EN) in D3. injection D1 as <-. injection D3 as <-.
    eexists. destruct (position_of P W X Y L x y HX HY EL ltac:(lia) ltac:(lia)) as (K & _ & Q). split; [exact K|exact Q].
Qed.
Print Assumptions C58_position_bijection.

(** Example lattices: one pin of pitch 2, and 2x2 pins of pitch 1. *)
Definition pin2 : Pin := mkPin 1 (mkPM 1 1 1 2 2) [1%Z] false.
Definition pin1 : Pin := mkPin 2 (mkPM 2 1 1 1 1) [1%Z] false.
Definition latA : Lattice := mkLat 1 1 1 1 1 2 2 [2%R] [2%R] [0%R; (0 + 2)%R] [0%R; (0 + 2)%R] [pin2] [0].
Definition latB : Lattice :=
  mkLat 2 2 2 4 4 2 2 [1%R; 1%R] [1%R; 1%R] [0%R; (0 + 1)%R; (0 + 1 + 1)%R] [0%R; (0 + 1)%R; (0 + 1 + 1)%R] [pin1; pin1; pin1; pin1] [0; 1; 2; 3].
Lemma wf_A : wf_lat latA.
Proof.
  constructor; cbn; auto; try lra. 
  intros x y p X Y. assert (x = 0) by lia. assert (y = 0) by lia. subst. cbn. intros [= <-]. cbn. auto.
Qed.
Lemma wf_B : wf_lat latB.
Proof.
  constructor; cbn; auto; try lra.
  intros x y p X Y. destruct x as [|[|x]]; [| |lia]; (destruct y as [|[|y]]; [| |lia]); cbn; intros [= <-]; cbn; auto.
Qed.

(** C58 fails when lattices of equal size have different pin counts: this plane is accepted, and two of its pins have
    the same position while a position of the map belongs to no pin. *)
Theorem C58_position_refuted : exists P, make_plane Reqb [latA; latA; latB; latB] 2 2 = Got P /\
  (exists k k', k < pl_npin P /\ k' < pl_npin P /\ k <> k' /\ pin_position P k = pin_position P k') /\
  (exists k gx gy, k < pl_npin P /\ pin_position P k = Some (gx, gy) /\ pl_nxpin P <= gx).
Proof.
  destruct (plane_accepted Reqb [latA; latA; latB; latB] 2 2 eq_refl ltac:(lia) ltac:(lia)) as [P E].
  { intros X Y L A B HX HY E1 E2 E3.
    destruct X as [|[|X]]; [| |lia]; (destruct Y as [|[|Y]]; [| |lia]); cbn in E1, E2, E3; injection E1 as <-; injection E2 as <-; injection E3 as <-;
      cbn; split; rdec; auto; lra. }
  exists P. split; auto. unfold make_plane in E. cbn [seq map reads nth_error Nat.mul Nat.add] in E.
  destruct (fold_out _ tt (yx_loop 2 2)); try discriminate. injection E as <-. split.
  - exists 3, 6. cbn. repeat split; auto; lia.
  - exists 7, 2, 1. cbn. repeat split; auto; lia.
Qed.
Print Assumptions C58_position_refuted.

(** The hypotheses of the bijection are met by a conforming 2x1 plane of different lattices. *)
Example C58_instance : exists P, make_plane Reqb [latA; latB] 2 1 = Got P /\ (forall L, In L [latA; latB] -> wf_lat L).
Proof.
  destruct (plane_accepted Reqb [latA; latB] 2 1 eq_refl ltac:(lia) ltac:(lia)) as [P E].
  { intros X Y L A B HX HY E1 E2 E3. assert (Y = 0) by lia. subst Y.
    destruct X as [|[|X]]; [| |lia]; cbn in E1, E2, E3; injection E1 as <-; injection E2 as <-; injection E3 as <-;
      cbn; split; rdec; auto; lra. }
  exists P. split; auto. intros L [<- | [<- | []]]; auto using wf_A, wf_B.
Qed.
Example C58_conforming_instance : exists P, make_plane Reqb [latB; latB] 2 1 = Got P /\ conforming P /\
  (forall L, In L [latB; latB] -> wf_lat L) /\ map (pin_position P) (seq 0 8) =
  [Some (0, 0); Some (1, 0); Some (0, 1); Some (1, 1); Some (2, 0); Some (3, 0); Some (2, 1); Some (3, 1)].
Proof.
  destruct (plane_accepted Reqb [latB; latB] 2 1 eq_refl ltac:(lia) ltac:(lia)) as [P E].
  { intros X Y L A B HX HY E1 E2 E3. assert (Y = 0) by lia. subst Y.
    destruct X as [|[|X]]; [| |lia]; cbn in E1, E2, E3; injection E1 as <-; injection E2 as <-; injection E3 as <-;
      cbn; split; rdec; auto; lra. }
  exists P. split; auto. unfold make_plane in E. cbn [seq map reads nth_error Nat.mul Nat.add] in E.
  destruct (fold_out _ tt (yx_loop 2 1)); try discriminate. injection E as <-. split; [|split].
  - intros X Y L A B HX HY E1 E2 E3. cbn in HX, HY. assert (Y = 0) by lia. subst Y.
    destruct X as [|[|X]]; [| |lia]; cbn in E1, E2, E3; injection E1 as <-; injection E2 as <-; injection E3 as <-; cbn; auto.
  - intros L [<- | [<- | []]]; auto using wf_B.
  - reflexivity.
Qed.
