(** Properties C58 (point lookup) and C62 (geometric equivalence): planes of lattices. *)
From Coq Require Import List Lia Bool Reals Lra ZArith Arith.
From Verif Require Import RUtil McModel McProofs ListUtil StdAlg StdAlgProofs MatModel MatProps CoreModel CoreProofs BcProofs LatProps PlaneProps.
Import ListNotations.
Open Scope nat_scope.

(* ------------------------------------------------------------ point lookup in a plane *)
(** Specification: the left (bottom) side of a column (row) of lattices. *)
Definition lat_left (P : Plane) (X : nat) : R := rsum (fun k => match pl_at P k 0 with Some l => lat_hx l | None => 0%R end) X.
Definition lat_bottom (P : Plane) (Y : nat) : R := rsum (fun k => match pl_at P 0 k with Some l => lat_hy l | None => 0%R end) Y.
(** The bit-level comparison accepts equal values and only values that are close. *)
Definition ulp_sound (ulp : R -> R -> bool) : Prop :=
  (forall a, ulp a a = true) /\ forall a b, ulp a b = true -> (Rabs (a - b) <= 2 * REAL_FUZZ * Rabs a)%R.
(** Specification: no lattice narrower than the comparison tolerance allows for a plane of its size. *)
Definition wide_plane (P : Plane) : Prop :=
  (forall X l, X < pl_nx P -> pl_at P X 0 = Some l -> (0 < lat_hx l /\ REAL_FUZZ * lat_left P (pl_nx P) < lat_hx l)%R) /\
  (forall Y l, Y < pl_ny P -> pl_at P 0 Y = Some l -> (0 < lat_hy l /\ REAL_FUZZ * lat_bottom P (pl_ny P) < lat_hy l)%R).

Lemma nth_map_seq : forall (f : nat -> R) n k, k < n -> nth k (map f (seq 0 n)) 0%R = f k.
Proof. intros f n k H. apply nth_error_nth. rewrite nth_error_map, nth_seq by auto. reflexivity. Qed.
Lemma psums_seq : forall (f : nat -> R) n X, X <= n -> nth_error (psums 0 (map f (seq 0 n))) X = Some (rsum f X).
Proof.
  intros f n X H. rewrite psums_nth by (rewrite map_length, seq_length; lia). f_equal. rewrite Rplus_0_l.
  apply rsum_ext. intros k K. apply nth_map_seq. lia.
Qed.
Lemma psums_spaced : forall (f : nat -> R) n, (forall k, k < n -> (0 < f k /\ REAL_FUZZ * rsum f n < f k)%R) -> spaced (psums 0 (map f (seq 0 n))).
Proof.
  intros f n H. split; [rewrite psums_seq by lia; reflexivity|]. intros i a b A B.
  assert (i + 1 < length (psums 0 (map f (seq 0 n)))) as Hi by (apply nth_error_Some; congruence).
  rewrite psums_length, map_length, seq_length in Hi. rewrite psums_seq in A, B by lia. injection A as <-. injection B as <-.
  rewrite Nat.add_1_r. destruct (H i ltac:(lia)) as [H1 H2]. cbn [rsum].
  assert (rsum f (S i) <= rsum f n)%R as M. { apply rsum_mono; [lia|]. intros k K. left. apply H. lia. }
  cbn [rsum] in M. pose proof FUZZ_pos. nra.
Qed.
Lemma fp_equiv_sound : forall ulp, ulp_sound ulp -> (forall a, fp_equiv ulp a a = true) /\
  forall v e, fp_equiv ulp v e = true -> (Rabs (v - e) <= tol v)%R.
Proof.
  intros ulp [U1 U2]. split.
  - intros a. unfold fp_equiv. now rewrite fp_equiv_abs_refl.
  - intros v e H. unfold fp_equiv in H. destruct (fp_equiv_abs v e) eqn:A; [now apply fp_equiv_abs_tol|].
    destruct (negb _); [discriminate|]. specialize (U2 v e H). pose proof (tol_ge v). lra.
Qed.

Lemma regions_app : forall l m k, regions_before (l ++ m) (length l + k) = regions_before l (length l) + regions_before m k.
Proof.
  intros l m k. unfold regions_before. rewrite map_app, firstn_app, map_length, firstn_all2 by (rewrite map_length; lia).
  rewrite (firstn_all2 (n := length l)) by (rewrite map_length; lia). rewrite list_sum_app. do 3 f_equal. lia.
Qed.
Lemma regions_flat : forall ls j L r, (forall M, In M ls -> wf_lat M) -> nth_error ls j = Some L -> r < length (lat_pins L) ->
  regions_before (flat_map lat_pins ls) (before (lens ls) j + r) = before (map lat_nreg ls) j + regions_before (lat_pins L) r.
Proof.
  induction ls as [|a ls IH]; intros [|j] L r W H Hr; try discriminate.
  - injection H as ->. cbn [flat_map lens map]. change (before (length (lat_pins L) :: _) 0 + r) with r.
    change (before (lat_nreg L :: map lat_nreg ls) 0) with 0. unfold regions_before. rewrite map_app, firstn_app, map_length.
    replace (r - length (lat_pins L)) with 0 by lia. cbn [firstn]. rewrite app_nil_r. reflexivity.
  - cbn [nth_error] in H. change (lens (a :: ls)) with (length (lat_pins a) :: lens ls). cbn [flat_map map]. rewrite !before_cons.
    rewrite <- Nat.add_assoc, regions_app, (IH j L r); auto; [|intros M I; apply W; now right].
    rewrite (wl_nreg a (W a (or_introl eq_refl))). unfold regions_before. rewrite (firstn_all2 (n := length (lat_pins a))) by (rewrite map_length; lia). lia.
Qed.

(** C58 (point lookup).  A particle inside pin (x, y) of lattice (X, Y), or on its boundary and entering it, is given
    that pin's mesh, the pin's centre in plane coordinates, and the region offset of the pin with the index k that
    pin_position places there. *)
Theorem C58_plane_lookup : forall ulp ls nx ny P, 1 <= nx -> 1 <= ny -> length ls = nx * ny ->
  (Z.of_nat nx < 2 ^ 32 - 1)%Z -> (Z.of_nat ny < 2 ^ 32 - 1)%Z ->
  (forall L, In L ls -> wf_lat L /\ wide L /\ (0 <= lat_hx L)%R /\ (0 <= lat_hy L)%R /\ (Z.of_nat (lat_nx L) < 2 ^ 32 - 1)%Z /\ (Z.of_nat (lat_ny L) < 2 ^ 32 - 1)%Z) ->
  ulp_sound ulp -> make_plane ulp ls nx ny = Got P -> wide_plane P ->
  forall X Y L A B x y p px py f posx posy, X < nx -> Y < ny -> pl_at P X Y = Some L -> pl_at P X 0 = Some A -> pl_at P 0 Y = Some B ->
  lat_at L x y = Some p -> x < lat_nx L -> y < lat_ny L ->
  inside (lat_left P X) (lat_hx A) px posx -> inside (lat_bottom P Y) (lat_hy B) py posy ->
  inside (col_start L x) (pm_px (pin_mesh p)) (px - lat_left P X) posx -> inside (row_start L y) (pm_py (pin_mesh p)) (py - lat_bottom P Y) posy ->
  exists k mx my, k < pl_npin P /\ nth_error (flat_map lat_pins ls) k = Some p /\
    pin_position P k = Some (before (colpins P) X + x, before (rowpins P) Y + y) /\
    pl_get_pinmesh ulp P px py f posx posy = Some (pin_mesh p, mx, my, f + regions_before (flat_map lat_pins ls) k) /\
    (mx = lat_left P X + col_start L x + pm_px (pin_mesh p) / 2)%R /\ (my = lat_bottom P Y + row_start L y + pm_py (pin_mesh p) / 2)%R.
Proof.
  intros ulp ls nx ny P Hx Hy Hl Zx Zy Hw U E [WPx WPy] X Y L A B x y p px py f posx posy HX HY EL EA EB Ep Hxl Hyl I1 I2 I3 I4.
  destruct (made_plane ulp ls nx ny P Hx Hy Hl (fun l I => proj1 (Hw l I)) E) as (W & Ls & Nx & Ny).
  destruct (fp_equiv_sound ulp U) as [F1 F2].
  assert (In L ls) as IL by (rewrite <- Ls; unfold pl_at, lats_at in EL; eapply nth_error_In; eauto).
  destruct (Hw L IL) as (WL & Wd & Lhx & Lhy & Lzx & Lzy).
  assert (forall k, k <= nx -> nth_error (pl_hx P) k = Some (lat_left P k)) as Gx by (intros k K; rewrite (wp_hx P W), psums_seq by lia; reflexivity).
  assert (forall k, k <= ny -> nth_error (pl_hy P) k = Some (lat_bottom P k)) as Gy by (intros k K; rewrite (wp_hy P W), psums_seq by lia; reflexivity).
  assert (spaced (pl_hx P)) as Sx.
  { rewrite (wp_hx P W). apply psums_spaced. intros k K. destruct (pl_at_ex P W k 0 K ltac:(lia)) as (M & EM & _). rewrite EM. now apply (WPx k M). }
  assert (spaced (pl_hy P)) as Sy.
  { rewrite (wp_hy P W). apply psums_spaced. intros k K. destruct (pl_at_ex P W 0 k ltac:(lia) K) as (M & EM & _). rewrite EM. now apply (WPy k M). }
  assert (lat_left P (X + 1) = lat_left P X + lat_hx A)%R as SX by (rewrite Nat.add_1_r; unfold lat_left; cbn [rsum]; now rewrite EA).
  assert (lat_bottom P (Y + 1) = lat_bottom P Y + lat_hy B)%R as SY by (rewrite Nat.add_1_r; unfold lat_bottom; cbn [rsum]; now rewrite EB).
  assert (locate (fp_equiv ulp) (pl_hx P) (pl_nx P) px posx = Some X) as Q1.
  { rewrite Nx. apply locate_enters; auto.
    - rewrite (wp_hx P W), psums_length, map_length, seq_length, Nx. reflexivity.
    - exists (lat_left P X), (lat_left P (X + 1)). split; [apply Gx; lia|]. split; [apply Gx; lia|]. rewrite SX. exact I1. }
  assert (locate (fp_equiv ulp) (pl_hy P) (pl_ny P) py posy = Some Y) as Q2.
  { rewrite Ny. apply locate_enters; auto.
    - rewrite (wp_hy P W), psums_length, map_length, seq_length, Ny. reflexivity.
    - exists (lat_bottom P Y), (lat_bottom P (Y + 1)). split; [apply Gy; lia|]. split; [apply Gy; lia|]. rewrite SY. exact I2. }
  destruct (wide_spaced L WL Wd Lhx Lhy) as [Lsx Lsy]. destruct (starts_succ L WL x y p Hxl Hyl Ep) as [C1 C2].
  assert (nth_error (lat_xv L) x = Some (col_start L x)) as X0 by (apply xv_start; auto; lia).
  assert (nth_error (lat_xv L) (x + 1) = Some (col_start L x + pm_px (pin_mesh p))%R) as X1 by (rewrite <- C1; apply xv_start; auto; lia).
  assert (nth_error (lat_yv L) y = Some (row_start L y)) as Y0 by (apply yv_start; auto; lia).
  assert (nth_error (lat_yv L) (y + 1) = Some (row_start L y + pm_py (pin_mesh p))%R) as Y1 by (rewrite <- C2; apply yv_start; auto; lia).
  assert (nth_error (pl_lats P) (X + pl_nx P * Y) = Some L) as NL by exact EL.
  destruct (lat_lookup L WL Lzx Lzy Lsx Lsy (px - lat_left P X) (py - lat_bottom P Y)
              (f + before (map lat_nreg ls) (X + pl_nx P * Y)) posx posy x y Hxl Hyl) as (q & mx & my & Eq & Mx & My & G).
  { do 2 eexists. eauto. } { do 2 eexists. eauto. }
  rewrite (middle_spec _ _ _ _ X0 X1) in Mx. rewrite (middle_spec _ _ _ _ Y0 Y1) in My. injection Mx as <-. injection My as <-.
  assert (q = p) by congruence. subst q.
  destruct (position_of P W X Y L x y ltac:(lia) ltac:(lia) EL Hxl Hyl) as (K1 & K2 & K3).
  exists (before (lens (pl_lats P)) (X + pl_nx P * Y) + (y * lat_nx L + x)). do 2 eexists.
  split; [exact K1|]. split; [rewrite <- Ls, K2; exact Ep|]. split; [exact K3|]. split.
  - unfold pl_get_pinmesh. rewrite Q1, Q2, (Gx X), (Gy Y), EL by lia.
    replace (nth_error (pl_first P) (pl_nx P * Y + X)) with (Some (before (map lat_nreg ls) (X + pl_nx P * Y))).
    2:{ rewrite (wp_first P W), offsets_nth, Ls by (rewrite map_length, (wp_len P W); pose proof (index_bound (pl_nx P) (pl_ny P) Y X ltac:(lia) ltac:(lia)); lia).
        unfold before. rewrite (Nat.add_comm X). reflexivity. }
    rewrite G. rewrite Ls, regions_flat with (L := L).
    + rewrite Nat.add_assoc. reflexivity.
    + intros M I. apply Hw. exact I.
    + rewrite <- Ls. exact NL.
    + pose proof (index_bound _ _ _ _ Hyl Hxl). rewrite (wl_len L WL). lia.
  - split; lra.
Qed.
Print Assumptions C58_plane_lookup.

(* ------------------------------------------------------------ geometric equivalence *)
(** Specification: mesh identifiers identify meshes (ParsePinMeshes rejects duplicates, src/core/pin_mesh.cpp:63-68). *)
Definition ids_identify (l m : list Pin) : Prop := forall p q, In p l -> In q m -> pm_id (pin_mesh p) = pm_id (pin_mesh q) -> pin_mesh p = pin_mesh q.

Lemma same_meshes_spec : forall l m, length l = length m -> ids_identify l m -> same_meshes l m = Some true <-> map pin_mesh l = map pin_mesh m.
Proof.
  induction l as [|a l IH]; intros [|b m] L I; cbn in L; try discriminate; cbn [same_meshes map]; [tauto|].
  destruct (Z.eqb_spec (pm_id (pin_mesh a)) (pm_id (pin_mesh b))) as [E|E].
  - rewrite IH by (auto; intros p q P Q; apply I; now right). rewrite (I a b (or_introl eq_refl) (or_introl eq_refl) E). split; intros H.
    + now rewrite H.
    + now injection H.
  - split; [discriminate|]. intros [= H1 _]. congruence.
Qed.

(** Lattices with the same meshes in the same places. *)
Definition alike (L M : Lattice) : Prop := lat_nx L = lat_nx M /\ lat_ny L = lat_ny M /\ map pin_mesh (lat_pins L) = map pin_mesh (lat_pins M).

Lemma map_mesh_nth : forall l m k p q, map pin_mesh l = map pin_mesh m -> nth_error l k = Some p -> nth_error m k = Some q -> pin_mesh p = pin_mesh q.
Proof.
  intros l m k p q E P Q. assert (nth_error (map pin_mesh l) k = nth_error (map pin_mesh m) k) as H by now rewrite E.
  rewrite !nth_error_map, P, Q in H. cbn in H. congruence.
Qed.
Lemma map_via_mesh : forall {B} (f : PinMesh -> B) l m, map pin_mesh l = map pin_mesh m -> map (fun p => f (pin_mesh p)) l = map (fun p => f (pin_mesh p)) m.
Proof. intros B f l m E. rewrite <- (map_map pin_mesh f l), <- (map_map pin_mesh f m). now rewrite E. Qed.

Lemma alike_fields : forall L M, wf_lat L -> wf_lat M -> alike L M -> lat_hxv L = lat_hxv M /\ lat_hyv L = lat_hyv M /\ lat_xv L = lat_xv M /\
  lat_yv L = lat_yv M /\ lat_first L = lat_first M /\ lat_nreg L = lat_nreg M /\ lat_nxs L = lat_nxs M /\ lat_hx L = lat_hx M /\ lat_hy L = lat_hy M /\ length (lat_pins L) = length (lat_pins M).
Proof.
  intros L M WL WM (Nx & Ny & Ms).
  assert (Get : forall x y, x < lat_nx L -> y < lat_ny L -> exists p q, lat_at L x y = Some p /\ lat_at M x y = Some q /\ pin_mesh p = pin_mesh q).
  { intros x y X Y. pose proof (index_bound _ _ _ _ Y X) as IB. pose proof (wl_len L WL). pose proof (wl_len M WM) as LM.
    destruct (lat_at L x y) as [p|] eqn:P; [|apply nth_error_None in P; lia].
    destruct (lat_at M x y) as [q|] eqn:Q; [|apply nth_error_None in Q; rewrite LM, <- Nx, <- Ny in Q; lia].
    exists p, q. repeat split; auto. unfold lat_at in P, Q. rewrite <- Nx in Q. eapply map_mesh_nth; eauto. }
  assert (lat_hxv L = lat_hxv M) as Hx.
  { apply list_eq_nth; [now rewrite (wl_hxl L WL), (wl_hxl M WM)|]. intros k a K.
    assert (k < lat_nx L) as Kx by (rewrite <- (wl_hxl L WL); apply nth_error_Some; congruence). pose proof (wl_ny L WL).
    destruct (Get k 0 Kx ltac:(lia)) as (p & q & P & Q & E). destruct (wl_pitch L WL k 0 p Kx ltac:(lia) P) as [E1 _].
    destruct (wl_pitch M WM k 0 q ltac:(lia) ltac:(lia) Q) as [E2 _]. congruence. }
  assert (lat_hyv L = lat_hyv M) as Hy.
  { apply list_eq_nth; [now rewrite (wl_hyl L WL), (wl_hyl M WM)|]. intros k a K.
    assert (k < lat_ny L) as Ky by (rewrite <- (wl_hyl L WL); apply nth_error_Some; congruence). pose proof (wl_nx L WL).
    destruct (Get 0 k ltac:(lia) Ky) as (p & q & P & Q & E). destruct (wl_pitch L WL 0 k p ltac:(lia) Ky P) as [_ E1].
    destruct (wl_pitch M WM 0 k q ltac:(lia) ltac:(lia) Q) as [_ E2]. congruence. }
  repeat split; auto.
  - rewrite (wl_xv L WL), (wl_xv M WM). congruence.
  - rewrite (wl_yv L WL), (wl_yv M WM). congruence.
  - rewrite (wl_first L WL), (wl_first M WM). f_equal. now apply (map_via_mesh pm_nreg).
  - rewrite (wl_nreg L WL), (wl_nreg M WM). f_equal. now apply (map_via_mesh pm_nreg).
  - rewrite (wl_nxs L WL), (wl_nxs M WM). f_equal. now apply (map_via_mesh pm_nxs).
  - rewrite (wl_hx L WL), (wl_hx M WM). congruence.
  - rewrite (wl_hy L WL), (wl_hy M WM). congruence.
  - rewrite <- (map_length pin_mesh), Ms. apply map_length.
Qed.

Lemma lat_equiv_spec : forall L M, wf_lat L -> wf_lat M -> ids_identify (lat_pins L) (lat_pins M) -> lat_equiv L M = Some true <-> alike L M.
Proof.
  intros L M WL WM I. unfold lat_equiv. split.
  - intros E. destruct (Nat.eqb_spec (lat_nx L) (lat_nx M)) as [Nx|]; [|discriminate]. destruct (Nat.eqb_spec (lat_ny L) (lat_ny M)) as [Ny|]; [|discriminate].
    cbn [negb orb] in E. destruct (negb _ || negb _); [discriminate|]. split; auto. split; auto. apply same_meshes_spec; auto.
    rewrite (wl_len L WL), (wl_len M WM). congruence.
  - intros A. pose proof A as (Nx & Ny & Ms). destruct (alike_fields L M WL WM A) as (_ & _ & _ & _ & _ & E1 & E2 & _ & _ & E3).
    rewrite Nx, Ny, E1, E2, !Nat.eqb_refl. cbn [negb orb]. now apply same_meshes_spec.
Qed.
Lemma lat_equiv_total : forall L M, wf_lat L -> wf_lat M -> exists b, lat_equiv L M = Some b.
Proof.
  intros L M WL WM. unfold lat_equiv. destruct (Nat.eqb_spec (lat_nx L) (lat_nx M)) as [Nx|]; [|cbn [negb orb]; eauto].
  destruct (Nat.eqb_spec (lat_ny L) (lat_ny M)) as [Ny|]; [|cbn [negb orb]; eauto]. cbn [negb orb]. destruct (negb _ || negb _); [eauto|].
  assert (length (lat_pins L) = length (lat_pins M)) as E by (rewrite (wl_len L WL), (wl_len M WM); congruence).
  revert E. generalize (lat_pins L) (lat_pins M). intros l. induction l as [|a l IH]; intros [|b m] E; cbn in E; try discriminate; cbn [same_meshes]; [eauto|].
  destruct (Z.eqb _ _); [apply IH; lia | eauto].
Qed.
Lemma same_lats_total : forall ls ms, length ls = length ms -> (forall L, In L ls -> wf_lat L) -> (forall M, In M ms -> wf_lat M) -> exists b, same_lats ls ms = Some b.
Proof.
  induction ls as [|a ls IH]; intros [|b ms] L W1 W2; cbn in L; try discriminate; cbn [same_lats]; [eauto|].
  destruct (lat_equiv_total a b) as [[|] E]; [apply W1; now left|apply W2; now left| |]; rewrite E; [|eauto].
  apply IH; auto; intros M I; [apply W1 | apply W2]; now right.
Qed.

Lemma same_lats_spec : forall ls ms, length ls = length ms -> (forall L, In L ls -> wf_lat L) -> (forall M, In M ms -> wf_lat M) ->
  ids_identify (flat_map lat_pins ls) (flat_map lat_pins ms) -> same_lats ls ms = Some true <-> Forall2 alike ls ms.
Proof.
  induction ls as [|a ls IH]; intros [|b ms] L W1 W2 I; cbn in L; try discriminate; cbn [same_lats]; [split; auto|].
  assert (wf_lat a) as Wa by (apply W1; now left). assert (wf_lat b) as Wb by (apply W2; now left).
  assert (ids_identify (lat_pins a) (lat_pins b)) as Ia by (intros p q P Q; apply I; cbn [flat_map]; apply in_or_app; now left).
  assert (ids_identify (flat_map lat_pins ls) (flat_map lat_pins ms)) as Il by (intros p q P Q; apply I; cbn [flat_map]; apply in_or_app; now right).
  destruct (lat_equiv a b) as [[|]|] eqn:E.
  - rewrite IH; auto; try (intros ? I0; first [apply W1; now right | apply W2; now right]). apply lat_equiv_spec in E; auto. split; intros H; [constructor; auto|].
    now inversion H.
  - split; [discriminate|]. intros H. inversion H as [|? ? ? ? H1]; subst. apply lat_equiv_spec in H1; auto. congruence.
  - split; [discriminate|]. intros H. inversion H as [|? ? ? ? H1]; subst. apply lat_equiv_spec in H1; auto. congruence.
Qed.

Lemma Forall2_nth : forall {A B} (R' : A -> B -> Prop) l m, Forall2 R' l m -> forall k,
  match nth_error l k, nth_error m k with Some a, Some b => R' a b | None, None => True | _, _ => False end.
Proof. intros A B R' l m H. induction H; intros [|k]; cbn; auto. apply IHForall2. Qed.

Lemma alike_lookup : forall L M, wf_lat L -> wf_lat M -> alike L M -> forall px py f a b, lat_get_pinmesh L px py f a b = lat_get_pinmesh M px py f a b.
Proof.
  intros L M WL WM A px py f a b. destruct (alike_fields L M WL WM A) as (_ & _ & Ex & Ey & Ef & _). destruct A as (Nx & Ny & Ms).
  unfold lat_get_pinmesh. rewrite Ex, Ey, Ef, Nx, Ny. destruct (locate fp_equiv_abs (lat_xv M) (lat_nx M) px a) as [ix|]; auto.
  destruct (locate fp_equiv_abs (lat_yv M) (lat_ny M) py b) as [iy|]; auto.
  destruct (middle (lat_xv M) ix); auto. destruct (middle (lat_yv M) iy); auto. destruct (nth_error (lat_first M) (iy * lat_nx M + ix)); auto.
  assert (option_map pin_mesh (lat_at L ix iy) = option_map pin_mesh (lat_at M ix iy)) as E.
  { unfold lat_at. rewrite <- !nth_error_map, Ms, Nx. reflexivity. }
  destruct (lat_at L ix iy), (lat_at M ix iy); cbn in E; congruence.
Qed.

(** C62 (soundness of sharing).  Two accepted planes that compare geometrically equivalent answer every point lookup
    alike (mesh, pin centre, region offset), give every pin index the same position, and have the same region areas;
    and planes with the same meshes in the same places always compare equivalent. *)
Theorem C62_equivalent_planes : forall ulp ls ms nx ny nx' ny' P Q, 1 <= nx -> 1 <= ny -> 1 <= nx' -> 1 <= ny' -> length ls = nx * ny -> length ms = nx' * ny' ->
  (forall L, In L ls -> wf_lat L) -> (forall M, In M ms -> wf_lat M) -> ids_identify (flat_map lat_pins ls) (flat_map lat_pins ms) ->
  make_plane ulp ls nx ny = Got P -> make_plane ulp ms nx' ny' = Got Q ->
  (exists b, pl_equiv P Q = Some b) /\
  (pl_equiv P Q = Some true <-> nx = nx' /\ ny = ny' /\ Forall2 alike ls ms) /\
  (pl_equiv P Q = Some true ->
    (forall px py f a b, pl_get_pinmesh ulp P px py f a b = pl_get_pinmesh ulp Q px py f a b) /\
    (forall k, pin_position P k = pin_position Q k) /\ pl_nreg P = pl_nreg Q /\ pl_nxs P = pl_nxs Q /\
    (forall A (areas : PinMesh -> list A), pl_areas areas P = pl_areas areas Q)).
Proof.
  intros ulp ls ms nx ny nx' ny' P Q Hx Hy Hx' Hy' Ll Lm Wl Wm I EP EQ.
  destruct (made_plane ulp ls nx ny P Hx Hy Ll Wl EP) as (WP & LP & NxP & NyP).
  destruct (made_plane ulp ms nx' ny' Q Hx' Hy' Lm Wm EQ) as (WQ & LQ & NxQ & NyQ).
  assert (A1 : pl_equiv P Q = Some true <-> nx = nx' /\ ny = ny' /\ Forall2 alike ls ms).
  { unfold pl_equiv. rewrite NxP, NyP, NxQ, NyQ, LP, LQ. split.
    - intros E. destruct (Nat.eqb_spec nx nx') as [->|]; [|discriminate]. destruct (Nat.eqb_spec ny ny') as [->|]; [|discriminate].
      cbn [negb orb] in E. destruct (negb _ || negb _); [discriminate|]. split; auto. split; auto. apply same_lats_spec; auto. lia.
    - intros (-> & -> & F). rewrite !Nat.eqb_refl. cbn [negb orb].
      assert (map lat_nreg ls = map lat_nreg ms /\ map lat_nxs ls = map lat_nxs ms) as [R1 R2].
      { clear - F Wl Wm. induction F as [|L M ls ms A F IH]; auto. cbn [map].
        destruct (alike_fields L M (Wl L (or_introl eq_refl)) (Wm M (or_introl eq_refl)) A) as (_ & _ & _ & _ & _ & -> & -> & _).
        destruct IH as [-> ->]; auto; intros ? I0; first [apply Wl; now right | apply Wm; now right]. }
      rewrite (wp_nreg P WP), (wp_nreg Q WQ), (wp_nxs P WP), (wp_nxs Q WQ), LP, LQ, R1, R2, !Nat.eqb_refl. cbn [negb orb].
      apply same_lats_spec; auto. lia. }
  split.
  { unfold pl_equiv. rewrite NxP, NyP, NxQ, NyQ, LP, LQ. destruct (Nat.eqb_spec nx nx') as [->|]; [|cbn [negb orb]; eauto]. destruct (Nat.eqb_spec ny ny') as [->|]; [|cbn [negb orb]; eauto].
    cbn [negb orb]. destruct (negb _ || negb _); [eauto|]. apply same_lats_total; auto. lia. }
  split; [exact A1|]. intros E. apply A1 in E. destruct E as (En & Em & F).
  assert (At : forall X Y, match pl_at P X Y, pl_at Q X Y with Some L, Some M => wf_lat L /\ wf_lat M /\ alike L M | None, None => True | _, _ => False end).
  { intros X Y. unfold pl_at, lats_at. rewrite LP, LQ, NxP, NxQ, En. pose proof (Forall2_nth _ _ _ F (X + nx' * Y)) as H.
    destruct (nth_error ls (X + nx' * Y)) eqn:E1, (nth_error ms (X + nx' * Y)) eqn:E2; auto.
    split; [apply Wl; eapply nth_error_In; eauto|]. split; auto. apply Wm. eapply nth_error_In; eauto. }
  assert (R : map lat_nreg ls = map lat_nreg ms /\ map lat_nxs ls = map lat_nxs ms /\ map lat_nx ls = map lat_nx ms /\ map lat_ny ls = map lat_ny ms /\ lens ls = lens ms).
  { clear - F Wl Wm. induction F as [|L M ls ms A F IH]; auto. pose proof A as (Nx & Ny & _). unfold lens in *. cbn [map].
    destruct (alike_fields L M (Wl L (or_introl eq_refl)) (Wm M (or_introl eq_refl)) A) as (_ & _ & _ & _ & _ & -> & -> & _ & _ & ->). rewrite Nx, Ny.
    destruct IH as (-> & -> & -> & -> & ->); auto; intros ? I0; first [apply Wl; now right | apply Wm; now right]. }
  destruct R as (R1 & R2 & R3 & R4 & R5).
  assert (pl_hx P = pl_hx Q) as Hhx.
  { rewrite (wp_hx P WP), (wp_hx Q WQ), NxP, NxQ, En. f_equal. apply map_ext. intros X. specialize (At X 0).
    destruct (pl_at P X 0) as [L|], (pl_at Q X 0) as [M|]; try contradiction; auto. destruct At as (WL & WM & A).
    now destruct (alike_fields L M WL WM A) as (_ & _ & _ & _ & _ & _ & _ & ? & _). }
  assert (pl_hy P = pl_hy Q) as Hhy.
  { rewrite (wp_hy P WP), (wp_hy Q WQ), NyP, NyQ, Em. f_equal. apply map_ext. intros Y. specialize (At 0 Y).
    destruct (pl_at P 0 Y) as [L|], (pl_at Q 0 Y) as [M|]; try contradiction; auto. destruct At as (WL & WM & A).
    now destruct (alike_fields L M WL WM A) as (_ & _ & _ & _ & _ & _ & _ & _ & ? & _). }
  split; [|split; [|split; [|split]]].
  - intros px py f a b. unfold pl_get_pinmesh. rewrite Hhx, Hhy, NxP, NxQ, NyP, NyQ, En, Em, (wp_first P WP), (wp_first Q WQ), LP, LQ, R1.
    destruct (locate (fp_equiv ulp) (pl_hx Q) nx' px a) as [ix|]; auto. destruct (locate (fp_equiv ulp) (pl_hy Q) ny' py b) as [iy|]; auto.
    destruct (nth_error (pl_hx Q) ix); auto. destruct (nth_error (pl_hy Q) iy); auto. destruct (nth_error (offsets 0 (map lat_nreg ms)) (nx' * iy + ix)); auto.
    specialize (At ix iy). destruct (pl_at P ix iy) as [L|], (pl_at Q ix iy) as [M|]; try contradiction; auto. destruct At as (WL & WM & A).
    now rewrite (alike_lookup L M WL WM A).
  - intros k. unfold pin_position.
    assert (pl_npin P = pl_npin Q) as -> by (rewrite (wp_npin P WP), (wp_npin Q WQ), !flat_len, LP, LQ, R5; auto).
    destruct (pl_npin Q =? 0); auto. rewrite LP, LQ, NxP, NxQ, En.
    assert (forall i j, find_lat ls i j = find_lat ms i j) as FL.
    { clear - R5. revert ms R5. induction ls as [|a ls IH]; intros [|b ms] R5 i j; cbn in R5; try discriminate; auto.
      cbn [find_lat]. injection R5 as E1 E2. rewrite E1. destruct (i <? length (lat_pins b)); auto. }
    rewrite FL. destruct (find_lat ms (k mod pl_npin Q) 0) as [il ip]. destruct (nx' =? 0); auto.
    assert (RD : forall (g : Lattice -> nat) idx, map g ls = map g ms -> reads ls g idx = reads ms g idx).
    { intros g idx Eg. induction idx as [|i idx IH]; auto. cbn [reads]. rewrite IH.
      assert (option_map g (nth_error ls i) = option_map g (nth_error ms i)) as O by (rewrite <- !nth_error_map; now rewrite Eg).
      destruct (nth_error ls i), (nth_error ms i); cbn in O; try discriminate; auto. injection O as ->. auto. }
    rewrite (RD lat_nx), (RD lat_ny) by auto.
    destruct (reads ms lat_nx (seq 0 (il mod nx'))); auto. destruct (reads ms lat_ny (map (fun iy => nx' * iy) (seq 0 (il / nx')))); auto.
    specialize (At (il mod nx') (il / nx')). destruct (pl_at P _ _) as [L|], (pl_at Q _ _) as [M|]; try contradiction; auto.
    destruct At as (_ & _ & (-> & _ & _)). reflexivity.
  - rewrite (wp_nreg P WP), (wp_nreg Q WQ), LP, LQ. congruence.
  - rewrite (wp_nxs P WP), (wp_nxs Q WQ), LP, LQ. congruence.
  - intros B areas. unfold pl_areas. rewrite LP, LQ. clear - F. induction F as [|L M ls ms A F IH]; auto. cbn [flat_map]. rewrite IH. f_equal.
    destruct A as (_ & _ & Ms). revert Ms. generalize (lat_pins L) (lat_pins M). intros l. induction l as [|p l IHl]; intros [|q m] E; cbn in E; try discriminate; auto.
    cbn [flat_map]. injection E as E1 E2. rewrite E1. f_equal. now apply IHl.
Qed.
Print Assumptions C62_equivalent_planes.

(** The hypotheses of the lookup are met: the centre of the second lattice of a 2x1 plane. *)
Example C58_lookup_instance : exists P, make_plane Reqb [latA; latA] 2 1 = Got P /\ ulp_sound Reqb /\ wide_plane P /\ wide latA /\ pl_at P 1 0 = Some latA /\
  lat_at latA 0 0 = Some pin2 /\ inside (lat_left P 1) (lat_hx latA) 3 true /\ inside (col_start latA 0) (pm_px (pin_mesh pin2)) (3 - lat_left P 1) true.
Proof.
  destruct (plane_accepted Reqb [latA; latA] 2 1 eq_refl ltac:(lia) ltac:(lia)) as [P E].
  { intros X Y L A B HX HY E1 E2 E3. assert (Y = 0) by lia. subst Y.
    destruct X as [|[|X]]; [| |lia]; cbn in E1, E2, E3; injection E1 as <-; injection E2 as <-; injection E3 as <-;
      cbn; split; rdec; auto; lra. }
  exists P. split; auto. unfold make_plane in E. cbn [seq map reads nth_error Nat.mul Nat.add] in E.
  destruct (fold_out _ tt (yx_loop 2 1)); try discriminate. injection E as <-. pose proof FUZZ_pos as F.
  assert (Rabs 3 = 3 /\ Rabs 1 = 1)%R as [A3 A1] by (rewrite !Rabs_pos_eq by lra; auto).
  split.
  { split; [intros v; destruct (Reqb_spec v v); auto; lra|]. intros v b H. destruct (Reqb_spec v b) as [->|]; [|discriminate].
    rewrite Rminus_diag_eq, Rabs_R0 by auto. pose proof (Rabs_pos b). nra. }
  split.
  { unfold wide_plane, lat_left, lat_bottom. cbn. split; intros [|[|X]] l HX; try lia; cbn; intros [= <-]; cbn; lra. }
  split. { intros x y p X Y. cbn in X, Y. assert (x = 0) by lia. assert (y = 0) by lia. subst. cbn. intros [= <-]. cbn. lra. }
  split; auto. split; auto. unfold inside, lat_left, col_start, tol. cbn. replace (3 - (0 + 2))%R with 1%R by lra.
  rewrite A3, A1, (Rmax_right 1 3), (Rmax_left 1 1) by lra. split; left; lra.
Qed.
