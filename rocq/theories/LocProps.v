(** Property theorems for finding a particle's pin: C107. *)
From Coq Require Import Reals ZArith List Bool Lia Lra Psatz.
From Verif Require Import RUtil McModel McProofs ListUtil StdAlg StdAlgProofs GeomModel TallyProofs MeshModel MatModel MatProps CoreModel CoreProofs BcProofs LatProps PlaneProps EquivProps AsmModel AsmProps CoreMapProps BcModel AngModel MacroProps HistModel.
Import ListNotations.
Local Open Scope nat_scope.

Lemma lb_between : forall l v i a b, CoreProofs.increasing l -> nth_error l i = Some a -> nth_error l (i + 1) = Some b -> (a < v <= b)%R -> lower_bound Rltb l v = Some (i + 1).
Proof.
  intros l v i a b I A B H.
  assert (LP : lb_partitioned R Rltb l v).
  { intros j k x y L X Y F. pose proof (increasing_le l j k x y I L X Y). destruct (Rltb_spec y v); [|discriminate]. destruct (Rltb_spec x v); [reflexivity|lra]. }
  destruct (lower_bound_spec R Rltb l v LP) as (k & E & Lk & Lo & Hi). rewrite E. f_equal.
  destruct (Nat.lt_trichotomy k (i + 1)) as [C|[C|C]]; [|exact C|]; exfalso.
  - specialize (Hi i a ltac:(lia) A). destruct (Rltb_spec a v); [discriminate|lra].
  - specialize (Lo (i + 1) b C B). destruct (Rltb_spec b v); [lra|discriminate].
Qed.
(** Inside plane [k], or on one of its faces and heading into it, plane_index is [k]. *)
Theorem C107_plane : forall equiv zv nz z o k, length zv = nz + 1 -> spaced zv -> (forall a, equiv a a = true) -> (forall e, equiv z e = true -> (Rabs (z - e) <= tol z)%R) ->
  k < nz -> enters zv k z (Rltb 0 o) -> (In z zv -> o <> 0%R) -> plane_index equiv zv nz z o = PlIx (Z.of_nat k).
Proof.
  intros equiv zv nz z o k L SP Rf Tl K (a & b & A & B & H) O. pose proof FUZZ_pos as F. pose proof (spaced_increasing _ SP) as Inc. pose proof (tol_ge z) as [T1 T2].
  pose proof (spaced_step _ SP _ _ A) as PA. pose proof (proj2 SP _ _ _ A B) as Sab. assert (PB : (0 <= b)%R) by (eapply spaced_step; eauto).
  assert (FI : forall i, i <= length zv -> (forall j v, j < i -> nth_error zv j = Some v -> fuzzy_lt v z = true) -> (forall v, nth_error zv i = Some v -> fuzzy_lt v z = false) -> lower_bound fuzzy_lt zv z = Some i).
  { intros i Li Lo Hi. destruct (lower_bound_spec R fuzzy_lt zv z (fuzzy_partitioned zv z Inc)) as (m & E & Lk & LoK & HiK). rewrite E. f_equal. destruct (Nat.lt_trichotomy m i) as [C|[C|C]]; [|exact C|]; exfalso.
    - destruct (nth_error zv m) as [v|] eqn:N; [|apply nth_error_None in N; lia]. specialize (Lo m v C N). pose proof (HiK m v (le_n m) N). congruence.
    - destruct (nth_error zv i) as [v|] eqn:N; [|apply nth_error_None in N; lia]. specialize (LoK i v C N). specialize (Hi v eq_refl). congruence. }
  assert (Hz : (0 <= z <= b)%R) by (destruct H as [H|[[H _]|[H _]]]; nra). assert (Az : Rabs z = z) by (apply Rabs_pos_eq; lra). rewrite Az in T2.
  assert (UP : z <> a -> lower_bound fuzzy_lt zv z = Some (k + 1)).
  { intro Nz. apply FI; [lia| |].
    - intros j v J V. apply fuzzy_lt_iff. rewrite Az. assert (Va : (v <= a)%R) by (destruct (Nat.eq_dec j k) as [->|]; [rewrite A in V; injection V as <-; lra|apply Rlt_le, (Inc j k); auto; lia]). destruct H as [H|[[H _]|[-> _]]]; [nra|congruence|nra].
    - intros v V. rewrite B in V. injection V as <-. apply fuzzy_lt_false. rewrite Az. nra. }
  unfold plane_index. destruct (Req_EM_T z a) as [Ea|Na].
  - assert (P : Rltb 0 o = true) by (destruct H as [H|[[_ H]|[H _]]]; [nra|exact H|nra]).
    assert (Q : lower_bound fuzzy_lt zv z = Some k).
    { apply FI; [lia| |].
      - intros j v J V. apply fuzzy_lt_iff. rewrite Az. subst z. destruct k as [|m]; [lia|]. destruct (nth_error zv m) as [w|] eqn:Q; [|apply nth_error_None in Q; lia]. pose proof (proj2 SP m w a Q ltac:(replace (m + 1) with (S m) by lia; exact A)).
        assert (v <= w)%R by (destruct (Nat.eq_dec j m) as [->|]; [rewrite Q in V; injection V as <-; lra|apply Rlt_le, (Inc j m); auto; lia]). lra.
      - intros v V. rewrite A in V. injection V as <-. apply fuzzy_lt_false. rewrite Az. nra. }
    rewrite Q, A, Ea, Rf, P. destruct (Rltb_spec 0 o) as [Po|]; [|discriminate]. destruct (Reqb_spec o 0); [lra|]. f_equal. lia.
  - rewrite (UP Na), B. destruct H as [[H1 H2]|[[H _]|[-> P]]]; [|congruence|].
    + destruct (equiv z b) eqn:Q; [exfalso; specialize (Tl b Q); revert Tl; unfold Rabs; destruct (Rcase_abs (z - b)); lra|]. f_equal. lia.
    + rewrite Rf, P. destruct (Reqb_spec o 0) as [E|_]; [exfalso; apply O; [apply nth_error_In in B; exact B|exact E]|]. f_equal. lia.
Qed.
Print Assumptions C107_plane.
(** On an interface with no vertical motion plane_index throws; above the top interface it reads past the end. *)
Theorem C107_plane_refuted : (forall equiv, (forall a, equiv a a = true) -> plane_index equiv [0; 1; 2]%R 2 1 0 = PlThrow) /\ forall equiv, plane_index equiv [0; 1; 2]%R 2 3 1 = PlUB.
Proof.
  pose proof FUZZ_pos as F.
  assert (I : CoreProofs.increasing [0; 1; 2]%R).
  { intros [|[|[|i]]] [|[|[|j]]] x y L X Y; try lia; cbn in X, Y; try (destruct i; discriminate); try (destruct j; discriminate); injection X as <-; injection Y as <-; lra. }
  assert (K : forall z i, i <= 3 -> (forall j v, j < i -> nth_error [0; 1; 2]%R j = Some v -> (v < z - REAL_FUZZ * Rabs z)%R) -> (forall v, nth_error [0; 1; 2]%R i = Some v -> (z - REAL_FUZZ * Rabs z <= v)%R) -> lower_bound fuzzy_lt [0; 1; 2]%R z = Some i).
  { intros z i Li Lo Hi. destruct (lower_bound_spec R fuzzy_lt _ z (fuzzy_partitioned _ z I)) as (m & E & Lk & LoK & HiK). rewrite E. f_equal. destruct (Nat.lt_trichotomy m i) as [C|[C|C]]; [|exact C|]; exfalso.
    - destruct (nth_error [0;1;2]%R m) as [v|] eqn:N; [|apply nth_error_None in N; cbn in N; lia]. specialize (Lo m v C N). pose proof (HiK m v (le_n m) N) as H. apply fuzzy_lt_false in H. lra.
    - destruct (nth_error [0;1;2]%R i) as [v|] eqn:N; [|apply nth_error_None in N; cbn in N, Lk; lia]. specialize (LoK i v C N). apply fuzzy_lt_iff in LoK. specialize (Hi v eq_refl). lra. }
  split.
  - intros equiv Rf. unfold plane_index. rewrite (K 1%R 1); [|lia| |].
    + cbn [nth_error]. rewrite Rf. destruct (Reqb_spec 0 0); [reflexivity|lra].
    + intros [|j] v J V; [|lia]. cbn in V. injection V as <-. rewrite Rabs_R1. lra.
    + intros v V. cbn in V. injection V as <-. rewrite Rabs_R1. lra.
  - intros equiv. unfold plane_index. rewrite (K 3%R 3); [reflexivity|lia| |].
    + rewrite Rabs_pos_eq by lra. intros [|[|[|j]]] v J V; try lia; cbn in V; injection V as <-; lra.
    + intros v V. discriminate V.
Qed.
Print Assumptions C107_plane_refuted.

(** ** The boundaries of the mesh are those of the pins *)
Lemma psums_concat : forall (hv : Lattice -> list R) (n : Lattice -> nat) (h : Lattice -> R) ls X L x a, (forall l, In l ls -> length (hv l) = n l /\ h l = fold_left Rplus (hv l) 0%R) -> nth_error ls X = Some L -> x <= n L ->
  nth_error (psums a (concat (map hv ls))) (before (map n ls) X + x) = Some (a + rsum (fun k => nth k (map h ls) 0%R) X + rsum (fun k => nth k (hv L) 0%R) x)%R.
Proof.
  intros hv n h. induction ls as [|l ls IH]; intros X L x a W E Hx; [destruct X; discriminate|]. cbn [map concat].
  destruct (W l (or_introl eq_refl)) as [Len Sum].
  destruct X as [|X].
  - injection E as ->. change (before (n L :: map n ls) 0) with 0. cbn [Nat.add rsum]. rewrite psums_nth by (rewrite app_length; lia). f_equal.
    rewrite Rplus_0_r. f_equal. apply rsum_ext. intros k Hk. rewrite app_nth1 by lia. reflexivity.
  - cbn [nth_error] in E. rewrite before_cons.
    assert (Q := IH X L x 0%R (fun m I => W m (or_intror I)) E Hx).
    assert (LE : before (map n ls) X + x <= length (concat (map hv ls))).
    { assert (E' : nth_error (psums 0 (concat (map hv ls))) (before (map n ls) X + x) <> None) by (rewrite Q; discriminate). apply nth_error_Some in E'. rewrite psums_length in E'. lia. }
    rewrite psums_nth in Q by exact LE. injection Q as Q. rewrite !Rplus_0_l in Q.
    rewrite psums_nth by (rewrite app_length, Len; lia). f_equal. rewrite <- Len, <- Nat.add_assoc, rsum_nth_app, Len, Q.
    assert (S1 : rsum (fun k => nth k (map h (l :: ls)) 0%R) (S X) = (h l + rsum (fun k => nth k (map h ls) 0%R) X)%R).
    { change (S X) with (1 + X). rewrite rsum_app. cbn [rsum map nth]. rewrite Rplus_0_l. reflexivity. }
    cbn [map] in S1. rewrite S1, Sum, fold_sum, Len. ring.
Qed.
Lemma all_some_row : forall (f : nat -> option (list R)) (g : nat -> option Lattice) (h : Lattice -> list R) n dd, all_some (map f (seq 0 n)) = Some dd ->
  (forall k, k < n -> exists l, g k = Some l /\ f k = Some (h l)) -> exists row, length row = n /\ (forall k, k < n -> nth_error row k = g k) /\ dd = map h row.
Proof.
  intros f g h n dd E H. destruct (all_some_ex (map g (seq 0 n))) as [row Q].
  { intros k K. rewrite map_length, seq_length in K. destruct (H k K) as (l & G & _). exists l. rewrite nth_error_map, nth_seq by exact K. cbn. now rewrite G. }
  assert (N : forall k, k < n -> nth_error row k = g k).
  { intros k K. assert (nth_error (map g (seq 0 n)) k = nth_error (map Some row) k) as Z by now rewrite Q. rewrite !nth_error_map, nth_seq in Z by exact K. destruct (H k K) as (l & G & _). cbn in Z. rewrite G in Z. destruct (nth_error row k); cbn in Z; congruence. }
  assert (Lr : length row = n) by (rewrite <- (map_length Some row), <- Q, map_length, seq_length; reflexivity).
  exists row. split; [exact Lr|]. split; [exact N|]. apply all_some_spec in E. assert (map Some dd = map Some (map h row)) as Z.
  { rewrite <- E. apply list_eq_nth; [rewrite !map_length, seq_length; auto|]. intros k a K. assert (k < n) as Hk by (rewrite <- (seq_length n 0), <- (map_length f (seq 0 n)); apply nth_error_Some; congruence).
    revert K. rewrite !nth_error_map, nth_seq by exact Hk. destruct (H k Hk) as (l & G & F). rewrite (N k Hk), G. cbn. rewrite F. auto. }
  clear - Z. revert dd Z. generalize (map h row). intros m. induction m as [|a m IH]; intros [|b d] Z; cbn in Z; try discriminate; [reflexivity|]. injection Z as -> Z. f_equal. now apply IH.
Qed.
Lemma col_start_spec : forall L x, wf_lat L -> x <= lat_nx L -> col_start L x = rsum (fun k => nth k (lat_hxv L) 0%R) x.
Proof.
  intros L x W H. apply rsum_ext. intros k K. pose proof (wl_len L W). pose proof (wl_ny L W). unfold lat_at.
  destruct (lat_at L k 0) as [p|] eqn:E; unfold lat_at in E.
  - rewrite E. destruct (wl_pitch L W k 0 p ltac:(lia) ltac:(lia) E) as [Q _]. symmetry. apply nth_error_nth. exact Q.
  - exfalso. apply nth_error_None in E. nia.
Qed.
Lemma row_start_spec : forall L y, wf_lat L -> y <= lat_ny L -> row_start L y = rsum (fun k => nth k (lat_hyv L) 0%R) y.
Proof.
  intros L y W H. apply rsum_ext. intros k K. pose proof (wl_len L W). pose proof (wl_nx L W). unfold lat_at.
  destruct (lat_at L 0 k) as [p|] eqn:E; unfold lat_at in E.
  - rewrite E. destruct (wl_pitch L W 0 k p ltac:(lia) ltac:(lia) E) as [_ Q]. symmetry. apply nth_error_nth. exact Q.
  - exfalso. apply nth_error_None in E. nia.
Qed.
(** C107.  In an accepted core whose lattices line up in each plane, a particle inside a pin (or leaving it through its upper
    sides' coordinates, heading down) is given that pin: its position, its first region in the core's order of regions, its
    mesh, the point relative to its centre, and its box. *)
Theorem C107_location : forall ulp C A0 M, wf_core ulp C -> nth_error (co_asys C) 0 = Some A0 -> ids_identify (all_pins C) (all_pins C) -> ulp_sound ulp ->
  (Z.of_nat (co_nx C) < 2 ^ 32 - 1)%Z -> (Z.of_nat (co_ny C) < 2 ^ 32 - 1)%Z -> make_core_mesh ulp C = Got M -> spaced (cm_zv M) ->
  forall iz ls P X Y L A B x y p px py pz d, iz < as_nz A0 -> plane_lats (co_asys C) iz = Some ls -> make_plane ulp ls (co_nx C) (co_ny C) = Got P -> wide_plane P ->
  (forall l, In l ls -> wide l /\ (0 <= lat_hx l)%R /\ (0 <= lat_hy l)%R /\ (Z.of_nat (lat_nx l) < 2 ^ 32 - 1)%Z /\ (Z.of_nat (lat_ny l) < 2 ^ 32 - 1)%Z) ->
  X < co_nx C -> Y < co_ny C -> pl_at P X Y = Some L -> pl_at P X 0 = Some A -> pl_at P 0 Y = Some B -> lat_hxv L = lat_hxv A -> lat_hyv L = lat_hyv B ->
  lat_at L x y = Some p -> x < lat_nx L -> y < lat_ny L ->
  let posx := Rltb 0 (ox d) in let posy := Rltb 0 (oy d) in let x0 := (lat_left P X + col_start L x)%R in let y0 := (lat_bottom P Y + row_start L y)%R in
  let w := pm_px (pin_mesh p) in let h := pm_py (pin_mesh p) in
  inside (lat_left P X) (lat_hx A) px posx -> inside (lat_bottom P Y) (lat_hy B) py posy ->
  inside (col_start L x) w (px - lat_left P X) posx -> inside (row_start L y) h (py - lat_bottom P Y) posy ->
  (x0 < px <= x0 + w)%R -> (y0 < py <= y0 + h)%R -> enters (cm_zv M) iz pz (Rltb 0 (oz d)) -> (In pz (cm_zv M) -> oz d <> 0%R) ->
  exists k, nth_error (pins_of C iz) k = Some p /\ pin_position P k = Some (before (colpins P) X + x, before (rowpins P) Y + y) /\
    get_location_info ulp M px py pz d = Some (mkLI (Z.of_nat (before (colpins P) X + x)) (Z.of_nat (before (rowpins P) Y + y)) (Z.of_nat iz)
      (list_sum (map (regs_of C) (seq 0 iz)) + regions_before (pins_of C iz) k) (pin_mesh p) (px - (x0 + w / 2)) (py - (y0 + h / 2))
      (x0, y0, rsum (fun k => nth k (as_dz A0) 0%R) iz) (x0 + w, y0 + h, rsum (fun k => nth k (as_dz A0) 0%R) (iz + 1)))%R.
Proof.
  intros ulp C A0 M W F0 IDS U Zx Zy E SPZ iz ls P X Y L A B x y p px py pz d Hz EL EP WP HL HX HY PL PA PB GX GY Ep Hx Hy posx posy x0 y0 w h I1 I2 I3 I4 BX BY EZ NZ.
  unfold make_core_mesh in E. destruct (co_asys C) as [|a0 rest] eqn:Ea; [discriminate|]. rewrite <- Ea in *. assert (a0 = A0) by (rewrite Ea in F0; cbn in F0; congruence). subst a0.
  pose proof (wc_asy ulp C W A0 (nth_error_In _ _ F0)) as WA.
  destruct (reads (co_asys C) as_hx _) as [wx|]; [|discriminate]. destruct (reads (co_asys C) as_hy _) as [wy|]; [|discriminate].
  destruct (scan_planes ulp C (as_nz A0)) as [s| |] eqn:Es; try discriminate.
  destruct (row_widths C) as [dx|] eqn:RW; [|discriminate]. destruct (col_heights C) as [dy|] eqn:CH; [|discriminate]. destruct (macro_heights _ _) as [hh|]; [|discriminate].
  destruct (make_macros _ _ _ _ _ _ _) as [ms|]; [|discriminate]. destruct (macro_index _ _ _) as [mi|]; [|discriminate]. injection E as <-. cbn [cm_zv cm_xv cm_yv cm_nz cm_scan] in *.
  destruct (C62_unique_planes ulp C A0 s W F0 IDS Es) as (_ & UP & _). destruct (UP iz Hz) as (ls' & P' & u & Q & E1 & E2 & E3 & E4 & E5 & E6 & _ & _ & _ & E7).
  assert (ls' = ls) by congruence. subst ls'. assert (P' = P) by congruence. subst P'. clear UP.
  pose proof (wc_nx ulp C W) as Nx. pose proof (wc_ny ulp C W) as Ny. destruct (plane_lats_ex ulp C W A0 F0 iz Hz) as (ls' & E1' & LL & WL & _ & _). assert (ls' = ls) by congruence. subst ls'. clear E1'.
  destruct (made_plane ulp ls (co_nx C) (co_ny C) P Nx Ny LL WL EP) as (WPl & Ls & PNx & PNy).
  assert (IL : In L ls) by (rewrite <- Ls; unfold pl_at, lats_at in PL; eapply nth_error_In; eauto). pose proof (WL L IL) as WFL.
  (* the boundaries *)
  assert (GR : forall k l, nth_error ls k = Some l -> exists a l0 r, nth_error (co_asys C) k = Some a /\ as_lats a = l0 :: r /\ lat_hxv l0 = lat_hxv l /\ lat_hyv l0 = lat_hyv l).
  { intros k l K. rewrite E2 in K. unfold lat_of in K. destruct (nth_error (co_asys C) k) as [a|] eqn:Ka; [|discriminate]. pose proof (wc_asy ulp C W a (nth_error_In _ _ Ka)) as Wa.
    destruct (as_lats a) as [|l0 r] eqn:Q0; [destruct iz; discriminate|]. exists a, l0, r. split; [reflexivity|]. split; [exact Q0|]. rewrite <- Q0 in K. destruct (wa_grid a Wa l0 l) as ((_ & _ & G1 & G2) & _); [rewrite Q0; now left|exact (nth_error_In _ _ K)|]. auto. }
  unfold row_widths in RW. unfold col_heights in CH. destruct (all_some (map (fun ix => _) (seq 0 (co_nx C)))) as [ddx|] eqn:DX; [|discriminate]. cbn [option_map] in RW. injection RW as <-.
  destruct (all_some (map (fun iy => _) (seq 0 (co_ny C)))) as [ddy|] eqn:DY; [|discriminate]. cbn [option_map] in CH. injection CH as <-.
  assert (PLX : forall k, pl_at P k 0 = nth_error ls k) by (intro k; unfold pl_at, lats_at; rewrite Ls, PNx; f_equal; lia).
  assert (PLY : forall k, pl_at P 0 k = nth_error ls (k * co_nx C)) by (intro k; unfold pl_at, lats_at; rewrite Ls, PNx; f_equal; lia).
  destruct (all_some_row _ (fun k => pl_at P k 0) lat_hxv _ _ DX) as (row & Lr & Nr & ->).
  { intros k K. destruct (pl_at_ex P WPl k 0 ltac:(lia) ltac:(lia)) as (l & Kl & _). exists l. split; [exact Kl|]. rewrite PLX in Kl. destruct (GR k l Kl) as (a & l0 & r & -> & -> & -> & _). reflexivity. }
  destruct (all_some_row _ (fun k => pl_at P 0 k) lat_hyv _ _ DY) as (col & Lc & Nc & ->).
  { intros k K. destruct (pl_at_ex P WPl 0 k ltac:(lia) ltac:(lia)) as (l & Kl & _). exists l. split; [exact Kl|]. rewrite PLY in Kl. destruct (GR _ l Kl) as (a & l0 & r & -> & -> & _ & ->). reflexivity. }
  assert (INr : forall l, In l row -> In l ls) by (intros l I; apply In_nth_error in I; destruct I as [k K]; assert (k < co_nx C) as Hk by (rewrite <- Lr; apply nth_error_Some; congruence); rewrite (Nr k Hk), PLX in K; eapply nth_error_In; eauto).
  assert (INc : forall l, In l col -> In l ls) by (intros l I; apply In_nth_error in I; destruct I as [k K]; assert (k < co_ny C) as Hk by (rewrite <- Lc; apply nth_error_Some; congruence); rewrite (Nc k Hk), PLY in K; eapply nth_error_In; eauto).
  assert (CP : colpins P = map lat_nx row).
  { unfold colpins. rewrite PNx. apply list_eq_nth; [rewrite !map_length, seq_length; auto|]. intros k a K. assert (k < co_nx C) as Hk by (rewrite <- (seq_length (co_nx C) 0), <- (map_length (fun X => match pl_at P X 0 with Some l => lat_nx l | None => 0 end)); apply nth_error_Some; congruence).
    rewrite nth_error_map, nth_seq in K by exact Hk. rewrite nth_error_map, (Nr k Hk). destruct (pl_at_ex P WPl k 0 ltac:(lia) ltac:(lia)) as (l & Kl & _). cbn in K. rewrite Kl in *. exact K. }
  assert (RP : rowpins P = map lat_ny col).
  { unfold rowpins. rewrite PNy. apply list_eq_nth; [rewrite !map_length, seq_length; auto|]. intros k a K. assert (k < co_ny C) as Hk by (rewrite <- (seq_length (co_ny C) 0), <- (map_length (fun Y => match pl_at P 0 Y with Some l => lat_ny l | None => 0 end)); apply nth_error_Some; congruence).
    rewrite nth_error_map, nth_seq in K by exact Hk. rewrite nth_error_map, (Nc k Hk). destruct (pl_at_ex P WPl 0 k ltac:(lia) ltac:(lia)) as (l & Kl & _). cbn [option_map Nat.add] in K. rewrite Kl in *. exact K. }
  assert (LXS : rsum (fun k => nth k (map lat_hx row) 0%R) X = lat_left P X).
  { unfold lat_left. apply rsum_ext. intros k K. destruct (pl_at_ex P WPl k 0 ltac:(lia) ltac:(lia)) as (l & Kl & _). rewrite Kl. apply nth_error_nth. rewrite nth_error_map, (Nr k ltac:(lia)), Kl. reflexivity. }
  assert (LYS : rsum (fun k => nth k (map lat_hy col) 0%R) Y = lat_bottom P Y).
  { unfold lat_bottom. apply rsum_ext. intros k K. destruct (pl_at_ex P WPl 0 k ltac:(lia) ltac:(lia)) as (l & Kl & _). rewrite Kl. apply nth_error_nth. rewrite nth_error_map, (Nc k ltac:(lia)), Kl. reflexivity. }
  assert (IA : In A ls) by (rewrite PLX in PA; eapply nth_error_In; eauto). assert (IB : In B ls) by (rewrite PLY in PB; eapply nth_error_In; eauto).
  assert (NXA : lat_nx A = lat_nx L) by (rewrite <- (wl_hxl A (WL A IA)), <- GX; apply wl_hxl, WFL). assert (NYB : lat_ny B = lat_ny L) by (rewrite <- (wl_hyl B (WL B IB)), <- GY; apply wl_hyl, WFL).
  set (xv := psums 0 (concat (map lat_hxv row))) in *. set (yv := psums 0 (concat (map lat_hyv col))) in *.
  assert (XE : forall i, i <= lat_nx L -> nth_error xv (before (colpins P) X + i) = Some (lat_left P X + col_start L i)%R).
  { intros i Hi. unfold xv. rewrite CP, (psums_concat lat_hxv lat_nx lat_hx row X A i 0%R); [|intros l I; split; [apply wl_hxl|apply wl_hx]; apply WL, INr, I|rewrite (Nr X HX); exact PA|lia]. rewrite LXS, <- GX, <- col_start_spec by (auto; lia). f_equal. lra. }
  assert (YE : forall i, i <= lat_ny L -> nth_error yv (before (rowpins P) Y + i) = Some (lat_bottom P Y + row_start L i)%R).
  { intros i Hi. unfold yv. rewrite RP, (psums_concat lat_hyv lat_ny lat_hy col Y B i 0%R); [|intros l I; split; [apply wl_hyl|apply wl_hy]; apply WL, INc, I|rewrite (Nc Y HY); exact PB|lia]. rewrite LYS, <- GY, <- row_start_spec by (auto; lia). f_equal. lra. }
  destruct (starts_succ L WFL x y p Hx Hy Ep) as [SX SY]. pose proof FUZZ_pos as FZ.
  assert (XI : CoreProofs.increasing xv).
  { apply psums_increasing. intros v I. apply in_concat in I. destruct I as (hv & I & Iv). apply in_map_iff in I. destruct I as (l & <- & Il). pose proof (INr l Il) as Ils. destruct (HL l Ils) as (Wd & Hh & _). pose proof (WL l Ils) as Wl.
    apply In_nth_error in Iv. destruct Iv as [k K]. assert (Hk : k < lat_nx l) by (rewrite <- (wl_hxl l Wl); apply nth_error_Some; congruence). pose proof (wl_ny l Wl). destruct (nth_error (lat_pins l) (0 * lat_nx l + k)) as [q|] eqn:Eq; [|apply nth_error_None in Eq; rewrite (wl_len l Wl) in Eq; nia].
    destruct (wl_pitch l Wl k 0 q Hk ltac:(lia) Eq) as [Pq _]. rewrite K in Pq. injection Pq as ->. destruct (Wd k 0 q Hk ltac:(lia) Eq) as [W1 _]. nra. }
  assert (YI : CoreProofs.increasing yv).
  { apply psums_increasing. intros v I. apply in_concat in I. destruct I as (hv & I & Iv). apply in_map_iff in I. destruct I as (l & <- & Il). pose proof (INc l Il) as Ils. destruct (HL l Ils) as (Wd & _ & Hh & _). pose proof (WL l Ils) as Wl.
    apply In_nth_error in Iv. destruct Iv as [k K]. assert (Hk : k < lat_ny l) by (rewrite <- (wl_hyl l Wl); apply nth_error_Some; congruence). pose proof (wl_nx l Wl). destruct (nth_error (lat_pins l) (k * lat_nx l + 0)) as [q|] eqn:Eq; [|apply nth_error_None in Eq; rewrite (wl_len l Wl) in Eq; nia].
    destruct (wl_pitch l Wl 0 k q ltac:(lia) Hk Eq) as [_ Pq]. rewrite K in Pq. injection Pq as ->. destruct (Wd 0 k q ltac:(lia) Hk Eq) as [_ W1]. nra. }
  pose proof (XE x ltac:(lia)) as X0. pose proof (XE (x + 1) ltac:(lia)) as X1. rewrite SX, Nat.add_assoc in X1. replace (lat_left P X + (col_start L x + pm_px (pin_mesh p)))%R with (x0 + w)%R in X1 by (unfold x0, w; ring).
  pose proof (YE y ltac:(lia)) as Y0. pose proof (YE (y + 1) ltac:(lia)) as Y1. rewrite SY, Nat.add_assoc in Y1. replace (lat_bottom P Y + (row_start L y + pm_py (pin_mesh p)))%R with (y0 + h)%R in Y1 by (unfold y0, h; ring).
  destruct (C58_plane_lookup ulp ls (co_nx C) (co_ny C) P Nx Ny LL Zx Zy) with (X := X) (Y := Y) (L := L) (A := A) (B := B) (x := x) (y := y) (p := p) (px := px) (py := py) (f := list_sum (map (regs_of C) (seq 0 iz))) (posx := posx) (posy := posy) as (k & mx & my & _ & K2 & K3 & K4 & Kx & Ky); auto.
  assert (PO : pins_of C iz = flat_map lat_pins ls) by (unfold pins_of; rewrite EL; reflexivity).
  exists k. rewrite PO. split; [exact K2|]. split; [exact K3|]. destruct (fp_equiv_sound ulp U) as [FE1 FE2].
  unfold get_location_info. cbn [cm_zv cm_xv cm_yv cm_nz cm_scan]. rewrite (lb_between xv px _ _ _ XI X0 X1 BX), (lb_between yv py _ _ _ YI Y0 Y1 BY).
  rewrite (C107_plane (fp_equiv ulp) (psums 0 (as_dz A0)) (as_nz A0) pz (oz d) iz); auto; [|rewrite psums_length, (wa_dz A0 WA); lia].
  unfold zat. destruct (Z.ltb_spec (Z.of_nat iz) 0); [lia|]. rewrite !Nat2Z.id, E7, E4, E5, E6. fold posx posy. rewrite K4.
  replace (Z.of_nat (before (colpins P) X + x + 1) - 1)%Z with (Z.of_nat (before (colpins P) X + x)) by lia. replace (Z.of_nat (before (rowpins P) Y + y + 1) - 1)%Z with (Z.of_nat (before (rowpins P) Y + y)) by lia.
  replace (Z.of_nat (before (colpins P) X + x) + 1)%Z with (Z.of_nat (before (colpins P) X + x + 1)) by lia. replace (Z.of_nat (before (rowpins P) Y + y) + 1)%Z with (Z.of_nat (before (rowpins P) Y + y + 1)) by lia. replace (Z.of_nat iz + 1)%Z with (Z.of_nat (iz + 1)) by lia.
  repeat match goal with |- context [(Z.of_nat ?n <? 0)%Z] => destruct (Z.ltb_spec (Z.of_nat n) 0); [lia|] end. rewrite !Nat2Z.id, X0, X1, Y0, Y1, !psums_nth by (rewrite (wa_dz A0 WA); lia).
  rewrite Kx, Ky, !Rplus_0_l. reflexivity.
Qed.
Print Assumptions C107_location.
(** Two assemblies of one 2 x 2 pin and one plane, side by side. *)
Definition asyN : Assembly := mkAsy 7 1 [1%R] 2 2 1 1 [1] [latA].
Definition coreN : Core := mkCore 2 1 2 1 [] [asyN; asyN].
Lemma planeN : make_plane Reqb [latA; latA] 2 1 = Got (mkPlane [latA; latA] 2 1 2 1 2 2 (psums 0 [2%R; 2%R]) (psums 0 [2%R]) [0; 1] 0 2).
Proof.
  assert (Reqb 2 2 = true) as E2 by (destruct (Reqb_spec 2 2); auto; lra).
  unfold make_plane. cbn -[Reqb size_ok psums]. unfold size_ok. cbn -[Reqb psums]. rewrite E2. reflexivity.
Qed.
Lemma meshN : exists M, make_core_mesh Reqb coreN = Got M /\ cm_xv M = psums 0 [2%R; 2%R] /\ cm_yv M = psums 0 [2%R] /\ cm_zv M = psums 0 [1%R] /\ cm_nz M = 1 /\
  sc_freg (cm_scan M) = [0] /\ sc_uid (cm_scan M) = [0] /\ sc_planes (cm_scan M) = [mkPlane [latA; latA] 2 1 2 1 2 2 (psums 0 [2%R; 2%R]) (psums 0 [2%R]) [0; 1] 0 2].
Proof.
  unfold make_core_mesh. cbn [co_asys coreN as_nz asyN]. unfold scan_planes. cbn [seq fold_out]. unfold scan_plane at 1. cbn [plane_lats co_asys coreN map as_lats asyN nth_error all_some co_nx co_ny].
  rewrite planeN. cbn -[psums Rplus]. eexists. repeat split.
Qed.
Lemma Reqb_sound : ulp_sound Reqb.
Proof.
  split; [intros v; destruct (Reqb_spec v v); auto; lra|]. intros v b H. destruct (Reqb_spec v b) as [->|]; [|discriminate]. rewrite Rminus_diag_eq, Rabs_R0 by auto. pose proof (Rabs_pos b). pose proof FUZZ_pos. nra.
Qed.
Definition PN : Plane := mkPlane [latA; latA] 2 1 2 1 2 2 (psums 0 [2%R; 2%R]) (psums 0 [2%R]) [0; 1] 0 2.
Lemma wideN : wide_plane PN /\ wide latA.
Proof.
  pose proof FUZZ_pos as F. split.
  - unfold wide_plane, lat_left, lat_bottom. cbn. split; intros [|[|X]] l HX; try lia; cbn; intros [= <-]; cbn; lra.
  - intros x y p X Y. cbn in X, Y. assert (x = 0) by lia. assert (y = 0) by lia. subst. cbn. intros [= <-]. cbn. lra.
Qed.
Lemma coreN_ok : wf_core Reqb coreN /\ ids_identify (all_pins coreN) (all_pins coreN).
Proof.
  split.
  - constructor; cbn; auto.
    + intros A [<- | [<- | []]]; (constructor; cbn; auto; [intros L [<- | []]; auto using wf_A|intros L K [<- | []] [<- | []]; cbn; repeat split]).
    + intros A0 [= <-] A [<- | [<- | []]]; (split; auto; split; auto; intros k u v Eu Ev; assert (u = v) by congruence; subst; destruct (Reqb_spec v v); auto).
  - intros p q P Q. cbn in P, Q. destruct P as [<- | [<- | []]]; destruct Q as [<- | [<- | []]]; auto.
Qed.
(** The middle of the right pin. *)
Example C107_instance : exists M, make_core_mesh Reqb coreN = Got M /\ spaced (cm_zv M) /\
  get_location_info Reqb M 3 1 (1/2) (dir_cosines (3/5) 0 (4/5)) = Some (mkLI 1 0 0 1 (pin_mesh pin2) (3 - (0 + 2 + 0 + 2 / 2)) (1 - (0 + 0 + 2 / 2)) (0 + 2 + 0, 0 + 0, 0) (0 + 2 + 0 + 2, 0 + 0 + 2, 0 + 1))%R.
Proof.
  destruct meshN as (M & E & EX & EY & EZ & _). exists M. split; [exact E|]. pose proof FUZZ_pos as F.
  assert (SZ : spaced (cm_zv M)).
  { rewrite EZ. split; [reflexivity|]. intros [|[|i]] a b A B; cbn in A, B; try discriminate; [|destruct i; discriminate]. injection A as <-. injection B as <-. lra. }
  split; [exact SZ|]. destruct coreN_ok as [W IDS]. destruct wideN as [WP WL].
  assert (T : forall v, (0 <= v <= 4)%R -> (tol v <= 1/8)%R).
  { intros v V. unfold tol. rewrite Rabs_pos_eq by lra. unfold Rmax. destruct (Rle_dec 1 v); nra. }
  destruct (C107_location Reqb coreN asyN M W eq_refl IDS Reqb_sound ltac:(reflexivity) ltac:(reflexivity) E SZ 0 [latA; latA] PN 1 0 latA latA latA 0 0 pin2 3%R 1%R (1/2)%R (dir_cosines (3/5) 0 (4/5)) ltac:(cbn; lia) eq_refl planeN WP) as (k & K1 & K0 & K2); auto; cbn [co_nx co_ny coreN lat_nx lat_ny latA]; try lia; try reflexivity.
  all: unfold lat_left, lat_bottom, col_start, row_start; cbn [rsum pl_at PN pl_nx pl_lats lats_at nth_error Nat.add Nat.mul lat_hx lat_hy latA pin_mesh pin2 pm_px pm_py].
  all: try lra.
  all: try match goal with |- inside _ _ ?v _ => left; pose proof (T v ltac:(lra)); lra end.
  - intros l Il. assert (l = latA) as -> by (destruct Il as [<-|[<-|[]]]; reflexivity). split; [exact WL|]. split; [cbn; lra|]. split; [cbn; lra|]. split; reflexivity.
  - rewrite EZ. exists 0%R, (0 + 1)%R. split; [reflexivity|]. split; [reflexivity|]. left. pose proof (T (1/2)%R ltac:(lra)). lra.
  - intros _. cbn. lra.
  - assert (k = 1 \/ k = 0) as [->| ->] by (assert (k < length (pins_of coreN 0)) by (apply nth_error_Some; congruence); cbn in H; lia).
    + rewrite K2. unfold lat_left, lat_bottom, col_start, row_start. cbn -[Rplus Rmult Rminus Rdiv dir_cosines]. reflexivity.
    + discriminate K0.
Qed.
(** Exactly between two pins, heading for the second: the position and box are those of the first, the mesh, the region and the
    local point those of the second; the particle is on the upper side of the box it is given, heading out of it. *)
Theorem C107_location_refuted : exists M d, make_core_mesh Reqb coreN = Got M /\ (0 < ox d)%R /\
  exists l, get_location_info Reqb M 2 1 (1/2) d = Some l /\ li_x l = 0%Z /\ fst (fst (li_hi l)) = 2%R /\ li_first l = 1 /\ li_px l = (-1)%R.
Proof.
  destruct meshN as (M & E & EX & EY & EZ & EN & EF & EU & EP). set (d := dir_cosines (3/5) 0 (4/5)). exists M, d. split; [exact E|]. pose proof FUZZ_pos as F. split; [cbn; lra|].
  destruct wideN as [WP WL].
  assert (T : forall v, (0 <= v <= 4)%R -> (tol v <= 1/8)%R).
  { intros v V. unfold tol. rewrite Rabs_pos_eq by lra. unfold Rmax. destruct (Rle_dec 1 v); nra. }
  assert (IncX : CoreProofs.increasing (cm_xv M)) by (rewrite EX; apply psums_increasing; intros v [<-|[<-|[]]]; lra).
  assert (IncY : CoreProofs.increasing (cm_yv M)) by (rewrite EY; apply psums_increasing; intros v [<-|[]]; lra).
  assert (LX : lower_bound Rltb (cm_xv M) 2%R = Some 1) by (apply (lb_between (cm_xv M) 2%R 0 0%R (0 + 2)%R IncX); [rewrite EX; reflexivity|rewrite EX; reflexivity|lra]).
  assert (LY : lower_bound Rltb (cm_yv M) 1%R = Some 1) by (apply (lb_between (cm_yv M) 1%R 0 0%R (0 + 2)%R IncY); [rewrite EY; reflexivity|rewrite EY; reflexivity|lra]).
  assert (SZ : spaced (cm_zv M)).
  { rewrite EZ. split; [reflexivity|]. intros [|[|i]] a b A B; cbn in A, B; try discriminate; [|destruct i; discriminate]. injection A as <-. injection B as <-. lra. }
  destruct (fp_equiv_sound Reqb Reqb_sound) as [FE1 FE2].
  assert (PI : plane_index (fp_equiv Reqb) (cm_zv M) (cm_nz M) (1/2) (oz d) = PlIx 0).
  { apply (C107_plane _ _ _ _ _ 0); auto; [rewrite EZ, EN; reflexivity|rewrite EN; lia| |intros _; cbn; lra].
    rewrite EZ. exists 0%R, (0 + 1)%R. split; [reflexivity|]. split; [reflexivity|]. left. pose proof (T (1/2)%R ltac:(lra)). lra. }
  destruct (C58_plane_lookup Reqb [latA; latA] 2 1 PN) with (X := 1) (Y := 0) (L := latA) (A := latA) (B := latA) (x := 0) (y := 0) (p := pin2) (px := 2%R) (py := 1%R) (f := 0) (posx := Rltb 0 (ox d)) (posy := Rltb 0 (oy d)) as (k & mx & my & KN & K2 & K3 & K4 & Kx & Ky);
    auto using Reqb_sound, planeN; try lia; try reflexivity.
  - intros l Il. assert (l = latA) as -> by (destruct Il as [<-|[<-|[]]]; reflexivity). split; [apply wf_A|]. split; [exact WL|]. split; [cbn; lra|]. split; [cbn; lra|]. split; reflexivity.
  - right; left. split; [unfold lat_left; cbn; lra|]. cbn. destruct (Rltb_spec 0 (3/5)); [reflexivity|lra].
  - left. unfold lat_bottom. cbn [rsum]. pose proof (T 1%R ltac:(lra)). cbn. lra.
  - right; left. split; [unfold lat_left, col_start; cbn; lra|]. cbn. destruct (Rltb_spec 0 (3/5)); [reflexivity|lra].
  - left. unfold lat_bottom, row_start. cbn [rsum]. pose proof (T (1 - 0)%R ltac:(lra)). cbn. lra.
  - unfold get_location_info. rewrite LX, LY, PI, EF, EU, EP. cbn [zat Z.ltb Z.compare Z.to_nat nth_error]. fold PN. rewrite K4, EX, EY, EZ. cbn -[Rplus Rmult Rminus Rdiv dir_cosines regions_before]. eexists. split; [reflexivity|]. cbn [li_x li_hi li_first li_px fst].
    split; [reflexivity|]. split; [lra|]. split; [|rewrite Kx; unfold lat_left, col_start; cbn; lra].
    assert (k = 1 \/ k = 0) as [->| ->] by (cbn in KN; lia); [reflexivity|discriminate K3].
Qed.
Print Assumptions C107_location_refuted.
