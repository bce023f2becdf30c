(** Property C80: volumes of the core mesh's regions. *)
From Coq Require Import List Lia Bool Reals Lra ZArith Arith.
From Verif Require Import RUtil McModel McProofs ListUtil StdAlg StdAlgProofs MatModel MatProps BcModel CoreModel CoreProofs BcProofs LatProps PlaneProps EquivProps AsmModel AsmProps CoreMapProps MacroProps LocProps.
From Verif Require Import MocModel MocProofs PflProps SrcProps.
Import ListNotations.
Open Scope nat_scope.

(** Specification: sum of a list. *)
Definition sum (l : list R) : R := lsum (fun v => v) l.

(** ** Sums over a grid stored row by row *)
Lemma rsum_cons : forall (f : nat -> R) n, rsum f (S n) = (f 0%nat + rsum (fun k => f (S k)) n)%R.
Proof. exact rsum_front. Qed.
Lemma lsum_nth : forall {A} (f : A -> R) (g : nat -> R) l, (forall k a, nth_error l k = Some a -> f a = g k) -> lsum f l = rsum g (length l).
Proof.
  intros A f g l. revert g. induction l as [|a l IH]; intros g H; [reflexivity|]. cbn [length lsum]. rewrite rsum_cons. rewrite (H 0 a eq_refl). f_equal. apply IH. intros k b K. apply (H (S k) b K).
Qed.
Lemma grid_sum : forall {A} nx (f : A -> R) (a b : nat -> R) ny l, length l = nx * ny ->
  (forall x y p, x < nx -> y < ny -> nth_error l (y * nx + x) = Some p -> f p = (a x * b y)%R) -> lsum f l = (rsum a nx * rsum b ny)%R.
Proof.
  intros A nx f a b ny. revert b. induction ny as [|ny IH]; intros b l L H.
  - rewrite Nat.mul_0_r in L. destruct l; [|discriminate]. cbn. lra.
  - rewrite rsum_cons. rewrite <- (firstn_skipn nx l), lsum_app, (IH (fun k => b (S k)) (skipn nx l)).
    + rewrite (lsum_nth f (fun x => (a x * b 0%nat)%R)).
      * rewrite firstn_length, Nat.min_l by nia. rewrite rsum_scal_r. lra.
      * intros k p K. assert (k < length (firstn nx l)) as Hk by (apply nth_error_Some; congruence). rewrite firstn_length in Hk. apply (H k 0 p); try lia. rewrite Nat.mul_0_l, Nat.add_0_l.
        rewrite <- (firstn_skipn nx l). rewrite nth_error_app1; [exact K|]. rewrite firstn_length. lia.
    + rewrite skipn_length. nia.
    + intros x y p Hx Hy E. apply (H x (S y) p); try lia. rewrite <- (firstn_skipn nx l). rewrite nth_error_app2; rewrite firstn_length, Nat.min_l by nia; [|nia]. rewrite <- E. f_equal. nia.
Qed.
Lemma grid_count : forall {A} nx (f : A -> nat) (a b : nat -> nat) ny l, length l = nx * ny ->
  (forall x y p, x < nx -> y < ny -> nth_error l (y * nx + x) = Some p -> f p = a x * b y) -> list_sum (map f l) = list_sum (map a (seq 0 nx)) * list_sum (map b (seq 0 ny)).
Proof.
  intros A nx f a b ny l L H. apply INR_eq. rewrite mult_INR.
  assert (Q : forall {B} (g : B -> nat) l, INR (list_sum (map g l)) = lsum (fun x => INR (g x)) l).
  { intros B g. induction l0 as [|x l0 IH]; [reflexivity|]. cbn [map lsum]. change (list_sum (g x :: map g l0)) with (g x + list_sum (map g l0)). now rewrite plus_INR, IH. }
  rewrite !Q, <- !rsum_lsum. apply (grid_sum nx (fun p => INR (f p)) (fun x => INR (a x)) (fun y => INR (b y)) ny l L).
  intros x y p Hx Hy E. rewrite (H x y p Hx Hy E). apply mult_INR.
Qed.

(** ** Areas *)
Section Areas.
  Variable areas : PinMesh -> list R.

  (** Specification: the areas of a pin's regions add up to the area of its cell (what C59 proves of both kinds of pin mesh). *)
  Definition fills (p : Pin) : Prop := sum (areas (pin_mesh p)) = (pm_px (pin_mesh p) * pm_py (pin_mesh p))%R.

  Lemma lattice_area : forall L, wf_lat L -> (forall p, In p (lat_pins L) -> fills p) -> lsum (fun p => sum (areas (pin_mesh p))) (lat_pins L) = (lat_hx L * lat_hy L)%R.
  Proof.
    intros L W F. rewrite (wl_hx L W), (wl_hy L W), !fold_sum, (wl_hxl L W), (wl_hyl L W).
    apply (grid_sum (lat_nx L) _ (fun k => nth k (lat_hxv L) 0%R) (fun k => nth k (lat_hyv L) 0%R)); [apply (wl_len L W)|].
    intros x y p Hx Hy E. rewrite (F p (nth_error_In _ _ E)). destruct (wl_pitch L W x y p Hx Hy E) as [P Q].
    now rewrite (nth_error_nth _ _ 0%R P), (nth_error_nth _ _ 0%R Q).
  Qed.
End Areas.

(** Specification: the lattices of the bottom plane line up: in each column of assemblies the pin widths are those of the
    bottom row's assembly, in each row the pin heights are those of the left column's. *)
Definition lined_up (C : Core) : Prop := forall X Y L A B, X < co_nx C -> Y < co_ny C ->
  lat_of C 0 (Y * co_nx C + X) = Some L -> lat_of C 0 X = Some A -> lat_of C 0 (Y * co_nx C) = Some B -> lat_hxv L = lat_hxv A /\ lat_hyv L = lat_hyv B.

Section Core.
  Variable areas : PinMesh -> list R.
  Variable ulp : R -> R -> bool.
  Variable C : Core.
  Hypothesis W : wf_core ulp C.
  Variable A0 : Assembly.
  Hypothesis F0 : nth_error (co_asys C) 0 = Some A0.

  Lemma lat_up : forall iz k L, lat_of C iz k = Some L -> exists A l0, nth_error (co_asys C) k = Some A /\ In A (co_asys C) /\ lat_of C 0 k = Some l0 /\ same_grid L l0 /\
    lat_hx L = as_hx A /\ lat_hy L = as_hy A /\ as_nx A = lat_nx L /\ as_ny A = lat_ny L.
  Proof.
    intros iz k L E. unfold lat_of in *. destruct (nth_error (co_asys C) k) as [A|] eqn:EA; [|discriminate]. pose proof (wc_asy ulp C W A (nth_error_In _ _ EA)) as WA.
    destruct (as_lats A) as [|l0 r] eqn:El; [destruct iz; discriminate|]. exists A, l0. split; [reflexivity|]. split; [exact (nth_error_In _ _ EA)|]. split; [reflexivity|].
    destruct (wa_grid A WA L l0) as (G & Hx & Hy); [rewrite El; exact (nth_error_In _ _ E)|rewrite El; now left|]. split; [exact G|]. split; [exact Hx|]. split; [exact Hy|].
    unfold as_nx, as_ny. rewrite El. destruct G as (G1 & G2 & _). auto.
  Qed.

  Hypothesis LU : lined_up C.
  (** The same in every plane. *)
  Lemma lined_planes : forall iz X Y L A B, X < co_nx C -> Y < co_ny C -> lat_of C iz (Y * co_nx C + X) = Some L -> lat_of C iz X = Some A -> lat_of C iz (Y * co_nx C) = Some B ->
    lat_hxv L = lat_hxv A /\ lat_hyv L = lat_hyv B /\ lat_nx L = lat_nx A /\ lat_ny L = lat_ny B.
  Proof.
    intros iz X Y L A B HX HY EL EA EB. destruct (lat_up _ _ _ EL) as (a1 & l1 & N1 & I1 & Z1 & (G1 & G2 & G3 & G4) & _). destruct (lat_up _ _ _ EA) as (a2 & l2 & N2 & I2 & Z2 & (K1 & K2 & K3 & K4) & _).
    destruct (lat_up _ _ _ EB) as (a3 & l3 & N3 & I3 & Z3 & (J1 & J2 & J3 & J4) & _). destruct (LU X Y l1 l2 l3 HX HY Z1 Z2 Z3) as [Q1 Q2].
    assert (WL : forall k l a, nth_error (co_asys C) k = Some a -> lat_of C 0 k = Some l -> wf_lat l).
    { intros k l a Ek El. unfold lat_of in El. rewrite Ek in El. apply (wa_lat a (wc_asy ulp C W a (nth_error_In _ _ Ek))). exact (nth_error_In _ _ El). }
    pose proof (WL _ _ _ N1 Z1) as W1. pose proof (WL _ _ _ N2 Z2) as W2. pose proof (WL _ _ _ N3 Z3) as W3. split; [congruence|]. split; [congruence|].
    rewrite G1, G2, K1, J2, <- (wl_hxl l1 W1), <- (wl_hxl l2 W2), <- (wl_hyl l1 W1), <- (wl_hyl l3 W3), Q1, Q2. auto.
  Qed.

  (** Specification: width and height of the core. *)
  Definition width : R := rsum (fun X => match nth_error (co_asys C) X with Some A => as_hx A | None => 0%R end) (co_nx C).
  Definition depth : R := rsum (fun Y => match nth_error (co_asys C) (Y * co_nx C) with Some A => as_hy A | None => 0%R end) (co_ny C).

  Lemma bound_at : forall X Y, X < co_nx C -> Y < co_ny C -> Y * co_nx C + X < co_nx C * co_ny C.
  Proof. intros. nia. Qed.
  Lemma lat_ex : forall iz k, iz < as_nz A0 -> k < co_nx C * co_ny C -> exists L, lat_of C iz k = Some L.
  Proof.
    intros iz k Hz Hk. destruct (plane_lats_ex ulp C W A0 F0 iz Hz) as (ls & E & Ln & _ & _ & N). rewrite <- N. destruct (nth_error ls k) eqn:X; [eauto|]. apply nth_error_None in X. lia.
  Qed.
  Lemma plane_area : (forall p, In p (all_pins C) -> fills areas p) -> forall iz, iz < as_nz A0 -> lsum (fun p => sum (areas (pin_mesh p))) (pins_of C iz) = (width * depth)%R.
  Proof.
    intros F iz Hz. destruct (plane_lats_ex ulp C W A0 F0 iz Hz) as (ls & E & Ln & Wl & Ip & N). unfold pins_of. rewrite E, lsum_flat_map.
    rewrite (lsum_ext _ (fun L => (lat_hx L * lat_hy L)%R)).
    - apply (grid_sum (co_nx C) _ _ _ (co_ny C) ls Ln). intros X Y L HX HY EL. rewrite N in EL. pose proof (bound_at X Y HX HY) as B. pose proof (wc_ny ulp C W) as Ny. pose proof (wc_nx ulp C W) as Nx.
      destruct (lat_ex iz X Hz ltac:(nia)) as [A EA]. destruct (lat_ex iz (Y * co_nx C) Hz ltac:(nia)) as [B' EB]. destruct (lined_planes iz X Y L A B' HX HY EL EA EB) as (Q1 & Q2 & _).
      destruct (lat_up _ _ _ EA) as (a2 & l2 & N2 & _ & _ & _ & H2 & _). destruct (lat_up _ _ _ EB) as (a3 & l3 & N3 & _ & _ & _ & _ & H3 & _). rewrite N2, N3, <- H2, <- H3.
      assert (WL : forall k l, lat_of C iz k = Some l -> wf_lat l) by (intros k l K; apply Wl; apply (nth_error_In ls k); now rewrite N).
      rewrite (wl_hx L (WL _ _ EL)), (wl_hy L (WL _ _ EL)), (wl_hx A (WL _ _ EA)), (wl_hy B' (WL _ _ EB)), Q1, Q2. reflexivity.
    - intros L I. apply lattice_area; [now apply Wl|]. intros p Hp. apply F, Ip, in_flat_map. eauto.
  Qed.
  Lemma plane_count : forall iz, iz < as_nz A0 -> length (pins_of C iz) = co_npinx C * co_npiny C.
  Proof.
    intros iz Hz. destruct (plane_lats_ex ulp C W A0 F0 iz Hz) as (ls & E & Ln & Wl & Ip & N). unfold pins_of. rewrite E.
    assert (Q : length (flat_map lat_pins ls) = list_sum (map (fun L => lat_nx L * lat_ny L) ls)).
    { clear -Wl. induction ls as [|l ls IH]; [reflexivity|]. cbn [flat_map map]. change (list_sum (?a :: ?b)) with (a + list_sum b). rewrite app_length, IH, (wl_len l (Wl l (or_introl eq_refl))) by (intros; apply Wl; now right). reflexivity. }
    rewrite Q, (wc_npinx ulp C W), (wc_npiny ulp C W). apply (grid_count (co_nx C) _ _ _ (co_ny C) ls Ln). intros X Y L HX HY EL. rewrite N in EL. pose proof (bound_at X Y HX HY) as B.
    pose proof (wc_ny ulp C W) as Ny. pose proof (wc_nx ulp C W) as Nx.
    destruct (lat_ex iz X Hz ltac:(nia)) as [A EA]. destruct (lat_ex iz (Y * co_nx C) Hz ltac:(nia)) as [B' EB]. destruct (lined_planes iz X Y L A B' HX HY EL EA EB) as (_ & _ & Q1 & Q2).
    destruct (lat_up _ _ _ EA) as (a2 & l2 & N2 & _ & _ & _ & _ & _ & H2 & _). destruct (lat_up _ _ _ EB) as (a3 & l3 & N3 & _ & _ & _ & _ & _ & _ & H3). rewrite N2, N3. congruence.
  Qed.
End Core.

(** ** Region volumes *)
Lemma true_app : forall areas dz per l ipin r, true_volumes areas dz per ipin (l ++ r) =
  match true_volumes areas dz per ipin l, true_volumes areas dz per (ipin + length l) r with Some v, Some w => Some (v ++ w) | _, _ => None end.
Proof.
  intros areas dz per. induction l as [|p l IH]; intros ipin r; cbn [app length true_volumes].
  - rewrite Nat.add_0_r. destruct (true_volumes areas dz per ipin r); reflexivity.
  - destruct (per =? 0); [reflexivity|]. rewrite IH. replace (S ipin + length l) with (ipin + S (length l)) by lia. destruct (nth_error dz (ipin / per)); [|reflexivity].
    destruct (true_volumes areas dz per (S ipin) l); [|reflexivity]. destruct (true_volumes areas dz per (ipin + S (length l)) r); [|reflexivity]. now rewrite app_assoc.
Qed.
Lemma true_chunk : forall areas dz per iz h l d, nth_error dz iz = Some h -> d + length l <= per -> 0 < per -> true_volumes areas dz per (per * iz + d) l = Some (flat_map (pin_volumes areas h) l).
Proof.
  intros areas dz per iz h. induction l as [|p l IH]; intros d E L P; [reflexivity|]. cbn [true_volumes flat_map]. cbn [length] in L. destruct (Nat.eqb_spec per 0); [lia|].
  assert (Q : (per * iz + d) / per = iz) by (symmetry; apply (Nat.div_unique (per * iz + d) per iz d); lia). rewrite Q, E. replace (S (per * iz + d)) with (per * iz + S d) by lia. rewrite IH by (auto; lia). reflexivity.
Qed.
Lemma true_planes : forall areas dz per (pins : nat -> list Pin) n z, 0 < per -> (forall iz, z <= iz -> iz < z + n -> length (pins iz) = per) -> z + n <= length dz ->
  true_volumes areas dz per (per * z) (flat_map pins (seq z n)) = Some (flat_map (fun iz => flat_map (pin_volumes areas (nth iz dz 0%R)) (pins iz)) (seq z n)).
Proof.
  intros areas dz per pins. induction n as [|n IH]; intros z P L H; [reflexivity|]. cbn [seq flat_map]. rewrite true_app.
  destruct (nth_error dz z) as [h|] eqn:E; [|apply nth_error_None in E; lia]. rewrite <- (Nat.add_0_r (per * z)) at 1. rewrite (true_chunk areas dz per z h) by (auto; rewrite L by lia; lia).
  rewrite (L z) by lia. replace (per * z + per) with (per * S z) by lia. rewrite IH by (auto; try lia; intros; apply L; lia). now rewrite (nth_error_nth _ _ 0%R E).
Qed.
Lemma skip_planes : forall (pins : nat -> list Pin) per n iz, iz < n -> (forall z, z < n -> length (pins z) = per) ->
  firstn per (skipn (per * iz) (flat_map pins (seq 0 n))) = pins iz /\ per * iz + per <= length (flat_map pins (seq 0 n)).
Proof.
  intros pins per n iz Hz L.
  assert (Len : forall a c, (forall z, a <= z -> z < a + c -> length (pins z) = per) -> length (flat_map pins (seq a c)) = per * c).
  { clear. intros a c. revert a. induction c as [|c IH]; intros a H; [cbn; lia|]. cbn [seq flat_map]. rewrite app_length, IH, H by (intros; try apply H; lia). lia. }
  assert (SQ : seq 0 n = seq 0 iz ++ iz :: seq (S iz) (n - iz - 1)). { replace n with (iz + (1 + (n - iz - 1))) at 1 by lia. rewrite seq_app. reflexivity. }
  rewrite SQ, flat_map_app. cbn [flat_map].
  assert (L1 : length (flat_map pins (seq 0 iz)) = per * iz) by (apply Len; intros; apply L; lia).
  split.
  - rewrite skipn_app, L1, Nat.sub_diag. rewrite skipn_all2 by lia. cbn [app skipn]. rewrite firstn_app, (L iz Hz), Nat.sub_diag. cbn [firstn]. rewrite app_nil_r. apply firstn_all2. rewrite (L iz Hz). lia.
  - rewrite !app_length, L1, (L iz Hz). lia.
Qed.
(** Specification: for each macroplane its lowest plane and its height. *)
Definition floors (z : nat) (sub : list nat) (h : list R) : list (nat * R) := combine (map (fun i => z + before sub i) (seq 0 (length sub))) h.
Lemma floors_cons : forall z n sub x h, floors z (n :: sub) (x :: h) = (z, x) :: floors (z + n) sub h.
Proof.
  intros z n sub x h. unfold floors. cbn [length seq map combine]. f_equal; [f_equal; unfold before; cbn; lia|]. f_equal. rewrite <- seq_shift, map_map. apply map_ext. intros i. rewrite before_cons. lia.
Qed.
Lemma plane_volumes_ok : forall areas (pins : nat -> list Pin) per nz, (forall z, z < nz -> length (pins z) = per) -> forall sub h z, length h = length sub -> z + list_sum sub <= nz -> (forall n, In n sub -> 1 <= n) ->
  plane_volumes areas (flat_map pins (seq 0 nz)) per z sub h = Some (flat_map (fun q => flat_map (pin_volumes areas (snd q)) (pins (fst q))) (floors z sub h)).
Proof.
  intros areas pins per nz L. induction sub as [|n sub IH]; intros [|x h] z Lh Hz Hn; try discriminate; [reflexivity|]. cbn [plane_volumes]. change (list_sum (n :: sub)) with (n + list_sum sub) in Hz. specialize (Hn n (or_introl eq_refl)) as Hn1.
  destruct (skip_planes pins per nz z ltac:(lia) L) as [S1 S2]. destruct (Nat.ltb_spec (length (flat_map pins (seq 0 nz))) (per * z + per)); [lia|].
  rewrite IH; [|cbn in Lh; lia|lia|intros; apply Hn; now right]. rewrite floors_cons. cbn [flat_map fst snd]. rewrite S1. reflexivity.
Qed.
Lemma volumes_sum : forall areas h l, sum (flat_map (pin_volumes areas h) l) = (lsum (fun p => sum (areas (pin_mesh p))) l * h)%R.
Proof.
  intros. unfold sum. rewrite lsum_flat_map, <- lsum_scal. apply lsum_ext. intros p _. unfold pin_volumes. rewrite lsum_map. apply lsum_scal.
Qed.
Lemma volumes_count : forall areas h l, (forall p, In p l -> length (areas (pin_mesh p)) = pm_nreg (pin_mesh p)) -> length (flat_map (pin_volumes areas h) l) = list_sum (map (fun p => pm_nreg (pin_mesh p)) l).
Proof.
  intros areas h. induction l as [|p l IH]; intros H; [reflexivity|]. cbn [flat_map map]. change (list_sum (?a :: ?b)) with (a + list_sum b). unfold pin_volumes at 1. rewrite app_length, map_length, IH, (H p (or_introl eq_refl)) by (intros; apply H; now right). reflexivity.
Qed.
Lemma flat_length : forall {A B} (f : A -> list B) l, length (flat_map f l) = list_sum (map (fun a => length (f a)) l).
Proof. intros A B f. induction l as [|a l IH]; [reflexivity|]. cbn [flat_map map]. change (list_sum (?a :: ?b)) with (a + list_sum b). now rewrite app_length, IH. Qed.
Lemma list_sum_swap : forall {A B} (f : A -> B -> nat) l m, list_sum (map (fun a => list_sum (map (f a) m)) l) = list_sum (map (fun b => list_sum (map (fun a => f a b) l)) m).
Proof.
  intros A B f l m. induction l as [|a l IH]; cbn [map].
  - induction m as [|b m IHm]; [reflexivity|]. cbn [map]. change (list_sum (?a :: ?b)) with (a + list_sum b). rewrite <- IHm. reflexivity.
  - change (list_sum (?a :: ?b)) with (a + list_sum b). rewrite IH. clear. induction m as [|b m IHm]; [reflexivity|]. cbn [map]. change (list_sum (?a :: ?b)) with (a + list_sum b). rewrite <- IHm. change (list_sum (?a :: ?b)) with (a + list_sum b). lia.
Qed.

Section Mesh.
  Variable areas : PinMesh -> list R.
  Variable ulp : R -> R -> bool.
  Variable C : Core.
  Hypothesis W : wf_core ulp C.
  Variable A0 : Assembly.
  Hypothesis F0 : nth_error (co_asys C) 0 = Some A0.
  Hypothesis IDS : ids_identify (all_pins C) (all_pins C).
  Hypothesis LU : lined_up C.
  Variable M : CoreMesh.
  Hypothesis E : make_core_mesh ulp C = Got M.

  Record Facts : Prop := {
    f_nx : cm_nx M = co_npinx C; f_ny : cm_ny M = co_npiny C; f_nz : cm_nz M = as_nz A0; f_dz : cm_dz M = as_dz A0; f_sub : cm_sub M = as_sub A0;
    f_hx : cm_hx M = width C; f_hy : cm_hy M = depth C; f_hz : cm_hz M = rsum (fun k => nth k (as_dz A0) 0%R) (as_nz A0);
    f_scan : scan_planes ulp C (as_nz A0) = Got (cm_scan M); f_dx : row_widths C = Some (cm_dx M); f_dy : col_heights C = Some (cm_dy M);
    f_nreg : cm_nreg M = list_sum (map as_nreg (co_asys C)); f_h : macro_heights (as_sub A0) (as_dz A0) = Some (cm_heights M);
    f_ms : make_macros (sc_planes (cm_scan M)) (sc_uid (cm_scan M)) (co_npinx C) (co_npiny C) 0 (as_sub A0) (cm_heights M) = Some (cm_macros M) }.
  Lemma facts : Facts.
  Proof.
    revert E. unfold make_core_mesh. destruct (co_asys C) as [|a rest] eqn:Ea; [discriminate|]. rewrite <- Ea in *. assert (a = A0) by (rewrite Ea in F0; cbn in F0; congruence). subst a.
    pose proof (wc_asy ulp C W A0 (nth_error_In _ _ F0)) as WA.
    destruct (reads (co_asys C) as_hx _) as [wx|] eqn:Rx; [|discriminate]. destruct (reads (co_asys C) as_hy _) as [wy|] eqn:Ry; [|discriminate].
    destruct (scan_planes ulp C (as_nz A0)) as [s| |] eqn:Es; try discriminate. destruct (row_widths C) as [dx|] eqn:RW; [|discriminate]. destruct (col_heights C) as [dy|] eqn:CH; [|discriminate].
    destruct (macro_heights _ _) as [hh|] eqn:Eh; [|discriminate]. destruct (make_macros _ _ _ _ _ _ _) as [ms|] eqn:Em; [|discriminate]. destruct (macro_index _ _ _) as [mi|]; [|discriminate]. intros HM. injection HM as HM.
    constructor; rewrite <- HM; cbn; auto; rewrite ?fold_sum.
    - destruct (reads_map _ _ _ _ Rx) as [L H]. rewrite seq_length in L. rewrite L. apply rsum_ext. intros k K. destruct (H k k) as (p & N & Q); [now rewrite nth_seq|]. rewrite N. apply (nth_error_nth _ _ 0%R Q).
    - destruct (reads_map _ _ _ _ Ry) as [L H]. rewrite map_length, seq_length in L. rewrite L. apply rsum_ext. intros k K. destruct (H k (k * co_nx C)) as (p & N & Q); [now rewrite nth_error_map, nth_seq|]. rewrite N. apply (nth_error_nth _ _ 0%R Q).
    - now rewrite (wa_dz A0 WA).
  Qed.
  Lemma per_pos : 0 < co_npinx C * co_npiny C.
  Proof.
    clear LU E. pose proof (wc_asy ulp C W A0 (nth_error_In _ _ F0)) as WA. pose proof (wc_nx ulp C W). pose proof (wc_ny ulp C W).
    assert (N : 1 <= as_nx A0 /\ 1 <= as_ny A0).
    { unfold as_nx, as_ny. destruct (as_lats A0) as [|l r] eqn:El. { pose proof (wa_len A0 WA). pose proof (wa_nz A0 WA). rewrite El in *. cbn in *. lia. }
      assert (wf_lat l) as Wl by (apply (wa_lat A0 WA); rewrite El; now left). split; [apply (wl_nx l Wl)|apply (wl_ny l Wl)]. }
    assert (H1 : 1 <= co_npinx C). { rewrite (wc_npinx ulp C W). destruct (co_nx C); [lia|]. cbn [seq map]. change (list_sum (?a :: ?b)) with (a + list_sum b). rewrite F0. lia. }
    assert (H2 : 1 <= co_npiny C). { rewrite (wc_npiny ulp C W). destruct (co_ny C); [lia|]. cbn [seq map]. change (list_sum (?a :: ?b)) with (a + list_sum b). rewrite Nat.mul_0_l, F0. lia. }
    nia.
  Qed.
  Lemma pins_flat : sc_pins (cm_scan M) = flat_map (pins_of C) (seq 0 (as_nz A0)).
  Proof. destruct (C62_unique_planes ulp C A0 (cm_scan M) W F0 IDS (f_scan facts)) as (_ & _ & _ & _ & P & _). exact P. Qed.
  Lemma pins_len : forall iz, iz < as_nz A0 -> length (pins_of C iz) = cm_nx M * cm_ny M.
  Proof. intros iz Hz. rewrite (f_nx facts), (f_ny facts). apply (plane_count ulp C W A0 F0 LU iz Hz). Qed.
  Lemma vol_true : volumes areas M T_TRUE = Some (flat_map (fun iz => flat_map (pin_volumes areas (nth iz (as_dz A0) 0%R)) (pins_of C iz)) (seq 0 (as_nz A0))).
  Proof.
    pose proof facts as F. pose proof (wc_asy ulp C W A0 (nth_error_In _ _ F0)) as WA. cbn [volumes]. rewrite pins_flat, (f_dz F).
    assert (Q := true_planes areas (as_dz A0) (cm_nx M * cm_ny M) (pins_of C) (as_nz A0) 0). rewrite Nat.mul_0_r in Q. apply Q; [rewrite (f_nx F), (f_ny F); apply per_pos|intros; apply pins_len; lia|rewrite (wa_dz A0 WA); lia].
  Qed.
  Lemma vol_plane : (forall n, In n (as_sub A0) -> 1 <= n) -> volumes areas M T_PLANE = Some (flat_map (fun q => flat_map (pin_volumes areas (snd q)) (pins_of C (fst q))) (floors 0 (as_sub A0) (cm_heights M))).
  Proof.
    intros Hn. pose proof facts as F. pose proof (wc_asy ulp C W A0 (nth_error_In _ _ F0)) as WA. cbn [volumes]. rewrite pins_flat, (f_sub F).
    destruct (heights_spec (as_sub A0) (as_dz A0)) as (h & Eh & Lh & _). { rewrite (wa_sub A0 WA), (wa_dz A0 WA). reflexivity. }
    assert (h = cm_heights M) by (rewrite (f_h F) in Eh; congruence). subst h.
    apply plane_volumes_ok; auto; [intros; apply pins_len; auto|rewrite (wa_sub A0 WA); lia].
  Qed.

  Lemma all_some_map : forall {A} (f : nat -> option A) n l, all_some (map f (seq 0 n)) = Some l -> length l = n /\ forall k, k < n -> nth_error l k = f k.
  Proof.
    clear. intros A f n l H. apply all_some_spec in H. assert (L : length l = n) by (rewrite <- (map_length Some l), <- H, map_length, seq_length; reflexivity). split; [exact L|].
    intros k K. assert (Q : nth_error (map f (seq 0 n)) k = nth_error (map Some l) k) by now rewrite H. rewrite !nth_error_map, nth_seq in Q by exact K. cbn [option_map] in Q.
    destruct (nth_error l k) as [a|] eqn:Ek; [|apply nth_error_None in Ek; lia]. cbn in Q. now injection Q.
  Qed.
  Lemma concat_facts : forall (ll : list (list R)), sum (concat ll) = lsum sum ll /\ length (concat ll) = list_sum (map (@length R) ll).
  Proof.
    clear. induction ll as [|l ll [IH1 IH2]]; [auto|]. cbn [concat map lsum]. change (list_sum (?a :: ?b)) with (a + list_sum b). unfold sum in *. rewrite lsum_app, app_length, IH1, IH2. auto.
  Qed.
  Lemma sum_fold : forall l, fold_left Rplus l 0%R = sum l.
  Proof. clear. intros l. rewrite fold_sum. unfold sum. symmetry. apply (lsum_nth (fun v => v) (fun k => nth k l 0%R)). intros k a K. symmetry. apply (nth_error_nth _ _ 0%R K). Qed.
  Lemma bottom : forall k, k < co_nx C * co_ny C -> exists a l r, nth_error (co_asys C) k = Some a /\ as_lats a = l :: r /\ wf_lat l /\ lat_hx l = as_hx a /\ lat_hy l = as_hy a.
  Proof.
    clear LU E. intros k K. destruct (nth_error (co_asys C) k) as [a|] eqn:Ea; [|apply nth_error_None in Ea; rewrite (wc_len ulp C W) in Ea; lia]. pose proof (wc_asy ulp C W a (nth_error_In _ _ Ea)) as Wa.
    destruct (as_lats a) as [|l r] eqn:El. { pose proof (wa_len a Wa). pose proof (wa_nz a Wa). rewrite El in *. cbn in *. lia. }
    exists a, l, r. split; [reflexivity|]. split; [exact El|]. split; [apply (wa_lat a Wa); rewrite El; now left|]. destruct (wa_grid a Wa l l) as (_ & A1 & A2); try (rewrite El; now left). auto.
  Qed.
  Lemma dx_facts : sum (cm_dx M) = cm_hx M /\ length (cm_dx M) = cm_nx M /\ sum (cm_dy M) = cm_hy M /\ length (cm_dy M) = cm_ny M.
  Proof.
    pose proof facts as F. pose proof (wc_nx ulp C W) as Nx. pose proof (wc_ny ulp C W) as Ny. pose proof (f_dx F) as D. pose proof (f_dy F) as D'. unfold row_widths in D. unfold col_heights in D'.
    destruct (all_some (map (fun ix => _) (seq 0 (co_nx C)))) as [lx|] eqn:Ex; [|discriminate]. destruct (all_some (map (fun iy => _) (seq 0 (co_ny C)))) as [ly|] eqn:Ey; [|discriminate]. cbn [option_map] in D, D'.
    injection D as <-. injection D' as <-. apply all_some_map in Ex. apply all_some_map in Ey. destruct Ex as [Lx Kx]. destruct Ey as [Ly Ky].
    destruct (concat_facts lx) as [-> ->]. destruct (concat_facts ly) as [-> ->]. rewrite (f_hx F), (f_hy F), (f_nx F), (f_ny F), (wc_npinx ulp C W), (wc_npiny ulp C W).
    assert (NS : forall (l : list (list R)) n (g : nat -> nat), length l = n -> (forall k, k < n -> exists v, nth_error l k = Some v /\ length v = g k) -> list_sum (map (@length R) l) = list_sum (map g (seq 0 n))).
    { clear. intros l n g L H. f_equal. apply list_eq_nth; [now rewrite !map_length, seq_length|]. intros k a K. assert (k < n) as Hk by (rewrite <- L, <- (map_length (@length R) l); apply nth_error_Some; congruence). destruct (H k Hk) as (v & V & V2).
      rewrite nth_error_map, V in K. rewrite nth_error_map, nth_seq by exact Hk. cbn in *. congruence. }
    split; [|split; [|split]].
    - unfold width. rewrite <- Lx. apply lsum_nth. intros k v K. assert (k < co_nx C) as Hk by (rewrite <- Lx; apply nth_error_Some; congruence). destruct (bottom k ltac:(nia)) as (a & l & r & Ea & El & Wl & H1 & _). rewrite (Kx k Hk), Ea, El in K. injection K as <-. rewrite Ea, <- H1, (wl_hx l Wl), sum_fold. reflexivity.
    - apply (NS lx (co_nx C)); auto. intros k Hk. destruct (bottom k ltac:(nia)) as (a & l & r & Ea & El & Wl & H1 & _). exists (lat_hxv l). rewrite (Kx k Hk), Ea, El. split; [reflexivity|]. unfold as_nx. rewrite El. apply (wl_hxl l Wl).
    - unfold depth. rewrite <- Ly. apply lsum_nth. intros k v K. assert (k < co_ny C) as Hk by (rewrite <- Ly; apply nth_error_Some; congruence). destruct (bottom (k * co_nx C) ltac:(nia)) as (a & l & r & Ea & El & Wl & _ & H1). rewrite (Ky k Hk), Ea, El in K. injection K as <-. rewrite Ea, <- H1, (wl_hy l Wl), sum_fold. reflexivity.
    - apply (NS ly (co_ny C)); auto. intros k Hk. destruct (bottom (k * co_nx C) ltac:(nia)) as (a & l & r & Ea & El & Wl & _ & H1). exists (lat_hyv l). rewrite (Ky k Hk), Ea, El. split; [reflexivity|]. unfold as_ny. rewrite El. apply (wl_hyl l Wl).
  Qed.
  Hypothesis FI : forall p, In p (all_pins C) -> fills areas p.
  Hypothesis CN : forall p, In p (all_pins C) -> length (areas (pin_mesh p)) = pm_nreg (pin_mesh p).

  Lemma sum_flat : forall {A} (f : A -> list R) l, sum (flat_map f l) = lsum (fun a => sum (f a)) l.
  Proof. clear. intros. unfold sum. apply lsum_flat_map. Qed.
  Lemma pins_all : forall iz p, iz < as_nz A0 -> In p (pins_of C iz) -> In p (all_pins C).
  Proof. intros iz p Hz I. destruct (plane_lats_ex ulp C W A0 F0 iz Hz) as (ls & El & _ & _ & H & _). apply H. unfold pins_of in I. now rewrite El in I. Qed.
  Lemma plane_sum : forall iz h, iz < as_nz A0 -> sum (flat_map (pin_volumes areas h) (pins_of C iz)) = (cm_hx M * cm_hy M * h)%R.
  Proof. intros iz h Hz. rewrite volumes_sum, (plane_area areas ulp C W A0 F0 LU FI iz Hz), (f_hx facts), (f_hy facts). reflexivity. Qed.
  Lemma plane_regs : forall iz h, iz < as_nz A0 -> length (flat_map (pin_volumes areas h) (pins_of C iz)) = regs_of C iz.
  Proof.
    intros iz h Hz. rewrite volumes_count by (intros p I; apply CN; apply (pins_all iz p Hz I)). destruct (plane_lats_ex ulp C W A0 F0 iz Hz) as (ls & El & _ & Wl & _). unfold pins_of, regs_of. rewrite El.
    clear -Wl. induction ls as [|l ls IH]; [reflexivity|]. cbn [flat_map map]. change (list_sum (?a :: ?b)) with (a + list_sum b). rewrite map_app, list_sum_app, IH by (intros; apply Wl; now right). now rewrite (wl_nreg l (Wl l (or_introl eq_refl))).
  Qed.
  Lemma nth_list_sum : forall {A} (f : A -> nat) l, list_sum (map f l) = list_sum (map (fun k => match nth_error l k with Some a => f a | None => 0 end) (seq 0 (length l))).
  Proof.
    clear. intros A f l. f_equal. apply list_eq_nth; [now rewrite !map_length, seq_length|]. intros k a K. rewrite nth_error_map in *. destruct (nth_error l k) as [x|] eqn:Ex; [|discriminate].
    rewrite nth_seq by (apply nth_error_Some; congruence). cbn in *. now rewrite Ex.
  Qed.
  Lemma nreg_true : cm_nreg M = list_sum (map (regs_of C) (seq 0 (as_nz A0))).
  Proof.
    rewrite (f_nreg facts). rewrite (map_ext_in as_nreg (fun A => list_sum (map (fun iz => match nth_error (as_lats A) iz with Some l => lat_nreg l | None => 0 end) (seq 0 (as_nz A0))))).
    - rewrite list_sum_swap. f_equal. apply map_ext_in. intros iz I. apply in_seq in I. destruct (plane_lats_ex ulp C W A0 F0 iz ltac:(lia)) as (ls & El & Ln & _ & _ & N). unfold regs_of. rewrite El, (nth_list_sum lat_nreg ls), Ln.
      rewrite nth_list_sum, (wc_len ulp C W). f_equal. apply map_ext. intros k. rewrite N. unfold lat_of. destruct (nth_error (co_asys C) k); reflexivity.
    - intros A I. pose proof (wc_asy ulp C W A I) as WA. destruct (wc_stack ulp C W A0 F0 A I) as (N & _ & _). rewrite (wa_nreg A WA), nth_list_sum, (wa_len A WA). do 3 f_equal. congruence.
  Qed.
  Lemma regs_plane : forall sub z, (forall n, In n sub -> 1 <= n) -> z + list_sum sub <= as_nz A0 ->
    macro_regs (sc_planes (cm_scan M)) (sc_uid (cm_scan M)) z sub = Some (list_sum (map (fun i => regs_of C (z + before sub i)) (seq 0 (length sub)))).
  Proof.
    induction sub as [|n sub IH]; intros z Hn Hz; [reflexivity|]. cbn [macro_regs]. change (list_sum (n :: sub)) with (n + list_sum sub) in Hz. pose proof (Hn n (or_introl eq_refl)) as Hn1.
    destruct (C62_unique_planes ulp C A0 (cm_scan M) W F0 IDS (f_scan facts)) as (_ & U & _). destruct (U z ltac:(lia)) as (ls & P & u & Q & _ & _ & _ & Eu & EQ & _ & _ & _ & Nr & _). rewrite Eu, EQ.
    rewrite IH by (try lia; intros; apply Hn; now right). cbn [length seq map]. change (list_sum (?a :: ?b)) with (a + list_sum b). rewrite Nr. do 2 f_equal.
    - f_equal. unfold before. cbn. lia.
    - rewrite <- seq_shift, map_map. f_equal. apply map_ext. intros i. rewrite before_cons. f_equal. lia.
  Qed.
  Lemma heights_len : length (cm_heights M) = length (as_sub A0) /\ sum (cm_heights M) = cm_hz M.
  Proof.
    pose proof facts as F. pose proof (wc_asy ulp C W A0 (nth_error_In _ _ F0)) as WA. destruct (heights_spec (as_sub A0) (as_dz A0)) as (h & Eh & Lh & _ & Sh). { rewrite (wa_sub A0 WA), (wa_dz A0 WA). reflexivity. }
    assert (h = cm_heights M) by (rewrite (f_h F) in Eh; congruence). subst h. split; [exact Lh|]. rewrite <- sum_fold, fold_sum, Sh, (f_hz F), (wa_dz A0 WA). reflexivity.
  Qed.
  Lemma macros_heights : (forall n, In n (as_sub A0) -> 1 <= n) -> map mp_height (cm_macros M) = cm_heights M.
  Proof.
    intros Hn. destruct heights_len as [Lh _]. destruct (C61_macroplanes ulp C A0 M W F0 IDS Hn E) as (_ & Lm & Nm & _). apply list_eq_nth; [rewrite map_length; congruence|]. intros k a K. rewrite nth_error_map in K.
    destruct (nth_error (cm_macros M) k) as [m|] eqn:Em; [|discriminate]. injection K as <-. assert (k < length (as_sub A0)) as Hk by (rewrite <- Lm; apply nth_error_Some; congruence).
    destruct (nth_error (as_sub A0) k) as [n|] eqn:En; [|apply nth_error_None in En; lia]. destruct (Nm k n En) as (m' & u & Em' & _ & _ & _ & Hh & _). congruence.
  Qed.
  Lemma snd_combine : forall (l : list nat) (h : list R), length l = length h -> lsum snd (combine l h) = sum h.
  Proof. clear. unfold sum. induction l as [|a l IH]; intros [|x h] L; try discriminate; [reflexivity|]. cbn [combine lsum snd]. rewrite IH by (cbn in L; lia). reflexivity. Qed.
  Lemma fst_combine : forall (l : list nat) (h : list R), length l = length h -> map fst (combine l h) = l.
  Proof. clear. induction l as [|a l IH]; intros [|x h] L; try discriminate; [reflexivity|]. cbn [combine map fst]. rewrite IH by (cbn in L; lia). reflexivity. Qed.
  Lemma floor_below : (forall n, In n (as_sub A0) -> 1 <= n) -> forall q, In q (floors 0 (as_sub A0) (cm_heights M)) -> fst q < as_nz A0.
  Proof.
    intros Hn [z h] I. unfold floors in I. apply in_combine_l in I. apply in_map_iff in I. destruct I as (i & <- & I). apply in_seq in I. cbn [fst Nat.add]. pose proof (wc_asy ulp C W A0 (nth_error_In _ _ F0)) as WA.
    destruct (nth_error (as_sub A0) i) as [n|] eqn:En; [|apply nth_error_None in En; lia]. pose proof (Hn n (nth_error_In _ _ En)). rewrite <- (wa_sub A0 WA). pose proof (before_bound (as_sub A0) i n 0 En ltac:(lia)). lia.
  Qed.
  Lemma lsum_const : forall {A} (f : A -> R) (g : A -> R) c l, (forall a, In a l -> f a = (c * g a)%R) -> lsum f l = (c * lsum g l)%R.
  Proof. clear. intros A f g c l H. rewrite Rmult_comm, <- lsum_scal. apply lsum_ext. intros a I. rewrite (H a I). lra. Qed.
End Mesh.

Lemma cell_sum : forall nx ny nz dx dy dz, 0 < nx -> 0 < ny -> length dx = nx -> length dy = ny -> length dz = nz ->
  exists v, all_some (map (pin_volume nx ny dx dy dz) (seq 0 (nx * ny * nz))) = Some v /\ length v = nx * ny * nz /\ sum v = (sum dx * sum dy * sum dz)%R /\
  forall x y z, x < nx -> y < ny -> z < nz -> nth_error v (nx * ny * z + nx * y + x) = Some (nth x dx 0 * nth y dy 0 * nth z dz 0)%R.
Proof.
  intros nx ny nz dx dy dz Nx Ny Lx Ly Lz. set (V := fun i => (nth (i mod nx) dx 0 * nth (i mod (nx * ny) / nx) dy 0 * nth (i / (nx * ny)) dz 0)%R).
  exists (map V (seq 0 (nx * ny * nz))). split.
  - apply all_some_spec. rewrite map_map. apply map_ext_in. intros i I. apply in_seq in I. unfold pin_volume. destruct (Nat.eqb_spec nx 0); [lia|]. destruct (Nat.eqb_spec ny 0); [lia|]. cbn [orb].
    assert (i mod nx < nx) as H1 by (apply Nat.mod_upper_bound; lia). assert (i mod (nx * ny) / nx < ny) as H2 by (apply Nat.div_lt_upper_bound; [lia|]; apply Nat.mod_upper_bound; nia). assert (i / (nx * ny) < nz) as H3 by (apply Nat.div_lt_upper_bound; nia).
    rewrite (nth_error_nth' dx 0%R) by lia. rewrite (nth_error_nth' dy 0%R) by lia. rewrite (nth_error_nth' dz 0%R) by lia. reflexivity.
  - split; [now rewrite map_length, seq_length|].
    assert (TL : forall l, sum l = rsum (fun k => nth k l 0%R) (length l)) by (intros l; unfold sum; apply lsum_nth; intros k a K; symmetry; apply (nth_error_nth _ _ 0%R K)).
    assert (DM : forall n x y, x < n -> (y * n + x) mod n = x /\ (y * n + x) / n = y) by (intros n x y H; split; [symmetry; apply (Nat.mod_unique _ _ y x); lia|symmetry; apply (Nat.div_unique _ _ y x); lia]).
    assert (VV : forall x y z, x < nx -> y < ny -> z < nz -> V (nx * ny * z + nx * y + x) = (nth x dx 0 * nth y dy 0 * nth z dz 0)%R).
    { intros x y z X Y Z. unfold V. assert (Q0 : nx * y + x < nx * ny) by nia. destruct (DM (nx * ny) (nx * y + x) z Q0) as [Q1 Q2]. destruct (DM nx x y X) as [Q3 Q4]. destruct (DM nx x (ny * z + y) X) as [Q5 _].
      replace (nx * ny * z + nx * y + x) with (z * (nx * ny) + (nx * y + x)) by ring. rewrite Q1, Q2. replace (nx * y + x) with (y * nx + x) by ring. rewrite Q4. replace (z * (nx * ny) + (y * nx + x)) with ((ny * z + y) * nx + x) by ring. rewrite Q5. reflexivity. }
    split.
    + unfold sum at 1. rewrite lsum_map. rewrite (grid_sum (nx * ny) V (fun i => (nth (i mod nx) dx 0 * nth (i / nx) dy 0)%R) (fun z => nth z dz 0%R) nz); [|apply seq_length|].
      * rewrite (TL dz), Lz. f_equal. rewrite rsum_lsum. rewrite (grid_sum nx _ (fun x => nth x dx 0%R) (fun y => nth y dy 0%R) ny); [rewrite !TL, Lx, Ly; reflexivity|apply seq_length|].
        intros x y p X Y K. rewrite nth_seq in K by nia. injection K as <-. cbn [Nat.add]. destruct (DM nx x y X) as [-> ->]. reflexivity.
      * intros x z p X Z K. rewrite nth_seq in K by nia. injection K as <-. cbn [Nat.add]. assert (x / nx < ny) as H1 by (apply Nat.div_lt_upper_bound; lia). assert (x mod nx < nx) as H2 by (apply Nat.mod_upper_bound; lia).
        rewrite <- (VV (x mod nx) (x / nx) z H2 H1 Z). f_equal. pose proof (Nat.div_mod x nx ltac:(lia)). nia.
    + intros x y z X Y Z. assert (Q0 : nx * y + x < nx * ny) by nia. assert (Q1 : nx * ny * z + (nx * ny) <= nx * ny * nz) by (replace (nx * ny * z + nx * ny) with (nx * ny * S z) by ring; apply Nat.mul_le_mono_l; lia). rewrite nth_error_map, nth_seq by lia. cbn [option_map Nat.add]. now rewrite (VV x y z X Y Z).
Qed.

(** C80.  In an accepted core whose lattices line up and whose pins' regions fill their cells, every treatment of the mesh
    gives one volume per region, and the volumes add up to the volume of the core. *)
Theorem C80_volumes : forall areas ulp C A0 M, wf_core ulp C -> nth_error (co_asys C) 0 = Some A0 -> ids_identify (all_pins C) (all_pins C) -> lined_up C ->
  (forall n, In n (as_sub A0) -> 1 <= n) -> make_core_mesh ulp C = Got M ->
  (forall p, In p (all_pins C) -> fills areas p /\ length (areas (pin_mesh p)) = pm_nreg (pin_mesh p)) ->
  forall t, exists v, volumes areas M t = Some v /\ n_reg M t = Some (length v) /\ sum v = (cm_hx M * cm_hy M * cm_hz M)%R.
Proof.
  intros areas ulp C A0 M W F0 IDS LU Hn E FC t.
  assert (FI : forall p, In p (all_pins C) -> fills areas p) by (intros p I; apply FC, I). assert (CN : forall p, In p (all_pins C) -> length (areas (pin_mesh p)) = pm_nreg (pin_mesh p)) by (intros p I; apply FC, I). clear FC.
  pose proof (facts ulp C W A0 F0 M E) as F. pose proof (wc_asy ulp C W A0 (nth_error_In _ _ F0)) as WA. destruct (heights_len ulp C W A0 F0 M E) as [Lh Sh].
  destruct (dx_facts ulp C W A0 F0 M E) as (Sx & Lx & Sy & Ly).
  destruct t.
  - eexists. split; [apply (vol_true areas ulp C W A0 F0 IDS LU M E)|]. split.
    + cbn [n_reg]. f_equal. rewrite (nreg_true ulp C W A0 F0 M E), flat_length. f_equal. apply map_ext_in. intros iz I. apply in_seq in I. symmetry. apply (plane_regs areas ulp C W A0 F0 CN). lia.
    + rewrite sum_flat, (lsum_const _ (fun iz => nth iz (as_dz A0) 0%R) (cm_hx M * cm_hy M)%R), <- rsum_lsum, (f_hz _ _ _ _ F); [reflexivity|]. intros iz I. apply in_seq in I. apply (plane_sum areas ulp C W A0 F0 LU M E FI). lia.
  - eexists. split; [apply (vol_plane areas ulp C W A0 F0 IDS LU M E Hn)|]. split.
    + cbn [n_reg]. rewrite (f_sub _ _ _ _ F), (regs_plane ulp C W A0 F0 IDS M E) by (auto; rewrite (wa_sub A0 WA); lia). f_equal. rewrite flat_length.
      transitivity (list_sum (map (regs_of C) (map fst (floors 0 (as_sub A0) (cm_heights M))))).
      * unfold floors. f_equal. rewrite fst_combine by (rewrite map_length, seq_length; auto). now rewrite map_map.
      * rewrite map_map. f_equal. apply map_ext_in. intros q I. symmetry. apply (plane_regs areas ulp C W A0 F0 CN). apply (floor_below ulp C W A0 F0 M Hn q I).
    + rewrite sum_flat, (lsum_const _ snd (cm_hx M * cm_hy M)%R); [|intros q I; apply (plane_sum areas ulp C W A0 F0 LU M E FI), (floor_below ulp C W A0 F0 M Hn q I)].
      unfold floors. rewrite snd_combine, Sh by (rewrite map_length, seq_length; auto). reflexivity.
  - pose proof (per_pos ulp C W A0 F0) as PP. destruct (cell_sum (cm_nx M) (cm_ny M) (cm_nz M) (cm_dx M) (cm_dy M) (cm_dz M)) as (v & V1 & V2 & V3 & _); auto.
    { rewrite (f_nx _ _ _ _ F). nia. } { rewrite (f_ny _ _ _ _ F). nia. } { rewrite (f_dz _ _ _ _ F), (f_nz _ _ _ _ F). apply (wa_dz A0 WA). }
    exists v. split; [exact V1|]. split; [cbn [n_reg]; now rewrite V2|]. rewrite V3, Sx, Sy. f_equal. rewrite (f_dz _ _ _ _ F), (f_hz _ _ _ _ F), <- sum_fold, fold_sum, (wa_dz A0 WA). reflexivity.
  - cbn [volumes]. eexists. split; [reflexivity|]. unfold pin_plane_volumes. rewrite (macros_heights ulp C W A0 F0 IDS M E Hn). split.
    + cbn [n_reg]. f_equal. rewrite flat_length, (map_ext _ (fun _ => cm_nx M * cm_ny M)).
      * rewrite (f_sub _ _ _ _ F), <- Lh. clear. induction (cm_heights M) as [|h l IH]; [cbn; lia|]. cbn [length map]. change (list_sum (?a :: ?b)) with (a + list_sum b). lia.
      * intros h. rewrite flat_length, <- Lx, <- Ly. rewrite (map_ext _ (fun _ => length (cm_dx M))) by (intros; apply map_length). clear. induction (cm_dy M) as [|y l IH]; [cbn; lia|]. cbn [length map]. change (list_sum (?a :: ?b)) with (a + list_sum b). lia.
    + rewrite sum_flat, (lsum_const _ (fun h => h) (cm_hx M * cm_hy M)%R); [unfold sum in Sh; now rewrite Sh|]. intros h _. rewrite sum_flat, (lsum_const _ (fun y => y) (cm_hx M * h)%R); [unfold sum in Sy; rewrite Sy; lra|].
      intros y _. unfold sum. rewrite lsum_map. rewrite (lsum_const _ (fun x => x) (y * h)%R); [unfold sum in Sx; rewrite Sx; lra|]. intros; lra.
Qed.
Print Assumptions C80_volumes.

Lemma nth_combine : forall {A B} (l : list A) (m : list B) i a b, nth_error l i = Some a -> nth_error m i = Some b -> nth_error (combine l m) i = Some (a, b).
Proof. intros A B. induction l as [|x l IH]; intros [|y m] [|i] a b P Q; cbn in *; try discriminate; [congruence|]. now apply IH. Qed.
Lemma nth_flat : forall {A B} (f : A -> list B) l i j a b, nth_error l i = Some a -> nth_error (f a) j = Some b -> nth_error (flat_map f l) (list_sum (map (fun a => length (f a)) (firstn i l)) + j) = Some b.
Proof.
  intros A B f. induction l as [|x l IH]; intros i j a b Ea Eb; [destruct i; discriminate|]. destruct i as [|i]; cbn [firstn map flat_map].
  - cbn in Ea. injection Ea as ->. rewrite nth_error_app1; [exact Eb|]. apply nth_error_Some. cbn. congruence.
  - change (list_sum (?u :: ?v)) with (u + list_sum v). rewrite nth_error_app2 by lia. rewrite <- (IH i j a b Ea Eb). f_equal. lia.
Qed.
Lemma firstn_seq : forall n k, k <= n -> firstn k (seq 0 n) = seq 0 k.
Proof. intros n k H. replace n with (k + (n - k)) by lia. rewrite seq_app, firstn_app, seq_length, Nat.sub_diag, app_nil_r. apply firstn_all2. rewrite seq_length. lia. Qed.
Lemma pin_at : forall areas h l k p j a, (forall q, In q l -> length (areas (pin_mesh q)) = pm_nreg (pin_mesh q)) -> nth_error l k = Some p -> nth_error (areas (pin_mesh p)) j = Some a ->
  nth_error (flat_map (pin_volumes areas h) l) (regions_before l k + j) = Some (a * h)%R.
Proof.
  intros areas h l k p j a CN Ep Ea. unfold regions_before. replace (firstn k (map (fun q => pm_nreg (pin_mesh q)) l)) with (map (fun q => length (pin_volumes areas h q)) (firstn k l)).
  - apply (nth_flat _ _ k j p); [exact Ep|]. unfold pin_volumes. rewrite nth_error_map, Ea. reflexivity.
  - rewrite firstn_map. apply map_ext_in. intros q I. unfold pin_volumes. rewrite map_length. apply CN. rewrite <- (firstn_skipn k l). apply in_or_app. now left.
Qed.

(** C80: which volume is whose.  Region j of pin k of axial plane iz has its area times the height of the plane; in the
    treatment by macroplanes, region j of pin k of the lowest plane of macroplane i has its area times the macroplane's
    height.  Cell (x, y, z) has width times depth times height, and so has cell (x, y) of a macroplane. *)
Theorem C80_each : forall areas ulp C A0 M, wf_core ulp C -> nth_error (co_asys C) 0 = Some A0 -> ids_identify (all_pins C) (all_pins C) -> lined_up C ->
  (forall n, In n (as_sub A0) -> 1 <= n) -> make_core_mesh ulp C = Got M -> (forall p, In p (all_pins C) -> length (areas (pin_mesh p)) = pm_nreg (pin_mesh p)) ->
  (forall v iz h k p j a, volumes areas M T_TRUE = Some v -> nth_error (as_dz A0) iz = Some h -> nth_error (pins_of C iz) k = Some p -> nth_error (areas (pin_mesh p)) j = Some a ->
     nth_error v (list_sum (map (regs_of C) (seq 0 iz)) + (regions_before (pins_of C iz) k + j)) = Some (a * h)%R) /\
  (forall v i n k p j a, volumes areas M T_PLANE = Some v -> nth_error (as_sub A0) i = Some n -> let iz := before (as_sub A0) i in nth_error (pins_of C iz) k = Some p -> nth_error (areas (pin_mesh p)) j = Some a ->
     nth_error v (list_sum (map (fun m => regs_of C (before (as_sub A0) m)) (seq 0 i)) + (regions_before (pins_of C iz) k + j)) = Some (a * span_height (as_dz A0) iz n)%R) /\
  (forall v x y z, volumes areas M T_PIN = Some v -> x < cm_nx M -> y < cm_ny M -> z < cm_nz M ->
     nth_error v (cm_nx M * cm_ny M * z + cm_nx M * y + x) = Some (nth x (cm_dx M) 0 * nth y (cm_dy M) 0 * nth z (as_dz A0) 0)%R) /\
  (forall v x y i n, volumes areas M T_PIN_PLANE = Some v -> x < cm_nx M -> y < cm_ny M -> nth_error (as_sub A0) i = Some n ->
     nth_error v (cm_nx M * cm_ny M * i + cm_nx M * y + x) = Some (nth x (cm_dx M) 0 * nth y (cm_dy M) 0 * span_height (as_dz A0) (before (as_sub A0) i) n)%R).
Proof.
  intros areas ulp C A0 M W F0 IDS LU Hn E CN. pose proof (facts ulp C W A0 F0 M E) as F. pose proof (wc_asy ulp C W A0 (nth_error_In _ _ F0)) as WA. destruct (heights_len ulp C W A0 F0 M E) as [Lh _].
  destruct (dx_facts ulp C W A0 F0 M E) as (_ & Lx & _ & Ly).
  assert (HH : forall i n, nth_error (as_sub A0) i = Some n -> before (as_sub A0) i < as_nz A0 /\ nth_error (cm_heights M) i = Some (span_height (as_dz A0) (before (as_sub A0) i) n)).
  { intros i n En. destruct (C61_macroplanes ulp C A0 M W F0 IDS Hn E) as (_ & _ & Nm & _). destruct (Nm i n En) as (m & u & _ & Q1 & _ & Q2 & Q3 & _). rewrite Q3, Q2, Q1. split; [|reflexivity].
    pose proof (Hn n (nth_error_In _ _ En)). rewrite <- (wa_sub A0 WA). pose proof (before_bound (as_sub A0) i n 0 En ltac:(lia)). lia. }
  split; [|split; [|split]].
  - intros v iz h k p j a V Eh Ep Ea. rewrite (vol_true areas ulp C W A0 F0 IDS LU M E) in V. injection V as <-. assert (Hz : iz < as_nz A0) by (rewrite <- (wa_dz A0 WA); apply nth_error_Some; congruence).
    pose proof (nth_error_nth _ _ 0%R Eh) as Q. rewrite <- (firstn_seq (as_nz A0) iz) by lia.
    rewrite (map_ext_in (regs_of C) (fun z => length (flat_map (pin_volumes areas (nth z (as_dz A0) 0%R)) (pins_of C z)))).
    + apply (nth_flat (fun z => flat_map (pin_volumes areas (nth z (as_dz A0) 0%R)) (pins_of C z)) _ iz _ iz); [now rewrite nth_seq|]. rewrite Q. apply (pin_at areas h _ k p j a); auto. intros q I. apply CN, (pins_all ulp C W A0 F0 iz q Hz I).
    + intros z I. rewrite firstn_seq in I by lia. apply in_seq in I. symmetry. apply (plane_regs areas ulp C W A0 F0 CN). lia.
  - intros v i n k p j a V En iz Ep Ea. destruct (HH i n En) as [Hz Hh]. fold iz in Hz, Hh. rewrite (vol_plane areas ulp C W A0 F0 IDS LU M E Hn) in V. injection V as <-. set (h := span_height (as_dz A0) iz n) in *.
    assert (Hi : i < length (as_sub A0)) by (apply nth_error_Some; congruence).
    assert (FL : nth_error (floors 0 (as_sub A0) (cm_heights M)) i = Some (iz, h)).
    { unfold floors. apply nth_combine; [|exact Hh]. rewrite nth_error_map, nth_seq by exact Hi. reflexivity. }
    replace (map (fun m => regs_of C (before (as_sub A0) m)) (seq 0 i)) with (map (fun q => length (flat_map (pin_volumes areas (snd q)) (pins_of C (fst q)))) (firstn i (floors 0 (as_sub A0) (cm_heights M)))).
    + apply (nth_flat (fun q => flat_map (pin_volumes areas (snd q)) (pins_of C (fst q))) _ i _ (iz, h)); [exact FL|]. cbn [fst snd]. apply (pin_at areas h _ k p j a); auto. intros q I. apply CN, (pins_all ulp C W A0 F0 iz q Hz I).
    + rewrite (map_ext_in _ (fun q => regs_of C (fst q))).
      * rewrite <- (map_map fst (regs_of C)), <- firstn_map. unfold floors. rewrite fst_combine by (rewrite map_length, seq_length; auto). rewrite firstn_map, firstn_seq by lia. rewrite map_map. reflexivity.
      * intros q I. apply (plane_regs areas ulp C W A0 F0 CN). apply (floor_below ulp C W A0 F0 M Hn q). rewrite <- (firstn_skipn i (floors _ _ _)). apply in_or_app. now left.
  - intros v x y z V X Y Z. cbn [volumes] in V. pose proof (per_pos ulp C W A0 F0) as PP. destruct (cell_sum (cm_nx M) (cm_ny M) (cm_nz M) (cm_dx M) (cm_dy M) (cm_dz M)) as (v' & V1 & _ & _ & V4); try lia; auto.
    { rewrite (f_dz _ _ _ _ F), (f_nz _ _ _ _ F). apply (wa_dz A0 WA). } rewrite V1 in V. injection V as <-. rewrite (V4 x y z X Y Z), (f_dz _ _ _ _ F). reflexivity.
  - intros v x y i n V X Y En. destruct (HH i n En) as [_ Hh]. cbn [volumes] in V. injection V as <-. unfold pin_plane_volumes. rewrite (macros_heights ulp C W A0 F0 IDS M E Hn). set (h := span_height _ _ n) in *.
    assert (RL : forall c d (ys : list R), list_sum (map (fun b => length (map (fun a0 => (a0 * b * c)%R) (cm_dx M))) (firstn d ys)) = cm_nx M * length (firstn d ys)).
    { intros c d ys. generalize (firstn d ys) as l. induction l as [|b l IH]; [cbn; lia|]. cbn [map length]. change (list_sum (?u :: ?w)) with (u + list_sum w). rewrite IH, map_length, Lx. lia. }
    replace (cm_nx M * cm_ny M * i + cm_nx M * y + x) with (list_sum (map (fun h0 => length (flat_map (fun b => map (fun a0 => (a0 * b * h0)%R) (cm_dx M)) (cm_dy M))) (firstn i (cm_heights M))) + (cm_nx M * y + x)).
    + apply (nth_flat (fun h0 => flat_map (fun b => map (fun a0 => (a0 * b * h0)%R) (cm_dx M)) (cm_dy M)) _ i _ h); [exact Hh|].
      assert (Q : nth_error (cm_dy M) y = Some (nth y (cm_dy M) 0%R)) by (apply nth_error_nth'; lia).
      assert (P : nth_error (cm_dx M) x = Some (nth x (cm_dx M) 0%R)) by (apply nth_error_nth'; lia).
      pose proof (nth_flat (fun b => map (fun a0 => (a0 * b * h)%R) (cm_dx M)) (cm_dy M) y x (nth y (cm_dy M) 0%R) (nth x (cm_dx M) 0 * nth y (cm_dy M) 0 * h)%R Q) as N. cbv beta in N. rewrite (RL h y (cm_dy M)), firstn_length, Nat.min_l in N by lia. apply N. rewrite nth_error_map, P. reflexivity.
    + rewrite (map_ext _ (fun _ => cm_nx M * cm_ny M)).
      * assert (Hi : i < length (cm_heights M)) by (apply nth_error_Some; congruence). assert (Q : forall (l : list R), list_sum (map (fun _ => cm_nx M * cm_ny M) l) = cm_nx M * cm_ny M * length l) by (clear; induction l as [|q l IH]; [cbn; lia|]; cbn [map length]; change (list_sum (?u :: ?w)) with (u + list_sum w); rewrite IH; ring).
        rewrite Q, firstn_length, Nat.min_l by lia. lia.
      * intros h0. rewrite flat_length. rewrite <- (firstn_all (cm_dy M)) at 1. rewrite RL, firstn_all, Ly. reflexivity.
Qed.
Print Assumptions C80_each.

(** Two assemblies side by side, two planes in one macroplane; the pins of the upper plane have four regions. *)
Definition asyV : Assembly := mkAsy 7 2 [1%R; 2%R] 2 2 5 2 [2] [latA; latA9].
Definition coreV : Core := mkCore 2 1 2 1 [] [asyV; asyV].
Definition areasV (pm : PinMesh) : list R := if (pm_id pm =? 9)%Z then [1; 1; 1; 1]%R else [4]%R.
Lemma meshV : exists M, make_core_mesh Reqb coreV = Got M /\ cm_hx M = (0 + 2 + 2)%R /\ cm_hy M = (0 + 2)%R /\ cm_hz M = (0 + 1 + 2)%R.
Proof.
  assert (Reqb 2 2 = true) as E2 by (destruct (Reqb_spec 2 2); auto; lra).
  assert (make_plane Reqb [latA; latA] 2 1 = Got (mkPlane [latA; latA] 2 1 2 1 2 2 (psums 0 [2%R; 2%R]) (psums 0 [2%R]) [0; 1] 0 2)) as P1 by exact planeN.
  assert (make_plane Reqb [latA9; latA9] 2 1 = Got (mkPlane [latA9; latA9] 2 1 2 1 8 2 (psums 0 [2%R; 2%R]) (psums 0 [2%R]) [0; 4] 0 2)) as P2.
  { unfold make_plane. cbn -[Reqb size_ok psums]. unfold size_ok. cbn -[Reqb psums]. rewrite E2. reflexivity. }
  unfold make_core_mesh. cbn [co_asys coreV as_nz asyV]. unfold scan_planes. cbn [seq fold_out]. unfold scan_plane at 1. cbn [plane_lats co_asys coreV asyV map as_lats nth_error all_some co_nx co_ny].
  rewrite P1. cbn [find_plane sc_planes length Nat.eqb app]. unfold scan_plane at 1.
  cbn [plane_lats co_asys coreV asyV map as_lats nth_error all_some co_nx co_ny]. rewrite P2.
  cbn -[psums Rplus]. eexists. repeat split.
Qed.
Example C80_instance : exists M v w, make_core_mesh Reqb coreV = Got M /\ wf_core Reqb coreV /\ ids_identify (all_pins coreV) (all_pins coreV) /\ lined_up coreV /\
  (forall p, In p (all_pins coreV) -> fills areasV p /\ length (areasV (pin_mesh p)) = pm_nreg (pin_mesh p)) /\
  volumes areasV M T_TRUE = Some v /\ length v = 10 /\ nth_error v 9 = Some (1 * 2)%R /\ volumes areasV M T_PLANE = Some w /\ length w = 2 /\ sum w = (4 * 2 * 3)%R.
Proof.
  destruct meshV as (M & E & Hx & Hy & Hz).
  assert (W : wf_core Reqb coreV).
  { constructor; cbn; auto.
    - intros A [<- | [<- | []]]; (constructor; cbn; auto; [intros L [<- | [<- | []]]; auto using wf_A, wf_A9|intros L K [<- | [<- | []]] [<- | [<- | []]]; cbn; repeat split]).
    - intros A0 [= <-] A [<- | [<- | []]]; (split; auto; split; auto; intros k u v Eu Ev; assert (u = v) by congruence; subst; destruct (Reqb_spec v v); auto). }
  assert (IDS : ids_identify (all_pins coreV) (all_pins coreV)).
  { intros p q P Q. cbn in P, Q. destruct P as [<- | [<- | [<- | [<- | []]]]]; destruct Q as [<- | [<- | [<- | [<- | []]]]]; cbn; auto; intros; discriminate. }
  assert (LU : lined_up coreV).
  { intros X Y L A B HX HY EL EA EB. cbn in HX, HY. assert (Y = 0) by lia. subst. destruct X as [|[|X]]; [| |lia]; cbn in EL, EA, EB; injection EL as <-; injection EA as <-; injection EB as <-; auto. }
  assert (FC : forall p, In p (all_pins coreV) -> fills areasV p /\ length (areasV (pin_mesh p)) = pm_nreg (pin_mesh p)).
  { intros p P. cbn in P. destruct P as [<- | [<- | [<- | [<- | []]]]]; (split; [unfold fills, sum, areasV; cbn; lra|reflexivity]). }
  assert (Hn : forall n, In n (as_sub asyV) -> 1 <= n) by (intros n [<- | []]; lia).
  destruct (C80_volumes areasV Reqb coreV asyV M W eq_refl IDS LU Hn E FC T_TRUE) as (v & V1 & V2 & _). destruct (C80_volumes areasV Reqb coreV asyV M W eq_refl IDS LU Hn E FC T_PLANE) as (w & W1 & W2 & W3).
  destruct (C80_each areasV Reqb coreV asyV M W eq_refl IDS LU Hn E (fun p I => proj2 (FC p I))) as (T & _).
  exists M, v, w. split; [exact E|]. split; [exact W|]. split; [exact IDS|]. split; [exact LU|]. split; [exact FC|]. split; [exact V1|]. split; [|split; [|split; [|split]]].
  - cbn [n_reg] in V2. rewrite (f_nreg _ _ _ _ (facts Reqb coreV W asyV eq_refl M E)) in V2. cbn in V2. congruence.
  - apply (T v 1 2%R 1 pin9 3 1%R V1); reflexivity.
  - exact W1.
  - rewrite (vol_plane areasV Reqb coreV W asyV eq_refl IDS LU M E Hn) in W1. injection W1 as <-. rewrite flat_length. unfold floors. destruct (heights_len Reqb coreV W asyV eq_refl M E) as [Lh _]. destruct (cm_heights M) as [|h [|]]; try discriminate. reflexivity.
  - rewrite W3, Hx, Hy, Hz. lra.
Qed.

(** C80 refuted for lattices that do not line up: two assemblies of equal size, one with a single pin and one with 2 x 2
    pins, make an accepted core with five pins in a plane of supposedly 1 x 3; the fourth pin's plane height is read past
    the end of the list of heights. *)
Definition asy1 : Assembly := mkAsy 1 1 [1%R] 2 2 1 1 [1] [latA].
Definition asy2 : Assembly := mkAsy 2 1 [1%R] 2 2 4 4 [1] [latB].
Theorem C80_unaligned_refuted : exists bcs C M, make_core Reqb [(1%Z, asy1); (2%Z, asy2)] 1 2 bcs [2; 1]%Z = Got C /\ make_core_mesh Reqb C = Got M /\
  (forall areas, volumes areas M T_TRUE = None).
Proof.
  assert (R2 : Reqb 2 2 = true) by (destruct (Reqb_spec 2 2); auto; lra). assert (R1 : Reqb 1 1 = true) by (destruct (Reqb_spec 1 1); auto; lra).
  exists (repeat (Some VACUUM) 6), (mkCore 1 2 1 3 (repeat VACUUM 6) [asy1; asy2]).
  assert (EC : make_core Reqb [(1%Z, asy1); (2%Z, asy2)] 1 2 (repeat (Some VACUUM) 6) [2; 1]%Z = Got (mkCore 1 2 1 3 (repeat VACUUM 6) [asy1; asy2])).
  { unfold make_core. change (u32 1) with 1%Z. change (u32 2) with 2%Z. change (u32 (1 * 2)) with 2%Z. change (Z.to_nat 1) with 1. change (Z.to_nat 2) with 2. cbn -[Reqb]. rewrite R1. reflexivity. }
  assert (EP : make_plane Reqb [latA; latB] 1 2 = Got (mkPlane [latA; latB] 1 2 1 3 5 5 (psums 0 [2%R]) (psums 0 [2%R; 2%R]) [0; 1] 0 5)).
  { unfold make_plane. cbn -[Reqb size_ok psums]. unfold size_ok. cbn -[Reqb psums]. rewrite R2. reflexivity. }
  assert (EM : exists M, make_core_mesh Reqb (mkCore 1 2 1 3 (repeat VACUUM 6) [asy1; asy2]) = Got M /\ cm_dz M = [1%R] /\ cm_nx M = 1 /\ cm_ny M = 3 /\ sc_pins (cm_scan M) = [pin2; pin1; pin1; pin1; pin1]).
  { unfold make_core_mesh. cbn [co_asys as_nz asy1]. unfold scan_planes. cbn [seq fold_out]. unfold scan_plane at 1. cbn [plane_lats co_asys map as_lats asy1 asy2 nth_error all_some co_nx co_ny].
    rewrite EP. cbn -[psums Rplus]. eexists. repeat split. }
  destruct EM as (M & E & D & Nx & Ny & P). exists M. split; [exact EC|]. split; [exact E|]. intros areas. cbn [volumes]. rewrite D, Nx, Ny, P. reflexivity.
Qed.
Print Assumptions C80_unaligned_refuted.
