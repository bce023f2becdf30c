(** Property theorems for finding the region at a point: C79. *)
From Coq Require Import Reals ZArith List Bool Lia Lra Psatz.
From Verif Require Import RUtil McModel McProofs ListUtil StdAlg StdAlgProofs GeomModel TallyProofs MeshModel MatModel MatProps CoreModel CoreProofs BcProofs LatProps PlaneProps EquivProps AsmModel AsmProps CoreMapProps BcModel AngModel MacroProps HistModel LocProps PmModel PmProps RayTrModel RegModel.
Import ListNotations.
Local Open Scope nat_scope.

(** Specification: the region that holds a point is the first region of the pin plus the region of the pin mesh in which the
    point, taken from the pin's centre, lies. *)
Definition holds_point (geo : PinMesh -> Geo) (p : Pin) (first : nat) (cx cy px py : R) (i : Z) : Prop :=
  exists r, pin_find (geo (pin_mesh p)) {| ptx := px - cx; pty := py - cy |} = RIdx r /\ i = (Z.of_nat first + r)%Z.
(** Specification: the shape given to a mesh is as wide and as high as the mesh. *)
Definition square_of (g : Geo) (pm : PinMesh) : Prop :=
  match g with GRect r => rp_pitch r = pm_px pm /\ rp_pitch r = pm_py pm | GCyl c => cp_pitch c = pm_px pm /\ cp_pitch c = pm_py pm end.
Lemma find_outside : forall g pm q, square_of g pm -> (pm_px pm / 2 < Rabs (ptx q) \/ pm_py pm / 2 < Rabs (pty q))%R -> pin_find g q = RIdx (-1).
Proof.
  intros [r|c] pm q [S1 S2] O; cbn [pin_find]; [unfold rect_find_reg; rewrite S1|unfold cyl_find_reg; rewrite S1]; rewrite <- S1 in *; [rewrite <- S2 in O|rewrite <- S2 in O].
  - destruct (Rltb_spec (0.5 * rp_pitch r) (Rabs (ptx q))); [reflexivity|]. destruct (Rltb_spec (0.5 * rp_pitch r) (Rabs (pty q))); [reflexivity|]. lra.
  - destruct (Rltb_spec (0.5 * cp_pitch c) (Rabs (ptx q))); [reflexivity|]. destruct (Rltb_spec (0.5 * cp_pitch c) (Rabs (pty q))); [reflexivity|]. lra.
Qed.
(** C79, what holds: the plane and the pin are found, and with them the first region; but the region within the pin is asked for
    at the centre of the pin in the coordinates of the core, wherever in the pin the point is. *)
Theorem C79_pin_partial : forall ulp C A0 M geo, wf_core ulp C -> nth_error (co_asys C) 0 = Some A0 -> ids_identify (all_pins C) (all_pins C) -> ulp_sound ulp ->
  (Z.of_nat (co_nx C) < 2 ^ 32 - 1)%Z -> (Z.of_nat (co_ny C) < 2 ^ 32 - 1)%Z -> make_core_mesh ulp C = Got M -> spaced (cm_zv M) ->
  forall iz ls P X Y L A B x y p px py pz, iz < as_nz A0 -> plane_lats (co_asys C) iz = Some ls -> make_plane ulp ls (co_nx C) (co_ny C) = Got P -> wide_plane P ->
  (forall l, In l ls -> wide l /\ (0 <= lat_hx l)%R /\ (0 <= lat_hy l)%R /\ (Z.of_nat (lat_nx l) < 2 ^ 32 - 1)%Z /\ (Z.of_nat (lat_ny l) < 2 ^ 32 - 1)%Z) ->
  X < co_nx C -> Y < co_ny C -> pl_at P X Y = Some L -> pl_at P X 0 = Some A -> pl_at P 0 Y = Some B ->
  lat_at L x y = Some p -> x < lat_nx L -> y < lat_ny L ->
  let cx := (lat_left P X + col_start L x + pm_px (pin_mesh p) / 2)%R in let cy := (lat_bottom P Y + row_start L y + pm_py (pin_mesh p) / 2)%R in
  inside (lat_left P X) (lat_hx A) px true -> inside (lat_bottom P Y) (lat_hy B) py true ->
  inside (col_start L x) (pm_px (pin_mesh p)) (px - lat_left P X) true -> inside (row_start L y) (pm_py (pin_mesh p)) (py - lat_bottom P Y) true ->
  enters (cm_zv M) iz pz false -> ~ In pz (cm_zv M) ->
  exists k, nth_error (pins_of C iz) k = Some p /\ pin_position P k = Some (before (colpins P) X + x, before (rowpins P) Y + y) /\
    let first := list_sum (map (regs_of C) (seq 0 iz)) + regions_before (pins_of C iz) k in
    region_at_point ulp geo M px py pz = match pin_find (geo (pin_mesh p)) {| ptx := cx; pty := cy |} with RIdx r => RpVal (Z.of_nat first + r) | RAssert => RpAssert end /\
    (square_of (geo (pin_mesh p)) (pin_mesh p) -> (pm_px (pin_mesh p) / 2 < cx \/ pm_py (pin_mesh p) / 2 < cy)%R -> region_at_point ulp geo M px py pz = RpVal (Z.of_nat first - 1)).
Proof.
  intros ulp C A0 M geo W F0 IDS U Zx Zy E SPZ iz ls P X Y L A B x y p px py pz Hz EL EP WP HL HX HY PL PA PB Ep Hx Hy cx cy I1 I2 I3 I4 EZ NZ.
  unfold make_core_mesh in E. destruct (co_asys C) as [|a0 rest] eqn:Ea; [discriminate|]. rewrite <- Ea in *. assert (a0 = A0) by (rewrite Ea in F0; cbn in F0; congruence). subst a0.
  pose proof (wc_asy ulp C W A0 (nth_error_In _ _ F0)) as WA.
  destruct (reads (co_asys C) as_hx _) as [wx|]; [|discriminate]. destruct (reads (co_asys C) as_hy _) as [wy|]; [|discriminate].
  destruct (scan_planes ulp C (as_nz A0)) as [s| |] eqn:Es; try discriminate.
  destruct (row_widths C) as [dx|] eqn:RW; [|discriminate]. destruct (col_heights C) as [dy|] eqn:CH; [|discriminate]. destruct (macro_heights _ _) as [hh|]; [|discriminate].
  destruct (make_macros _ _ _ _ _ _ _) as [ms|]; [|discriminate]. destruct (macro_index _ _ _) as [mi|]; [|discriminate]. injection E as <-. cbn [cm_zv cm_xv cm_yv cm_nz cm_scan] in *.
  destruct (C62_unique_planes ulp C A0 s W F0 IDS Es) as (_ & UP & _). destruct (UP iz Hz) as (ls' & P' & u & Q & E1 & E2 & E3 & E4 & E5 & E6 & _ & _ & _ & E7).
  assert (ls' = ls) by congruence. subst ls'. assert (P' = P) by congruence. subst P'. clear UP.
  pose proof (wc_nx ulp C W) as Nx. pose proof (wc_ny ulp C W) as Ny. destruct (plane_lats_ex ulp C W A0 F0 iz Hz) as (ls' & E1' & LL & WL & _ & _). assert (ls' = ls) by congruence. subst ls'. clear E1'.
  destruct (C58_plane_lookup ulp ls (co_nx C) (co_ny C) P Nx Ny LL Zx Zy) with (X := X) (Y := Y) (L := L) (A := A) (B := B) (x := x) (y := y) (p := p) (px := px) (py := py) (f := list_sum (map (regs_of C) (seq 0 iz))) (posx := true) (posy := true) as (k & mx & my & _ & K2 & K3 & K4 & Kx & Ky); auto.
  assert (PO : pins_of C iz = flat_map lat_pins ls) by (unfold pins_of; rewrite EL; reflexivity). destruct (fp_equiv_sound ulp U) as [FE1 FE2].
  exists k. rewrite PO. split; [exact K2|]. split; [exact K3|]. set (first := list_sum (map (regs_of C) (seq 0 iz)) + regions_before (flat_map lat_pins ls) k).
  match goal with |- ?a = _ /\ _ => assert (RE : a = match pin_find (geo (pin_mesh p)) {| ptx := cx; pty := cy |} with RIdx r => RpVal (Z.of_nat first + r) | RAssert => RpAssert end) end.
  { unfold region_at_point. cbn [cm_zv cm_nz cm_scan].
    rewrite (C107_plane (fp_equiv ulp) (psums 0 (as_dz A0)) (as_nz A0) pz 0 iz); auto; [|rewrite psums_length, (wa_dz A0 WA); lia|destruct (Rltb_spec 0 0); [lra|exact EZ]].
    unfold zat. destruct (Z.ltb_spec (Z.of_nat iz) 0); [lia|]. rewrite !Nat2Z.id, E7, E4, E5, E6, K4. fold cx in Kx. fold cy in Ky. rewrite Kx, Ky. unfold shift. destruct (pin_find _ _); reflexivity. }
  split; [exact RE|]. intros SQ O. rewrite RE, (find_outside _ _ _ SQ); [f_equal; lia|]. cbn [ptx pty].
  destruct O as [O|O]; [left|right]; (eapply Rlt_le_trans; [exact O|apply Rle_abs]).
Qed.
Print Assumptions C79_pin_partial.
(** C79 refuted: two assemblies of one pin of one region each, side by side.  A point in the second pin, which is region 1, is
    said to be in region 0. *)
Theorem C79_region_refuted : exists M r, make_core_mesh Reqb coreN = Got M /\ rect_ctor 0 2 1 1 = PVal r /\ square_of (GRect r) (pin_mesh pin2) /\
  holds_point (fun _ => GRect r) pin2 1 3 1 (13/4) (5/4) 1 /\ region_at_point Reqb (fun _ => GRect r) M (13/4) (5/4) (1/2) = RpVal 0.
Proof.
  destruct meshN as (M & E & EX & EY & EZ & _). exists M. pose proof FUZZ_pos as F.
  assert (SZ : spaced (cm_zv M)).
  { rewrite EZ. split; [reflexivity|]. intros [|[|i]] a b A B; cbn in A, B; try discriminate; [|destruct i; discriminate]. injection A as <-. injection B as <-. lra. }
  set (r0 := mkRect 2 1 1 (divisions 2 1) (divisions 2 1) (rect_lines 2 (divisions 2 1) (divisions 2 1)) (repeat (2 / INR 1 * (2 / INR 1))%R (1 * 1))).
  assert (ER : rect_ctor 0 2 1 1 = PVal r0) by (unfold rect_ctor, base_ctor; cbn [Z.ltb Z.compare]; destruct (Rleb_spec 2 0); [lra|]; reflexivity).
  exists r0. split; [exact E|]. split; [exact ER|]. split; [split; reflexivity|]. set (geoN := fun _ : PinMesh => GRect r0). split.
  { exists 0%Z. split; [|reflexivity]. cbn [pin_find geoN].
    apply (proj1 (C94_rect 0 2 1 1 r0 {| ptx := 13/4 - 3; pty := 5/4 - 1 |} ER) 0 0); try reflexivity; cbn [ptx pty]; unfold edge; change (Z.to_nat 1) with 1; cbn [INR]; lra. }
  destruct coreN_ok as [W IDS]. destruct wideN as [WP WL].
  assert (T : forall v, (0 <= v <= 4)%R -> (tol v <= 1/8)%R).
  { intros v V. unfold tol. rewrite Rabs_pos_eq by lra. unfold Rmax. destruct (Rle_dec 1 v); nra. }
  destruct (C79_pin_partial Reqb coreN asyN M geoN W eq_refl IDS Reqb_sound ltac:(reflexivity) ltac:(reflexivity) E SZ 0 [latA; latA] PN 1 0 latA latA latA 0 0 pin2 (13/4)%R (5/4)%R (1/2)%R ltac:(cbn; lia) eq_refl planeN WP) as (k & K1 & K0 & _ & K2); auto; cbn [co_nx co_ny coreN lat_nx lat_ny latA]; try lia; try reflexivity.
  all: unfold lat_left, lat_bottom, col_start, row_start in *; cbn [rsum pl_at PN pl_nx pl_lats lats_at nth_error Nat.add Nat.mul lat_hx lat_hy latA pin_mesh pin2 pm_px pm_py] in *.
  all: try match goal with |- inside _ _ ?v _ => left; pose proof (T v ltac:(lra)); lra end.
  - intros l Il. assert (l = latA) as -> by (destruct Il as [<-|[<-|[]]]; reflexivity). split; [exact WL|]. split; [cbn; lra|]. split; [cbn; lra|]. split; reflexivity.
  - rewrite EZ. exists 0%R, (0 + 1)%R. split; [reflexivity|]. split; [reflexivity|]. left. pose proof (T (1/2)%R ltac:(lra)). lra.
  - rewrite EZ. cbn. intros [Q|[Q|[]]]; lra.
  - assert (k = 1 \/ k = 0) as [->| ->] by (assert (k < length (pins_of coreN 0)) by (apply nth_error_Some; congruence); cbn in H; lia).
    + rewrite K2; [reflexivity|split; reflexivity|left; lra].
    + discriminate K0.
Qed.
Print Assumptions C79_region_refuted.
(** The hypotheses of [C79_pin_partial] are met there: see the use of it above; the shape is one find_reg accepts. *)
Example C79_instance : exists M r, make_core_mesh Reqb coreN = Got M /\ square_of (GRect r) (pin_mesh pin2) /\ region_at_point Reqb (fun _ => GRect r) M (13/4) (5/4) (1/2) = RpVal 0.
Proof. destruct C79_region_refuted as (M & r & E & _ & Sq & _ & V). exists M, r. auto. Qed.
