(** C32, C33, C83, C84: coarse ray records and MoC currents. *)
From Coq Require Import List Lia Bool Reals ZArith Lra Psatz.
From Verif Require Import RUtil ListUtil McModel MeshModel MeshSpec MeshProofs StdAlg AngModel BcModel CoreModel CoreProofs MocModel MocProofs CurModel CurProofs.
Import ListNotations.
Open Scope Z_scope.

(** ** C33 *)
(** The steps a direction must be recorded as: all segments of a crossing before its first surface, none before a second. *)
Definition expected (cs : list (Z * list Surface)) : list (Z * Surface) :=
  flat_map (fun c => match snd c with s :: r => (fst c, s) :: map (fun t => (0, t)) r | [] => [] end) cs.
Definition one_or_two (cs : list (Z * list Surface)) : Prop := Forall (fun c => length (snd c) = 1 \/ length (snd c) = 2)%nat cs.

Lemma expected_combine : forall cs, one_or_two cs -> combine (crossing_nsegs cs) (crossing_surfs cs) = expected cs.
Proof.
  intros cs F. induction F as [|[n l] cs H F IH]; [reflexivity|]. unfold crossing_surfs, crossing_nsegs, expected in *. cbn [flat_map fst snd] in *.
  destruct H as [H|H]; destruct l as [|s [|t [|]]]; try discriminate; cbn [length app combine map]; (change (1 <? 1)%nat with false || change (1 <? 2)%nat with true); cbn [app combine]; now rewrite IH.
Qed.
Lemma expected_length : forall cs, one_or_two cs -> length (expected cs) = length (crossing_nsegs cs).
Proof. intros cs H. rewrite <- expected_combine, combine_length, (nsegs_length cs H) by exact H. lia. Qed.
Lemma expected_sum : forall cs, one_or_two cs -> zsum (map fst (expected cs)) = zsum (map fst cs).
Proof.
  intros cs F. induction F as [|[n l] cs H F IH]; [reflexivity|]. unfold expected in *. cbn [flat_map fst snd map zsum] in *. rewrite map_app, zsum_app, IH.
  destruct H as [H|H]; destruct l as [|s [|t [|]]]; try discriminate; cbn; lia.
Qed.

(** Both directions end up recorded exactly as they should be, so their counts add up to the segments of the ray, provided
    every pin crossing has fewer than 256 segments and only one end of the ray is on a corner of the mesh. *)
Theorem C33_records : forall fw bw, one_or_two fw -> one_or_two bw -> Forall (fun c => 0 <= fst c < 256) fw -> Forall (fun c => 0 <= fst c < 256) bw ->
  (length (expected fw) = length (expected bw) \/ (length (expected fw) = S (length (expected bw)) /\ ends_in_corner fw) \/ (length (expected bw) = S (length (expected fw)) /\ ends_in_corner bw)) ->
  exists recs, coarse_records fw bw = Some recs /\ fw_steps recs = expected fw /\ bw_steps recs = expected bw /\
    zsum (map fst (fw_steps recs)) = zsum (map fst fw) /\ zsum (map fst (bw_steps recs)) = zsum (map fst bw) /\ noop_last recs.
Proof.
  intros fw bw Of Ob Rf Rb H. rewrite !expected_length in H by auto. unfold coarse_records.
  destruct (pair_records_spec (crossing_nsegs fw) (crossing_nsegs bw) (crossing_surfs fw) (crossing_surfs bw)) as (r & Er & Ef & Eb);
    [now apply nsegs_length|now apply nsegs_length|now apply nsegs_range|now apply nsegs_range|]. rewrite Er. cbn zeta in *.
  assert (Nl : forall recs, fw_steps recs = expected fw -> bw_steps recs = expected bw -> True) by auto. clear Nl.
  assert (NL : forall recs tail, Forall (fun c => rc_fw c <> None /\ rc_bw c <> None) recs -> (length tail <= 1)%nat -> noop_last (recs ++ tail)).
  { induction recs as [|c recs IH]; intros tail F Lt; [destruct tail as [|t [|]]; cbn in Lt; try lia; cbn; auto|]. inversion F as [|? ? [X Y] F']; subst. cbn [app noop_last]. split; [contradiction|]. split; [contradiction|]. auto. }
  assert (Fr : Forall (fun c => rc_fw c <> None /\ rc_bw c <> None) r).
  { clear - Er. revert Er. generalize (crossing_nsegs fw) as nf, (crossing_nsegs bw) as nb, (crossing_surfs fw) as sf, (crossing_surfs bw) as sb. intros nf. revert r.
    induction nf as [|f nf IH]; intros r [|b nb] sf sb E; cbn [pair_records] in E; try (injection E as <-; constructor). destruct sf as [|s sf], sb as [|t sb]; try discriminate.
    destruct (pair_records nf nb sf sb) as [r'|] eqn:Er; [|discriminate]. injection E as <-. constructor; [cbn; split; discriminate|eauto]. }
  assert (Cf := nsegs_length _ Of). assert (Cb := nsegs_length _ Ob).
  assert (Sum : forall recs, fw_steps recs = expected fw -> bw_steps recs = expected bw -> noop_last recs -> fw_steps recs = expected fw /\ bw_steps recs = expected bw /\
    zsum (map fst (fw_steps recs)) = zsum (map fst fw) /\ zsum (map fst (bw_steps recs)) = zsum (map fst bw) /\ noop_last recs).
  { intros recs E1 E2 N. rewrite E1, E2. rewrite !expected_sum by auto. auto. }
  destruct H as [H|[[H Hc]|[H Hc]]].
  - rewrite H, !Nat.ltb_irrefl. exists r. split; [reflexivity|]. apply Sum.
    + rewrite Ef, H, Nat.min_id, <- expected_combine by auto. apply firstn_all2. rewrite combine_length. lia.
    + rewrite Eb, H, Nat.min_id, <- expected_combine by auto. apply firstn_all2. rewrite combine_length. lia.
    + rewrite <- (app_nil_r r). apply NL; auto.
  - rewrite H. rewrite (proj2 (Nat.ltb_lt _ _)) by lia. destruct (snoc_steps (length (crossing_nsegs bw)) fw Of Hc H) as (s & Hs & Es).
    destruct (rev (crossing_surfs fw)) as [|s' rs]; [discriminate|]. injection Hs as ->. eexists. split; [reflexivity|]. rewrite H in Ef, Eb. rewrite Nat.min_r in Ef, Eb by lia.
    destruct (steps_app r [mkRC (Some s) None 0 0]) as [A B]. apply Sum.
    + rewrite A, Ef, <- expected_combine by auto. rewrite Es at 2. reflexivity.
    + rewrite B, Eb, <- expected_combine by auto. cbn. rewrite app_nil_r. apply firstn_all2. rewrite combine_length. lia.
    + apply NL; auto.
  - rewrite H. rewrite (proj2 (Nat.ltb_ge _ _)) by lia. rewrite (proj2 (Nat.ltb_lt _ _)) by lia. destruct (snoc_steps (length (crossing_nsegs fw)) bw Ob Hc H) as (s & Hs & Es).
    destruct (rev (crossing_surfs bw)) as [|s' rs]; [discriminate|]. injection Hs as ->. eexists. split; [reflexivity|]. rewrite H in Ef, Eb. rewrite Nat.min_l in Ef, Eb by lia.
    destruct (steps_app r [mkRC None (Some s) 0 0]) as [A B]. apply Sum.
    + rewrite A, Ef, <- expected_combine by auto. cbn. rewrite app_nil_r. apply firstn_all2. rewrite combine_length. lia.
    + rewrite B, Eb, <- expected_combine by auto. rewrite Es at 2. reflexivity.
    + apply NL; auto.
Qed.
Print Assumptions C33_records.

Example C33_instance : let fw := [(3, [EAST]); (4, [EAST; NORTH]); (2, [NORTH; EAST])] in let bw := [(2, [WEST; SOUTH]); (4, [WEST]); (3, [SOUTH])] in
  one_or_two fw /\ one_or_two bw /\ length (expected fw) = S (length (expected bw)) /\ ends_in_corner fw /\
  exists recs, coarse_records fw bw = Some recs /\ zsum (map fst (fw_steps recs)) = 9 /\ zsum (map fst (bw_steps recs)) = 9 /\ length recs = 5%nat.
Proof.
  cbn zeta. split; [repeat (apply Forall_cons; [cbn; auto|]); apply Forall_nil|]. split; [repeat (apply Forall_cons; [cbn; auto|]); apply Forall_nil|]. split; [reflexivity|]. split; [exists [(3, [EAST]); (4, [EAST; NORTH])], (2, [NORTH; EAST]); split; reflexivity|].
  eexists. split; [reflexivity|]. repeat split.
Qed.

(** A crossing with 256 or more segments is recorded modulo 256 (the counts are 8-bit fields). *)
Theorem C33_overflow_refuted : exists fw bw recs, one_or_two fw /\ one_or_two bw /\ length fw = length bw /\ coarse_records fw bw = Some recs /\ zsum (map fst (fw_steps recs)) <> zsum (map fst fw).
Proof. exists [(256, [EAST])], [(256, [WEST])]. eexists. split; [repeat constructor|]. split; [repeat constructor|]. split; [reflexivity|]. split; [reflexivity|]. cbn. lia. Qed.
Print Assumptions C33_overflow_refuted.

(** ** C84 *)
(** Current weights carry the ray's weight, W = w pi sin(theta) spacing dz, in the direction of flight. *)
Theorem C84_weights : forall al th w spacing dz, let a := mkAngle (dir_angles al th) w in let W := (w * PI * sin th * spacing * dz)%R in
  let fl := flow (current_weight_x a spacing dz) (current_weight_y a spacing dz) in
  ((0 < cos al)%R -> fl EAST = W /\ fl WEST = (- W)%R) /\ ((cos al < 0)%R -> fl WEST = W /\ fl EAST = (- W)%R) /\ ((0 < sin al)%R -> fl NORTH = W /\ fl SOUTH = (- W)%R).
Proof.
  intros al th w spacing dz a W fl. unfold fl, W, current_weight_x, current_weight_y, a. cbn [flow adir weight dir_angles ox oy alpha].
  split; [|split]; intros H; [rewrite Rabs_right by lra|rewrite Rabs_left by lra|rewrite Rabs_right by lra]; split; field; lra.
Qed.
Print Assumptions C84_weights.

(** Entry face of one direction: the ray comes from outside the mesh, against the flow. *)
Definition entry_ok (m : Mesh) (wx wy W : R) (cell surf : Z) (q : Position) (s : Surface) : Prop :=
  in_mesh m q /\ in_plane s /\ ~ in_mesh m (move q s) /\ flow wx wy s = (- W)%R /\ pz q = 0 /\ cell = coarse_cell m q /\ coarse_surf m cell s = Some surf.
(** The same position in plane [k]. *)
Definition lift (k : Z) (q : Position) : Position := {| px := px q; py := py q; pz := k |}.
Definition visit_sum (psi : list R) (vs : list (Position * Z * Z)) (p : Position) : R :=
  lsum (fun v => if pos_eqb p (fst (fst v)) then psi_z psi (snd v) - psi_z psi (snd (fst v)) else 0)%R vs.

Lemma lift_entry : forall m wx wy W cell surf q s k, mesh_ok m -> 0 <= k < nz m -> entry_ok m wx wy W cell surf q s ->
  in_mesh m (lift k q) /\ cell + nx m * ny m * k = coarse_cell m (lift k q) /\ surf + n_surf_plane m * k = face_index m (face_of (lift k q) s) /\ surface_normal m (surf + n_surf_plane m * k) = surface_to_normal s /\ ~ in_mesh m (move (lift k q) s).
Proof.
  intros m wx wy W cell surf q s k M K (Q & I & O & F & Z0 & -> & S). rewrite coarse_surf_correct in S by auto. injection S as <-. destruct q as [x y z]. cbn in Z0. subst z. unfold in_mesh in *. cbn [lift px py pz] in *.
  assert (E : face_index m (face_of {| px := x; py := y; pz := 0 |} s) + n_surf_plane m * k = face_index m (face_of {| px := x; py := y; pz := k |} s)).
  { destruct s; try contradiction; unfold face_index; cbn [face_of fst snd surface_to_normal px py pz move]; ring. }
  assert (In1 : in_mesh m {| px := x; py := y; pz := k |}) by (unfold in_mesh; cbn; lia).
  split; [lia|]. split; [unfold coarse_cell; cbn; ring|]. split; [exact E|]. split; [|destruct s; try contradiction; cbn in *; lia]. rewrite E. rewrite surface_normal_face; auto using face_of_ok. now destruct s.
Qed.

Lemma visit_sum_hit : forall psi vs p, visit_sum psi vs p = lsum (fun v => hit p (fst (fst v)) * (psi_z psi (snd v) - psi_z psi (snd (fst v))))%R vs.
Proof. intros. unfold visit_sum, hit. apply lsum_ext. intros v _. destruct (pos_eqb _ _); lra. Qed.

(** The currents a ray leaves behind add to the net outflow of every cell exactly what the ray's flux gains in it, in both
    directions, times the ray's weight. *)
Theorem C84_cell_balance : forall m plane wx wy W psi1 psi2 ray qf qb sf sb cur, mesh_ok m -> 0 <= plane < nz m -> length cur = Z.to_nat (n_surf m) ->
  0 <= cr_nseg ray -> length psi1 = S (Z.to_nat (cr_nseg ray)) -> length psi2 = S (Z.to_nat (cr_nseg ray)) -> noop_last (cr_recs ray) ->
  entry_ok m wx wy W (cr_cell_fw ray) (cr_surf_fw ray) qf sf -> entry_ok m wx wy (- W) (cr_cell_bw ray) (cr_surf_bw ray) qb sb ->
  path_ok m wx wy W (cr_nseg ray) 1 (fw_steps (cr_recs ray)) (lift plane qf) 0 -> path_ok m wx wy (- W) (cr_nseg ray) (-1) (bw_steps (cr_recs ray)) (lift plane qb) (cr_nseg ray) ->
  exists cur', post_ray m plane wx wy psi1 psi2 ray cur = Some cur' /\ length cur' = length cur /\
    forall p, in_mesh m p -> outflow m cur' p = (outflow m cur p + W * (visit_sum psi1 (visits 1 (fw_steps (cr_recs ray)) (lift plane qf) 0) p +
      visit_sum psi2 (visits (-1) (bw_steps (cr_recs ray)) (lift plane qb) (cr_nseg ray)) p))%R.
Proof.
  intros m plane wx wy W psi1 psi2 ray qf qb sf sb cur M K L Hn L1 L2 Nl Ef Eb Pf Pb. unfold post_ray. cbn zeta.
  destruct (lift_entry m wx wy W _ _ qf sf plane M K Ef) as (Qf & Cf & Sf & Nf & Of). destruct (lift_entry m wx wy (- W) _ _ qb sb plane M K Eb) as (Qb & Cb & Sb & Nb & Ob).
  destruct Ef as (_ & If & _ & Ff & _). destruct Eb as (_ & Ib & _ & Fb & _). rewrite Nf, Nb, Sf, Sb, Cf, Cb.
  destruct (tally_ok m wx wy 1 psi1 (cr_nseg ray) 0 (lift plane qf) sf cur M Qf If L L1 ltac:(lia)) as (c1 & E1 & Lc1 & O1). rewrite E1.
  destruct (tally_ok m wx wy (-1) psi2 (cr_nseg ray) (cr_nseg ray) (lift plane qb) sb c1 M Qb Ib ltac:(congruence) L2 ltac:(lia)) as (c2 & E2 & Lc2 & O2). rewrite E2.
  destruct (walk_ok m wx wy W psi1 psi2 (cr_nseg ray) (cr_recs ray) (coarse_cell m (lift plane qf)) (coarse_cell m (lift plane qb)) (lift plane qf) (lift plane qb) 0 (cr_nseg ray) c2 M ltac:(congruence) L1 L2 Nl ltac:(now right) ltac:(now right) Pf Pb)
    as (c3 & E3 & L3 & O3).
  exists c3. split; [exact E3|]. split; [congruence|]. intros p P. rewrite O3, O2, O1 by exact P. rewrite !visit_sum_hit.
  rewrite <- (path_visits m wx wy W (cr_nseg ray) psi1 1 _ _ _ p P Pf), <- (path_visits m wx wy (- W) (cr_nseg ray) psi2 (-1) _ _ _ p P Pb). rewrite Ff, Fb.
  assert (H1 : hit p (move (lift plane qf) sf) = 0%R) by (unfold hit; destruct (pos_eqb_spec p (move (lift plane qf) sf)) as [->|]; [contradiction|reflexivity]).
  assert (H2 : hit p (move (lift plane qb) sb) = 0%R) by (unfold hit; destruct (pos_eqb_spec p (move (lift plane qb) sb)) as [->|]; [contradiction|reflexivity]).
  rewrite H1, H2. ring.
Qed.
Print Assumptions C84_cell_balance.

(** What the ray's flux gains between two segment indices is minus what was deposited in the regions in between, so with
    C84_cell_balance the coarse cell balance of CMFD is that of the sweep. *)
Theorem C84_deposits : forall q es psi ds ps a b, track q es psi = Some (ds, ps) -> (a <= b <= length es)%nat ->
  (nth b ps 0 - nth a ps 0 = - lsum snd (firstn (b - a) (skipn a ds)))%R.
Proof.
  intros q. induction es as [|[i e] es IH]; intros psi ds ps a b T H; cbn [track] in T.
  - injection T as <- <-. cbn in H. assert (a = 0 /\ b = 0)%nat as [-> ->] by lia. cbn. lra.
  - destruct (nth_error q i) as [v|]; [|discriminate]. destruct (track q es _) as [[d p]|] eqn:E; [|discriminate]. injection T as <- <-. cbn [length] in H.
    destruct a as [|a].
    + destruct b as [|b]; [cbn; lra|]. cbn [skipn Nat.sub firstn lsum snd nth]. pose proof (IH _ _ _ 0%nat b E ltac:(lia)) as X. rewrite Nat.sub_0_r in X. cbn [skipn] in X.
      destruct (track_shape _ _ _ _ _ E) as (_ & Lp & Hp). destruct p as [|p0 p]; [discriminate|]. cbn in Hp. subst p0. set (nb := nth b _ 0%R) in *. cbn [nth] in X. lra.
    + destruct b as [|b]; [lia|]. cbn [nth skipn Nat.sub]. apply (IH _ _ _ a b E). lia.
Qed.
Print Assumptions C84_deposits.

Example C84_deposits_instance : exists ds ps, track [1; 4]%R [(0%nat, (1 / 2)%R); (1%nat, (1 / 4)%R); (0%nat, (1 / 2)%R)] 3 = Some (ds, ps) /\ (nth 2 ps 0 = 5 / 2)%R /\ (lsum snd (firstn 1 (skipn 1 ds)) = - (1 / 2))%R /\ (0 < cos 1)%R /\ (0 < sin 1)%R.
Proof.
  do 2 eexists. split; [reflexivity|]. cbn. split; [lra|]. split; [lra|]. pose proof PI2_1. split; [apply cos_gt_0|apply sin_gt_0]; lra.
Qed.

Definition cm2 : Mesh := {| nx := 2; ny := 2; nz := 3 |}.
Definition q00 : Position := {| px := 0; py := 0; pz := 0 |}.
Definition q11 : Position := {| px := 1; py := 1; pz := 0 |}.
(** A ray entering cell (0,0) from the west, going east, then leaving north through cells (1,0) and (1,1). *)
Definition cray : CRay := mkCRay 0 3 4 15 6 [mkRC (Some EAST) (Some SOUTH) 2 3; mkRC (Some NORTH) (Some WEST) 1 1; mkRC (Some NORTH) (Some WEST) 3 2].
Example C84_instance : mesh_ok cm2 /\ noop_last (cr_recs cray) /\ entry_ok cm2 1 1 1 0 4 q00 WEST /\ entry_ok cm2 1 1 (- (1)) 3 15 q11 NORTH /\
  path_ok cm2 1 1 1 6 1 (fw_steps (cr_recs cray)) (lift 2 q00) 0 /\ path_ok cm2 1 1 (- (1)) 6 (-1) (bw_steps (cr_recs cray)) (lift 2 q11) 6 /\
  visits 1 (fw_steps (cr_recs cray)) (lift 2 q00) 0 = [(lift 2 q00, 0, 2); ({| px := 1; py := 0; pz := 2 |}, 2, 3); (lift 2 q11, 3, 6)].
Proof.
  unfold mesh_ok, entry_ok, in_mesh. cbn. split; [lia|]. split; [repeat split; discriminate|].
  split; [repeat split; try lia; try reflexivity; try discriminate|]. split; [repeat split; try lia; try reflexivity; try discriminate; lra|].
  split; [repeat split; unfold in_mesh; cbn; try lia; try reflexivity; lra|]. split; [repeat split; unfold in_mesh; cbn; try lia; try reflexivity; lra|]. reflexivity.
Qed.

(** ** C32 *)
Lemma copy_range_spec : forall n dst src (cur : list R), (dst + n <= length cur)%nat -> (src + n <= dst \/ src = dst)%nat ->
  exists c, copy_range dst src n cur = Some c /\ length c = length cur /\
    forall k, nth_error c k = if ((dst <=? k) && (k <? dst + n))%nat then nth_error cur (src + (k - dst))%nat else nth_error cur k.
Proof.
  induction n as [|n IH]; intros dst src cur L H; cbn [copy_range].
  - exists cur. split; [reflexivity|]. split; [reflexivity|]. intros k. destruct (Nat.leb_spec dst k), (Nat.ltb_spec k (dst + 0)); cbn [andb]; try reflexivity; lia.
  - destruct (nth_error cur src) as [v|] eqn:Ev; [|apply nth_error_None in Ev; lia]. destruct (set_nth_lt cur dst v ltac:(lia)) as [c1 E1]. rewrite E1.
    destruct (set_nth_spec _ _ _ _ E1) as (L1 & _ & N1). destruct (IH (S dst) (S src) c1) as (c & E & Lc & N); [lia|lia|]. exists c. split; [exact E|]. split; [lia|].
    intros k. rewrite N, !N1. destruct (Nat.leb_spec (S dst) k), (Nat.ltb_spec k (S dst + n)), (Nat.leb_spec dst k), (Nat.ltb_spec k (dst + S n)); cbn [andb]; try lia; try reflexivity.
    + replace (S src + (k - S dst))%nat with (src + (k - dst))%nat by lia. destruct (Nat.eqb_spec (src + (k - dst)) dst); [|reflexivity]. destruct H; [lia|]. subst src. replace k with dst in * by lia. lia.
    + destruct (Nat.eqb_spec k dst); [lia|reflexivity].
    + destruct (Nat.eqb_spec k dst); [subst k; rewrite Nat.sub_diag, Nat.add_0_r; congruence|lia].
    + destruct (Nat.eqb_spec k dst); [lia|reflexivity].
Qed.

(** Current of a surface. *)
Definition at_z (cur : list R) (k : Z) : option R := nth_error cur (Z.to_nat k).
(** A macroplane index: it starts at 0 and each plane continues its macroplane or starts the next. *)
Definition grouping (mi : list Z) : Prop :=
  (forall ip, nth_error mi 0 = Some ip -> ip = 0) /\ (forall j a b, nth_error mi j = Some a -> nth_error mi (S j) = Some b -> b = a \/ b = a + 1).

Lemma grouping_le : forall mi, grouping mi -> forall j ip, nth_error mi j = Some ip -> 0 <= ip <= Z.of_nat j.
Proof.
  intros mi [G0 G]. induction j as [|j IH]; intros ip E; [rewrite (G0 _ E); lia|].
  destruct (nth_error mi j) as [a|] eqn:Ea; [|apply nth_error_None in Ea; assert (S j < length mi)%nat by (apply nth_error_Some; congruence); lia].
  specialize (IH a eq_refl). destruct (G j a ip Ea E); lia.
Qed.
Lemma grouping_full : forall mi, grouping mi -> forall d j a b, nth_error mi j = Some a -> nth_error mi (j + d) = Some b -> b - a <= Z.of_nat d.
Proof.
  intros mi [G0 G]. induction d as [|d IH]; intros j a b Ea Eb; [rewrite Nat.add_0_r in Eb; replace b with a by congruence; lia|].
  replace (j + S d)%nat with (S (j + d)) in Eb by lia.
  destruct (nth_error mi (j + d)) as [c|] eqn:Ec; [|apply nth_error_None in Ec; assert (S (j + d) < length mi)%nat by (apply nth_error_Some; congruence); lia].
  specialize (IH j a c Ea Ec). destruct (G _ _ _ Ec Eb); lia.
Qed.

Lemma expand_planes_spec : forall m mi cur, mesh_ok m -> Z.of_nat (length mi) <= nz m -> length cur = Z.to_nat (n_surf m) ->
  (forall j ip, nth_error mi j = Some ip -> 0 <= ip <= Z.of_nat j) ->
  exists c, expand_planes m (rev mi) (Z.of_nat (length mi) - 1) cur = Some c /\ length c = length cur /\
    (forall j ip s, nth_error mi j = Some ip -> nx m * ny m <= s <= n_surf_plane m -> at_z c (n_surf_plane m * Z.of_nat j + s) = at_z cur (n_surf_plane m * ip + s)) /\
    (forall k, 0 <= k -> (forall j s, (j < length mi)%nat -> nx m * ny m <= s <= n_surf_plane m -> k <> n_surf_plane m * Z.of_nat j + s) -> at_z c k = at_z cur k).
Proof.
  intros m mi. induction mi as [|ip mi IH] using rev_ind; intros cur M Ln L G.
  - cbn. exists cur. split; [reflexivity|]. split; [reflexivity|]. split; [intros [|j] ip s E; discriminate|reflexivity].
  - rewrite rev_app_distr. cbn [rev app expand_planes]. rewrite app_length in *. cbn [length] in *.
    set (J := Z.of_nat (length mi)) in *. replace (Z.of_nat (length mi + 1) - 1) with J in * by lia. replace (Z.of_nat (length mi + 1)) with (J + 1) in Ln by lia.
    unfold plane_surf_xy_begin, plane_surf_end. set (ns := n_surf_plane m) in *. set (A := nx m * ny m) in *.
    assert (HA : 1 <= A /\ A < ns) by (unfold A, ns, n_surf_plane; destruct M as (? & ? & ?); nia).
    assert (HL : n_surf m = ns * nz m + A) by (unfold n_surf, ns, A, n_surf_plane; ring).
    assert (Hip : 0 <= ip <= J). { apply (G (length mi) ip). rewrite nth_error_app2, Nat.sub_diag; [reflexivity|lia]. }
    assert (Hj : 0 <= J) by (unfold J; lia).
    assert (Q1 : ns * (J + 1) <= ns * nz m) by (apply Z.mul_le_mono_nonneg_l; lia).
    assert (Q2 : ip < J -> ns * (ip + 1) <= ns * J) by (intros; apply Z.mul_le_mono_nonneg_l; lia).
    assert (Q3 : 0 <= ns * ip) by (apply Z.mul_nonneg_nonneg; lia). assert (Q4 : 0 <= ns * J) by (apply Z.mul_nonneg_nonneg; lia).
    destruct (copy_range_spec (Z.to_nat (ns * (J + 1) - (ns * J + A) + 1)) (Z.to_nat (ns * J + A)) (Z.to_nat (ns * ip + A)) cur) as (c1 & E1 & L1 & N1); [lia| |].
    { destruct (Z.eq_dec ip J) as [->|]; [now right|]. left. specialize (Q2 ltac:(lia)). lia. }
    rewrite E1. destruct (IH c1 M) as (c & E & Lc & S1 & S2); [lia|congruence| |].
    { intros j q H. apply (G j q). rewrite nth_error_app1; [exact H|]. apply nth_error_Some. congruence. }
    fold J in E. exists c. split; [exact E|]. split; [congruence|].
    assert (C1 : forall k, 0 <= k -> at_z c1 k = if (ns * J + A <=? k) && (k <=? ns * J + ns) then at_z cur (ns * ip + (k - ns * J)) else at_z cur k).
    { intros k Hk. unfold at_z. rewrite N1. replace ((Z.to_nat (ns * J + A) <=? Z.to_nat k)%nat) with (ns * J + A <=? k) by (destruct (Z.leb_spec (ns * J + A) k), (Nat.leb_spec (Z.to_nat (ns * J + A)) (Z.to_nat k)); lia).
      replace ((Z.to_nat k <? Z.to_nat (ns * J + A) + Z.to_nat (ns * (J + 1) - (ns * J + A) + 1))%nat) with (k <=? ns * J + ns)
        by (destruct (Z.leb_spec k (ns * J + ns)), (Nat.ltb_spec (Z.to_nat k) (Z.to_nat (ns * J + A) + Z.to_nat (ns * (J + 1) - (ns * J + A) + 1))); lia).
      destruct (Z.leb_spec (ns * J + A) k); cbn [andb]; [|reflexivity]. destruct (Z.leb_spec k (ns * J + ns)); [|reflexivity]. f_equal. lia. }
    split.
    + intros j q s Hq Hs. destruct (Nat.lt_ge_cases j (length mi)) as [Lj|Lj].
      * rewrite nth_error_app1 in Hq by exact Lj. assert (Gj : 0 <= q <= Z.of_nat j) by (apply G; rewrite nth_error_app1; auto).
        rewrite (S1 j q s Hq Hs). assert (ns * q <= ns * (J - 1)) by (apply Z.mul_le_mono_nonneg_l; lia). rewrite C1.
        -- destruct (Z.leb_spec (ns * J + A) (ns * q + s)); [lia|]. reflexivity.
        -- assert (0 <= ns * q) by (apply Z.mul_nonneg_nonneg; lia). lia.
      * assert (j = length mi) as ->. { assert (j < length (mi ++ [ip]))%nat by (apply nth_error_Some; congruence). rewrite app_length in *. cbn in *. lia. }
        rewrite nth_error_app2, Nat.sub_diag in Hq by lia. injection Hq as <-. fold J. rewrite S2.
        -- rewrite C1 by lia. rewrite (proj2 (Z.leb_le _ _)), (proj2 (Z.leb_le _ _)) by lia. cbn [andb]. f_equal. lia.
        -- lia.
        -- intros j t Hj' Ht. assert (ns * Z.of_nat j <= ns * (J - 1)) by (apply Z.mul_le_mono_nonneg_l; lia). lia.
    + intros k Hk Hn. rewrite S2; [|exact Hk|intros j s Hj' Hs; apply Hn; [lia|exact Hs]]. rewrite C1 by exact Hk.
      destruct (Z.leb_spec (ns * J + A) k); cbn [andb]; [|reflexivity]. destruct (Z.leb_spec k (ns * J + ns)); [|reflexivity].
      exfalso. apply (Hn (length mi) (k - ns * J)); [lia|lia|]. fold J. lia.
Qed.

(** In-plane currents of every plane become those of its macroplane; nothing else changes but the first z-normal surface
    above each plane. *)
Theorem C32_expand : forall m mi cur, mesh_ok m -> grouping mi -> Z.of_nat (length mi) = nz m -> length cur = Z.to_nat (n_surf m) ->
  exists cur', expand_currents m mi cur = Some cur' /\ length cur' = length cur /\
    (forall iz ip s, nth_error mi iz = Some ip -> nx m * ny m <= s < n_surf_plane m -> at_z cur' (n_surf_plane m * Z.of_nat iz + s) = at_z cur (n_surf_plane m * ip + s)) /\
    (forall iz s, 0 <= iz <= nz m -> 0 <= s < nx m * ny m -> s <> 0 \/ iz = 0 -> at_z cur' (n_surf_plane m * iz + s) = at_z cur (n_surf_plane m * iz + s)) /\
    (forall iz ip, nth_error mi iz = Some ip -> at_z cur' (n_surf_plane m * Z.of_nat (S iz)) = at_z cur (n_surf_plane m * (ip + 1))).
Proof.
  intros m mi cur M G Ln L. pose proof (grouping_le mi G) as Gl.
  assert (HA : 1 <= nx m * ny m /\ nx m * ny m < n_surf_plane m) by (unfold n_surf_plane; destruct M as (? & ? & ?); nia).
  destruct (expand_planes_spec m mi cur M ltac:(lia) L Gl) as (c & E & Lc & S1 & S2). rewrite Ln in E. unfold expand_currents.
  destruct (Z.eqb_spec (nz m - 1) (last mi 0)) as [H|H].
  - exists cur. assert (Id : forall iz ip, nth_error mi iz = Some ip -> ip = Z.of_nat iz).
    { intros iz ip Hi. specialize (Gl _ _ Hi). assert (Hlt : (iz < length mi)%nat) by (apply nth_error_Some; congruence).
      assert (Hl : nth_error mi (iz + (length mi - 1 - iz)) = Some (last mi 0)). { replace (iz + (length mi - 1 - iz))%nat with (length mi - 1)%nat by lia. clear - Hlt.
        destruct mi as [|x mi] using rev_ind; [cbn in Hlt; lia|]. rewrite last_last, app_length. cbn. rewrite nth_error_app2 by lia. replace (length mi + 1 - 1 - length mi)%nat with 0%nat by lia. reflexivity. }
      pose proof (grouping_full mi G _ _ _ _ Hi Hl). lia. }
    split; [reflexivity|]. split; [reflexivity|]. split; [intros iz ip s Hi _; now rewrite (Id _ _ Hi)|]. split; [reflexivity|]. intros iz ip Hi. rewrite (Id _ _ Hi). f_equal. f_equal. lia.
  - exists c. split; [exact E|]. split; [exact Lc|]. split; [intros iz ip s Hi Hs; apply S1; [exact Hi|lia]|]. split.
    + intros iz s Hz Hs Hs'. apply S2; [assert (0 <= n_surf_plane m * iz) by (apply Z.mul_nonneg_nonneg; lia); lia|]. intros j t Hj Ht Heq.
      destruct (Z.lt_trichotomy iz (Z.of_nat j)) as [X|[X|X]].
      * assert (n_surf_plane m * (iz + 1) <= n_surf_plane m * Z.of_nat j) by (apply Z.mul_le_mono_nonneg_l; lia). lia.
      * subst iz. lia.
      * destruct (Z.eq_dec iz (Z.of_nat j + 1)) as [->|]; [lia|]. assert (n_surf_plane m * (Z.of_nat j + 2) <= n_surf_plane m * iz) by (apply Z.mul_le_mono_nonneg_l; lia). lia.
    + intros iz ip Hi. specialize (S1 iz ip (n_surf_plane m) Hi ltac:(lia)). rewrite Nat2Z.inj_succ. replace (n_surf_plane m * Z.succ (Z.of_nat iz)) with (n_surf_plane m * Z.of_nat iz + n_surf_plane m) by lia. rewrite S1. f_equal. lia.
Qed.
Print Assumptions C32_expand.

Definition mi3 : list Z := [0; 0; 1].
Example C32_instance : mesh_ok cm2 /\ grouping mi3 /\ Z.of_nat (length mi3) = nz cm2 /\ last mi3 0 <> nz cm2 - 1 /\ n_surf cm2 = 52.
Proof.
  split; [unfold mesh_ok; cbn; lia|]. split; [|split; [reflexivity|split; [discriminate|reflexivity]]]. split; [intros ip [= <-]; reflexivity|].
  intros [|[|[|j]]] a b; cbn; intros E1 E2; try discriminate; try (injection E1 as <-; injection E2 as <-; lia); destruct j; discriminate.
Qed.

(** C32 fails for axial currents: with planes grouped (0,0,1) the copy for the lowest plane runs one element too far and
    replaces a z-normal current. *)
Theorem C32_axial_refuted : exists m mi cur cur' k, mesh_ok m /\ grouping mi /\ Z.of_nat (length mi) = nz m /\ length cur = Z.to_nat (n_surf m) /\
  expand_currents m mi cur = Some cur' /\ surface_normal m k = Z_NORM /\ at_z cur' k <> at_z cur k.
Proof.
  set (cur := map INR (seq 0 52)). destruct (C32_expand cm2 mi3 cur (proj1 C32_instance) (proj1 (proj2 C32_instance)) eq_refl eq_refl) as (c & E & L & _ & _ & S).
  exists cm2, mi3, cur, c, (16 * 2). split; [exact (proj1 C32_instance)|]. split; [exact (proj1 (proj2 C32_instance))|]. split; [reflexivity|]. split; [reflexivity|]. split; [exact E|].
  split; [reflexivity|]. change (16 * 2) with (n_surf_plane cm2 * Z.of_nat 2) at 1. rewrite (S 1%nat 0 eq_refl). unfold at_z, cur. cbn. intros [= X].
  assert (N : INR 16 = INR 32) by (cbn; lra). apply INR_eq in N. discriminate.
Qed.
Print Assumptions C32_axial_refuted.

(** ** C83 *)
Lemma weights_scale : forall a spacing dz, current_weight_x a spacing dz = (dz * current_weight_x a spacing 1)%R /\ current_weight_y a spacing dz = (dz * current_weight_y a spacing 1)%R.
Proof. intros. unfold current_weight_x, current_weight_y. split; ring. Qed.

(** The worker scales the currents of macroplane [ip] by the height of plane [ip] (moc_current_worker.hpp:190 takes
    mesh.dz at the macroplane's index), so after the expansion a plane's currents carry the height of another plane. *)
Theorem C83_density : forall m mi dz unit cur, mesh_ok m -> grouping mi -> Z.of_nat (length mi) = nz m -> length cur = Z.to_nat (n_surf m) ->
  (forall ip s, In ip mi -> nx m * ny m <= s < n_surf_plane m -> at_z cur (n_surf_plane m * ip + s) = Some (dz ip * unit ip s)%R) ->
  exists cur', expand_currents m mi cur = Some cur' /\ forall iz ip s, nth_error mi iz = Some ip -> nx m * ny m <= s < n_surf_plane m ->
    at_z cur' (n_surf_plane m * Z.of_nat iz + s) = Some (dz ip * unit ip s)%R /\
    (dz ip = dz (Z.of_nat iz) -> at_z cur' (n_surf_plane m * Z.of_nat iz + s) = Some (dz (Z.of_nat iz) * unit ip s)%R).
Proof.
  intros m mi dz unit cur M G Ln L H. destruct (C32_expand m mi cur M G Ln L) as (c & E & _ & S & _). exists c. split; [exact E|].
  intros iz ip s Hi Hs. rewrite (S iz ip s Hi Hs), (H ip s (nth_error_In _ _ Hi) Hs). split; [reflexivity|]. now intros ->.
Qed.
Print Assumptions C83_density.

Theorem C83_height_refuted : exists m mi (dz : Z -> R) unit cur cur' iz ip s, mesh_ok m /\ grouping mi /\ Z.of_nat (length mi) = nz m /\ (forall z, 0 < dz z)%R /\
  (forall jp t, In jp mi -> nx m * ny m <= t < n_surf_plane m -> at_z cur (n_surf_plane m * jp + t) = Some (dz jp * unit jp t)%R) /\
  expand_currents m mi cur = Some cur' /\ nth_error mi iz = Some ip /\ nx m * ny m <= s < n_surf_plane m /\
  at_z cur' (n_surf_plane m * Z.of_nat iz + s) <> Some (dz (Z.of_nat iz) * unit ip s)%R.
Proof.
  set (dz := fun z => if z =? 1 then 2%R else 1%R). set (unit := fun (ip s : Z) => 1%R).
  set (cur := map (fun k => dz (Z.of_nat k / 16)) (seq 0 52)).
  assert (C : forall jp t, In jp mi3 -> nx cm2 * ny cm2 <= t < n_surf_plane cm2 -> at_z cur (n_surf_plane cm2 * jp + t) = Some (dz jp * unit jp t)%R).
  { intros jp t Hj Ht. change (n_surf_plane cm2) with 16 in *. change (nx cm2 * ny cm2) with 4 in *. assert (0 <= jp <= 1) by (cbn in Hj; lia). unfold at_z, cur, unit.
    rewrite nth_error_map. rewrite (nth_error_nth' _ 0%nat) by (rewrite seq_length; lia). cbn [option_map]. f_equal. rewrite seq_nth by lia. rewrite Rmult_1_r. f_equal.
    rewrite Nat2Z.inj_add, Z2Nat.id by lia. change (Z.of_nat 0) with 0. rewrite Z.add_0_l. symmetry. apply (Z.div_unique _ _ _ t); lia. }
  destruct (C83_density cm2 mi3 dz unit cur (proj1 C32_instance) (proj1 (proj2 C32_instance)) eq_refl eq_refl C) as (c & E & S).
  exists cm2, mi3, dz, unit, cur, c, 2%nat, 1, 5. split; [exact (proj1 C32_instance)|]. split; [exact (proj1 (proj2 C32_instance))|]. split; [reflexivity|].
  split; [intros z; unfold dz; destruct (z =? 1); lra|]. split; [exact C|]. split; [exact E|]. split; [reflexivity|]. split; [cbn; lia|].
  destruct (S 2%nat 1 5 eq_refl ltac:(cbn; lia)) as [-> _]. unfold dz, unit. cbn. intros [= X]. lra.
Qed.
Print Assumptions C83_height_refuted.
