(** C45, C89, C90, C91: a whole one-group Sn sweep: definedness, independence of the thread schedule, two-dimensional balance,
    and the infinite medium. *)
From Coq Require Import List Lia Bool Reals ZArith Arith Permutation Lra.
From Verif Require Import RUtil ListUtil McModel MeshModel MeshSpec MeshProofs MeshProps AngModel BcModel BcProofs StdAlg CoreModel ExpModel MocModel MocProofs CurModel SnModel SnEqProps SnProofs SnProps SnCurProps.
Import ListNotations.
Open Scope nat_scope.

(** C89 in two dimensions: the axial term is absent. *)
Theorem C89_balance_2d : forall e nt sched n_reg din dout cur sf flux st (dx dy : nat -> R), mesh_ok (sn_m e) -> sn_d3 e = false -> sn_cw e = true -> (forall a, In a (sn_quad e) -> cosines e a) -> NoDup (map snd sched) ->
  (forall k, at0 cur k = 0%R) -> (forall i, 0 < dx i /\ 0 < dy i)%R ->
  (forall iang a ix iy iz fx fy fz q xs o, nth_error (sn_quad e) iang = Some a -> sn_eq e iang ix iy iz fx fy fz q xs = Some o -> balanced_2d (Rabs (ox (adir a)) / dx ix) (Rabs (oy (adir a)) / dy iy) fx fy q xs o) ->
  sn_sweep1g e nt sched n_reg din dout cur sf = Ok (flux, st) -> forall ix iy, ix < Nx e -> iy < Ny e ->
  let J := surf_val e (ss_cur st) ix iy 0 in let c := cell_ix e (ix, iy, 0) in
  ((J EAST - J WEST) * dy iy + (J NORTH - J SOUTH) * dx ix + at0 (sn_xstr e) c * at0 flux c * (dx ix * dy iy) = lsum (fun ti => aof e (sn_wgt e) (snd ti) * at0 (sn_q e (snd ti)) c) sched * (dx ix * dy iy))%R.
Proof.
  intros e nt sched n_reg din dout cur sf flux st dx dy M D Cw Co N C0 Pos Bal H ix iy Hx Hy J c. assert (Hz : 0 < planes e) by (unfold planes; rewrite D; lia).
  unfold sn_sweep1g in H. apply rbind_ok in H. destruct H as (s1 & H & H'). apply rbind_ok in H'. destruct H' as (d & _ & H'). injection H' as <- <-. cbn [ss_cur] in J.
  assert (F0 : Forall (fun t : list R => length t = n_reg) (repeat (repeat 0%R n_reg) nt)) by (apply Forall_forall; intros t I; apply repeat_spec in I; subst; apply repeat_length).
  destruct (angles_gain e n_reg sched (mkSS din dout (repeat (repeat 0%R n_reg) nt) cur sf) s1 M Cw Co N F0 H) as (X & Y & Z & P & B1 & B2 & B3 & (B4x & B4y & _) & _).
  destruct (sum_threads_spec n_reg (ss_t s1) B2) as [_ At]. specialize (B3 ix iy 0 Hx Hy Hz). fold c in B3. cbn [ss_t] in B3. rewrite tot_zero, Rplus_0_l in B3. rewrite At, B3.
  destruct (surf_vals e (ss_cur s1) ix iy 0 M Hx Hy Hz) as (VE & VW & VN & VS & _ & _). unfold J. rewrite VE, VW, VN, VS. rewrite !B4x, !B4y by (auto; lia). cbn [ss_cur]. rewrite !C0, !Rplus_0_l.
  set (vol := (dx ix * dy iy)%R). assert (Each : forall ti, In ti sched ->
    ((X (snd ti) (S ix) iy 0%nat * aof e (fun a => ox (adir a) * sn_wgt e a) (snd ti) - X (snd ti) ix iy 0%nat * aof e (fun a => ox (adir a) * sn_wgt e a) (snd ti)) * dy iy +
     (Y (snd ti) ix (S iy) 0%nat * aof e (fun a => oy (adir a) * sn_wgt e a) (snd ti) - Y (snd ti) ix iy 0%nat * aof e (fun a => oy (adir a) * sn_wgt e a) (snd ti)) * dx ix +
     P (snd ti) ix iy 0%nat * aof e (sn_wgt e) (snd ti) * (at0 (sn_xstr e) c * vol) = aof e (sn_wgt e) (snd ti) * at0 (sn_q e (snd ti)) c * vol)%R).
  { intros [tid iang] I. cbn [snd]. destruct (B1 tid iang I) as (a & x & y & z & Ea & So & _ & _). destruct (So ix iy 0 Hx Hy Hz) as (q & xs & gz & Eq & Exs & Es & _). apply (Bal iang a) in Es; [|exact Ea].
    destruct (Co a (nth_error_In _ _ Ea)) as (Cx & Cy & _). unfold aof. rewrite Ea. apply at0_some in Eq. apply at0_some in Exs. fold c in Eq, Exs. destruct Eq as [-> _], Exs as [-> _]. destruct (Pos ix) as (Dx & _), (Pos iy) as (_ & Dy).
    assert (SX := sided (ox (adir a)) (fun j => X iang j iy 0) ix Cx). assert (SY := sided (oy (adir a)) (fun j => Y iang ix j 0) iy Cy). cbv beta in SX, SY. fold (xneg a) in SX. fold (yneg a) in SY.
    unfold balanced_2d in Es. apply (f_equal (fun r => r * (sn_wgt e a * vol))%R) in Es. unfold vol in *.
    transitivity ((Rabs (ox (adir a)) / dx ix * (X iang (out_face (xneg a) ix) iy 0%nat - X iang (in_face (xneg a) ix) iy 0%nat) + Rabs (oy (adir a)) / dy iy * (Y iang ix (out_face (yneg a) iy) 0%nat - Y iang ix (in_face (yneg a) iy) 0%nat) + xs * P iang ix iy 0%nat) * (sn_wgt e a * (dx ix * dy iy)))%R; [|rewrite Es; ring].
    transitivity ((ox (adir a) * (X iang (S ix) iy 0%nat - X iang ix iy 0%nat) / dx ix + oy (adir a) * (Y iang ix (S iy) 0%nat - Y iang ix iy 0%nat) / dy iy + xs * P iang ix iy 0%nat) * (sn_wgt e a * (dx ix * dy iy)))%R; [field; lra|]. rewrite SX, SY. field. lra. }
  clear - Each. induction sched as [|ti l IH]; cbn [lsum]; [ring|]. assert (E1 := Each ti (or_introl eq_refl)). assert (E2 := IH (fun t I => Each t (or_intror I))). rewrite !Rmult_plus_distr_r. rewrite <- E1, <- E2. ring.
Qed.
Print Assumptions C89_balance_2d.

(** ** C90: the schedule does not matter *)
Lemma lsum_same : forall (f : nat -> R) (l m : list (nat * nat)), Permutation (map snd l) (map snd m) -> lsum (fun ti => f (snd ti)) l = lsum (fun ti => f (snd ti)) m.
Proof. intros f l m P. rewrite <- (lsum_map f snd l), <- (lsum_map f snd m). now apply lsum_perm. Qed.
(** With the Jacobi boundary update the flux and the currents of a sweep depend neither on the number of threads nor on
    which thread takes which angle when. *)
Theorem C90_schedule : forall e n_reg nt sched nt' sched' din dout dout' cur sf flux st flux' st', mesh_ok (sn_m e) -> sn_cw e = true -> sn_gs e = false -> (forall a, In a (sn_quad e) -> cosines e a) -> NoDup (map snd sched) -> Permutation (map snd sched) (map snd sched') ->
  sn_sweep1g e nt sched n_reg din dout cur sf = Ok (flux, st) -> sn_sweep1g e nt' sched' n_reg din dout' cur sf = Ok (flux', st') ->
  forall ix iy iz, ix < Nx e -> iy < Ny e -> iz < planes e -> at0 flux (cell_ix e (ix, iy, iz)) = at0 flux' (cell_ix e (ix, iy, iz)) /\
    (forall s, s <> TOP /\ s <> BOTTOM \/ sn_d3 e = true -> surf_val e (ss_cur st) ix iy iz s = surf_val e (ss_cur st') ix iy iz s /\ surf_val e (ss_sf st) ix iy iz s = surf_val e (ss_sf st') ix iy iz s).
Proof.
  intros e n_reg nt sched nt' sched' din dout dout' cur sf flux st flux' st' M Cw G Co N Pm H H' ix iy iz Hx Hy Hz.
  assert (N' : NoDup (map snd sched')) by (eapply Permutation_NoDup; eauto).
  assert (Run : forall nt sched dout flux st, NoDup (map snd sched) -> sn_sweep1g e nt sched n_reg din dout cur sf = Ok (flux, st) -> exists X Y Z P,
    (forall iang, In iang (map snd sched) -> exists a x y z, nth_error (sn_quad e) iang = Some a /\ solves e iang a (X iang) (Y iang) (Z iang) (P iang) /\ enters e a x y z (X iang) (Y iang) (Z iang) /\ face_of_bc (sn_in e) din (sn_group e) iang X_NORM = Some x /\ face_of_bc (sn_in e) din (sn_group e) iang Y_NORM = Some y /\ (sn_d3 e = true -> face_of_bc (sn_in e) din (sn_group e) iang Z_NORM = Some z)) /\
    at0 flux (cell_ix e (ix, iy, iz)) = lsum (fun ti => P (snd ti) ix iy iz * aof e (sn_wgt e) (snd ti))%R sched /\
    sum_gains e sched X Y Z (fun a => ox (adir a) * sn_wgt e a)%R (fun a => oy (adir a) * sn_wgt e a)%R (fun a => oz (adir a) * sn_wgt e a)%R cur (ss_cur st) /\ sum_gains e sched X Y Z (fun _ => 1%R) (fun _ => 1%R) (fun _ => 1%R) sf (ss_sf st)).
  { clear - M Cw G Co Hx Hy Hz. intros nt sched dout flux st N H. unfold sn_sweep1g in H. apply rbind_ok in H. destruct H as (s1 & H & H'). apply rbind_ok in H'. destruct H' as (d & _ & H'). injection H' as <- <-. cbn [ss_cur ss_sf].
    assert (F0 : Forall (fun t : list R => length t = n_reg) (repeat (repeat 0%R n_reg) nt)) by (apply Forall_forall; intros t I; apply repeat_spec in I; subst; apply repeat_length).
    destruct (angles_gain e n_reg sched (mkSS din dout (repeat (repeat 0%R n_reg) nt) cur sf) s1 M Cw Co N F0 H) as (X & Y & Z & P & B1 & B2 & B3 & B4 & B5). exists X, Y, Z, P. split; [|split; [|split; [exact B4|exact B5]]].
    - intros iang I. apply in_map_iff in I. destruct I as ((tid & i) & <- & I). destruct (B1 tid i I) as (a & x & y & z & Q1 & Q2 & Q3 & Q4). cbn [snd]. exists a, x, y, z. destruct (Q4 G) as (Q5 & Q6 & Q7). auto 7.
    - destruct (sum_threads_spec n_reg (ss_t s1) B2) as [_ At]. rewrite At, (B3 ix iy iz Hx Hy Hz). cbn [ss_t]. rewrite tot_zero. lra. }
  destruct (Run _ _ _ _ _ N H) as (X & Y & Z & P & A1 & A2 & (A3 & A4 & A5) & (A6 & A7 & A8)), (Run _ _ _ _ _ N' H') as (X' & Y' & Z' & P' & B1 & B2 & (B3 & B4 & B5) & (B6 & B7 & B8)). clear Run.
  assert (U : forall iang, In iang (map snd sched) -> P iang ix iy iz = P' iang ix iy iz /\ (forall j iy iz, j <= Nx e -> iy < Ny e -> iz < planes e -> X iang j iy iz = X' iang j iy iz) /\ (forall ix j iz, ix < Nx e -> j <= Ny e -> iz < planes e -> Y iang ix j iz = Y' iang ix j iz) /\ (sn_d3 e = true -> forall ix iy j, ix < Nx e -> iy < Ny e -> j <= Nz e -> Z iang ix iy j = Z' iang ix iy j)).
  { intros iang I. destruct (A1 iang I) as (a & x & y & z & Ea & So & En & Fx & Fy & Fz). assert (I' : In iang (map snd sched')) by (eapply Permutation_in; eauto). destruct (B1 iang I') as (a' & x' & y' & z' & Ea' & So' & En' & Fx' & Fy' & Fz'). rewrite Ea in Ea'. injection Ea' as <-. rewrite Fx in Fx'. injection Fx' as <-. rewrite Fy in Fy'. injection Fy' as <-.
    assert (En2 : enters e a x y z (X' iang) (Y' iang) (Z' iang)). { destruct En' as (W1 & W2 & W3). split; [exact W1|]. split; [exact W2|]. intros D. specialize (Fz D). specialize (Fz' D). rewrite Fz in Fz'. injection Fz' as <-. now apply W3. }
    destruct (C45_unique e iang a x y z _ _ _ _ _ _ _ _ So En So' En2) as (V1 & V2 & V3 & V4). auto 6. }
  assert (Sum : forall (F F' : nat -> R), (forall iang, In iang (map snd sched) -> F iang = F' iang) -> lsum (fun ti => F (snd ti)) sched = lsum (fun ti => F' (snd ti)) sched').
  { intros F F' E. rewrite <- (lsum_same F' sched sched' Pm). apply lsum_ext. intros ti I. apply E. now apply in_map. }
  split; [rewrite A2, B2; apply (Sum (fun i => P i ix iy iz * aof e (sn_wgt e) i)%R (fun i => P' i ix iy iz * aof e (sn_wgt e) i)%R); intros i I; destruct (U i I) as (-> & _); reflexivity|].
  assert (GX : forall j, j <= Nx e -> at0 (ss_cur st) (kof e (face_X j iy iz)) = at0 (ss_cur st') (kof e (face_X j iy iz)) /\ at0 (ss_sf st) (kof e (face_X j iy iz)) = at0 (ss_sf st') (kof e (face_X j iy iz))).
  { intros j Hj. rewrite A3, A6, B3, B6 by auto. split; f_equal; [apply (Sum (fun i => X i j iy iz * aof e (fun a => ox (adir a) * sn_wgt e a) i)%R (fun i => X' i j iy iz * aof e (fun a => ox (adir a) * sn_wgt e a) i)%R)|apply (Sum (fun i => X i j iy iz * aof e (fun _ => 1) i)%R (fun i => X' i j iy iz * aof e (fun _ => 1) i)%R)]; intros i I; destruct (U i I) as (_ & E & _); now rewrite E. }
  assert (GY : forall j, j <= Ny e -> at0 (ss_cur st) (kof e (face_Y ix j iz)) = at0 (ss_cur st') (kof e (face_Y ix j iz)) /\ at0 (ss_sf st) (kof e (face_Y ix j iz)) = at0 (ss_sf st') (kof e (face_Y ix j iz))).
  { intros j Hj. rewrite A4, A7, B4, B7 by auto. split; f_equal; [apply (Sum (fun i => Y i ix j iz * aof e (fun a => oy (adir a) * sn_wgt e a) i)%R (fun i => Y' i ix j iz * aof e (fun a => oy (adir a) * sn_wgt e a) i)%R)|apply (Sum (fun i => Y i ix j iz * aof e (fun _ => 1) i)%R (fun i => Y' i ix j iz * aof e (fun _ => 1) i)%R)]; intros i I; destruct (U i I) as (_ & _ & E & _); now rewrite E. }
  assert (GZ : sn_d3 e = true -> forall j, j <= planes e -> at0 (ss_cur st) (kof e (face_Z ix iy j)) = at0 (ss_cur st') (kof e (face_Z ix iy j)) /\ at0 (ss_sf st) (kof e (face_Z ix iy j)) = at0 (ss_sf st') (kof e (face_Z ix iy j))).
  { intros D j Hj. rewrite A5, A8, B5, B8 by auto. assert (Pl : planes e = Nz e) by (unfold planes; now rewrite D). rewrite Pl in Hj.
    split; f_equal; [apply (Sum (fun i => Z i ix iy j * aof e (fun a => oz (adir a) * sn_wgt e a) i)%R (fun i => Z' i ix iy j * aof e (fun a => oz (adir a) * sn_wgt e a) i)%R)|apply (Sum (fun i => Z i ix iy j * aof e (fun _ => 1) i)%R (fun i => Z' i ix iy j * aof e (fun _ => 1) i)%R)]; intros i I; destruct (U i I) as (_ & _ & _ & E); now rewrite E. }
  destruct (surf_vals e (ss_cur st) ix iy iz M Hx Hy Hz) as (V1 & V2 & V3 & V4 & V5 & V6), (surf_vals e (ss_cur st') ix iy iz M Hx Hy Hz) as (W1 & W2 & W3 & W4 & W5 & W6), (surf_vals e (ss_sf st) ix iy iz M Hx Hy Hz) as (P1 & P2 & P3 & P4 & P5 & P6), (surf_vals e (ss_sf st') ix iy iz M Hx Hy Hz) as (Q1 & Q2 & Q3 & Q4 & Q5 & Q6).
  intros s Hs. destruct s; [rewrite V1, W1, P1, Q1; apply GX; lia|rewrite V3, W3, P3, Q3; apply GY; lia|rewrite V2, W2, P2, Q2; apply GX; lia|rewrite V4, W4, P4, Q4; apply GY; lia| |]; (destruct Hs as [[Hs1 Hs2]|D]; [congruence|]); [rewrite V5, W5, P5, Q5; apply GZ; auto|rewrite V6, W6, P6, Q6; apply GZ; auto; lia].
Qed.
Print Assumptions C90_schedule.

(** ** C91: the infinite medium *)
(** If the cell equation keeps a uniform flux, a sweep of one angle started from it returns it everywhere. *)
Theorem C91_infinite_medium : forall e iang a s s' f, 0 < Nx e -> 0 < Ny e -> 0 < planes e -> cell_steps e iang a (order_of e a) s = Some s' ->
  (forall ix iy iz, ix < Nx e -> iy < Ny e -> iz < planes e -> at0 (as_x s) (Ny e * iz + iy) = f /\ at0 (as_y s) (Nx e * iz + ix) = f /\ (sn_d3 e = true -> at0 (as_z s) (Nx e * iy + ix) = f)) ->
  (forall ix iy iz q xs, ix < Nx e -> iy < Ny e -> iz < planes e -> nth_error (sn_q e iang) (cell_ix e (ix, iy, iz)) = Some q -> nth_error (sn_xstr e) (cell_ix e (ix, iy, iz)) = Some xs -> exists gz, sn_eq e iang ix iy iz f f (if sn_d3 e then f else 0%R) q xs = Some (f, f, f, gz) /\ (sn_d3 e = true -> gz = f)) ->
  (forall ix iy iz, ix < Nx e -> iy < Ny e -> iz < planes e -> at0 (as_t s') (cell_ix e (ix, iy, iz)) = (at0 (as_t s) (cell_ix e (ix, iy, iz)) + f * sn_wgt e a)%R) /\
  (forall iy iz, iy < Ny e -> iz < planes e -> at0 (as_x s') (Ny e * iz + iy) = f) /\ (forall ix iz, ix < Nx e -> iz < planes e -> at0 (as_y s') (Nx e * iz + ix) = f) /\ (sn_d3 e = true -> forall ix iy, ix < Nx e -> iy < Ny e -> at0 (as_z s') (Nx e * iy + ix) = f).
Proof.
  intros e iang a s s' f Px Py Pz H In U. destruct (C45_solution e iang a s s' Px Py Pz H) as (X & Y & Z & P & So & En & (L1 & L2 & L3) & T).
  assert (So' : solves e iang a (fun _ _ _ => f) (fun _ _ _ => f) (fun _ _ _ => f) (fun _ _ _ => f)).
  { intros ix iy iz Hx Hy Hz. destruct (So ix iy iz Hx Hy Hz) as (q & xs & gz & Eq & Exs & _ & _). destruct (U ix iy iz q xs Hx Hy Hz Eq Exs) as (gz' & E & G). exists q, xs, gz'. auto. }
  assert (En' : enters e a (as_x s) (as_y s) (as_z s) (fun _ _ _ => f) (fun _ _ _ => f) (fun _ _ _ => f)).
  { split; [|split]; intros; symmetry; [now apply (In 0)|now apply (In ix 0)|now apply (In ix iy 0)]. }
  destruct (C45_unique e iang a _ _ _ _ _ _ _ _ _ _ _ So En So' En') as (V1 & V2 & V3 & V4).
  split; [intros ix iy iz Hx Hy Hz; rewrite T, V1 by auto; reflexivity|]. split; [intros iy iz Hy Hz; rewrite L1, V2; auto; unfold last_face; destruct (xneg a); lia|]. split; [intros ix iz Hx Hz; rewrite L2, V3; auto; unfold last_face; destruct (yneg a); lia|].
  intros D ix iy Hx Hy. rewrite L3, V4; auto. unfold last_face. destruct (zneg e a); lia.
Qed.
Print Assumptions C91_infinite_medium.

(** ** C45: the whole sweep is defined *)
(** src/sweepers/sn/sn_sweeper.cpp:29-35 boundary_helper, the same in two dimensions (where there is one plane). *)
Definition sn_size (e : SnEnv) : BcSize := mkSize (Ny e * planes e) (Nx e * planes e) (Nx e * Ny e).
Record sn_fits (e : SnEnv) : Prop := {
  f_mesh : mesh_ok (sn_m e);
  f_in : bc_ok (sn_in e);
  f_sup : all_supported (sn_in e);
  f_sizes : Forall (fun s => s = sn_size e) (BcModel.sizes (sn_in e));
  f_out : BcModel.sizes (sn_out e) = BcModel.sizes (sn_in e);
  f_grp : sn_group e < n_group (sn_in e);
  f_quad : length (BcModel.sizes (sn_in e)) <= length (sn_quad e);
  f_q : forall iang, length (sn_q e iang) = Nx e * Ny e * planes e;
  f_xs : length (sn_xstr e) = Nx e * Ny e * planes e;
  f_eq : forall iang ix iy iz fx fy fz q xs, In xs (sn_xstr e) -> exists o, sn_eq e iang ix iy iz fx fy fz q xs = Some o
}.
Lemma up_face_def : forall e w s face cs st, mesh_ok (sn_m e) -> (forall ck, In ck cs -> in_box (Nx e) (Ny e) (planes e) (fst ck) /\ snd ck < length face) -> length (fst st) = Z.to_nat (n_surf (sn_m e)) -> length (snd st) = Z.to_nat (n_surf (sn_m e)) ->
  exists st', up_face e w s face cs st = Some st' /\ length (fst st') = Z.to_nat (n_surf (sn_m e)) /\ length (snd st') = Z.to_nat (n_surf (sn_m e)).
Proof.
  intros e w s face cs. induction cs as [|[c k] cs IH]; intros st M B L1 L2; cbn [up_face]; [eauto|]. destruct (B (c, k) (or_introl eq_refl)) as [Bc Bk]. cbn [fst snd] in Bc, Bk. rewrite (at0_in _ _ Bk).
  destruct (cw_add_def e w (at0 face k) c s st M Bc L1 L2) as (s1 & -> & A1 & B1). apply IH; auto. intros ck I. apply B. now right.
Qed.
Lemma upwind_def : forall e a x y z st, mesh_ok (sn_m e) -> length x = Ny e * planes e -> length y = Nx e * planes e -> (sn_d3 e = true -> length z = Nx e * Ny e) -> length (fst st) = Z.to_nat (n_surf (sn_m e)) -> length (snd st) = Z.to_nat (n_surf (sn_m e)) ->
  exists st', upwind_work e a x y z st = Some st' /\ length (fst st') = Z.to_nat (n_surf (sn_m e)) /\ length (snd st') = Z.to_nat (n_surf (sn_m e)).
Proof.
  intros e a x y z st M Lx Ly Lz L1 L2. unfold upwind_work. destruct (sn_cw e); [|eauto]. cbn zeta. fold (planes e). fold (xneg a). fold (yneg a).
  destruct (up_face_def e (ox (adir a) * sn_wgt e a) (up_x (adir a)) x (up_cells_x (Nx e) (Ny e) (planes e) (xneg a)) st M) as (s1 & -> & A1 & B1); auto.
  { intros ck I. split; [now apply (box_up_x e a M)|]. unfold up_cells_x in I. apply in_flat_map in I. destruct I as (i & Ii & I). apply in_map_iff in I. destruct I as (j & <- & Ij). apply in_seq in Ii. apply in_seq in Ij. cbn [snd]. rewrite Lx. nia. }
  destruct (up_face_def e (oy (adir a) * sn_wgt e a) (up_y (adir a)) y (up_cells_y (Nx e) (Ny e) (planes e) (yneg a)) s1 M) as (s2 & -> & A2 & B2); auto.
  { intros ck I. split; [now apply (box_up_y e a M)|]. unfold up_cells_y in I. apply in_flat_map in I. destruct I as (i & Ii & I). apply in_map_iff in I. destruct I as (j & <- & Ij). apply in_seq in Ii. apply in_seq in Ij. cbn [snd]. rewrite Ly. nia. }
  destruct (sn_d3 e) eqn:D; [|eauto]. apply up_face_def; auto. replace (Rltb (oz (adir a)) 0) with (zneg e a) by (unfold zneg; now rewrite D).
  intros ck I. split; [now apply (box_up_z e a M D)|]. unfold up_cells_z in I. apply in_flat_map in I. destruct I as (i & Ii & I). apply in_map_iff in I. destruct I as (j & <- & Ij). apply in_seq in Ii. apply in_seq in Ij. cbn [snd]. rewrite Lz by auto. nia.
Qed.
Lemma face_def : forall e b (d : list R) g iang n, g < n_group b -> BcModel.sizes b = BcModel.sizes (sn_in e) -> iang < length (BcModel.sizes (sn_in e)) -> Forall (fun s => s = sn_size e) (BcModel.sizes (sn_in e)) -> length d = n_group b * total (BcModel.sizes (sn_in e)) ->
  exists off, get_face b g iang n = Some (face_size (sn_size e) n, off) /\ off + face_size (sn_size e) n <= length d.
Proof.
  intros e b d g iang n Hg Eb Hi F L. destruct (get_face_some b g iang n) as (k & off & E); [congruence|]. destruct (get_face_inv _ _ _ _ _ _ E) as (s & o & Es & Eo & -> & ->).
  assert (s = sn_size e) by (rewrite Forall_forall in F; apply F; rewrite <- Eb; eapply nth_error_In; eauto). subst s. eexists. split; [exact E|]. destruct (offsets_bounds _ _ _ _ _ n Es Eo) as [_ B]. rewrite L, <- Eb. cbn [plus] in B.
  pose proof (Nat.mul_le_mono_r (g + 1) (n_group b) (total (BcModel.sizes b)) ltac:(lia)). lia.
Qed.
Lemma read_face : forall e d iang n, sn_fits e -> iang < length (BcModel.sizes (sn_in e)) -> length d = n_group (sn_in e) * total (BcModel.sizes (sn_in e)) -> exists v, face_of_bc (sn_in e) d (sn_group e) iang n = Some v /\ length v = face_size (sn_size e) n.
Proof.
  intros e d iang n F Hi L. unfold face_of_bc. destruct (face_def e (sn_in e) d (sn_group e) iang n (f_grp e F) eq_refl Hi (f_sizes e F) L) as (off & -> & B). destruct (read_range_some d off _ B) as (v & E). exists v. split; [exact E|]. apply read_range_spec in E. tauto.
Qed.
Lemma get_face_any : forall b b' g a n, BcModel.sizes b = BcModel.sizes b' -> get_face b g a n = get_face b' g a n.
Proof. intros b b' g a n E. unfold get_face. now rewrite E. Qed.
Lemma write_face : forall e d iang n v, sn_fits e -> iang < length (BcModel.sizes (sn_in e)) -> length d = total (BcModel.sizes (sn_in e)) -> length v = face_size (sn_size e) n -> exists d', put_face (sn_out e) d iang n v = Some d' /\ length d' = length d.
Proof.
  intros e d iang n v F Hi L Lv. unfold put_face. set (b1 := mkBC 1 (BcModel.sizes (sn_in e)) (types (sn_in e)) 1 [] []).
  destruct (face_def e b1 d 0 iang n) as (off & E & B); [cbn; lia|reflexivity|exact Hi|apply (f_sizes e F)|cbn; lia|]. rewrite (get_face_any (sn_out e) b1) by (cbn; apply (f_out e F)). rewrite E, Lv, Nat.eqb_refl.
  destruct (write_range_some d off v) as (d' & E'); [lia|]. exists d'. split; [exact E'|]. apply write_range_spec in E'. tauto.
Qed.
Definition st_fits (e : SnEnv) (nt : nat) (s : SnSt) : Prop := length (ss_in s) = n_group (sn_in e) * total (BcModel.sizes (sn_in e)) /\ length (ss_out s) = total (BcModel.sizes (sn_in e)) /\ length (ss_t s) = nt /\ Forall (fun t => length t = Nx e * Ny e * planes e) (ss_t s) /\
  length (ss_cur s) = Z.to_nat (n_surf (sn_m e)) /\ length (ss_sf s) = Z.to_nat (n_surf (sn_m e)).
Lemma no_gaps : forall e, sn_fits e -> Forall no_gap (BcModel.sizes (sn_in e)).
Proof.
  intros e F. eapply Forall_impl; [|apply (f_sizes e F)]. intros s ->. destruct (Npos e (f_mesh e F)) as (Px & Py & _ & Pz). split; unfold sn_size; cbn [sx sy sz]; intros H; exfalso; nia.
Qed.
Lemma sn_angle_def : forall e nt tid iang s, sn_fits e -> st_fits e nt s -> tid < nt -> iang < length (BcModel.sizes (sn_in e)) -> exists s', sn_angle e tid iang s = Ok s' /\ st_fits e nt s'.
Proof.
  intros e nt tid iang s F (Li & Lo & Lt & Ft & Lc & Lf) Ht Hi. assert (M := f_mesh e F). unfold sn_angle.
  destruct (nth_error (sn_quad e) iang) as [a|] eqn:Ea; [|apply nth_error_None in Ea; pose proof (f_quad e F); lia]. cbn [of_opt rbind].
  destruct (nth_error (ss_t s) tid) as [t|] eqn:Et; [|apply nth_error_None in Et; lia]. cbn [of_opt rbind]. assert (Lt1 : length t = Nx e * Ny e * planes e) by (rewrite Forall_forall in Ft; apply Ft; eapply nth_error_In; eauto).
  destruct (read_face e (ss_in s) iang X_NORM F Hi Li) as (x & -> & Lx). destruct (read_face e (ss_in s) iang Y_NORM F Hi Li) as (y & -> & Ly). cbn [of_opt rbind].
  assert (Ez : exists z, (if sn_d3 e then face_of_bc (sn_in e) (ss_in s) (sn_group e) iang Z_NORM else Some []) = Some z /\ (sn_d3 e = true -> length z = Nx e * Ny e)).
  { destruct (sn_d3 e) eqn:D; [|exists []; split; [reflexivity|discriminate]]. destruct (read_face e (ss_in s) iang Z_NORM F Hi Li) as (z & -> & Lz). exists z. split; [reflexivity|]. intros _. exact Lz. }
  destruct Ez as (z & -> & Lz). cbn [of_opt rbind]. cbn [sn_size face_size sx sy] in Lx, Ly.
  destruct (upwind_def e a x y z (ss_cur s, ss_sf s) M Lx Ly Lz Lc Lf) as ([cu sf] & -> & Lcu & Lsf). cbn [fst snd of_opt rbind] in *.
  destruct (C45_defined e iang a (mkAS x y z t cu sf) M) as (r & -> & (Rx & Ry & Rz & Rt & Rc & Rf)); [unfold SnProps.sizes; cbn [as_x as_y as_z as_t as_cur as_sf]; repeat (split; [assumption|]); assumption|apply (f_q e F)|apply (f_xs e F)|intros; now apply (f_eq e F)|]. cbn [of_opt rbind].
  destruct (write_face e (ss_out s) iang X_NORM (as_x r) F Hi Lo Rx) as (o1 & -> & L1). cbn [of_opt rbind]. destruct (write_face e o1 iang Y_NORM (as_y r) F Hi) as (o2 & -> & L2); [congruence|exact Ry|]. cbn [of_opt rbind].
  assert (E3 : exists o3, (if sn_d3 e then put_face (sn_out e) o2 iang Z_NORM (as_z r) else Some o2) = Some o3 /\ length o3 = total (BcModel.sizes (sn_in e))).
  { destruct (sn_d3 e) eqn:D; [|exists o2; split; [reflexivity|congruence]]. destruct (write_face e o2 iang Z_NORM (as_z r) F Hi) as (o3 & -> & L3); [congruence|rewrite Rz by auto; reflexivity|]. exists o3. split; [reflexivity|congruence]. }
  destruct E3 as (o3 & -> & L3). cbn [of_opt rbind]. destruct (set_nth_def (ss_t s) tid (as_t r)) as (ts & Ets & Lts); [lia|]. rewrite Ets. cbn [of_opt rbind].
  assert (Ed : exists d, (if sn_gs e then update_angle (sn_in e) (with_data (sn_out e) o3) (sn_group e) iang (ss_in s) else Ok (ss_in s)) = Ok d /\ length d = length (ss_in s)).
  { destruct (sn_gs e); [|eauto]. destruct (update_angle_ok (sn_in e) (with_data (sn_out e) o3) (sn_group e) iang (ss_in s) (f_in e F)) as (d & -> & Ld & _); [apply (f_out e F)|exact L3|apply (f_sup e F)|exact Hi|apply (f_grp e F)|exact Li|now apply no_gaps|]. eauto. }
  destruct Ed as (d & -> & Ld). cbn [rbind]. eexists. split; [reflexivity|]. unfold st_fits. cbn [ss_in ss_out ss_t ss_cur ss_sf]. repeat split; try congruence. eapply Forall_set; eauto.
Qed.
Theorem C45_sweep_defined : forall e nt sched din dout cur sf, sn_fits e -> length din = n_group (sn_in e) * bc_per_group (BcModel.sizes (sn_in e)) -> length dout = bc_per_group (BcModel.sizes (sn_in e)) ->
  length cur = Z.to_nat (n_surf (sn_m e)) -> length sf = Z.to_nat (n_surf (sn_m e)) -> (forall tid iang, In (tid, iang) sched -> tid < nt /\ iang < length (BcModel.sizes (sn_in e))) ->
  exists flux st, sn_sweep1g e nt sched (Nx e * Ny e * planes e) din dout cur sf = Ok (flux, st).
Proof.
  intros e nt sched din dout cur sf F Li Lo Lc Lf B. rewrite bc_per_group_total in Li, Lo. unfold sn_sweep1g.
  assert (S0 : st_fits e nt (mkSS din dout (repeat (repeat 0%R (Nx e * Ny e * planes e)) nt) cur sf)). { unfold st_fits. cbn [ss_in ss_out ss_t ss_cur ss_sf]. split; [exact Li|]. split; [exact Lo|]. split; [apply repeat_length|]. split; [|auto]. apply Forall_forall. intros t I. apply repeat_spec in I. subst. apply repeat_length. }
  assert (R : forall s, st_fits e nt s -> exists s', sn_angles e sched s = Ok s' /\ st_fits e nt s').
  { clear - F B. induction sched as [|[tid iang] l IH]; intros s S; cbn [sn_angles]; [eauto|]. destruct (B tid iang (or_introl eq_refl)) as [Bt Bi]. destruct (sn_angle_def e nt tid iang s F S Bt Bi) as (s1 & -> & S1). cbn [rbind]. apply IH; auto. intros. apply B. now right. }
  destruct (R _ S0) as (s1 & -> & (Li1 & Lo1 & _)). cbn [rbind]. destruct (sn_gs e); cbn [rbind]; [eauto|].
  destruct (update_group_ok (sn_in e) (with_data (sn_out e) (ss_out s1)) (sn_group e) (ss_in s1) (f_in e F)) as (d & -> & _); [apply (f_out e F)|exact Lo1|apply (f_sup e F)|apply (f_grp e F)|now apply no_gaps|exact Li1|]. cbn [rbind]. eauto.
Qed.
Print Assumptions C45_sweep_defined.

(** ** A concrete case: two cells side by side, eight angles, diamond difference, one reflecting and five vacuum sides. *)
Definition sx_m : Mesh := {| nx := 2; ny := 1; nz := 1 |}.
Definition sx_quad : list Angle := expand [mkAngle (dir_cosines (1/3) (2/3) (2/3)) 1].
Definition sx_bc (ng : nat) : BC := mkBC ng (repeat (mkSize 1 2 2) 8) (fun s => match s with EAST => REFLECT | _ => VACUUM end) 1 sx_quad [].
Definition sx_ang (iang : nat) : Angle := nth iang sx_quad (mkAngle (dir_cosines (1/3) (2/3) (2/3)) 1).
Definition sx_env (gs : bool) : SnEnv := mkSN sx_m (sx_bc 2) (sx_bc 1) 1 sx_quad [1; 2]%R (fun _ => [3; 1]%R) gs true true
  (fun iang ix iy iz fx fy fz q xs => eval_dd (Rabs (ox (adir (sx_ang iang))) / 1) (Rabs (oy (adir (sx_ang iang))) / 1) (Rabs (oz (adir (sx_ang iang))) / 1) fx fy fz q xs).
Lemma sx_dir : forall a, In a sx_quad -> (Rabs (ox (adir a)) = 1 / 3 /\ Rabs (oy (adir a)) = 2 / 3 /\ Rabs (oz (adir a)) = 2 / 3)%R.
Proof.
  assert (A : (Rabs (1 / 3) = 1 / 3)%R) by (apply Rabs_pos_eq; lra). assert (B : (Rabs (2 / 3) = 2 / 3)%R) by (apply Rabs_pos_eq; lra).
  intros a I. cbn in I. repeat (destruct I as [<-|I]; [cbn; rewrite ?Rabs_Ropp, ?A, ?B; auto|]). destruct I.
Qed.
Lemma sx_cos : forall gs a, In a (sn_quad (sx_env gs)) -> cosines (sx_env gs) a.
Proof. intros gs a I. destruct (sx_dir a I) as (A & B & C). unfold cosines. repeat split; [| |intros _]; intros E; rewrite E, Rabs_R0 in *; lra. Qed.
Lemma sx_ang_in : forall iang, In (sx_ang iang) sx_quad.
Proof. intros iang. unfold sx_ang. destruct (nth_in_or_default iang sx_quad (mkAngle (dir_cosines (1/3) (2/3) (2/3)) 1)) as [I| ->]; [exact I|left; reflexivity]. Qed.
Lemma sx_bc_ok : forall ng, bc_ok (sx_bc ng).
Proof.
  intros ng. constructor; [cbn; lia|cbn; lia|cbn; lia|]. intros a a' n s Es R H. assert (La : a < 8) by (apply (nth_error_Some (repeat (mkSize 1 2 2) 8)); cbn in Es; cbn; congruence).
  do 8 (destruct a as [|a]; [destruct n; cbn in Es, R, H; injection Es as <-; injection R as <-; cbn in H; try lia; eexists; split; reflexivity|]). lia.
Qed.
Lemma sx_fits : forall gs, sn_fits (sx_env gs).
Proof.
  intros gs. constructor.
  - unfold mesh_ok; cbn; lia.
  - apply sx_bc_ok.
  - intros []; cbn; unfold supported; auto.
  - cbn [sx_env sn_in sx_bc BcModel.sizes]. apply Forall_forall. intros s I. apply repeat_spec in I. subst. reflexivity.
  - reflexivity.
  - cbn; lia.
  - cbn; lia.
  - reflexivity.
  - reflexivity.
  - intros iang ix iy iz fx fy fz q xs I. cbn [sx_env sn_eq]. destruct (sx_dir _ (sx_ang_in iang)) as (A & B & C). unfold eval_dd. rewrite A, B, C.
    assert (P : (0 < xs)%R) by (cbn in I; destruct I as [<-|[<-|[]]]; lra). rewrite rdiv_ok by lra. eauto.
Qed.
Lemma sx_balanced : forall gs iang a ix iy iz fx fy fz q xs o, nth_error (sn_quad (sx_env gs)) iang = Some a -> sn_eq (sx_env gs) iang ix iy iz fx fy fz q xs = Some o ->
  balanced (Rabs (ox (adir a)) / 1) (Rabs (oy (adir a)) / 1) (Rabs (oz (adir a)) / 1) fx fy fz q xs o.
Proof. intros gs iang a ix iy iz fx fy fz q xs o Ea H. cbn [sx_env sn_eq sn_quad] in *. replace (sx_ang iang) with a in H by (unfold sx_ang; symmetry; now apply nth_error_nth). now apply C46_dd. Qed.
Definition sx_sched1 : list (nat * nat) := [(0, 0); (1, 4); (0, 1); (1, 5); (1, 6); (0, 2); (0, 3); (1, 7)].
Definition sx_sched2 : list (nat * nat) := map (fun i => (0, i)) (seq 0 8).
Lemma sx_runs : forall gs nt sched, (forall tid iang, In (tid, iang) sched -> tid < nt /\ iang < 8) -> exists flux st, sn_sweep1g (sx_env gs) nt sched 2 (repeat 1%R 80) (repeat 0%R 40) (repeat 0%R 11) (repeat 0%R 11) = Ok (flux, st).
Proof. intros gs nt sched B. apply (C45_sweep_defined (sx_env gs) nt sched); [apply sx_fits|reflexivity|reflexivity|reflexivity|reflexivity|exact B]. Qed.
Ltac sched_in := intros tid iang I; cbn in I; repeat (destruct I as [I|I]; [injection I as <- <-; lia|]); destruct I.
Example C45_instance : sn_fits (sx_env true) /\ (forall tid iang, In (tid, iang) sx_sched1 -> tid < 2 /\ iang < length (BcModel.sizes (sn_in (sx_env true)))) /\
  exists s', cell_steps (sx_env true) 6 (sx_ang 6) (order_of (sx_env true) (sx_ang 6)) (mkAS [1%R] [1%R; 2%R] [3%R; 4%R] [0%R; 0%R] (repeat 0%R 11) (repeat 0%R 11)) = Some s'.
Proof.
  split; [apply sx_fits|]. split; [cbn [sx_env sn_in sx_bc BcModel.sizes length repeat]; sched_in|]. destruct (C45_defined (sx_env true) 6 (sx_ang 6) (mkAS [1%R] [1%R; 2%R] [3%R; 4%R] [0%R; 0%R] (repeat 0%R 11) (repeat 0%R 11))) as (s' & E & _).
  - unfold mesh_ok; cbn; lia.
  - unfold SnProps.sizes. cbn. repeat split; intros; lia.
  - reflexivity.
  - reflexivity.
  - intros. now apply (f_eq _ (sx_fits true)).
  - eauto.
Qed.
Example C89_instance : exists flux st, sn_sweep1g (sx_env true) 2 sx_sched1 2 (repeat 1%R 80) (repeat 0%R 40) (repeat 0%R 11) (repeat 0%R 11) = Ok (flux, st) /\
  mesh_ok (sn_m (sx_env true)) /\ (forall a, In a (sn_quad (sx_env true)) -> cosines (sx_env true) a) /\ NoDup (map snd sx_sched1) /\
  (forall iang a ix iy iz fx fy fz q xs o, nth_error (sn_quad (sx_env true)) iang = Some a -> sn_eq (sx_env true) iang ix iy iz fx fy fz q xs = Some o -> balanced (Rabs (ox (adir a)) / 1) (Rabs (oy (adir a)) / 1) (Rabs (oz (adir a)) / 1) fx fy fz q xs o) /\
  (let J := surf_val (sx_env true) (ss_cur st) 1 0 0 in J EAST - J WEST + (J NORTH - J SOUTH) + (J TOP - J BOTTOM) + 2 * at0 flux 1 = 8 * (1 * (PI / 2)))%R.
Proof.
  destruct (sx_runs true 2 sx_sched1 ltac:(sched_in)) as (flux & st & E). exists flux, st. split; [exact E|]. split; [unfold mesh_ok; cbn; lia|]. split; [apply sx_cos|]. assert (N : NoDup (map snd sx_sched1)) by (cbn; repeat (constructor; [cbn; intuition discriminate|]); constructor). split; [exact N|]. split; [apply sx_balanced|].
  assert (B := C89_balance (sx_env true) 2 sx_sched1 2 _ _ _ _ flux st (fun _ => 1%R) (fun _ => 1%R) (fun _ => 1%R) ltac:(unfold mesh_ok; cbn; lia) eq_refl eq_refl (sx_cos true) N (fun k => at0_repeat 11 k) ltac:(intros; lra) (sx_balanced true) E 1 0 0 ltac:(cbn; lia) ltac:(cbn; lia) ltac:(cbn; lia)).
  cbv zeta in B |- *. cbn [cell_ix] in B. change (0 * Nx (sx_env true) * Ny (sx_env true) + 0 * Nx (sx_env true) + 1) with 1 in B. change (at0 (sn_xstr (sx_env true)) 1) with 2%R in B. cbn [lsum sx_sched1 snd] in B. unfold aof, sn_wgt in B. cbn in B. lra.
Qed.
Example C90_instance : exists f1 s1 f2 s2, sn_sweep1g (sx_env false) 2 sx_sched1 2 (repeat 1%R 80) (repeat 0%R 40) (repeat 0%R 11) (repeat 0%R 11) = Ok (f1, s1) /\
  sn_sweep1g (sx_env false) 1 sx_sched2 2 (repeat 1%R 80) (repeat 0%R 40) (repeat 0%R 11) (repeat 0%R 11) = Ok (f2, s2) /\ Permutation (map snd sx_sched1) (map snd sx_sched2) /\ sx_sched1 <> sx_sched2.
Proof.
  destruct (sx_runs false 2 sx_sched1 ltac:(sched_in)) as (f1 & s1 & E1). destruct (sx_runs false 1 sx_sched2 ltac:(sched_in)) as (f2 & s2 & E2). exists f1, s1, f2, s2. split; [exact E1|]. split; [exact E2|]. split; [|discriminate].
  apply NoDup_Permutation; [cbn; repeat (constructor; [cbn; intuition discriminate|]); constructor|cbn; repeat (constructor; [cbn; intuition discriminate|]); constructor|]. intros x. cbn. intuition.
Qed.
(** Uniform medium of flux 5: sources 5 and 10 against cross sections 1 and 2. *)
Definition sx_inf : SnEnv := mkSN sx_m (sx_bc 2) (sx_bc 1) 1 sx_quad [1; 2]%R (fun _ => [5; 10]%R) true true true (sn_eq (sx_env true)).
Example C91_instance : exists s', let s := mkAS [5%R] [5%R; 5%R] [5%R; 5%R] [0%R; 0%R] (repeat 0%R 11) (repeat 0%R 11) in
  cell_steps sx_inf 6 (sx_ang 6) (order_of sx_inf (sx_ang 6)) s = Some s' /\
  (forall ix iy iz, ix < Nx sx_inf -> iy < Ny sx_inf -> iz < planes sx_inf -> at0 (as_x s) (Ny sx_inf * iz + iy) = 5%R /\ at0 (as_y s) (Nx sx_inf * iz + ix) = 5%R /\ (sn_d3 sx_inf = true -> at0 (as_z s) (Nx sx_inf * iy + ix) = 5%R)) /\
  (forall ix iy iz q xs, ix < Nx sx_inf -> iy < Ny sx_inf -> iz < planes sx_inf -> nth_error (sn_q sx_inf 6) (cell_ix sx_inf (ix, iy, iz)) = Some q -> nth_error (sn_xstr sx_inf) (cell_ix sx_inf (ix, iy, iz)) = Some xs -> exists gz, sn_eq sx_inf 6 ix iy iz 5%R 5%R (if sn_d3 sx_inf then 5%R else 0%R) q xs = Some (5%R, 5%R, 5%R, gz) /\ (sn_d3 sx_inf = true -> gz = 5%R)).
Proof.
  destruct (C45_defined sx_inf 6 (sx_ang 6) (mkAS [5%R] [5%R; 5%R] [5%R; 5%R] [0%R; 0%R] (repeat 0%R 11) (repeat 0%R 11))) as (s' & E & _).
  - unfold mesh_ok; cbn; lia.
  - unfold SnProps.sizes. cbn. repeat split; intros; lia.
  - reflexivity.
  - reflexivity.
  - intros. now apply (f_eq _ (sx_fits true)).
  - exists s'. cbv zeta. split; [exact E|]. split.
    + intros ix iy iz Hx Hy Hz. change (Nx sx_inf) with 2 in *. change (Ny sx_inf) with 1 in *. change (planes sx_inf) with 1 in *. assert (iy = 0) by lia. assert (iz = 0) by lia. subst. destruct ix as [|[|ix]]; [| |lia]; repeat split; reflexivity.
    + intros ix iy iz q xs Hx Hy Hz Eq Exs. change (Nx sx_inf) with 2 in *. change (Ny sx_inf) with 1 in *. change (planes sx_inf) with 1 in *. assert (iy = 0) by lia. assert (iz = 0) by lia. subst. exists 5%R. split; [|reflexivity]. change (sn_d3 sx_inf) with true. cbn [sx_inf sn_eq sx_env].
      destruct (sx_dir _ (sx_ang_in 6)) as (A & B & C). rewrite A, B, C. assert (Q : (q = xs * 5)%R /\ (0 < xs)%R) by (destruct ix as [|[|ix]]; [| |lia]; cbn in Eq, Exs; injection Eq as <-; injection Exs as <-; lra). destruct Q as [-> P]. apply (C46_uniform (1 / 3 / 1) (2 / 3 / 1) (2 / 3 / 1) xs 5); lra.
Qed.
