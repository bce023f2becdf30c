(** Properties of a whole eigenvalue calculation with the Sn sweeper: what every iterate satisfies (C148) and the neutron balance of a
    solution (C149). *)
From Coq Require Import List Lia Bool Reals ZArith Arith Permutation Lra.
From Verif Require Import RUtil ListUtil McModel MeshModel MeshSpec MeshProofs ScatModel ScatProofs ScatProps MatModel CoreModel MocProofs XsModel HomProps SrcModel SrcProps SolModel SolProps AngModel BcModel BcProofs SnModel SnEqProps SnProofs SnProps SnCurProps SnSweepProps MgModel SnGroupModel SnGroupProps EigProps.
Import ListNotations.
Open Scope nat_scope.

(** A problem for the Sn sweeper: everything has its size in every group, and every pass sweeps the same angles. *)
Definition sn_problem (m : SnStatic) (ng : nat) (sct : XReg -> nat -> nat -> R) : Prop :=
  (forall g, g < ng -> sg_fits m ng sct g) /\ forall k k' a, In a (map snd (sg_sched m k)) -> In a (map snd (sg_sched m k')).
(** The sweeper's state: sizes, and coarse data present or not. *)
Definition sn_state (m : SnStatic) (ng : nat) (coarse : bool) (s : SnGSt) : Prop := gs_fits m ng s /\ (coarse = true -> exists c, gs_co s = Some c).

Lemma passes_co : forall m sct g src n s l, counted (sn_pass m sct g src) n s l -> (exists c, gs_co s = Some c) -> exists c, gs_co (last l s) = Some c.
Proof.
  intros m sct g src. induction n as [|n IH]; intros s [|b l] C H; cbn [counted] in C; try contradiction; [exact H|]. destruct C as [Pb C].
  assert (La : last (b :: l) s = last l b). { clear. destruct l as [|v l]; [reflexivity|]. change (last (b :: v :: l) s) with (last (v :: l) s). revert v. induction l as [|w l IH]; intros v; [reflexivity|]. exact (IH w). }
  rewrite La. apply IH; [exact C|]. destruct Pb as (f & st & _ & _ & _ & _ & _ & _ & R). destruct (records n s); [|rewrite R; exact H]. destruct R as (c & c' & _ & E & _). eauto.
Qed.
Lemma sn_good : forall m ng sct b, sn_problem m ng sct -> good_sweeper gs_flux (sg_sweep m) (sn_state m ng b) (sg_nreg m) ng.
Proof.
  intros m ng sct b [F Sc]. split; [intros sw [(Ff & _) _]; exact Ff|]. intros g src sw Hg Ls [Fs Co] _ _.
  destruct (C108_sweep m ng sct g src sw (F g Hg) Ls Sc Fs) as (l & u & s' & E & Cl & La & Vg & Vh & _ & _ & _ & Eco & Fs'). exists s'. split; [exact E|]. split.
  - split; [exact Fs'|]. intros Hb. rewrite Eco, <- La. eapply passes_co; eauto.
  - split; [intros i h Hi Hh; now apply Vh|]. intros i Hi. rewrite Vg by exact Hi. apply Rmax_l.
Qed.
(** C148 for the Sn sweeper: any mesh, quadrature, scheme, boundary conditions, schedule and number of inner iterations. *)
Theorem C148_sn : forall m ng sct vol p dumps src sw fs fsp, sn_problem m ng sct -> physical (sg_nreg m) ng sct (sg_xs m) -> length vol = sg_nreg m -> (forall i, i < sg_nreg m -> (0 < at0 vol i)%R) ->
  (Z.of_nat (ep_max p) < INT_MAX)%Z -> gs_fits m ng sw -> length src = sg_nreg m -> length fs = sg_nreg m -> (forall i h, i < sg_nreg m -> h < ng -> (0 <= phi (gs_flux sw) i h)%R) -> (0 < production (sg_xs m) ng (gs_flux sw) vol)%R ->
  let run := eigen_run SnGSt gs_flux (sg_sweep m) (sg_xs m) ng (sg_nreg m) vol p dumps src sw fs fsp in
  (exists s n du, run = Got (s, n, du) /\ gs_fits m ng (e_sw _ s) /\ (0 < e_k _ s)%R /\ (forall i h, i < sg_nreg m -> h < ng -> (0 <= phi (gs_flux (e_sw _ s)) i h)%R) /\ (0 < production (sg_xs m) ng (gs_flux (e_sw _ s)) vol)%R) \/
  (run = Undef /\ exists t, sound gs_flux (sn_state m ng false) (sg_nreg m) ng (sg_xs m) vol t /\ dies gs_flux (sg_sweep m) (sg_nreg m) ng (sg_xs m) vol t).
Proof.
  intros m ng sct vol p dumps src sw fs fsp Pr Ph Lv Pv Hm Fs Ls Lf N P run.
  assert (Q : sn_state m ng false sw) by (split; [exact Fs|discriminate]).
  destruct (C148_run gs_flux (sg_sweep m) (sn_state m ng false) (sg_nreg m) ng sct (sg_xs m) vol p dumps src sw fs fsp (sn_good m ng sct false Pr) Ph Lv Pv Hm Q Ls Lf N P) as [(s & n & du & E & [F _] & K & N' & P' & _)|(E & f & j & t & _ & _ & _ & So & Di)].
  - left. exists s, n, du. auto 6.
  - right. split; [exact E|]. eauto.
Qed.
Print Assumptions C148_sn.

(** ** What leaves the core *)
(** The current stored for a side of a cell. *)
Definition side_current (m : Mesh) (l : list R) (ix iy iz : nat) (s : Surface) : R :=
  match coarse_surf m (coarse_cell m {| px := Z.of_nat ix; py := Z.of_nat iy; pz := Z.of_nat iz |}) s with Some k => at0 l (Z.to_nat k) | None => 0%R end.
(** Net flow through the six sides of the core, outwards. *)
Definition leakage (m : Mesh) (dx dy dz : nat -> R) (l : list R) : R :=
  let X := Z.to_nat (nx m) in let Y := Z.to_nat (ny m) in let Z' := Z.to_nat (nz m) in let J := side_current m l in
  (rsum (fun iz => rsum (fun iy => (J (X - 1)%nat iy iz EAST - J 0%nat iy iz WEST) * (dy iy * dz iz)) Y) Z' +
   rsum (fun iz => rsum (fun ix => (J ix (Y - 1)%nat iz NORTH - J ix 0%nat iz SOUTH) * (dx ix * dz iz)) X) Z' +
   rsum (fun iy => rsum (fun ix => (J ix iy (Z' - 1)%nat TOP - J ix iy 0%nat BOTTOM) * (dx ix * dy iy)) X) Y)%R.
(** Neutrons absorbed: collisions less those scattered. *)
Definition absorption (xs : list XReg) (ng : nat) (fl : list (list R)) (vol : list R) : R :=
  lsum (fun x : XReg => lsum (fun r : nat => rsum (fun g => (at0 (xr_tr x) g - at0 (out (xr_sc x)) g) * phi fl r g * at0 vol r)%R ng) (xr_reg x)) xs.

Lemma rsum_tele : forall (E W : nat -> R) n, 0 < n -> (forall i, S i < n -> E i = W (S i)) -> rsum (fun i => E i - W i)%R n = (E (n - 1)%nat - W 0%nat)%R.
Proof.
  intros E W n Hn H. destruct n as [|n]; [lia|]. replace (S n - 1) with n by lia. induction n as [|n IH]; [cbn; lra|]. change (rsum (fun i => E i - W i)%R (S (S n))) with (rsum (fun i => E i - W i)%R (S n) + (E (S n) - W (S n)))%R. rewrite IH by (try lia; intros; apply H; lia). rewrite (H n) by lia. lra.
Qed.
Lemma rsum_rows : forall (f : nat -> R) a b, rsum f (a * b) = rsum (fun j => rsum (fun i => f (j * a + i)%nat) a) b.
Proof. intros f a. induction b as [|b IH]; [now rewrite Nat.mul_0_r|]. rewrite Nat.mul_succ_r, rsum_app, IH. cbn [rsum]. f_equal. apply rsum_ext. intros i _. f_equal. lia. Qed.
Lemma rsum_const0 : forall n, rsum (fun _ => 0%R) n = 0%R.
Proof. induction n; cbn; lra. Qed.
Section Faces.
Context (m : Mesh) (M : mesh_ok m) (l : list R).
Lemma faces_shared : forall ix iy iz, (Z.of_nat iy < ny m)%Z -> (Z.of_nat iz < nz m)%Z -> (Z.of_nat (S ix) < nx m)%Z -> side_current m l ix iy iz EAST = side_current m l (S ix) iy iz WEST.
Proof. intros ix iy iz A B C. unfold side_current. rewrite !coarse_surf_correct by (unfold in_mesh; cbn [px py pz]; lia). unfold face_of, move. cbn [px py pz surface_to_normal]. replace (Z.of_nat ix + 1)%Z with (Z.of_nat (S ix)) by lia. reflexivity. Qed.
Lemma faces_shared_y : forall ix iy iz, (Z.of_nat ix < nx m)%Z -> (Z.of_nat iz < nz m)%Z -> (Z.of_nat (S iy) < ny m)%Z -> side_current m l ix iy iz NORTH = side_current m l ix (S iy) iz SOUTH.
Proof. intros ix iy iz A B C. unfold side_current. rewrite !coarse_surf_correct by (unfold in_mesh; cbn [px py pz]; lia). unfold face_of, move. cbn [px py pz surface_to_normal]. replace (Z.of_nat iy + 1)%Z with (Z.of_nat (S iy)) by lia. reflexivity. Qed.
Lemma faces_shared_z : forall ix iy iz, (Z.of_nat ix < nx m)%Z -> (Z.of_nat iy < ny m)%Z -> (Z.of_nat (S iz) < nz m)%Z -> side_current m l ix iy iz TOP = side_current m l ix iy (S iz) BOTTOM.
Proof. intros ix iy iz A B C. unfold side_current. rewrite !coarse_surf_correct by (unfold in_mesh; cbn [px py pz]; lia). unfold face_of, move. cbn [px py pz surface_to_normal]. replace (Z.of_nat iz + 1)%Z with (Z.of_nat (S iz)) by lia. reflexivity. Qed.
End Faces.

Section Net.
Context (m : Mesh) (M : mesh_ok m) (dx dy dz : nat -> R) (l : list R).
Notation X := (Z.to_nat (nx m)). Notation Y := (Z.to_nat (ny m)). Notation Z' := (Z.to_nat (nz m)). Notation J := (side_current m l).
Definition net_out (ix iy iz : nat) : R := ((J ix iy iz EAST - J ix iy iz WEST) * (dy iy * dz iz) + (J ix iy iz NORTH - J ix iy iz SOUTH) * (dx ix * dz iz) + (J ix iy iz TOP - J ix iy iz BOTTOM) * (dx ix * dy iy))%R.
(** Inner faces cancel. *)
Lemma net_total : rsum (fun iz => rsum (fun iy => rsum (fun ix => net_out ix iy iz) X) Y) Z' = leakage m dx dy dz l.
Proof.
  destruct M as (Mx & My & Mz). unfold net_out, leakage. cbv zeta.
  rewrite (rsum_ext _ (fun iz => rsum (fun iy => rsum (fun ix => (J ix iy iz EAST - J ix iy iz WEST) * (dy iy * dz iz)) X) Y + rsum (fun iy => rsum (fun ix => (J ix iy iz NORTH - J ix iy iz SOUTH) * (dx ix * dz iz)) X) Y + rsum (fun iy => rsum (fun ix => (J ix iy iz TOP - J ix iy iz BOTTOM) * (dx ix * dy iy)) X) Y)%R).
  2:{ intros iz _. rewrite <- !rsum_plus. apply rsum_ext. intros iy _. now rewrite <- !rsum_plus. }
  rewrite !rsum_plus. f_equal; [f_equal|].
  - apply rsum_ext. intros iz Hz. apply rsum_ext. intros iy Hy. rewrite rsum_scal_r. f_equal. apply (rsum_tele (fun ix => J ix iy iz EAST) (fun ix => J ix iy iz WEST)); [lia|]. intros i Hi. apply faces_shared; lia.
  - apply rsum_ext. intros iz Hz. rewrite rsum_swap. apply rsum_ext. intros ix Hx. rewrite rsum_scal_r. f_equal. apply (rsum_tele (fun iy => J ix iy iz NORTH) (fun iy => J ix iy iz SOUTH)); [lia|]. intros i Hi. apply faces_shared_y; lia.
  - rewrite rsum_swap. apply rsum_ext. intros iy Hy. rewrite rsum_swap. apply rsum_ext. intros ix Hx. rewrite rsum_scal_r. f_equal. apply (rsum_tele (fun iz => J ix iy iz TOP) (fun iz => J ix iy iz BOTTOM)); [lia|]. intros i Hi. apply faces_shared_z; lia.
Qed.
End Net.

(** The geometry of a three-dimensional Sn problem: cell sizes, volumes, a scheme in balance, a quadrature integrating the unit
    sphere, the transport cross section of every cell, and a fission spectrum wherever there is fission. *)
Record sn_balanced (m : SnStatic) (ng : nat) (dx dy dz : nat -> R) (vol : list R) : Prop := {
  sb_d3 : sg_d3 m = true;
  sb_cos : forall g a q cw, In a (sg_quad m) -> cosines (sg_env m g q cw) a;
  sb_pos : forall i, (0 < dx i /\ 0 < dy i /\ 0 < dz i)%R;
  sb_eq : forall g iang a ix iy iz fx fy fz q xs o, nth_error (sg_quad m) iang = Some a -> sg_eq m g iang ix iy iz fx fy fz q xs = Some o -> balanced (Rabs (ox (adir a)) / dx ix) (Rabs (oy (adir a)) / dy iy) (Rabs (oz (adir a)) / dz iz) fx fy fz q xs o;
  sb_w : lsum (fun ti => match nth_error (sg_quad m) (snd ti) with Some a => weight a * (PI / 2) | None => 0 end)%R (sg_sched m 0) = (4 * PI)%R;
  sb_vol : forall ix iy iz, ix < Z.to_nat (nx (sg_m m)) -> iy < Z.to_nat (ny (sg_m m)) -> iz < Z.to_nat (nz (sg_m m)) -> at0 vol ((iz * Z.to_nat (ny (sg_m m)) + iy) * Z.to_nat (nx (sg_m m)) + ix) = (dx ix * dy iy * dz iz)%R;
  sb_xs : forall x i g, In x (sg_xs m) -> In i (xr_reg x) -> g < ng -> at0 (sg_xstr m g) i = at0 (xr_tr x) g;
  sb_chi : forall x, In x (sg_xs m) -> rsum (at0 (xr_ch x)) ng = 1%R \/ forall g, g < ng -> at0 (xr_nf x) g = 0%R
}.

Lemma mesh_sum : forall (f : nat -> R) xs n, mesh_fits xs n -> (forall i, i < n -> In i (concat (map xr_reg xs))) -> rsum f n = lsum (fun x => lsum f (xr_reg x)) xs.
Proof.
  intros f xs n [N B] Cov. rewrite rsum_lsum. rewrite (lsum_perm f (seq 0 n) (concat (map xr_reg xs))); [now rewrite lsum_concat, lsum_map|].
  apply NoDup_Permutation; [apply seq_NoDup|exact N|]. intros i. split; [intros I; apply in_seq in I; apply Cov; lia|]. intros I. apply in_seq. specialize (B i I). lia.
Qed.
(** The currents of group [g] in coarse data. *)
Definition group_current (g : nat) (s : SnGSt) : option (list R) := match gs_co s with Some c => nth_error (co_cur c) g | None => None end.

Section Balance.
Context (m : SnStatic) (ng : nat) (sct : XReg -> nat -> nat -> R) (dx dy dz : nat -> R) (vol : list R).
Context (Pr : sn_problem m ng sct) (Ph : physical (sg_nreg m) ng sct (sg_xs m)) (Sb : sn_balanced m ng dx dy dz vol) (Hn : 0 < sg_inner m) (Hg0 : 0 < ng).
Notation X := (Z.to_nat (nx (sg_m m))). Notation Y := (Z.to_nat (ny (sg_m m))). Notation Z' := (Z.to_nat (nz (sg_m m))).
Notation xs := (sg_xs m). Notation nreg := (sg_nreg m).

Lemma sn_mesh : mesh_ok (sg_m m) /\ nreg = X * Y * Z'.
Proof.
  destruct Pr as [F _]. specialize (F 0 Hg0). pose proof (sgf_env _ _ _ _ F (repeat 0%R nreg) true (repeat_length _ _)) as Fe. split; [exact (f_mesh _ Fe)|].
  rewrite (sgf_reg _ _ _ _ F [] true). unfold planes. unfold sg_env at 3. cbn [sn_d3]. rewrite (sb_d3 _ _ _ _ _ _ Sb). reflexivity.
Qed.
Lemma cell_of : forall i, i < nreg -> exists ix iy iz, ix < X /\ iy < Y /\ iz < Z' /\ i = (iz * Y + iy) * X + ix.
Proof.
  intros i Hi. destruct sn_mesh as [_ Nr]. rewrite Nr in Hi. assert (0 < X * Y) by nia. assert (0 < X) by nia. exists (i mod X), (i / X mod Y), (i / X / Y). split; [apply Nat.mod_upper_bound; lia|]. split; [apply Nat.mod_upper_bound; nia|]. split.
  - rewrite Nat.div_div by nia. apply Nat.div_lt_upper_bound; nia.
  - pose proof (Nat.div_mod_eq i X). pose proof (Nat.div_mod_eq (i / X) Y). nia.
Qed.
Lemma vol_pos : forall i, i < nreg -> (0 < at0 vol i)%R.
Proof.
  intros i Hi. destruct (cell_of i Hi) as (ix & iy & iz & Hx & Hy & Hz & Ei). pose proof (sb_vol _ _ _ _ _ _ Sb ix iy iz Hx Hy Hz) as V. rewrite <- Ei in V. rewrite V.
  pose proof (sb_pos _ _ _ _ _ _ Sb) as P. destruct (P ix) as (? & _). destruct (P iy) as (_ & ? & _). destruct (P iz) as (_ & _ & ?). apply Rmult_lt_0_compat; [apply Rmult_lt_0_compat|]; assumption.
Qed.
(** Cell by cell, one group. *)
Lemma group_cells : forall g src w w', g < ng -> length src = nreg -> sn_state m ng true w -> sg_sweep m g src w = Some w' ->
  exists cur old f, group_current g w' = Some cur /\ (sg_inner m = 1 -> old = gs_flux w) /\ (forall i, i < nreg -> phi (gs_flux w') i g = Rmax 0 (at0 f i)) /\
    (forall h, h <> g -> group_current h w' = group_current h w) /\
    (leakage (sg_m m) dx dy dz cur + lsum (fun x => lsum (fun i => at0 (xr_tr x) g * at0 f i * at0 vol i) (xr_reg x)) xs = lsum (fun x => lsum (fun i => (at0 src i + sct x g g * phi old i g) * at0 vol i) (xr_reg x)) xs)%R.
Proof.
  intros g src w w' Hg Ls [Fs Co] E. destruct (Co eq_refl) as (c & Ec). destruct Pr as [F Sc]. destruct Ph as (M & D & Cov & Pos). destruct sn_mesh as [Mk Nr].
  destruct (C108_currents m ng sct g src w w' c dx dy dz (F g Hg) Ls Sc Fs Hn (sb_d3 _ _ _ _ _ _ Sb) Ec (sb_cos _ _ _ _ _ _ Sb g) (sb_pos _ _ _ _ _ _ Sb) (sb_eq _ _ _ _ _ _ Sb g) (sb_w _ _ _ _ _ _ Sb) E) as (c' & cur & old & f & E1 & E2 & E3 & Oth & _ & _ & E4 & E5).
  exists cur, old, f. split; [unfold group_current; now rewrite E1|]. split; [exact E3|]. split; [exact E4|]. split; [intros h Hh; unfold group_current; rewrite E1, Ec; apply (Oth h Hh)|].
  set (N := fun i : nat => net_out (sg_m m) dx dy dz cur (i mod X) (i / X mod Y) (i / X / Y)).
  assert (T : leakage (sg_m m) dx dy dz cur = lsum (fun x => lsum N (xr_reg x)) xs).
  { rewrite <- (mesh_sum N xs nreg M Cov), <- net_total by exact Mk. rewrite Nr. replace (X * Y * Z') with (X * Y * Z') by reflexivity. rewrite rsum_rows. apply rsum_ext. intros iz Hz. rewrite rsum_rows. apply rsum_ext. intros iy Hy. apply rsum_ext. intros ix Hx. unfold N.
    replace (iz * (X * Y) + (iy * X + ix)) with (ix + (iz * Y + iy) * X) by nia. assert (X <> 0) by lia. assert (Y <> 0) by lia. rewrite Nat.mod_add, Nat.div_add by lia. rewrite (Nat.mod_small ix), (Nat.div_small ix) by lia. cbn [Nat.add]. replace (iz * Y + iy) with (iy + iz * Y) by lia. rewrite Nat.mod_add, Nat.div_add, (Nat.mod_small iy), (Nat.div_small iy) by lia. reflexivity. }
  rewrite T, <- lsum_plus. apply lsum_ext. intros x Ix. rewrite <- lsum_plus. apply lsum_ext. intros i Ii. pose proof (reg_bound xs nreg x i M Ix Ii) as Hi. destruct (cell_of i Hi) as (ix & iy & iz & Hx & Hy & Hz & Ei).
  assert (B := E5 x ix iy iz). cbv zeta in B. assert (Ce : cell_ix (sg_env m g [] true) (ix, iy, iz) = i). { unfold cell_ix, Nx, Ny. cbn [sg_env sn_m]. rewrite Ei. nia. } rewrite Ce in B. specialize (B Hx Hy Hz Ix Ii).
  assert (Ni : N i = net_out (sg_m m) dx dy dz cur ix iy iz). { unfold N. rewrite Ei. assert (X <> 0) by lia. assert (Y <> 0) by lia. replace ((iz * Y + iy) * X + ix) with (ix + (iz * Y + iy) * X) by lia. rewrite Nat.mod_add, Nat.div_add by lia. rewrite (Nat.mod_small ix), (Nat.div_small ix) by lia. cbn [Nat.add]. replace (iz * Y + iy) with (iy + iz * Y) by lia. rewrite Nat.mod_add, Nat.div_add, (Nat.mod_small iy), (Nat.div_small iy) by lia. reflexivity. }
  rewrite Ni. pose proof (sb_vol _ _ _ _ _ _ Sb ix iy iz Hx Hy Hz) as V. rewrite <- Ei in V. rewrite V, <- (sb_xs _ _ _ _ _ _ Sb x i g Ix Ii Hg). unfold net_out. exact B.
Qed.
End Balance.

(** C149, any iteration: in every group, what leaves the core plus the collisions balances fission of the flux before, scattering in from
    other groups (of the new flux for the groups swept before, of the old for the rest) and scattering within the group. *)
Theorem C149_step : forall m ng sct dx dy dz vol s s', sn_problem m ng sct -> physical (sg_nreg m) ng sct (sg_xs m) -> sn_balanced m ng dx dy dz vol -> 0 < sg_inner m ->
  length vol = sg_nreg m -> sound gs_flux (sn_state m ng true) (sg_nreg m) ng (sg_xs m) vol s -> eigen_step SnGSt gs_flux (sg_sweep m) (sg_xs m) ng (sg_nreg m) vol s = Some s' ->
  forall g, g < ng -> exists cur old f, group_current g (e_sw _ s') = Some cur /\ (sg_inner m = 1 -> forall i, i < sg_nreg m -> phi old i g = phi (gs_flux (e_sw _ s)) i g) /\
    (forall i, i < sg_nreg m -> phi (gs_flux (e_sw _ s')) i g = Rmax 0 (at0 f i)) /\
    (leakage (sg_m m) dx dy dz cur + lsum (fun x => lsum (fun i => at0 (xr_tr x) g * at0 f i * at0 vol i) (xr_reg x)) (sg_xs m) =
     lsum (fun x => lsum (fun i => (at0 (xr_ch x) g * (rsum (fun h => at0 (xr_nf x) h * phi (gs_flux (e_sw _ s)) i h) ng / e_k _ s) +
       rsum (fun h => if (h =? g)%nat then 0 else sct x g h * phi (gs_flux (if (h <? g)%nat then e_sw _ s' else e_sw _ s)) i h) ng + sct x g g * phi old i g) * at0 vol i) (xr_reg x)) (sg_xs m))%R.
Proof.
  intros m ng sct dx dy dz vol s s' Pr Ph Sb Hn Lv (F & Ls & Lf & K & N & P) E g Hg. assert (Hg0 : 0 < ng) by lia. assert (Ph' := Ph). destruct Ph' as (M & D & Cov & Pos). assert (G := sn_good m ng sct true Pr).
  assert (Ff := proj1 G _ F). destruct (C51_fission_source (sg_nreg m) ng sct (e_k _ s) (sg_xs m) (gs_flux (e_sw _ s)) (e_fs _ s) ltac:(lra) M D Ff Lf) as (f1 & E1 & L1 & V1 & _).
  assert (N1 : forall i, i < sg_nreg m -> (0 <= at0 f1 i)%R).
  { intros i Hi. specialize (Cov i Hi). apply in_concat in Cov. destruct Cov as (r & Ir & Ii). apply in_map_iff in Ir. destruct Ir as (x & <- & Ix). rewrite (V1 x i Ix Ii). unfold Rdiv. apply Rmult_le_pos; [|left; now apply Rinv_0_lt_compat]. apply rsum_nonneg. intros h Hh. destruct (Pos x h Ix Hh). apply Rmult_le_pos; [assumption|now apply N]. }
  unfold eigen_step in E. rewrite E1 in E. destruct (fss_groups _ _ _ _ _ _ _ _ _ _) as [[src' sw']|] eqn:E2; [|discriminate].
  assert (Es : e_sw _ s' = sw'). { destruct (total_fission _ _ (gs_flux sw') _) as [t1|]; [|discriminate]. destruct (total_fission _ _ (gs_flux (e_sw _ s)) _) as [t2|]; [|discriminate]. destruct (Reqb t2 0); [discriminate|]. cbv zeta in E. destruct (calc_fission_source _ _ _ (gs_flux sw') _) as [f2|]; [|discriminate]. now injection E as <-. }
  destruct (groups_trace gs_flux (sg_sweep m) (sn_state m ng true) (sg_nreg m) ng sct (sg_xs m) vol G Ph Lv (vol_pos m ng sct dx dy dz vol Pr Sb Hn Hg0) group_current) with (fs := f1) (cnt := ng) (ig := 0) (src := e_src SnGSt s) (sw := e_sw SnGSt s) (src' := src') (sw' := sw') as [_ T]; auto.
  - intros h src w w' h' Hh Lsrc Fw Ew Nh. destruct (group_cells m ng sct dx dy dz vol Pr Ph Sb Hn Hg0 h src w w' Hh Lsrc Fw Ew) as (cur & old & f & _ & _ & _ & O & _). now apply O.
  - destruct (T g ltac:(lia)) as (sg & w & w' & Fw & _ & Lsg & Ew & Ob & _ & V2 & V3 & Sp). destruct (group_cells m ng sct dx dy dz vol Pr Ph Sb Hn Hg0 g sg w w' Hg Lsg Fw Ew) as (cur & old & f & C1 & C2 & C3 & _ & C4).
    exists cur, old, f. rewrite Es. split; [congruence|]. split; [intros Q i Hi; rewrite (C2 Q), V3 by exact Hi; now rewrite Nat.ltb_irrefl|]. split; [intros i Hi; rewrite <- V2 by exact Hi; now apply C3|].
    rewrite C4. apply lsum_ext. intros x Ix. apply lsum_ext. intros i Ii. rewrite (Sp x i Ix Ii), (V1 x i Ix Ii). f_equal. f_equal. f_equal. apply rsum_ext. intros h Hh. destruct (h =? g); [reflexivity|]. rewrite V3 by (now apply (reg_bound (sg_xs m) (sg_nreg m) x i)). reflexivity.
Qed.
Print Assumptions C149_step.

Lemma rsum_into : forall {A} (F : nat -> A -> R) (l : list A) n, rsum (fun g => lsum (F g) l) n = lsum (fun x => rsum (fun g => F g x) n) l.
Proof. intros A F l n. induction l as [|a l IH]; [cbn; apply rsum_const0|]. change (lsum (fun x => rsum (fun g => F g x) n) (a :: l)) with (rsum (fun g => F g a) n + lsum (fun x => rsum (fun g => F g x) n) l)%R. rewrite <- IH, <- rsum_plus. reflexivity. Qed.

(** C149: a flux the iteration leaves as it is. *)
Theorem C149_balance : forall m ng sct dx dy dz vol s s', sn_problem m ng sct -> physical (sg_nreg m) ng sct (sg_xs m) -> sn_balanced m ng dx dy dz vol -> sg_inner m = 1 ->
  length vol = sg_nreg m -> sound gs_flux (sn_state m ng true) (sg_nreg m) ng (sg_xs m) vol s -> eigen_step SnGSt gs_flux (sg_sweep m) (sg_xs m) ng (sg_nreg m) vol s = Some s' ->
  (forall i g, i < sg_nreg m -> g < ng -> (0 < phi (gs_flux (e_sw _ s)) i g)%R /\ phi (gs_flux (e_sw _ s')) i g = phi (gs_flux (e_sw _ s)) i g) ->
  exists cur : nat -> list R, (forall g, g < ng -> group_current g (e_sw _ s') = Some (cur g)) /\ e_k _ s' = e_k _ s /\
    (production (sg_xs m) ng (gs_flux (e_sw _ s')) vol = e_k _ s' * (absorption (sg_xs m) ng (gs_flux (e_sw _ s')) vol + rsum (fun g => leakage (sg_m m) dx dy dz (cur g)) ng))%R.
Proof.
  intros m ng sct dx dy dz vol s s' Pr Ph Sb H1 Lv So E St. assert (S0 := C149_step m ng sct dx dy dz vol s s' Pr Ph Sb ltac:(lia) Lv So E).
  destruct So as (F & Ls & Lf & K & N & P). assert (Ph' := Ph). destruct Ph' as (M & D & Cov & Pos). assert (G := sn_good m ng sct true Pr). assert (Ff := proj1 G _ F).
  set (fl := gs_flux (e_sw SnGSt s)) in *. set (fl' := gs_flux (e_sw SnGSt s')) in *. set (xs := sg_xs m) in *. set (nreg := sg_nreg m) in *.
  assert (Pe : production xs ng fl' vol = production xs ng fl vol) by (apply (production_ext xs ng fl' fl vol nreg M); intros i g Hi Hg; apply St; assumption).
  assert (Ek : e_k _ s' = e_k _ s).
  { unfold eigen_step in E. fold fl in E. destruct (C51_fission_source nreg ng sct (e_k _ s) xs fl (e_fs _ s) ltac:(lra) M D Ff Lf) as (f1 & E1 & L1 & _). rewrite E1 in E. assert (Hg0 : 0 < ng). { destruct ng; [|lia]. exfalso. unfold production in P. rewrite (lsum_zero _ xs) in P; [lra|]. intros x _. apply lsum_zero. reflexivity. }
    assert (Pv := vol_pos m ng sct dx dy dz vol Pr Sb ltac:(lia) Hg0). destruct (prod_source nreg ng sct xs vol Ph Lv Pv fl (e_k _ s) (e_fs _ s) f1 N P K Ff Lf E1) as (_ & N1 & _).
    destruct (fss_groups _ _ _ _ _ _ _ _ _ _) as [[src' sw']|] eqn:E2; [|discriminate].
    assert (Fs' : flux_fits nreg ng (gs_flux sw')).
    { destruct (groups_made gs_flux (sg_sweep m) (sn_state m ng true) nreg ng sct xs vol G Ph Lv Pv) with (fs := f1) (cnt := ng) (ig := 0) (src := e_src SnGSt s) (sw := e_sw SnGSt s) as (s1 & w1 & Q & _ & Q2 & _); auto. rewrite E2 in Q. injection Q as <- <-. exact (proj1 G _ Q2). }
    rewrite (C51_total_fission nreg ng sct xs (gs_flux sw') vol M D Fs' Lv), (C51_total_fission nreg ng sct xs fl vol M D Ff Lv) in E. destruct (Reqb_spec (production xs ng fl vol) 0) as [|_]; [discriminate|]. cbv zeta in E. destruct (calc_fission_source _ _ _ (gs_flux sw') _) as [f2|]; [|discriminate].
    injection E as <-. cbn [e_k]. unfold fl' in Pe. cbn [e_sw] in Pe. rewrite Pe. field. lra. }
  exists (fun g => match group_current g (e_sw SnGSt s') with Some c => c | None => [] end). split; [intros g Hg; destruct (S0 g Hg) as (cur & _ & _ & C & _); now rewrite C|]. split; [exact Ek|].
  assert (Gr : forall g, g < ng -> (leakage (sg_m m) dx dy dz (match group_current g (e_sw SnGSt s') with Some c => c | None => [] end) +
     lsum (fun x => lsum (fun i => at0 (xr_tr x) g * phi fl i g * at0 vol i) (xr_reg x)) xs =
     lsum (fun x => lsum (fun i => (at0 (xr_ch x) g * (rsum (fun h => at0 (xr_nf x) h * phi fl i h) ng / e_k _ s) +
       rsum (fun h => if (h =? g)%nat then 0 else sct x g h * phi fl i h) ng + sct x g g * phi fl i g) * at0 vol i) (xr_reg x)) xs)%R).
  { intros g Hg. destruct (S0 g Hg) as (cur & old & f & C & Ol & Fv & B). rewrite C. specialize (Ol H1).
    rewrite (lsum_ext (fun x => lsum (fun i => at0 (xr_tr x) g * phi fl i g * at0 vol i)%R (xr_reg x)) (fun x => lsum (fun i => at0 (xr_tr x) g * at0 f i * at0 vol i)%R (xr_reg x))).
    2:{ intros x Ix. apply lsum_ext. intros i Ii. pose proof (reg_bound xs nreg x i M Ix Ii) as Hi. pose proof (Fv i Hi) as Fi. destruct (St i g Hi Hg) as [S1 S2]. rewrite S2 in Fi. assert (Q : phi fl i g = at0 f i). { rewrite Fi. apply Rmax_right. destruct (Rle_or_lt 0 (at0 f i)) as [|L]; [assumption|]. rewrite Rmax_left in Fi by lra. lra. } now rewrite Q. }
    rewrite B. apply lsum_ext. intros x Ix. apply lsum_ext. intros i Ii. pose proof (reg_bound xs nreg x i M Ix Ii) as Hi. f_equal. f_equal; [|now rewrite (Ol i Hi)]. f_equal. apply rsum_ext. intros h Hh. destruct (h =? g); [reflexivity|]. destruct (h <? g); [|reflexivity]. f_equal. now apply St. }
  set (J := fun g => leakage (sg_m m) dx dy dz (match group_current g (e_sw SnGSt s') with Some c => c | None => [] end)) in *.
  assert (Su : (rsum J ng + lsum (fun x => lsum (fun i => rsum (fun g => at0 (xr_tr x) g * phi fl i g * at0 vol i) ng) (xr_reg x)) xs =
    lsum (fun x => lsum (fun i => rsum (fun g => (at0 (xr_ch x) g * (rsum (fun h => at0 (xr_nf x) h * phi fl i h) ng / e_k _ s) + rsum (fun h => if (h =? g)%nat then 0 else sct x g h * phi fl i h) ng + sct x g g * phi fl i g) * at0 vol i) ng) (xr_reg x)) xs)%R).
  { rewrite (lsum_ext (fun x => lsum (fun i => rsum (fun g => at0 (xr_tr x) g * phi fl i g * at0 vol i)%R ng) (xr_reg x)) (fun x => rsum (fun g => lsum (fun i => at0 (xr_tr x) g * phi fl i g * at0 vol i)%R (xr_reg x)) ng)) by (intros x _; symmetry; apply rsum_into).
    rewrite <- rsum_into, <- rsum_plus. etransitivity; [exact (rsum_ext _ _ _ Gr)|]. rewrite rsum_into. apply lsum_ext. intros x _. apply rsum_into. }
  assert (Rh : forall x i, In x xs -> In i (xr_reg x) -> (rsum (fun g => (at0 (xr_ch x) g * (rsum (fun h => at0 (xr_nf x) h * phi fl i h) ng / e_k _ s) + rsum (fun h => if (h =? g)%nat then 0 else sct x g h * phi fl i h) ng + sct x g g * phi fl i g) * at0 vol i) ng =
    rsum (fun g => phi fl i g * at0 vol i * at0 (xr_nf x) g) ng * / e_k _ s + rsum (fun g => at0 (out (xr_sc x)) g * phi fl i g * at0 vol i) ng)%R).
  { intros x i Ix Ii. destruct (D x Ix) as (Cm & Od & _). destruct (C40_balance ng (sct x) (xr_sc x) (fun h => phi fl i h) Cm Od) as (o & _ & Eo & B). rewrite Eo.
    rewrite (rsum_ext _ (fun g => at0 (xr_ch x) g * (rsum (fun h => at0 (xr_nf x) h * phi fl i h) ng / e_k _ s * at0 vol i) + (rsum (fun h => if (h =? g)%nat then 0 else sct x g h * phi fl i h) ng + sct x g g * phi fl i g) * at0 vol i)%R) by (intros; ring).
    rewrite rsum_plus, !rsum_scal_r, B. f_equal. destruct (sb_chi _ _ _ _ _ _ Sb x Ix) as [C1|C0].
    - rewrite C1, Rmult_1_l. rewrite (rsum_ext (fun g => phi fl i g * at0 vol i * at0 (xr_nf x) g)%R (fun g => at0 (xr_nf x) g * phi fl i g * at0 vol i)%R) by (intros; ring). rewrite rsum_scal_r. unfold Rdiv. ring.
    - rewrite (rsum_ext (fun h => at0 (xr_nf x) h * phi fl i h)%R (fun _ => 0%R)) by (intros h Hh; rewrite C0 by exact Hh; ring). rewrite (rsum_ext (fun g => phi fl i g * at0 vol i * at0 (xr_nf x) g)%R (fun _ => 0%R)) by (intros h Hh; rewrite C0 by exact Hh; ring). rewrite rsum_const0. unfold Rdiv. ring. }
  assert (Ab : absorption xs ng fl' vol = (lsum (fun x => lsum (fun i => rsum (fun g => at0 (xr_tr x) g * phi fl i g * at0 vol i) ng) (xr_reg x)) xs - lsum (fun x => lsum (fun i => rsum (fun g => at0 (out (xr_sc x)) g * phi fl i g * at0 vol i) ng) (xr_reg x)) xs)%R).
  { apply Rplus_eq_reg_r with (r := lsum (fun x => lsum (fun i => rsum (fun g => at0 (out (xr_sc x)) g * phi fl i g * at0 vol i)%R ng) (xr_reg x)) xs). unfold absorption. unfold Rminus at 2. rewrite Rplus_assoc, Rplus_opp_l, Rplus_0_r, <- lsum_plus. apply lsum_ext. intros x Ix. rewrite <- lsum_plus. apply lsum_ext. intros i Ii. rewrite <- rsum_plus. apply rsum_ext. intros g Hg. destruct (St i g (reg_bound xs nreg x i M Ix Ii) Hg) as [_ S2]. rewrite S2. ring. }
  assert (T : (lsum (fun x => lsum (fun i => rsum (fun g => (at0 (xr_ch x) g * (rsum (fun h => at0 (xr_nf x) h * phi fl i h) ng / e_k _ s) + rsum (fun h => if (h =? g)%nat then 0 else sct x g h * phi fl i h) ng + sct x g g * phi fl i g) * at0 vol i) ng) (xr_reg x)) xs =
    production xs ng fl vol * / e_k _ s + lsum (fun x => lsum (fun i => rsum (fun g => at0 (out (xr_sc x)) g * phi fl i g * at0 vol i) ng) (xr_reg x)) xs)%R).
  { unfold production. rewrite <- lsum_scale, <- lsum_plus. apply lsum_ext. intros x Ix. rewrite <- lsum_scale, <- lsum_plus. apply lsum_ext. intros i Ii. now apply Rh. }
  rewrite T in Su. rewrite Pe, Ek, Ab. assert (Q : production xs ng fl vol = (e_k _ s * (production xs ng fl vol * / e_k _ s))%R) by (field; lra). rewrite Q at 1. f_equal. lra.
Qed.
Print Assumptions C149_balance.

(** One cell with vacuum all around, one group, eight angles: the flux 1 is a solution with k = 1; of 13/3 neutrons made, 1 is absorbed
    and 10/3 leave. *)
Definition ec_m : Mesh := {| nx := 1; ny := 1; nz := 1 |}.
Definition ec_bc : BC := mkBC 1 (repeat (mkSize 1 1 1) 8) (fun _ => VACUUM) 1 sx_quad [].
Definition ec_sc : nat -> nat -> R := fun _ _ => 1%R.
Definition ec_x : XReg := mkXR [0] true [2]%R [13 / 3]%R [1]%R [1]%R [1]%R (mkSM 1 [1]%R [0 + 1]%R [mkRow 0 0 0]).
Definition ec_st : SnStatic := mkSG ec_m ec_bc ec_bc sx_quad (fun _ => [2]%R) false true (fun _ => sn_eq (sx_env true)) 2 (fun _ => sx_sched1) 1 1 [ec_x].
Definition ec_w : SnGSt := mkGS [[1]]%R [0]%R (repeat 0%R 24) (repeat 0%R 24) (Some (mkCD [repeat 7%R 6] [repeat 7%R 6] false false)).
Definition ec_s : ESt SnGSt := mkE _ [0]%R ec_w 1 1 [0]%R [0]%R [].
Lemma ec_env : forall q cw, length q = 1 -> sn_fits (sg_env ec_st 0 q cw).
Proof.
  intros q cw Lq. constructor.
  - unfold mesh_ok; cbn; lia.
  - constructor; [cbn; lia|cbn; lia|cbn; lia|]. intros a a' n s Es R H. assert (La : a < 8) by (apply (nth_error_Some (repeat (mkSize 1 1 1) 8)); cbn in Es; cbn; congruence).
    do 8 (destruct a as [|a]; [destruct n; cbn in Es, R, H; injection Es as <-; injection R as <-; cbn in H; try lia; eexists; split; reflexivity|]). lia.
  - intros []; cbn; unfold BcProofs.supported; auto.
  - cbn [ec_st sg_env sn_in sg_in ec_bc BcModel.sizes]. apply Forall_forall. intros s I. apply repeat_spec in I. subst. reflexivity.
  - reflexivity.
  - cbn; lia.
  - cbn; lia.
  - intros iang. exact Lq.
  - reflexivity.
  - intros iang ix iy iz fx fy fz q' xs I. cbn [ec_st sg_env sn_eq sg_eq sx_env]. destruct (sx_dir _ (sx_ang_in iang)) as (A & B & C). unfold eval_dd. rewrite A, B, C.
    assert (P : (0 < xs)%R) by (cbn in I; destruct I as [<-|[]]; lra). rewrite rdiv_ok by lra. eauto.
Qed.
Lemma ec_sched_once : NoDup (map snd sx_sched1).
Proof. cbn. repeat (constructor; [cbn; intuition discriminate|]); constructor. Qed.
Lemma ec_data : mesh_fits [ec_x] 1 /\ data_fits 1 (fun _ => ec_sc) [ec_x].
Proof.
  split.
  - split; [repeat constructor; cbn; intuition lia|]. cbn. intuition lia.
  - intros x [<-|[]]. split; [unfold compress, band, ec_sc; cbn [first_bound last_bound map seq]; rewrite (Rltb_true 0 1) by lra; reflexivity|]. split; [intros i g _ _ _; unfold ec_sc; lra|]. repeat split; reflexivity.
Qed.
Lemma ec_problem : sn_problem ec_st 1 (fun _ => ec_sc).
Proof.
  split; [|auto]. intros g Hg. assert (g = 0) by lia. subst. destruct ec_data as [M D]. constructor; [exact M|exact D|lia|exact ec_env|reflexivity| |].
  - intros k. cbn [ec_st sg_sched sg_nt sg_in ec_bc BcModel.sizes length repeat]. sched_in.
  - intros k. apply ec_sched_once.
Qed.
Lemma ec_physical : physical 1 1 (fun _ => ec_sc) [ec_x].
Proof. destruct ec_data as [M D]. split; [exact M|]. split; [exact D|]. split; [intros i Hi; cbn; lia|]. intros x g [<-|[]] Hg. assert (g = 0) by lia. subst. cbn. lra. Qed.
Lemma ec_balanced : sn_balanced ec_st 1 (fun _ => 1%R) (fun _ => 1%R) (fun _ => 1%R) [1%R].
Proof.
  constructor.
  - reflexivity.
  - intros g a q cw I. apply (sx_cos true a I).
  - intros; lra.
  - intros g iang a ix iy iz fx fy fz q xs o Ea H. exact (sx_balanced true iang a ix iy iz fx fy fz q xs o Ea H).
  - cbn. lra.
  - intros ix iy iz Hx Hy Hz. cbn in Hx, Hy, Hz. assert (ix = 0) by lia. assert (iy = 0) by lia. assert (iz = 0) by lia. subst. cbn. lra.
  - intros x i g [<-|[]] [<-|[]] Hg. assert (g = 0) by lia. subst. reflexivity.
  - intros x [<-|[]]. left. cbn. lra.
Qed.
Lemma ec_state : sn_state ec_st 1 true ec_w.
Proof.
  split; [|intros _; eexists; reflexivity]. split; [split; [reflexivity|intros row [<-|[]]; reflexivity]|]. do 3 (split; [reflexivity|]). intros c E. injection E as <-. split; [reflexivity|]. split; [reflexivity|]. split; repeat constructor.
Qed.
(** A sweep from zero incoming flux. *)
Lemma ec_sweep : forall src w', length src = 1 -> sg_sweep ec_st 0 src ec_w = Some w' -> phi (gs_flux w') 0 0 = Rmax 0 ((at0 src 0 + 1) * (3 / 16))%R.
Proof.
  intros src w' Ls E. destruct ec_problem as [F Sc]. destruct ec_state as [Fs _]. destruct (C108_sweep ec_st 1 (fun _ => ec_sc) 0 src ec_w (F 0 ltac:(lia)) Ls Sc Fs) as (l & u & s' & E' & C & La & V & _). rewrite E in E'. injection E' as <-.
  cbn [ec_st sg_inner] in C. destruct l as [|b [|c l]]; cbn [counted] in C; [contradiction| |destruct C as (_ & []) ]. destruct C as [(f & st & Q1 & Q2 & _ & _ & _ & Q3 & _) _]. cbn in La. subst b. rewrite V by (cbn; lia). rewrite Q3 by (cbn; lia). cbn [Nat.eqb]. f_equal.
  assert (Qv := Q1 ec_x 0 (or_introl eq_refl) (or_introl eq_refl)). change (phi (gs_flux ec_w) 0 0) with 1%R in Qv. unfold ec_sc in Qv. set (q := gs_q u) in *. assert (Lq : nth_error q 0 = Some (at0 q 0) /\ length q = 1 \/ True) by (right; exact I). clear Lq.
  change (records 0 ec_w) with true in Q2. set (e := sg_env ec_st 0 q true) in *.
  unfold sn_sweep1g in Q2. apply rbind_ok in Q2. destruct Q2 as (s1 & H & H'). apply rbind_ok in H'. destruct H' as (d & _ & H'). injection H' as <- _.
  assert (F0 : Forall (fun t : list R => length t = 1) (repeat (repeat 0%R 1) 2)) by (repeat constructor).
  destruct (angles_gain e 1 sx_sched1 (mkSS (gs_bin ec_w) (gs_bout ec_w) (repeat (repeat 0%R 1) 2) (no_arr ec_st) (no_arr ec_st)) s1 ltac:(unfold mesh_ok; cbn; lia) eq_refl (sx_cos true) ec_sched_once F0 H) as (X & Y & Z & P & B1 & B2 & B3 & _). destruct (sum_threads_spec 1 (ss_t s1) B2) as [_ At].
  specialize (B3 0 0 0 ltac:(cbn; lia) ltac:(cbn; lia) ltac:(cbn; lia)). change (cell_ix e (0, 0, 0)) with 0 in B3. change (sg_nreg ec_st) with 1. rewrite At, B3. cbn [ss_t]. change (repeat (repeat 0%R (sg_nreg ec_st)) (sg_nt ec_st)) with (repeat (repeat 0%R 1) 2). rewrite tot_zero.
  assert (Pv : forall ti, In ti sx_sched1 -> P (snd ti) 0 0 0 = (at0 q 0 * (3 / 16))%R /\ aof e (sn_wgt e) (snd ti) = (PI / 2)%R).
  { intros [tid iang] I. cbn [snd]. destruct (B1 tid iang I) as (a & x & y & z & Ea & So & En & Fc). destruct (Fc eq_refl) as (Fx & Fy & Fz). specialize (Fz eq_refl).
    assert (Zf : at0 x 0 = 0%R /\ at0 y 0 = 0%R /\ at0 z 0 = 0%R). { clear - I Fx Fy Fz. cbn in I. repeat (destruct I as [I|I]; [injection I as <- <-; cbn in Fx, Fy, Fz; injection Fx as <-; injection Fy as <-; injection Fz as <-; repeat split|]). destruct I. }
    destruct Zf as (Zx & Zy & Zz). destruct (So 0 0 0 ltac:(cbn; lia) ltac:(cbn; lia) ltac:(cbn; lia)) as (qv & xv & gz & Eq & Ex & Ev & _). destruct En as (En1 & En2 & En3).
    specialize (En1 0 0 ltac:(cbn; lia) ltac:(cbn; lia)). specialize (En2 0 0 ltac:(cbn; lia) ltac:(cbn; lia)). specialize (En3 eq_refl 0 0 ltac:(cbn; lia) ltac:(cbn; lia)).
    change (Ny e * 0 + 0) with 0 in En1. change (Nx e * 0 + 0) with 0 in En2, En3. rewrite Zx in En1. rewrite Zy in En2. rewrite Zz in En3.
    assert (Ff : forall b : bool, first_face 1 b = in_face b 0) by (intros []; reflexivity). change (Nx e) with 1 in En1. change (Ny e) with 1 in En2. change (Nz e) with 1 in En3. rewrite Ff in En1, En2, En3. rewrite En1, En2 in Ev. change (sn_d3 e) with true in Ev. cbv iota in Ev. rewrite En3 in Ev.
    cbn in Ex. injection Ex as <-. assert (qv = at0 q 0) by (unfold at0; symmetry; now apply nth_error_nth). subst qv.
    unfold e in Ev. cbn [sg_env ec_st sg_eq sn_eq sx_env] in Ev. destruct (sx_dir _ (sx_ang_in iang)) as (A & B & C). unfold eval_dd in Ev. rewrite A, B, C in Ev. rewrite rdiv_ok in Ev by lra. injection Ev as <- _ _ _. split; [field|].
    unfold aof. rewrite Ea. unfold sn_wgt. change (sn_d3 e) with true. cbv iota. assert (W : weight a = 1%R). { clear - Ea. apply nth_error_In in Ea. cbn in Ea. repeat (destruct Ea as [<-|Ea]; [reflexivity|]). destruct Ea. } rewrite W. field. }
  rewrite (lsum_ext _ (fun _ => at0 q 0 * (3 / 16) * (PI / 2))%R) by (intros ti I; destruct (Pv ti I) as [-> ->]; reflexivity). cbn [lsum sx_sched1]. change (sg_nreg ec_st) with 1 in *. lra.
Qed.
Lemma ec_flux : forall f0 fs src' sw', length f0 = 1 -> calc_fission_source 1 [ec_x] 1 [[1%R]] f0 = Some fs -> fss_groups SnGSt gs_flux (sg_sweep ec_st) [ec_x] 1 None (Some fs) 0 1 ([0%R], ec_w) = Some (src', sw') -> phi (gs_flux sw') 0 0 = 1%R.
Proof.
  assert (G := sn_good ec_st 1 (fun _ => ec_sc) true ec_problem).
  intros f0 fs src' sw' L0 Ef Eg. destruct ec_data as [M D]. destruct (C51_fission_source 1 1 (fun _ => ec_sc) 1 [ec_x] [[1%R]] f0 ltac:(lra) M D ltac:(split; [reflexivity|intros row [<-|[]]; reflexivity]) L0) as (f1 & E1 & L1 & V1 & _). rewrite Ef in E1. injection E1 as <-.
    assert (Fv : at0 fs 0 = (13 / 3)%R). { rewrite (V1 ec_x 0 (or_introl eq_refl) (or_introl eq_refl)). cbn. field. }
    destruct (group_made gs_flux (sg_sweep ec_st) (sn_state ec_st 1 true) 1 1 (fun _ => ec_sc) [ec_x] G ec_physical) with (fs := fs) (g := 0) (src := [0%R]) (sw := ec_w) as (s1 & w1 & E1 & L2 & E2 & _ & _ & _ & P1); auto.
    - exact ec_state.
    - intros i h Hi Hh. assert (i = 0) by lia. assert (h = 0) by lia. subst. cbn. lra.
    - intros i Hi. assert (i = 0) by lia. subst. rewrite Fv. lra.
    - cbn [fss_groups] in Eg. rewrite E1 in Eg. injection Eg as <- <-. rewrite (ec_sweep s1 w1 L2 E2). rewrite (P1 ec_x 0 (or_introl eq_refl) (or_introl eq_refl)), Fv. cbn [rsum Nat.eqb]. change (at0 (xr_ch ec_x) 0) with 1%R. rewrite Rmax_right; lra.
Qed.
Example C149_instance : sn_problem ec_st 1 (fun _ => ec_sc) /\ physical (sg_nreg ec_st) 1 (fun _ => ec_sc) (sg_xs ec_st) /\ sn_balanced ec_st 1 (fun _ => 1%R) (fun _ => 1%R) (fun _ => 1%R) [1%R] /\ sg_inner ec_st = 1 /\
  sound gs_flux (sn_state ec_st 1 true) (sg_nreg ec_st) 1 (sg_xs ec_st) [1%R] ec_s /\
  exists s', eigen_step SnGSt gs_flux (sg_sweep ec_st) (sg_xs ec_st) 1 (sg_nreg ec_st) [1%R] ec_s = Some s' /\
    (forall i g, i < 1 -> g < 1 -> (0 < phi (gs_flux (e_sw _ ec_s)) i g)%R /\ phi (gs_flux (e_sw _ s')) i g = phi (gs_flux (e_sw _ ec_s)) i g) /\
    exists cur, group_current 0 (e_sw _ s') = Some cur /\ leakage ec_m (fun _ => 1%R) (fun _ => 1%R) (fun _ => 1%R) cur = (10 / 3)%R.
Proof.
  assert (So : sound gs_flux (sn_state ec_st 1 true) (sg_nreg ec_st) 1 (sg_xs ec_st) [1%R] ec_s).
  { split; [exact ec_state|]. split; [reflexivity|]. split; [reflexivity|]. split; [cbn; lra|]. split; [intros i h Hi Hh; cbn in Hi; assert (i = 0) by lia; assert (h = 0) by lia; subst; cbn; lra|]. cbn. lra. }
  split; [exact ec_problem|]. split; [exact ec_physical|]. split; [exact ec_balanced|]. split; [reflexivity|]. split; [exact So|].
  assert (G := sn_good ec_st 1 (fun _ => ec_sc) true ec_problem).
  assert (Fl := fun fs src' sw' => ec_flux [0%R] fs src' sw' eq_refl).
  assert (Nd : ~ dies gs_flux (sg_sweep ec_st) (sg_nreg ec_st) 1 (sg_xs ec_st) [1%R] ec_s).
  { intros (fs & src' & sw' & Q1 & Q2 & Q3). assert (Fv := Fl fs src' sw' Q1 Q2). cbn [production lsum sg_xs ec_st ec_x xr_reg rsum xr_nf] in Q3. unfold production in Q3. cbn [lsum sg_xs ec_st ec_x xr_reg rsum xr_nf] in Q3. rewrite Fv in Q3. cbn in Q3. lra. }
  assert (Pv : forall i, i < sg_nreg ec_st -> (0 < at0 [1%R] i)%R). { intros i Hi. cbn in Hi. assert (i = 0) by lia. subst. cbn. lra. }
  destruct (step_made gs_flux (sg_sweep ec_st) (sn_state ec_st 1 true) (sg_nreg ec_st) 1 (fun _ => ec_sc) (sg_xs ec_st) [1%R] G ec_physical eq_refl Pv ec_s So) as [(Dy & _)|(_ & s1 & E1 & _)]; [contradiction|].
  unfold eigen_iter in E1. destruct (eigen_step _ _ _ _ _ _ _ ec_s) as [s'|] eqn:E; [|discriminate]. exists s'. split; [reflexivity|].
  assert (St : forall i g, i < 1 -> g < 1 -> (0 < phi (gs_flux (e_sw _ ec_s)) i g)%R /\ phi (gs_flux (e_sw _ s')) i g = phi (gs_flux (e_sw _ ec_s)) i g).
  { intros i g Hi Hg. assert (i = 0) by lia. assert (g = 0) by lia. subst. change (phi (gs_flux (e_sw SnGSt ec_s)) 0 0) with 1%R. split; [lra|]. unfold eigen_step in E. cbn [e_k e_sw e_fs e_src ec_s gs_flux ec_w sg_xs ec_st sg_nreg] in E.
    destruct (calc_fission_source 1 [ec_x] 1 [[1%R]] [0%R]) as [fs|] eqn:Ef; [|discriminate]. destruct (fss_groups _ _ _ _ _ _ _ _ _ _) as [[src' sw']|] eqn:Eg; [|discriminate]. destruct (total_fission _ _ (gs_flux sw') _) as [t1|]; [|discriminate]. destruct (total_fission _ _ [[1%R]] _) as [t2|]; [|discriminate]. destruct (Reqb t2 0); [discriminate|]. cbv zeta in E. destruct (calc_fission_source _ _ _ (gs_flux sw') _) as [f2|]; [|discriminate]. injection E as <-. cbn [e_sw]. exact (Fl fs src' sw' eq_refl Eg). }
  split; [exact St|]. destruct (C149_balance ec_st 1 (fun _ => ec_sc) (fun _ => 1%R) (fun _ => 1%R) (fun _ => 1%R) [1%R] ec_s s' ec_problem ec_physical ec_balanced eq_refl eq_refl So E St) as (cur & C1 & K & B).
  exists (cur 0). split; [apply C1; lia|]. rewrite K in B. change (e_k SnGSt ec_s) with 1%R in B. unfold production, absorption in B. destruct (St 0 0 ltac:(lia) ltac:(lia)) as [_ Fv]. change (phi (gs_flux (e_sw SnGSt ec_s)) 0 0) with 1%R in Fv. cbn [lsum sg_xs ec_st ec_x xr_reg rsum xr_nf xr_tr xr_sc out] in B. rewrite Fv in B. unfold at0 in B at 1 2 3 4 5. cbn [nth] in B. unfold at0 in B. cbn [nth] in B. change (sg_m ec_st) with ec_m in B. lra.
Qed.
(** The same cell for C148: the hypotheses hold, and the first iteration does not die. *)
Example C148_instance : good_sweeper gs_flux (sg_sweep ec_st) (sn_state ec_st 1 true) 1 1 /\ sn_problem ec_st 1 (fun _ => ec_sc) /\ physical 1 1 (fun _ => ec_sc) [ec_x] /\ gs_fits ec_st 1 ec_w /\ (0 < production [ec_x] 1 (gs_flux ec_w) [1%R])%R /\
  (forall p, ep_max p = 1 -> exists s n du, eigen_run SnGSt gs_flux (sg_sweep ec_st) [ec_x] 1 1 [1%R] p [] [0%R] ec_w [0%R] [0%R] = Got (s, n, du) /\ (0 < e_k _ s)%R).
Proof.
  assert (G := sn_good ec_st 1 (fun _ => ec_sc) true ec_problem). split; [exact G|]. split; [exact ec_problem|]. split; [exact ec_physical|]. split; [exact (proj1 ec_state)|]. assert (Pw : (0 < production [ec_x] 1 (gs_flux ec_w) [1%R])%R) by (cbn; lra). split; [exact Pw|].
  intros p Hp. assert (Pv : forall i, i < 1 -> (0 < at0 [1%R] i)%R). { intros i Hi. assert (i = 0) by lia. subst. cbn. lra. }
  assert (Nn : forall i h, i < 1 -> h < 1 -> (0 <= phi (gs_flux ec_w) i h)%R). { intros i h Hi Hh. assert (i = 0) by lia. assert (h = 0) by lia. subst. cbn. lra. }
  assert (Hm : (Z.of_nat (ep_max p) < INT_MAX)%Z) by (rewrite Hp; unfold INT_MAX; lia).
  destruct (C148_run gs_flux (sg_sweep ec_st) (sn_state ec_st 1 true) 1 1 (fun _ => ec_sc) [ec_x] [1%R] p [] [0%R] ec_w [0%R] [0%R] G ec_physical eq_refl Pv Hm ec_state eq_refl eq_refl Nn Pw) as [(s & n & du & R & _ & K & _)|(R & f & j & t & Ef & Hj & Sj & So' & fs & src' & sw' & Q1 & Q2 & Q3)].
  - exists s, n, du. auto.
  - exfalso. assert (j = 0) by lia. subst j. cbn [steps] in Sj. injection Sj as <-. cbn [e_sw e_k e_fs e_src] in Q1, Q2. destruct ec_data as [M D].
    assert (Lf : length f = 1). { destruct (C51_fission_source 1 1 (fun _ => ec_sc) 1 [ec_x] (gs_flux ec_w) [0%R] ltac:(lra) M D ltac:(split; [reflexivity|intros row [<-|[]]; reflexivity]) eq_refl) as (f1 & E1 & L1 & _). rewrite Ef in E1. injection E1 as <-. exact L1. }
    assert (Fv := ec_flux f fs src' sw' Lf Q1 Q2). unfold production in Q3. cbn [lsum ec_x xr_reg rsum xr_nf] in Q3. rewrite Fv in Q3. cbn in Q3. lra.
Qed.
