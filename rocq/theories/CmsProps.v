(** The CMFD eigenvalue solve: a balanced transport solution is left alone, what stays unchanged is balanced, the eigenvalue
    is production over losses (C131); scaling of the fluxes (C132); options (C133). *)
From Coq Require Import List Bool Reals ZArith Lia Lra Permutation.
From Verif Require Import RUtil MeshModel MeshSpec MeshProofs BcModel ExpModel SnModel CmfdModel SnEqProps.
From Verif Require Import BcProofs MocProofs SnProps CmfdProps CmfdMacroProps CmsModel.
Import ListNotations.
Open Scope Z_scope.

(** ** What the properties speak about *)
Record cp_good (p : CmProb) : Prop := { cg_m : mesh_ok (cp_m p); cg_mesh : forall g, cm_m (cp_env p g) = cp_m p; cg_ng : (0 < cp_ng p)%nat }.
(** Neutron balance of every cell and group with the net currents [J]: removal and leakage against fission and scattering from
    the other groups. *)
Definition production (p : CmProb) (f : Flux) (i : Z) : R := lsum (fun h => cp_nf p h i * f h i)%R (seq 0 (cp_ng p)).
Definition arriving (p : CmProb) (g : nat) (f : Flux) (i : Z) : R := lsum (fun h => cp_sc p h g i * f h i)%R (filter (fun h => negb (Nat.eqb h g)) (seq 0 (cp_ng p))).
Definition balanced (p : CmProb) (k : R) (f : Flux) (J : nat -> Z -> R) : Prop := forall g q, (g < cp_ng p)%nat -> in_mesh (cp_m p) q -> let e := cp_env p g in let i := coarse_cell (cp_m p) q in
  (coarse_volume e i * cm_rm e i * f g i + leakage e (J g) q = coarse_volume e i * (cp_chi p g i * production p f i / k + arriving p g f i))%R.
(** Two fluxes with the same values in every group and cell. *)
Definition same_flux (p : CmProb) (f f' : Flux) : Prop := forall g i, (g < cp_ng p)%nat -> 0 <= i < n_pin (cp_m p) -> f' g i = f g i.
(** A linear solver that returns a guess which solves the system already, and one that solves systems. *)
Definition keeps_solutions (p : CmProb) : Prop := forall g b x, (g < cp_ng p)%nat -> (forall i, 0 <= i < n_pin (cp_m p) -> row_val p g x i = b i) -> forall i, 0 <= i < n_pin (cp_m p) -> cp_solver p g b x i = x i.
Definition solves (p : CmProb) : Prop := forall g b x i, (g < cp_ng p)%nat -> 0 <= i < n_pin (cp_m p) -> row_val p g (cp_solver p g b x) i = b i.
(** The coefficients stored are the ones of setup_solve. *)
Definition set_up (p : CmProb) : Prop := forall g, (g < cp_ng p)%nat -> cm_sane (cp_env p g) /\ (forall is, 0 <= is < n_surf (cp_m p) -> exists c, surf_coef (cp_env p g) is = CVal c /\ cp_dt p g is = c_dt c /\ cp_dh p g is = c_dh c).

Lemma in_cells : forall p i, In i (cp_cells p) <-> 0 <= i < n_pin (cp_m p).
Proof. intros p i. unfold cp_cells. apply in_zrange. Qed.
Lemma in_groups : forall p g, In g (cp_groups p) <-> (g < cp_ng p)%nat.
Proof. intros p g. unfold cp_groups. rewrite in_seq. lia. Qed.
Lemma arriving_eq : forall p g f i, in_scat p g f i = arriving p g f i.
Proof. intros p g f i. unfold in_scat, arriving, cp_groups. induction (seq 0 (cp_ng p)) as [|h l IH]; [reflexivity|]. cbn [lsum filter]. rewrite IH. destruct (Nat.eqb h g); cbn [negb lsum]; [ring|reflexivity]. Qed.
Lemma row_apply_scal : forall c e dt dh i x y cols, (forall j, In j cols -> y j = (c * x j)%R) -> row_apply e dt dh i y cols = match row_apply e dt dh i x cols with CVal v => CVal (c * v)%R | o => o end.
Proof. intros c e dt dh i x y cols. induction cols as [|j r IH]; intros H; cbn [row_apply]; [f_equal; ring|]. rewrite IH by (intros; apply H; right; auto). rewrite (H j (or_introl eq_refl)).
  destruct (in_struct (cm_m e) i j).
  - destruct (entry e dt dh i j) as [v| | |]; cbn [cbind]; try reflexivity. destruct (row_apply e dt dh i x r) as [b| | |]; cbn [cbind]; try reflexivity. f_equal. ring.
  - cbn [cbind]. destruct (row_apply e dt dh i x r) as [b| | |]; cbn [cbind]; try reflexivity. f_equal. ring. Qed.
Lemma row_val_scal : forall c p g x y i, cp_good p -> (forall j, 0 <= j < n_pin (cp_m p) -> y j = (c * x j)%R) -> row_val p g y i = (c * row_val p g x i)%R.
Proof. intros c p g x y i G H. unfold row_val, mat_row. rewrite (cg_mesh p G g). rewrite (row_apply_scal c _ _ _ _ x) by (intros j J; apply H; apply in_zrange; auto). destruct (row_apply _ _ _ _ x _); ring. Qed.
Lemma row_val_ext : forall p g x y i, cp_good p -> (forall j, 0 <= j < n_pin (cp_m p) -> y j = x j) -> row_val p g y i = row_val p g x i.
Proof. intros p g x y i G H. rewrite (row_val_scal 1 p g x y i G); [ring|]. intros j J. rewrite H by auto. ring. Qed.

(** Fluxes [c] times others in every group and cell. *)
Definition scaled (p : CmProb) (c : R) (f f' : Flux) : Prop := forall g i, (g < cp_ng p)%nat -> 0 <= i < n_pin (cp_m p) -> f' g i = (c * f g i)%R.
Lemma lsum_scale : forall {A} c (f : A -> R) l, lsum (fun a => (c * f a)%R) l = (c * lsum f l)%R.
Proof. intros A c f l. induction l as [|a l IH]; cbn [lsum]; [ring|]. rewrite IH. ring. Qed.
Lemma fis_scal : forall p c f f' i, scaled p c f f' -> 0 <= i < n_pin (cp_m p) -> fis_rate p f' i = (c * fis_rate p f i)%R.
Proof. intros p c f f' i H I. unfold fis_rate. rewrite <- lsum_scale. apply lsum_ext. intros g G. apply in_groups in G. rewrite (H g i G I). ring. Qed.
Lemma total_scal : forall p c f f', scaled p c f f' -> total_fis p f' = (c * total_fis p f)%R.
Proof. intros p c f f' H. unfold total_fis. rewrite <- lsum_scale. apply lsum_ext. intros i I. apply in_cells in I. apply fis_scal; auto. Qed.
Lemma scat_scal : forall p c g f f' i, scaled p c f f' -> 0 <= i < n_pin (cp_m p) -> in_scat p g f' i = (c * in_scat p g f i)%R.
Proof. intros p c g f f' i H I. unfold in_scat. rewrite <- lsum_scale. apply lsum_ext. intros h G. apply in_groups in G. rewrite (H h i G I). destruct (Nat.eqb h g); ring. Qed.
Lemma source_scal : forall p c g fs fs' f f' i, scaled p c f f' -> 0 <= i < n_pin (cp_m p) -> fs' i = (c * fs i)%R -> cm_source p g fs' f' i = (c * cm_source p g fs f i)%R.
Proof. intros p c g fs fs' f f' i H I F. unfold cm_source. rewrite (scat_scal p c g f f' i H I), F. ring. Qed.
Lemma resid_scal : forall p c g x x' b b', cp_good p -> (forall i, 0 <= i < n_pin (cp_m p) -> x' i = (c * x i)%R) -> (forall i, 0 <= i < n_pin (cp_m p) -> b' i = (c * b i)%R) -> resid2 p g x' b' = (c * c * resid2 p g x b)%R.
Proof. intros p c g x x' b b' G X B. unfold resid2. rewrite <- lsum_scale. apply lsum_ext. intros i I. apply in_cells in I. rewrite (row_val_scal c p g x x' i G X), (B i I). ring. Qed.
Lemma diff_scal : forall p c a b a' b', (0 <= c)%R -> (forall i, 0 <= i < n_pin (cp_m p) -> a' i = (c * a i)%R) -> (forall i, 0 <= i < n_pin (cp_m p) -> b' i = (c * b i)%R) -> cm_diff p a' b' = (c * cm_diff p a b)%R.
Proof. intros p c a b a' b' C A B. unfold cm_diff. rewrite <- (sqrt_square c) at 1 by auto. rewrite <- sqrt_mult_alt by nra. f_equal. rewrite <- lsum_scale. apply lsum_ext. intros i I. apply in_cells in I. rewrite (A i I), (B i I). ring. Qed.
Lemma same_scaled : forall p f f', same_flux p f f' <-> scaled p 1 f f'.
Proof. intros p f f'. split; intros H g i G I; rewrite (H g i G I); ring. Qed.

(** ** C131: fixed points *)
(** The equations of the solve: every row of every group holds, with the fission source [fs]. *)
Definition rows_hold (p : CmProb) (fs : Z -> R) (f : Flux) : Prop := forall g i, (g < cp_ng p)%nat -> 0 <= i < n_pin (cp_m p) -> row_val p g (f g) i = cm_source p g fs f i.
Lemma rows_ext : forall p fs fs' f f', cp_good p -> rows_hold p fs f -> same_flux p f f' -> (forall i, 0 <= i < n_pin (cp_m p) -> fs' i = fs i) -> rows_hold p fs' f'.
Proof. intros p fs fs' f f' G H A F g i Gg I. rewrite (row_val_ext p g (f g) (f' g) i G) by (intros j J; apply A; auto). rewrite (H g i Gg I). apply same_scaled in A. rewrite (source_scal p 1 g fs fs' f f' i A I); [ring|]. rewrite F by auto. ring. Qed.
Lemma resid_zero : forall p fs f g, rows_hold p fs f -> (g < cp_ng p)%nat -> resid2 p g (f g) (cm_source p g fs f) = 0%R.
Proof. intros p fs f g H G. unfold resid2. apply lsum_zero. intros i I. apply in_cells in I. rewrite (H g i G I). ring. Qed.
Lemma inner_keep : forall p fs f, cp_good p -> keeps_solutions p -> rows_hold p fs f -> forall gs f0 acc, (forall g, In g gs -> (g < cp_ng p)%nat) -> same_flux p f f0 ->
  same_flux p f (fst (cm_inner p fs gs f0 acc)) /\ snd (cm_inner p fs gs f0 acc) = acc.
Proof. intros p fs f G K H gs. induction gs as [|g r IH]; intros f0 acc GS A; cbn [cm_inner]; [auto|]. pose proof (rows_ext p fs fs f f0 G H A (fun i _ => eq_refl)) as H0.
  rewrite (resid_zero p fs f0 g H0 (GS g (or_introl eq_refl))). rewrite Rplus_0_r. apply IH; [intros; apply GS; right; auto|]. intros h i Hh I. unfold set_group. destruct (Nat.eqb_spec h g) as [->|N]; [|auto].
  rewrite (K g _ (f0 g) Hh); auto. Qed.
Lemma rows_of_balance : forall p k f J, cp_good p -> balanced p k f J -> (forall g q, (g < cp_ng p)%nat -> in_mesh (cp_m p) q -> mat_row (cp_env p g) (cp_dt p g) (cp_dh p g) (f g) (coarse_cell (cp_m p) q) =
    CVal (coarse_volume (cp_env p g) (coarse_cell (cp_m p) q) * cm_rm (cp_env p g) (coarse_cell (cp_m p) q) * f g (coarse_cell (cp_m p) q) + leakage (cp_env p g) (J g) q)%R) ->
  rows_hold p (fun i => (fis_rate p f i * (1 / k))%R) f.
Proof. intros p k f J G B M g i Gg I. destruct (cell_of_position (cp_m p) i (cg_m p G) I) as [Q E]. set (q := coarse_position (cp_m p) i) in *. unfold row_val. rewrite <- E. rewrite (M g q Gg Q). rewrite (B g q Gg Q). unfold cm_source. rewrite arriving_eq. unfold production, fis_rate, cp_groups, Rdiv. ring. Qed.

Section Keep.
Context (p : CmProb) (ktol ptol rred : R) (max_iter : Z) (k : R) (f : Flux).
Hypothesis (G : cp_good p) (K : keeps_solutions p) (NK : k <> 0%R) (NT : total_fis p f <> 0%R).
Hypothesis (H : rows_hold p (fun i => (fis_rate p f i * (1 / k))%R) f).
Definition held (l : CmLoop Flux (Z -> R)) : Prop := same_flux p f (l_s l) /\ l_k l = k /\ l_tf l = total_fis p f.
Lemma scale_pos : (0 < cp_scale p)%R.
Proof. unfold cp_scale. apply Rmult_lt_0_compat; [apply (IZR_lt 0); destruct (cg_m p G) as (A & B & C); unfold n_pin; nia|]. apply lt_0_INR. exact (cg_ng p G). Qed.
Lemma pass_keep : forall l, held l -> exists l', cm_pass (cp_ops p) ktol ptol rred 0 (cp_scale p) max_iter l = Some (l', max_iter <? l_iter l + 1) /\ held l' /\ l_iter l' = l_iter l + 1.
Proof. intros l (A & KK & T). unfold cm_pass. cbn [cp_ops op_fis op_inner op_tf op_diff]. unfold fission_src. rewrite KK. rewrite rdiv_ok by auto. set (fs := fun i => (fis_rate p (l_s l) i * (1 / k))%R).
  assert (R0 : rows_hold p fs f). { apply (rows_ext p _ fs f f G H); [intros g i _ _; reflexivity|]. intros i I. unfold fs. apply same_scaled in A. rewrite (fis_scal p 1 f (l_s l) i A I). ring. }
  destruct (inner_keep p fs f G K R0 (cp_groups p) (l_s l) 0%R (fun g => proj1 (in_groups p g)) A) as [S2 Z2]. destruct (cm_inner p fs (cp_groups p) (l_s l) 0) as [s2 ri]. cbn [fst snd] in S2, Z2. subst ri.
  assert (T2 : total_fis p s2 = total_fis p f). { pose proof (proj1 (same_scaled p f s2) S2) as S3. rewrite (total_scal p 1 f s2 S3). ring. }
  rewrite T, T2. rewrite rdiv_ok by auto. pose proof scale_pos. rewrite rdiv_ok by lra. unfold rdiv at 1. destruct (Reqb_spec 0 0) as [_|N]; [|contradiction]. rewrite andb_false_r. cbn [orb].
  eexists. split; [reflexivity|]. unfold held. cbn [l_s l_k l_tf l_iter]. split; [|reflexivity]. split; [auto|]. split; [field; auto|reflexivity]. Qed.
Lemma loop_keep : forall n l, held l -> l_iter l <= max_iter -> max_iter + 1 <= l_iter l + Z.of_nat n -> exists l', cm_loop n (cp_ops p) ktol ptol rred 0 (cp_scale p) max_iter l = Some l' /\ held l' /\ l_iter l' = max_iter + 1.
Proof. induction n as [|n IH]; intros l L I N; [lia|]. cbn [cm_loop]. destruct (pass_keep l L) as (l' & E & L' & I'). rewrite E. destruct (Z.ltb_spec max_iter (l_iter l + 1)) as [Q|Q].
  - exists l'. split; [reflexivity|]. split; [auto|lia].
  - apply IH; auto; lia. Qed.
Lemma solve_keep : 0 <= max_iter -> exists l, cms_solve p ktol ptol rred max_iter k f = Some l /\ same_flux p f (l_s l) /\ l_k l = k /\ l_iter l = max_iter + 1.
Proof. intros M. unfold cms_solve, fission_src. rewrite rdiv_ok by auto. unfold cm_residual. rewrite (lsum_zero (fun g => resid2 p g (f g) _)).
  2:{ intros g Gg. apply in_groups in Gg. apply resid_zero; auto. }
  pose proof scale_pos. rewrite sqrt_0. rewrite rdiv_ok by lra. replace (0 / cp_scale p)%R with 0%R by (field; lra).
  destruct (loop_keep (Z.to_nat (max_iter + 2)) (mkLoop f k (fun i => (fis_rate p f i * (1 / k))%R) (total_fis p f) 0)) as (l & E & (A & B & _) & I).
  - unfold held. cbn [l_s l_k l_tf]. split; [intros g i _ _; reflexivity|auto].
  - cbn [l_iter]. lia.
  - cbn [l_iter]. lia.
  - exists l. split; [exact E|]. auto. Qed.
End Keep.

Lemma fix_neg_pos : forall p f, (forall g i, (g < cp_ng p)%nat -> 0 <= i < n_pin (cp_m p) -> (0 <= f g i)%R) -> same_flux p f (fix_neg f).
Proof. intros p f H g i G I. unfold fix_neg. rewrite Rltb_false by auto. reflexivity. Qed.
(** A transport solution whose cells are balanced with its own currents is left alone: fluxes, eigenvalue and currents, whatever
    the tolerances.  The loop makes all its passes nonetheless. *)
Theorem C131_unchanged : forall p ktol ptol rred max_iter k, cp_good p -> set_up p -> keeps_solutions p -> 0 <= max_iter -> k <> 0%R -> let f g := cm_flux (cp_env p g) in
  (forall g, (g < cp_ng p)%nat -> cm_rad (cp_env p g) = true /\ cm_ax (cp_env p g) = true) -> (forall g i, (g < cp_ng p)%nat -> 0 <= i < n_pin (cp_m p) -> (0 < f g i)%R) ->
  lsum (production p f) (zrange (n_pin (cp_m p))) <> 0%R -> balanced p k f (fun g => cm_cur (cp_env p g)) ->
  exists l, cms_solve p ktol ptol rred max_iter k f = Some l /\ l_k l = k /\ same_flux p f (fix_neg (l_s l)) /\ l_iter l = max_iter + 1 /\
    (forall g is, (g < cp_ng p)%nat -> 0 <= is < n_surf (cp_m p) -> cm_current (cp_m p) (cp_dt p g) (cp_dh p g) (fix_neg (l_s l) g) is = cm_cur (cp_env p g) is).
Proof. intros p ktol ptol rred max_iter k G U K M NK f D POS NT B.
  assert (BP : forall g q s, (g < cp_ng p)%nat -> in_mesh (cp_m p) q -> (f g (coarse_cell (cp_m p) q) + beyond (cp_m p) (f g) q s <> 0)%R).
  { intros g q s Gg Q. pose proof (POS g _ Gg (coarse_cell_bounds _ _ Q)). assert (0 <= beyond (cp_m p) (f g) q s)%R; [|lra]. unfold beyond. destruct (in_mesh_dec (cp_m p) (move q s)) as [I|I]; [rewrite (flux_at_in _ _ _ I); left; apply POS; auto; apply coarse_cell_bounds; auto|rewrite (flux_at_out _ _ _ I); lra]. }
  assert (R0 : rows_hold p (fun i => (fis_rate p f i * (1 / k))%R) f).
  { apply (rows_of_balance p k f _ G B). intros g q Gg Q. destruct (U g Gg) as [S0 C0]. destruct (D g Gg) as [D1 D2]. pose proof (C43_transport_balance (cp_env p g) (cp_dt p g) (cp_dh p g) q S0 D1 D2) as T. rewrite (cg_mesh p G g) in T. apply T; auto. intros s. apply BP; auto. }
  destruct (solve_keep p ktol ptol rred max_iter k f G K NK NT R0 M) as (l & E & A & KK & I). exists l. split; [exact E|]. split; [exact KK|].
  assert (A2 : same_flux p f (fix_neg (l_s l))). { intros g i Gg Ii. rewrite (fix_neg_pos p (l_s l)); auto. intros g' i' G' I'. rewrite (A g' i' G' I'). left. apply POS; auto. }
  split; [exact A2|]. split; [exact I|]. intros g is Gg Is. destruct (U g Gg) as [S0 C0]. destruct (C0 is Is) as (c & Ec & Ed & Eh). destruct (D g Gg) as [D1 D2].
  pose proof (C43_current (cp_env p g) (cp_dt p g) (cp_dh p g) is c Ec Ed Eh) as T. rewrite (cg_mesh p G g) in T. fold (f g) in T. destruct T as [T _]; [destruct (surface_normal _ _); auto|].
  destruct (face_index_onto _ _ (cg_m p G) Is) as (fc & F & <-). rewrite coarse_neigh_cells_face in T by (auto; apply (cg_m p G)). cbn [fst snd] in T.
  assert (PP : forall q, in_mesh (cp_m p) q -> (0 < flux_at (f g) (cell_or_none (cp_m p) q))%R) by (intros q Q; rewrite (flux_at_in _ _ _ Q); apply POS; auto; apply coarse_cell_bounds; auto).
  assert (P0 : forall q, (0 <= flux_at (f g) (cell_or_none (cp_m p) q))%R) by (intros q; destruct (in_mesh_dec (cp_m p) q) as [Q|Q]; [left; apply PP; auto|rewrite (flux_at_out _ _ _ Q); lra]).
  rewrite <- T.
  - assert (SF : forall q, flux_at (fix_neg (l_s l) g) (cell_or_none (cp_m p) q) = flux_at (f g) (cell_or_none (cp_m p) q)). { intros q. destruct (in_mesh_dec (cp_m p) q) as [Q|Q]; [rewrite !flux_at_in by auto; apply A2; auto; apply coarse_cell_bounds; auto|rewrite !flux_at_out by auto; reflexivity]. }
    unfold cm_current. rewrite coarse_neigh_cells_face by (auto; apply (cg_m p G)). rewrite !SF. reflexivity.
  - destruct (face_has_cell _ fc (cg_m p G) F) as [Q|Q]; pose proof (PP _ Q); [pose proof (P0 (snd fc))|pose proof (P0 (low_side fc))]; lra. Qed.
Print Assumptions C131_unchanged.

(** Conversely, with a solver that solves: fluxes and an eigenvalue that a pass does not change are balanced with the currents that are
    stored for them. *)
Lemma inner_other : forall p fs gs f acc h, ~ In h gs -> fst (cm_inner p fs gs f acc) h = f h.
Proof. intros p fs gs. induction gs as [|g r IH]; intros f acc h N; cbn [cm_inner]; [reflexivity|]. rewrite IH by (intros C; apply N; right; exact C). unfold set_group. destruct (Nat.eqb_spec h g) as [->|]; [|reflexivity]. exfalso. apply N. left. reflexivity. Qed.
Lemma source_skip : forall p g fs f f' i, 0 <= i < n_pin (cp_m p) -> (forall h, (h < cp_ng p)%nat -> h <> g -> f' h i = f h i) -> cm_source p g fs f' i = cm_source p g fs f i.
Proof. intros p g fs f f' i I H. unfold cm_source. do 2 f_equal. unfold in_scat. apply lsum_ext. intros h Hh. apply in_groups in Hh. destruct (Nat.eqb_spec h g); [reflexivity|]. rewrite (H h Hh n). reflexivity. Qed.
Lemma inner_solved : forall p fs gs f acc, solves p -> NoDup gs -> (forall g, In g gs -> (g < cp_ng p)%nat) -> same_flux p f (fst (cm_inner p fs gs f acc)) ->
  forall g i, In g gs -> 0 <= i < n_pin (cp_m p) -> row_val p g (fst (cm_inner p fs gs f acc) g) i = cm_source p g fs (fst (cm_inner p fs gs f acc)) i.
Proof. intros p fs gs. induction gs as [|h r IH]; intros f acc SV ND GS A g i Gi I; [destruct Gi|]. cbn [cm_inner] in *. inversion ND as [|? ? N ND']; subst.
  set (x := cp_solver p h (cm_source p h fs f) (f h)) in *. set (f1 := set_group f h x) in *. set (acc1 := (acc + _)%R) in *.
  pose proof (inner_other p fs r f1 acc1 h N) as O. assert (F1 : f1 h = x) by (unfold f1, set_group; rewrite Nat.eqb_refl; reflexivity). destruct Gi as [<-|Gi].
  - rewrite O, F1. unfold x. rewrite (SV h _ _ i (GS h (or_introl eq_refl)) I). symmetry. apply source_skip; [exact I|]. intros k Hk _. apply A; auto.
  - apply IH; auto; [intros; apply GS; right; auto|]. intros h' j Hh J. unfold f1 at 2. unfold set_group. destruct (Nat.eqb_spec h' h) as [->|D]; [rewrite O, F1; reflexivity|]. apply A; auto. Qed.
Theorem C131_stationary : forall p ktol ptol rred r0 max_iter l l' b, cp_good p -> solves p -> cm_pass (cp_ops p) ktol ptol rred r0 (cp_scale p) max_iter l = Some (l', b) -> same_flux p (l_s l) (l_s l') -> l_k l <> 0%R ->
  balanced p (l_k l) (l_s l) (fun g => cm_current (cp_m p) (cp_dt p g) (cp_dh p g) (l_s l g)).
Proof. intros p ktol ptol rred r0 max_iter l l' b G SV P A NK. unfold cm_pass in P. cbn [cp_ops op_fis op_inner op_tf op_diff] in P. unfold fission_src in P. rewrite rdiv_ok in P by auto. cbv iota in P. set (fs := fun i => (fis_rate p (l_s l) i * (1 / l_k l))%R) in P.
  pose proof (inner_solved p fs (cp_groups p) (l_s l) 0%R SV (seq_NoDup _ _) (fun g => proj1 (in_groups p g))) as R0. destruct (cm_inner p fs (cp_groups p) (l_s l) 0) as [s2 ri]. cbn [fst] in R0.
  destruct (rdiv (l_k l * total_fis p s2) (l_tf l)) as [k'|]; [|discriminate]. destruct (rdiv (sqrt ri) (cp_scale p)) as [r1|]; [|discriminate]. injection P as P _. subst l'. cbn [l_s] in A. specialize (R0 A).
  intros g q Gg Q e i. pose proof (coarse_cell_bounds _ _ Q) as I. fold i in I. specialize (R0 g i (proj2 (in_groups p g) Gg) I). rewrite (row_val_ext p g (l_s l g) (s2 g) i G) in R0 by (intros j J; apply A; auto).
  rewrite (source_skip p g fs (l_s l) s2 i I) in R0 by (intros h Hh _; apply A; auto). unfold row_val in R0. pose proof (C42_row e (cp_dt p g) (cp_dh p g) (l_s l g) q) as T.
  assert (EM : cm_m e = cp_m p) by apply (cg_mesh p G g). rewrite EM in T. specialize (T (cg_m p G) Q). fold i in T. fold e in R0. rewrite T in R0. rewrite R0. unfold cm_source. rewrite arriving_eq. unfold fs, production, fis_rate, cp_groups, Rdiv. fold e. ring. Qed.
Print Assumptions C131_stationary.
(** The eigenvalue of a balanced state is the ratio of production to losses, over the whole mesh. *)
Theorem C131_eigenvalue : forall p k f J, cp_good p -> k <> 0%R -> (forall g i, coarse_volume (cp_env p g) i = coarse_volume (cp_env p 0) i) ->
  (forall i, 0 <= i < n_pin (cp_m p) -> production p f i <> 0%R -> lsum (fun g => cp_chi p g i) (seq 0 (cp_ng p)) = 1%R) -> balanced p k f J ->
  let V i := coarse_volume (cp_env p 0) i in let over h := lsum (fun g => lsum (fun q => h g (coarse_cell (cp_m p) q)) (cells_of (cp_m p))) (seq 0 (cp_ng p)) in
  let out := lsum (fun g => lsum (fun q => lsum (fun s => if in_mesh_dec (cp_m p) (move q s) then 0 else leak (cp_env p g) (J g) q s) AllSurfaces) (cells_of (cp_m p)))%R (seq 0 (cp_ng p)) in
  (k * (over (fun g i => V i * cm_rm (cp_env p g) i * f g i) + out - over (fun g i => V i * arriving p g f i)) = over (fun g i => V i * cp_nf p g i * f g i))%R.
Proof. intros p k f J G NK VOL CHI B V over out.
  assert (E : (over (fun g i => V i * cm_rm (cp_env p g) i * f g i) + out = over (fun g i => V i * (cp_chi p g i * production p f i / k)) + over (fun g i => V i * arriving p g f i))%R).
  { unfold over, out. rewrite <- !lsum_plus. apply lsum_ext. intros g Gg. apply in_seq in Gg. pose proof (C42_cancel (cp_env p g) (J g)) as C. rewrite (cg_mesh p G g) in C. rewrite <- (C (cg_m p G)). rewrite <- !lsum_plus. apply lsum_ext. intros q Q. apply cells_of_in in Q; [|apply (cg_m p G)].
    assert (L : (g < cp_ng p)%nat) by lia. pose proof (B g q L Q) as BB. cbv zeta in BB. rewrite VOL in BB. unfold V. rewrite BB. ring. }
  assert (F : (k * over (fun g i => V i * (cp_chi p g i * production p f i / k)) = over (fun g i => V i * cp_nf p g i * f g i))%R).
  { unfold over. rewrite (lsum_swap _ (seq 0 (cp_ng p)) (cells_of (cp_m p))). rewrite (lsum_swap _ (seq 0 (cp_ng p)) (cells_of (cp_m p))). rewrite <- lsum_scale. apply lsum_ext. intros q Q. apply cells_of_in in Q; [|apply (cg_m p G)]. set (i := coarse_cell (cp_m p) q). pose proof (coarse_cell_bounds _ _ Q) as I. fold i in I.
    rewrite (lsum_ext (fun g => V i * (cp_chi p g i * production p f i / k))%R (fun g => (V i * production p f i / k) * cp_chi p g i)%R) by (intros; unfold Rdiv; ring). rewrite lsum_scale.
    rewrite (lsum_ext (fun g => V i * cp_nf p g i * f g i)%R (fun g => V i * (cp_nf p g i * f g i))%R) by (intros; ring). rewrite lsum_scale. fold (production p f i).
    destruct (Req_dec (production p f i) 0) as [Z0|Z0]; [rewrite Z0; field; auto|]. rewrite (CHI i I Z0). field. auto. }
  rewrite <- F. replace (over (fun g i => V i * cm_rm (cp_env p g) i * f g i) + out - over (fun g i => V i * arriving p g f i))%R with (over (fun g i => V i * (cp_chi p g i * production p f i / k)))%R by lra. reflexivity. Qed.
Print Assumptions C131_eigenvalue.

(** ** C132: scaling *)
(** A linear solver that commutes with scaling (with the factor one: that looks at the cells of the mesh only). *)
Definition solver_scales (p : CmProb) : Prop := forall c g b b' x x', (g < cp_ng p)%nat -> (0 < c)%R -> (forall i, 0 <= i < n_pin (cp_m p) -> b' i = (c * b i)%R /\ x' i = (c * x i)%R) -> forall i, 0 <= i < n_pin (cp_m p) -> cp_solver p g b' x' i = (c * cp_solver p g b x i)%R.
Section Scale.
Context (p : CmProb) (c ktol ptol rred r0 : R) (max_iter : Z).
Hypothesis (G : cp_good p) (C : (0 < c)%R) (SS : solver_scales p).
Definition scaled_state (l l' : CmLoop Flux (Z -> R)) : Prop := scaled p c (l_s l) (l_s l') /\ l_k l' = l_k l /\ (forall i, 0 <= i < n_pin (cp_m p) -> l_fs l' i = (c * l_fs l i)%R) /\ l_tf l' = (c * l_tf l)%R /\ l_iter l' = l_iter l.
Lemma inner_scal : forall fs fs', (forall i, 0 <= i < n_pin (cp_m p) -> fs' i = (c * fs i)%R) -> forall gs f f' a a', (forall g, In g gs -> (g < cp_ng p)%nat) -> scaled p c f f' -> a' = (c * c * a)%R ->
  scaled p c (fst (cm_inner p fs gs f a)) (fst (cm_inner p fs' gs f' a')) /\ snd (cm_inner p fs' gs f' a') = (c * c * snd (cm_inner p fs gs f a))%R.
Proof. intros fs fs' F gs. induction gs as [|g r IH]; intros f f' a a' GS A E; cbn [cm_inner]; [auto|].
  assert (Gg : (g < cp_ng p)%nat) by (apply GS; left; reflexivity). assert (B : forall i, 0 <= i < n_pin (cp_m p) -> cm_source p g fs' f' i = (c * cm_source p g fs f i)%R) by (intros i I; apply source_scal; auto).
  apply IH; [intros; apply GS; right; auto| |].
  - intros h i Hh I. unfold set_group. destruct (Nat.eqb_spec h g) as [->|N]; [|apply A; auto]. apply (SS c g _ _ _ _ Hh C); [|exact I]. intros j J. split; [apply B; auto|apply A; auto].
  - rewrite (resid_scal p c g (f g) (f' g) (cm_source p g fs f) (cm_source p g fs' f') G) by (auto; intros j J; apply A; auto). rewrite E. ring. Qed.
Lemma Rltb_scal : forall a b, Rltb (c * a) (c * b) = Rltb a b.
Proof. intros a b. destruct (Rltb_spec (c * a) (c * b)), (Rltb_spec a b); auto; exfalso; nra. Qed.
Lemma pass_scal : forall l l2 l' b, scaled_state l l2 -> cm_pass (cp_ops p) ktol ptol rred r0 (cp_scale p) max_iter l = Some (l', b) ->
  exists l2', cm_pass (cp_ops p) ktol (c * ptol) rred (c * r0) (cp_scale p) max_iter l2 = Some (l2', b) /\ scaled_state l' l2'.
Proof. intros l l2 l' b (A & KE & FS & TF & IT) P. unfold cm_pass in *. cbn [cp_ops op_fis op_inner op_tf op_diff] in *. unfold fission_src in *. rewrite KE. destruct (rdiv 1 (l_k l)) as [rk|]; [|discriminate].
  set (fs := fun i => (fis_rate p (l_s l) i * rk)%R) in *. set (fs' := fun i => (fis_rate p (l_s l2) i * rk)%R). assert (F : forall i, 0 <= i < n_pin (cp_m p) -> fs' i = (c * fs i)%R) by (intros i I; unfold fs, fs'; rewrite (fis_scal p c _ _ i A I); ring).
  destruct (inner_scal fs fs' F (cp_groups p) (l_s l) (l_s l2) 0%R 0%R (fun g => proj1 (in_groups p g)) A ltac:(ring)) as [S2 Z2]. destruct (cm_inner p fs (cp_groups p) (l_s l) 0) as [s ri]. destruct (cm_inner p fs' (cp_groups p) (l_s l2) 0) as [s' ri']. cbn [fst snd] in S2, Z2.
  rewrite TF, (total_scal p c s s' S2). unfold rdiv in *. destruct (Reqb_spec (l_tf l) 0) as [|T0]; [discriminate|]. destruct (Reqb_spec (c * l_tf l) 0) as [Z0|_]; [exfalso; apply T0; apply (Rmult_eq_reg_l c); lra|].
  destruct (Reqb_spec (cp_scale p) 0) as [|N0]; [discriminate|]. injection P as <- <-.
  assert (KE2 : (l_k l * (c * total_fis p s) / (c * l_tf l))%R = (l_k l * total_fis p s / l_tf l)%R) by (field; lra). rewrite KE2.
  assert (DE : Rltb (cm_diff p fs' (l_fs l2)) (c * ptol) = Rltb (cm_diff p fs (l_fs l)) ptol). { rewrite (diff_scal p c fs (l_fs l) fs' (l_fs l2)) by (auto; lra). apply Rltb_scal. } rewrite DE.
  assert (RE : (if Reqb (c * r0) 0 then None else Some (sqrt ri' / cp_scale p / (c * r0))%R) = (if Reqb r0 0 then None else Some (sqrt ri / cp_scale p / r0)%R)).
  { destruct (Reqb_spec r0 0) as [Z0|Z0]; destruct (Reqb_spec (c * r0) 0) as [Y0|Y0]; [reflexivity|exfalso; apply Y0; rewrite Z0; ring|exfalso; apply Z0; apply (Rmult_eq_reg_l c); lra|].
    f_equal. rewrite Z2. rewrite sqrt_mult_alt by nra. rewrite sqrt_square by lra. field. split; [auto|]. split; [auto|lra]. }
  rewrite RE. rewrite IT. eexists. split; [reflexivity|].
  unfold scaled_state. cbn [l_s l_k l_fs l_tf l_iter]. split; [exact S2|]. split; [reflexivity|]. split; [exact F|]. split; [reflexivity|lia]. Qed.
Lemma loop_scal : forall n l l2 l', scaled_state l l2 -> cm_loop n (cp_ops p) ktol ptol rred r0 (cp_scale p) max_iter l = Some l' ->
  exists l2', cm_loop n (cp_ops p) ktol (c * ptol) rred (c * r0) (cp_scale p) max_iter l2 = Some l2' /\ scaled_state l' l2'.
Proof. induction n as [|n IH]; intros l l2 l' A H; cbn [cm_loop] in *; [discriminate|]. destruct (cm_pass (cp_ops p) ktol ptol rred r0 (cp_scale p) max_iter l) as [[l1 b]|] eqn:P; [|discriminate]. destruct (pass_scal l l2 l1 b A P) as (l3 & E & A3). rewrite E. destruct b; [injection H as <-; eauto|]. eapply IH; eauto. Qed.
End Scale.
(** Fluxes scaled and the tolerance on the fission source scaled with them: the fluxes come out scaled, the eigenvalue and the
    number of passes are the same. *)
Theorem C132_scaled : forall p c ktol ptol rred max_iter k f f' l, cp_good p -> (0 < c)%R -> solver_scales p -> scaled p c f f' -> cms_solve p ktol ptol rred max_iter k f = Some l ->
  exists l', cms_solve p ktol (c * ptol) rred max_iter k f' = Some l' /\ scaled p c (fix_neg (l_s l)) (fix_neg (l_s l')) /\ l_k l' = l_k l /\ l_iter l' = l_iter l.
Proof. intros p c ktol ptol rred max_iter k f f' l G C SS A H. unfold cms_solve, fission_src in *. destruct (rdiv 1 k) as [rk|]; [|discriminate].
  set (fs := fun i => (fis_rate p f i * rk)%R) in *. set (fs' := fun i => (fis_rate p f' i * rk)%R). assert (F : forall i, 0 <= i < n_pin (cp_m p) -> fs' i = (c * fs i)%R) by (intros i I; unfold fs, fs'; rewrite (fis_scal p c _ _ i A I); ring).
  unfold cm_residual in *. unfold rdiv in H |- *. destruct (Reqb_spec (cp_scale p) 0) as [|N0]; [discriminate|].
  assert (E : (sqrt (lsum (fun g => resid2 p g (f' g) (cm_source p g fs' f')) (cp_groups p)) / cp_scale p = c * (sqrt (lsum (fun g => resid2 p g (f g) (cm_source p g fs f)) (cp_groups p)) / cp_scale p))%R).
  { replace (lsum (fun g => resid2 p g (f' g) (cm_source p g fs' f')) (cp_groups p)) with (c * c * lsum (fun g => resid2 p g (f g) (cm_source p g fs f)) (cp_groups p))%R.
    - rewrite sqrt_mult_alt by nra. rewrite sqrt_square by lra. field. auto.
    - rewrite <- lsum_scale. apply lsum_ext. intros g Gg. apply in_groups in Gg. symmetry. apply (resid_scal p c g (f g) (f' g) _ _ G); intros i I; [apply A; auto|apply source_scal; auto]. }
  rewrite E. destruct (loop_scal p c ktol ptol rred _ max_iter G C SS _ (mkLoop f k fs (total_fis p f) 0) (mkLoop f' k fs' (total_fis p f') 0) l ltac:(unfold scaled_state; cbn [l_s l_k l_fs l_tf l_iter]; split; [exact A|]; split; [reflexivity|]; split; [exact F|]; split; [apply total_scal; exact A|reflexivity]) H) as (l' & E' & (A' & K' & _ & _ & I')).
  exists l'. split; [exact E'|]. split; [|auto]. intros g i Gg I. unfold fix_neg. rewrite (A' g i Gg I). replace 0%R with (c * 0)%R by ring. rewrite (Rltb_scal c C). rewrite Rmult_0_r. destruct (Rltb (l_s l g i) 0); ring. Qed.
Print Assumptions C132_scaled.
(** The matrices do not notice the scaling either. *)
Definition scale_env (c : R) (e : CmEnv) : CmEnv := mkCM (cm_m e) (cm_dx e) (cm_dy e) (cm_dz e) (cm_tr e) (cm_rm e) (fun i => (c * cm_flux e i)%R) (fun i => (c * cm_cur e i)%R) (fun i => (c * cm_sf e i)%R) (cm_bc e) (cm_rad e) (cm_ax e).
Theorem C132_coefficients : forall c e is, (0 < c)%R -> surf_coef (scale_env c e) is = surf_coef e is.
Proof. intros c e is C. unfold surf_coef. cbn [scale_env cm_m cm_ax cm_rad cm_cur cm_sf cm_flux]. destruct (coarse_neigh_cells (cm_m e) is) as [c1 c2]. set (n := surface_normal (cm_m e) is).
  assert (D : forall cell side, diffusivity (scale_env c e) n cell side = diffusivity e n cell side) by reflexivity. rewrite !D. destruct (diffusivity e n c1 (side_low n)) as [d1| | |]; cbn [cbind]; try reflexivity. destruct (diffusivity e n c2 (side_high n)) as [d2| | |]; cbn [cbind]; try reflexivity.
  destruct (rdiv (2 * d1 * d2) (d1 + d2)) as [dt|]; cbn [cfin cbind]; [|reflexivity]. destruct (if Rltb 0 d1 then rdiv d1 (d1 + d2) else rdiv d2 (d1 + d2)) as [st|]; cbn [cfin cbind]; [|reflexivity].
  assert (FA : forall x, flux_at (fun i => (c * cm_flux e i)%R) x = (c * flux_at (cm_flux e) x)%R) by (intros x; unfold flux_at; destruct (0 <=? x); ring). rewrite !FA. set (fl := flux_at (cm_flux e) c1). set (fr := flux_at (cm_flux e) c2).
  assert (Q : forall a a' b b', a' = (c * a)%R -> b' = (c * b)%R -> rdiv a' b' = rdiv a b). { intros a a' b b' -> ->. unfold rdiv. destruct (Reqb_spec b 0) as [Z0|Z0], (Reqb_spec (c * b) 0) as [Y0|Y0]; auto; [exfalso; apply Y0; rewrite Z0; ring|exfalso; apply Z0; apply (Rmult_eq_reg_l c); lra|]. f_equal. field. split; lra. }
  rewrite (Q (cm_cur e is + dt * (fr - fl))%R (c * cm_cur e is + dt * (c * fr - c * fl))%R (fl + fr)%R (c * fl + c * fr)%R) by ring. rewrite (Q (cm_sf e is - st * fl - (1 - st) * fr)%R (c * cm_sf e is - st * (c * fl) - (1 - st) * (c * fr))%R (fl + fr)%R (c * fl + c * fr)%R) by ring.
  rewrite (Q (cm_sf e is - st * fr)%R (c * cm_sf e is - st * (c * fr))%R fr (c * fr)%R) by ring. reflexivity. Qed.
Print Assumptions C132_coefficients.

(** ** Two cells side by side, two groups; the coefficients of group 0 carry transport currents *)
Definition two : Mesh := {| nx := 2; ny := 1; nz := 1 |}.
Definition at2 (a b : R) (i : Z) : R := if i =? 0 then a else b.
(** The surface between the two cells has the number 3. *)
Example between : face_index two (face_of {| px := 0; py := 0; pz := 0 |} EAST) = 3.
Proof. reflexivity. Qed.
Definition env2 (flux : Z -> R) (cur : R) (rm : Z -> R) (have : bool) : CmEnv := mkCM two (fun _ => 1%R) (fun _ => 1%R) (fun _ => 1%R) (fun _ => (1 / 3)%R) rm flux (fun k => if k =? 3 then cur else 0%R) (fun _ => 1%R) (fun _ => REFLECT) have have.
Lemma env2_sane : forall flux cur rm have, cm_sane (env2 flux cur rm have).
Proof. intros. constructor; cbn; intros; try lra; [unfold mesh_ok; cbn; lia|]. left. reflexivity. Qed.
Definition only3 (v : R) (k : Z) : R := if k =? 3 then v else 0%R.
Lemma env2_coef : forall a b cur rm have is, (0 < a)%R -> (0 < b)%R -> 0 <= is < n_surf two ->
  exists c, surf_coef (env2 (at2 a b) cur rm have) is = CVal c /\ only3 1 is = c_dt c /\ only3 (if have then (cur + (b - a)) / (a + b) else 0)%R is = c_dh c.
Proof. intros a b cur rm have is A B I.
  assert (D : forall n cell side, 0 <= cell < 2 -> diffusivity (env2 (at2 a b) cur rm have) n cell side = CVal 1%R).
  { intros n cell side C. unfold diffusivity. destruct (Z.ltb_spec (-1) cell); [|lia]. unfold d_coeff. cbn [env2 cm_tr]. rewrite rdiv_ok by lra. cbn [cfin cbind]. unfold cell_thickness. cbn [env2 cm_dx cm_dy cm_dz cm_m]. destruct n; rewrite rdiv_ok by lra; cbn [cfin]; f_equal; field. }
  assert (D0 : forall n side, diffusivity (env2 (at2 a b) cur rm have) n (-1) side = CVal 0%R) by reflexivity.
  assert (N : n_surf two = 11) by reflexivity. rewrite N in I.
  assert (IS : is = 3 \/ (is <> 3 /\ In is [0; 1; 2; 4; 5; 6; 7; 8; 9; 10])) by (cbn; lia). destruct IS as [-> | [N3 IS]].
  - unfold surf_coef. cbn [env2 cm_m cm_flux cm_cur cm_sf cm_rad cm_ax]. change (coarse_neigh_cells two 3) with (0, 1). change (surface_normal two 3) with X_NORM. cbv iota beta. rewrite !D by lia. cbn [cbind]. rewrite rdiv_ok by lra. cbn [cfin cbind]. rewrite Rltb_true by lra. rewrite rdiv_ok by lra. cbn [cfin cbind].
    eexists. split; [reflexivity|]. unfold only3. change (3 =? 3) with true. cbv iota. change (flux_at (at2 a b) 0) with a. change (flux_at (at2 a b) 1) with b. destruct have; cbn [c_dt c_dh]; (split; [field|]); [|reflexivity]. rewrite rdiv_ok by lra. field. lra.
  - unfold surf_coef. cbn [env2 cm_m cm_flux cm_cur cm_sf cm_rad cm_ax]. unfold only3. rewrite (proj2 (Z.eqb_neq is 3) N3).
    assert (NB : exists c1 c2, coarse_neigh_cells two is = (c1, c2) /\ ((c1 = -1 /\ 0 <= c2 < 2) \/ (c2 = -1 /\ 0 <= c1 < 2))). { cbn in IS. repeat (destruct IS as [<-|IS]; [eexists; eexists; split; [vm_compute; reflexivity|lia]|]). destruct IS. }
    destruct NB as (c1 & c2 & -> & [[-> C2]|[-> C1]]); rewrite D0, D by lia; cbn [cbind].
    + rewrite rdiv_ok by lra. cbn [cfin cbind]. rewrite Rltb_false by lra. rewrite rdiv_ok by lra. cbn [cfin cbind]. eexists. split; [reflexivity|].
      assert (F0 : flux_at (at2 a b) (-1) = 0%R) by reflexivity. assert (F1 : (0 < flux_at (at2 a b) c2)%R) by (unfold flux_at, at2; destruct (0 <=? c2) eqn:Q; [destruct (c2 =? 0); lra|apply Z.leb_gt in Q; lia]). destruct (surface_normal two is); destruct have; cbn [c_dt c_dh]; (split; [field|]); try reflexivity; rewrite F0, rdiv_ok by lra; field; lra.
    + rewrite rdiv_ok by lra. cbn [cfin cbind]. rewrite Rltb_true by lra. rewrite rdiv_ok by lra. cbn [cfin cbind]. eexists. split; [reflexivity|].
      assert (F0 : flux_at (at2 a b) (-1) = 0%R) by reflexivity. assert (F1 : (0 < flux_at (at2 a b) c1)%R) by (unfold flux_at, at2; destruct (0 <=? c1) eqn:Q; [destruct (c1 =? 0); lra|apply Z.leb_gt in Q; lia]). destruct (surface_normal two is); destruct have; cbn [c_dt c_dh]; (split; [field|]); try reflexivity; rewrite F0, rdiv_ok by lra; field; lra. Qed.
Lemma two_cells : forall i, 0 <= i < n_pin two -> i = 0 \/ i = 1.
Proof. intros i I. change (n_pin two) with 2 in I. lia. Qed.
Lemma two_pos : forall q, in_mesh two q -> q = {| px := 0; py := 0; pz := 0 |} \/ q = {| px := 1; py := 0; pz := 0 |}.
Proof. intros [x y z] (A & B & C). cbn in A, B, C. assert (y = 0) by lia. assert (z = 0) by lia. subst. assert (x = 0 \/ x = 1) as [-> | ->] by lia; auto. Qed.
(** The two rows. *)
Lemma rows2 : forall e dh x, (exists flux cur rm have, e = env2 flux cur rm have) -> mat_row e (only3 1) (only3 dh) x 0 = CVal ((cm_rm e 0 + 1 + dh) * x 0%Z + (dh - 1) * x 1%Z)%R /\ mat_row e (only3 1) (only3 dh) x 1 = CVal ((cm_rm e 1 + 1 - dh) * x 1%Z + (- dh - 1) * x 0%Z)%R.
Proof. intros e dh x (flux & cur & rm & have & ->). assert (M : mesh_ok two) by (unfold mesh_ok; cbn; lia).
  assert (I0 : in_mesh two {| px := 0; py := 0; pz := 0 |}) by (unfold in_mesh; cbn; lia). assert (I1 : in_mesh two {| px := 1; py := 0; pz := 0 |}) by (unfold in_mesh; cbn; lia).
  set (e := env2 flux cur rm have).
  pose proof (C42_row e (only3 1) (only3 dh) x {| px := 0; py := 0; pz := 0 |} M I0) as H0. pose proof (C42_row e (only3 1) (only3 dh) x {| px := 1; py := 0; pz := 0 |} M I1) as H1.
  change (coarse_cell (cm_m e) {| px := 0; py := 0; pz := 0 |}) with 0 in H0. change (coarse_cell (cm_m e) {| px := 1; py := 0; pz := 0 |}) with 1 in H1. rewrite H0, H1. clear H0 H1. unfold leakage, leak. cbn [lsum AllSurfaces].
  change (cm_m e) with two. change (coarse_cell two {| px := 0; py := 0; pz := 0 |}) with 0. change (coarse_cell two {| px := 1; py := 0; pz := 0 |}) with 1. unfold coarse_area, coarse_volume. cbn [e env2 cm_dx cm_dy cm_dz cm_rm outward].
  repeat match goal with |- context [face_index ?m ?f] => let v := eval vm_compute in (face_index m f) in change (face_index m f) with v end.
  unfold cm_current. repeat match goal with |- context [coarse_neigh_cells ?m ?f] => let v := eval vm_compute in (coarse_neigh_cells m f) in change (coarse_neigh_cells m f) with v end. cbv iota beta zeta.
  change (only3 1 3) with 1%R. change (only3 dh 3) with dh.
  repeat match goal with |- context [only3 ?v ?k] => change (only3 v k) with 0%R end.
  change (flux_at x 0) with (x 0). change (flux_at x 1) with (x 1). split; f_equal; ring. Qed.
Definition inv2 (a b c d : R) (v : Z -> R) (i : Z) : R := at2 ((d * v 0%Z - b * v 1%Z) / (a * d - b * c)) ((a * v 1%Z - c * v 0%Z) / (a * d - b * c)) i.

(** Fluxes 3 and 1 in group 0, 1 and 1 in group 1; a current of 1/2 from the first to the second cell in group 0. *)
Definition prob : CmProb := mkCP two (fun g => match g with O => env2 (at2 3 1) (1 / 2) (fun _ => 1%R) true | _ => env2 (at2 1 1) 0 (fun _ => 1%R) true end) (fun _ => only3 1) (fun g => only3 (match g with O => - 3 / 8 | _ => 0 end)%R) 2
  (fun g => match g with O => at2 (35 / 24) (5 / 8) | _ => fun _ => 0%R end) (fun g _ => match g with O => 1%R | _ => 0%R end) (fun h g => match h, g with O, Datatypes.S O => at2 (1 / 3) 1 | _, _ => fun _ => 0%R end)
  (fun g b _ => match g with O => inv2 (13 / 8) (- 11 / 8) (- 5 / 8) (19 / 8) b | _ => inv2 2 (-1) (-1) 2 b end).
Lemma prob_rows : forall g x, (g < 2)%nat -> row_val prob g x 0 = match g with O => 13 / 8 * x 0%Z + - 11 / 8 * x 1%Z | _ => 2 * x 0%Z + -1 * x 1%Z end%R /\ row_val prob g x 1 = match g with O => - 5 / 8 * x 0%Z + 19 / 8 * x 1%Z | _ => -1 * x 0%Z + 2 * x 1%Z end%R.
Proof. intros g x G. assert (g = 0 \/ g = 1)%nat as [-> | ->] by lia; unfold row_val; cbn [prob cp_env cp_dt cp_dh].
  - destruct (rows2 (env2 (at2 3 1) (1 / 2) (fun _ => 1%R) true) (- 3 / 8) x ltac:(eauto)) as [-> ->]. cbn [env2 cm_rm]. split; field.
  - destruct (rows2 (env2 (at2 1 1) 0 (fun _ => 1%R) true) 0 x ltac:(eauto)) as [-> ->]. cbn [env2 cm_rm]. split; field. Qed.
Lemma prob_good : cp_good prob.
Proof. constructor; [unfold mesh_ok; cbn; lia| |cbn; lia]. intros [|g]; reflexivity. Qed.
Lemma prob_solves : solves prob.
Proof. intros g b x i G I. change (cp_ng prob) with 2%nat in G. destruct (prob_rows g (cp_solver prob g b x) G) as [R0 R1]. assert (g = 0 \/ g = 1)%nat as [-> | ->] by lia; destruct (two_cells i I) as [-> | ->]; rewrite ?R0, ?R1; cbn [prob cp_solver]; unfold inv2, at2; change (0 =? 0) with true; change (1 =? 0) with false; cbv iota; field. Qed.
Lemma prob_keeps : keeps_solutions prob.
Proof. intros g b x G H i I. change (cp_ng prob) with 2%nat in G. destruct (prob_rows g x G) as [R0 R1]. assert (B0 : 0 <= 0 < n_pin (cp_m prob)) by (change (n_pin (cp_m prob)) with 2; lia). assert (B1 : 0 <= 1 < n_pin (cp_m prob)) by (change (n_pin (cp_m prob)) with 2; lia). rewrite (H 0 B0) in R0. rewrite (H 1 B1) in R1.
  assert (g = 0 \/ g = 1)%nat as [-> | ->] by lia; destruct (two_cells i I) as [-> | ->]; cbn [prob cp_solver]; unfold inv2; rewrite R0, R1; unfold at2; change (0 =? 0) with true; change (1 =? 0) with false; cbv iota; field. Qed.
Lemma prob_set_up : set_up prob.
Proof. intros g G. change (cp_ng prob) with 2%nat in G. assert (g = 0 \/ g = 1)%nat as [-> | ->] by lia; cbn [prob cp_env cp_dt cp_dh cp_m]; (split; [apply env2_sane|]); intros is I.
  - destruct (env2_coef 3 1 (1 / 2) (fun _ => 1%R) true is ltac:(lra) ltac:(lra) I) as (c & E & D1 & D2). exists c. split; [exact E|]. split; [exact D1|]. rewrite <- D2. unfold only3. destruct (is =? 3); [field|reflexivity].
  - destruct (env2_coef 1 1 0 (fun _ => 1%R) true is ltac:(lra) ltac:(lra) I) as (c & E & D1 & D2). exists c. split; [exact E|]. split; [exact D1|]. rewrite <- D2. unfold only3. destruct (is =? 3); [field|reflexivity]. Qed.
Example C131_instance : cp_good prob /\ set_up prob /\ keeps_solutions prob /\ solves prob /\ (forall g, (g < cp_ng prob)%nat -> cm_rad (cp_env prob g) = true /\ cm_ax (cp_env prob g) = true) /\ lsum (production prob (fun g => cm_flux (cp_env prob g))) (zrange (n_pin (cp_m prob))) = 5%R /\
  balanced prob (5 / 4) (fun g => cm_flux (cp_env prob g)) (fun g => cm_cur (cp_env prob g)).
Proof. split; [apply prob_good|]. split; [apply prob_set_up|]. split; [apply prob_keeps|]. split; [apply prob_solves|]. split; [intros [|g] _; split; reflexivity|].
  change (zrange (n_pin (cp_m prob))) with [0; 1]. split; [cbn [lsum]; unfold production; cbn [seq cp_ng prob lsum cp_nf cp_env env2 cm_flux]; unfold at2; change (0 =? 0) with true; change (1 =? 0) with false; cbv iota; field|].
  intros g q G Q e i. change (cp_ng prob) with 2%nat in G. change (cp_m prob) with two in *.
  assert (g = 0 \/ g = 1)%nat as [-> | ->] by lia; destruct (two_pos q Q) as [-> | ->]; unfold leakage, leak, production, arriving; cbn [lsum AllSurfaces]; unfold e, i; cbn [prob cp_env cp_ng seq filter Nat.eqb negb lsum cp_nf cp_sc cp_chi];
  unfold coarse_area, coarse_volume; cbn [env2 cm_dx cm_dy cm_dz cm_rm cm_m cm_cur cm_flux outward];
  repeat match goal with |- context [face_index ?m ?f] => let v := eval vm_compute in (face_index m f) in change (face_index m f) with v end;
  repeat match goal with |- context [coarse_cell ?m ?f] => let v := eval vm_compute in (coarse_cell m f) in change (coarse_cell m f) with v end; unfold at2;
  repeat match goal with |- context [Z.eqb ?a ?b] => let v := eval vm_compute in (Z.eqb a b) in change (Z.eqb a b) with v end; cbv iota; field. Qed.

(** ** One group, no transport data: removal 1 and 2, the cells coupled by diffusion *)
Definition prob1 : CmProb := mkCP two (fun _ => env2 (at2 1 1) 0 (at2 1 2) false) (fun _ => only3 1) (fun _ => only3 0) 1 (fun _ _ => 1%R) (fun _ _ => 1%R) (fun _ _ _ => 0%R) (fun g b _ => inv2 2 (-1) (-1) 3 b).
Lemma prob1_rows : forall g x, row_val prob1 g x 0 = (2 * x 0%Z - x 1%Z)%R /\ row_val prob1 g x 1 = (- x 0%Z + 3 * x 1%Z)%R.
Proof. intros g x. unfold row_val. cbn [prob1 cp_env cp_dt cp_dh]. destruct (rows2 (env2 (at2 1 1) 0 (at2 1 2) false) 0 x ltac:(eauto)) as [-> ->]. cbn [env2 cm_rm]. unfold at2. change (0 =? 0) with true. change (1 =? 0) with false. cbv iota. split; field. Qed.
Lemma prob1_good : cp_good prob1.
Proof. constructor; [unfold mesh_ok; cbn; lia| |cbn; lia]. intros g; reflexivity. Qed.
Lemma prob1_solves : solves prob1.
Proof. intros g b x i G I. destruct (prob1_rows g (cp_solver prob1 g b x)) as [R0 R1]. destruct (two_cells i I) as [-> | ->]; rewrite ?R0, ?R1; cbn [prob1 cp_solver]; unfold inv2, at2; change (0 =? 0) with true; change (1 =? 0) with false; cbv iota; field. Qed.
Lemma prob1_scales : solver_scales prob1.
Proof. intros c g b b' x x' G C H i I. destruct (H 0 ltac:(change (n_pin (cp_m prob1)) with 2; lia)) as [B0 _]. destruct (H 1 ltac:(change (n_pin (cp_m prob1)) with 2; lia)) as [B1 _]. cbn [prob1 cp_solver]. unfold inv2. rewrite B0, B1. unfold at2. destruct (i =? 0); field. Qed.
Lemma prob1_set_up : set_up prob1.
Proof. intros g G. cbn [prob1 cp_env cp_dt cp_dh cp_m]. split; [apply env2_sane|]. intros is I. exact (env2_coef 1 1 0 (at2 1 2) false is ltac:(lra) ltac:(lra) I). Qed.
Definition has_values (l : CmLoop Flux (Z -> R)) (x0 x1 k o0 o1 : R) (n : Z) : Prop := l_s l 0%nat 0 = x0 /\ l_s l 0%nat 1 = x1 /\ l_k l = k /\ l_fs l 0 = o0 /\ l_fs l 1 = o1 /\ l_tf l = (x0 + x1)%R /\ l_iter l = n.
Lemma prob1_pass : forall ktol ptol rred r0 max_iter l x0 x1 k o0 o1 n, has_values l x0 x1 k o0 o1 n -> k <> 0%R -> (x0 + x1)%R <> 0%R ->
  let f0 := (x0 / k)%R in let f1 := (x1 / k)%R in let y0 := ((3 * f0 + f1) / 5)%R in let y1 := ((f0 + 2 * f1) / 5)%R in let k' := (k * (y0 + y1) / (x0 + x1))%R in
  exists l' b, cm_pass (cp_ops prob1) ktol ptol rred r0 (cp_scale prob1) max_iter l = Some (l', b) /\ has_values l' y0 y1 k' f0 f1 (n + 1) /\
    (b = true <-> ((Rabs (k' - k) < ktol /\ sqrt ((f0 - o0) * (f0 - o0) + (f1 - o1) * (f1 - o1)) < ptol /\ r0 <> 0 /\ sqrt ((2 * x0 - x1 - f0) * (2 * x0 - x1 - f0) + (- x0 + 3 * x1 - f1) * (- x0 + 3 * x1 - f1)) / 2 / r0 < rred)%R \/ max_iter < n + 1)).
Proof. intros ktol ptol rred r0 max_iter l x0 x1 k o0 o1 n (E0 & E1 & EK & F0 & F1 & TF & IT) NK NT f0 f1 y0 y1 k'.
  assert (SC : cp_scale prob1 = 2%R) by (unfold cp_scale; cbn [prob1 cp_m cp_ng]; change (n_pin two) with 2; cbn [INR]; ring).
  assert (FR : forall f i, fis_rate prob1 f i = f 0%nat i). { intros f i. unfold fis_rate. change (cp_groups prob1) with [0%nat]. cbn [lsum prob1 cp_nf]. ring. }
  assert (TT : forall f, total_fis prob1 f = (f 0%nat 0%Z + f 0%nat 1%Z)%R). { intros f. unfold total_fis. change (cp_cells prob1) with [0; 1]. cbn [lsum]. rewrite !FR. ring. }
  assert (SR : forall fs f i, cm_source prob1 0 fs f i = fs i). { intros fs f i. unfold cm_source, in_scat. change (cp_groups prob1) with [0%nat]. cbn [lsum prob1 cp_chi cp_env Nat.eqb]. unfold coarse_volume. cbn [env2 cm_dx cm_dy cm_dz]. ring. }
  set (fs := fun i => (fis_rate prob1 (l_s l) i * (1 / k))%R). assert (FS0 : fs 0 = f0) by (unfold fs, f0; rewrite FR, E0; unfold Rdiv; ring). assert (FS1 : fs 1 = f1) by (unfold fs, f1; rewrite FR, E1; unfold Rdiv; ring).
  destruct (cm_pass (cp_ops prob1) ktol ptol rred r0 (cp_scale prob1) max_iter l) as [[l' b]|] eqn:P.
  - exists l', b. split; [reflexivity|]. destruct (pass_inv (cp_ops prob1) ktol ptol rred r0 (cp_scale prob1) max_iter l l' b P) as (I & _ & K & T & B).
    unfold cm_pass in P. cbn [cp_ops op_fis op_inner op_tf op_diff] in P. unfold fission_src in P. rewrite EK in P. rewrite rdiv_ok in P by auto. fold fs in P. change (cp_groups prob1) with [0%nat] in P. cbn [cm_inner] in P. set (x := cp_solver prob1 0 (cm_source prob1 0 fs (l_s l)) (l_s l 0%nat)) in P.
    assert (X0 : x 0 = y0) by (unfold x; cbn [prob1 cp_solver]; unfold inv2, at2; change (0 =? 0) with true; cbv iota; fold prob1; rewrite !SR, FS0, FS1; unfold y0; field).
    assert (X1 : x 1 = y1) by (unfold x; cbn [prob1 cp_solver]; unfold inv2, at2; change (1 =? 0) with false; cbv iota; fold prob1; rewrite !SR, FS0, FS1; unfold y1; field).
    rewrite SC in P. set (ri := (0 + _)%R) in P. assert (RI : ri = ((2 * x0 - x1 - f0) * (2 * x0 - x1 - f0) + (- x0 + 3 * x1 - f1) * (- x0 + 3 * x1 - f1))%R). { unfold ri, resid2. change (cp_cells prob1) with [0; 1]. cbn [lsum]. destruct (prob1_rows 0 (l_s l 0%nat)) as [-> ->]. rewrite !SR, E0, E1, FS0, FS1. ring. }
    rewrite TF in P. rewrite rdiv_ok in P by auto. rewrite rdiv_ok in P by lra. injection P as P PB. clearbody x ri. subst l'. cbn [l_s l_k l_fs l_tf l_iter] in *.
    assert (KV : (k * total_fis prob1 (set_group (l_s l) 0 x) / (x0 + x1))%R = k') by (rewrite TT; unfold set_group; cbn [Nat.eqb]; rewrite X0, X1; reflexivity). split.
    + unfold has_values. cbn [l_s l_k l_fs l_tf l_iter]. rewrite KV. unfold set_group at 1 2. cbn [Nat.eqb]. rewrite TT. unfold set_group. cbn [Nat.eqb]. rewrite X0, X1, FS0, FS1, IT. repeat split.
    + rewrite <- PB. rewrite KV. rewrite orb_true_iff, !andb_true_iff, Z.ltb_lt, IT. unfold cm_diff. change (cp_cells prob1) with [0; 1]. cbn [lsum]. rewrite FS0, FS1, F0, F1, Rplus_0_r, RI. assert (RL : forall a b, Rltb a b = true <-> (a < b)%R) by (intros a b'; destruct (Rltb_spec a b'); split; intros; auto; try discriminate; contradiction). rewrite !RL.
      unfold rdiv. destruct (Reqb_spec r0 0) as [Z0|Z0]; [split; [intros [[_ A]|A]; [discriminate|auto]|intros [(_ & _ & A & _)|A]; [contradiction|auto]]|]. rewrite RL. tauto.
  - exfalso. unfold cm_pass in P. cbn [cp_ops op_fis op_inner op_tf op_diff] in P. unfold fission_src in P. rewrite EK in P. rewrite rdiv_ok in P by auto. destruct (cm_inner _ _ _ _ _). rewrite TF, SC in P. rewrite rdiv_ok in P by auto. rewrite rdiv_ok in P by lra. discriminate. Qed.
(** Without the tolerance scaled along, the decision to stop and the eigenvalue depend on the normalisation of the fluxes: from the
    fluxes doubled everywhere one pass more is made and another eigenvalue returned. *)
Theorem C132_refuted : exists p ktol ptol rred max_iter k f f' l l', cp_good p /\ set_up p /\ solves p /\ solver_scales p /\ scaled p 2 f f' /\ cms_solve p ktol ptol rred max_iter k f = Some l /\ cms_solve p ktol ptol rred max_iter k f' = Some l' /\
  l_iter l = 2 /\ l_iter l' = 3 /\ l_k l = (5 / 7)%R /\ l_k l' = (18 / 25)%R.
Proof. set (start a := mkLoop (fun (_ : nat) (_ : Z) => a) 1%R (fun _ : Z => a) (a + a)%R 0).
  assert (SV : forall a n, (0 < a)%R -> cms_solve prob1 1 (1 / 4) 1 n 1 (fun _ _ => a) = cm_loop (Z.to_nat (n + 2)) (cp_ops prob1) 1 (1 / 4) 1 (a / 2) (cp_scale prob1) n (mkLoop (fun _ _ => a) 1%R (fun i => (fis_rate prob1 (fun _ _ => a) i * (1 / 1))%R) (a + a)%R 0)).
  { intros a n A. unfold cms_solve, fission_src. rewrite rdiv_ok by lra. unfold cm_residual. rewrite rdiv_ok by (unfold cp_scale; cbn [prob1 cp_m cp_ng]; change (n_pin two) with 2; cbn [INR]; lra).
    assert (FR : forall f i, fis_rate prob1 f i = f 0%nat i). { intros f i. unfold fis_rate. change (cp_groups prob1) with [0%nat]. cbn [lsum prob1 cp_nf]. ring. }
    assert (T0 : total_fis prob1 (fun _ _ => a) = (a + a)%R) by (unfold total_fis; change (cp_cells prob1) with [0; 1]; cbn [lsum]; rewrite !FR; ring). rewrite T0.
    assert (RS : lsum (fun g => resid2 prob1 g (fun _ => a) (cm_source prob1 g (fun i => (fis_rate prob1 (fun _ _ => a) i * (1 / 1))%R) (fun _ _ => a))) (cp_groups prob1) = (a * a)%R).
    { change (cp_groups prob1) with [0%nat]. cbn [lsum]. unfold resid2. change (cp_cells prob1) with [0; 1]. cbn [lsum]. destruct (prob1_rows 0 (fun _ => a)) as [-> ->]. unfold cm_source, in_scat. change (cp_groups prob1) with [0%nat]. cbn [lsum prob1 cp_chi cp_env Nat.eqb]. fold prob1. rewrite !FR. unfold coarse_volume. cbn [env2 cm_dx cm_dy cm_dz]. field. }
    rewrite RS. rewrite sqrt_square by lra. assert (S2 : cp_scale prob1 = 2%R) by (unfold cp_scale; cbn [prob1 cp_m cp_ng]; change (n_pin two) with 2; cbn [INR]; lra). rewrite S2 at 1. reflexivity. }
  assert (FR : forall f i, fis_rate prob1 f i = f 0%nat i). { intros f i. unfold fis_rate. change (cp_groups prob1) with [0%nat]. cbn [lsum prob1 cp_nf]. ring. }
  assert (SQ : forall v, (0 <= v)%R -> sqrt (v * v + v * v) = (v * sqrt 2)%R). { intros v V. replace (v * v + v * v)%R with (v * v * 2)%R by ring. rewrite sqrt_mult_alt by nra. rewrite sqrt_square by auto. reflexivity. }
  assert (S2 : (14 / 10 < sqrt 2 < 15 / 10)%R). { split; [rewrite <- (sqrt_square (14 / 10)) by lra; apply sqrt_lt_1_alt; lra|rewrite <- (sqrt_square (15 / 10)) by lra; apply sqrt_lt_1_alt; lra]. }
  assert (RUN : forall a, (0 < a)%R -> exists l1 l2 l3 b2 b3, cm_pass (cp_ops prob1) 1 (1 / 4) 1 (a / 2) (cp_scale prob1) 2 (mkLoop (fun _ _ => a) 1%R (fun i => (fis_rate prob1 (fun _ _ => a) i * (1 / 1))%R) (a + a)%R 0) = Some (l1, false) /\
     cm_pass (cp_ops prob1) 1 (1 / 4) 1 (a / 2) (cp_scale prob1) 2 l1 = Some (l2, b2) /\ cm_pass (cp_ops prob1) 1 (1 / 4) 1 (a / 2) (cp_scale prob1) 2 l2 = Some (l3, b3) /\ l_iter l2 = 2 /\ l_iter l3 = 3 /\ l_k l2 = (5 / 7)%R /\ l_k l3 = (18 / 25)%R /\ b3 = true /\
     (b2 = true <-> (a / 7 * sqrt 2 < 1 / 4)%R)).
  { intros a A.
    destruct (prob1_pass 1 (1 / 4) 1 (a / 2) 2 (mkLoop (fun _ _ => a) 1%R (fun i => (fis_rate prob1 (fun _ _ => a) i * (1 / 1))%R) (a + a)%R 0) a a 1 a a 0) as (l1 & b1 & P1 & V1 & B1); [unfold has_values; cbn [l_s l_k l_fs l_tf l_iter]; rewrite !FR; repeat split; field|lra|lra|].
    assert (N1 : b1 = false). { destruct b1; [|reflexivity]. exfalso. destruct (proj1 B1 eq_refl) as [(_ & _ & _ & Q)|Q]; [|lia]. replace ((2 * a - a - a / 1) * (2 * a - a - a / 1) + (- a + 3 * a - a / 1) * (- a + 3 * a - a / 1))%R with (a * a)%R in Q by field. rewrite sqrt_square in Q by lra. replace (a / 2 / (a / 2))%R with 1%R in Q by (field; lra). lra. }
    subst b1. clear B1. replace ((3 * (a / 1) + a / 1) / 5)%R with (4 / 5 * a)%R in V1 by field. replace ((a / 1 + 2 * (a / 1)) / 5)%R with (3 / 5 * a)%R in V1 by field. replace (1 * (4 / 5 * a + 3 / 5 * a) / (a + a))%R with (7 / 10)%R in V1 by (field; lra). replace (a / 1)%R with a in V1 by field.
    destruct (prob1_pass 1 (1 / 4) 1 (a / 2) 2 l1 _ _ _ _ _ _ V1) as (l2 & b2 & P2 & V2 & B2); [lra|lra|].
    replace (4 / 5 * a / (7 / 10))%R with (8 / 7 * a)%R in * by field. replace (3 / 5 * a / (7 / 10))%R with (6 / 7 * a)%R in * by field.
    replace ((3 * (8 / 7 * a) + 6 / 7 * a) / 5)%R with (6 / 7 * a)%R in * by field. replace ((8 / 7 * a + 2 * (6 / 7 * a)) / 5)%R with (4 / 7 * a)%R in * by field. replace (7 / 10 * (6 / 7 * a + 4 / 7 * a) / (4 / 5 * a + 3 / 5 * a))%R with (5 / 7)%R in * by (field; lra).
    destruct (prob1_pass 1 (1 / 4) 1 (a / 2) 2 l2 _ _ _ _ _ _ V2) as (l3 & b3 & P3 & V3 & B3); [lra|lra|].
    exists l1, l2, l3, b2, b3. split; [exact P1|]. split; [exact P2|]. split; [exact P3|]. destruct V2 as (_ & _ & K2 & _ & _ & _ & I2). destruct V3 as (_ & _ & K3 & _ & _ & _ & I3). split; [exact I2|]. split; [exact I3|]. split; [exact K2|]. split; [rewrite K3; field; lra|]. split; [apply B3; right; lia|].
    replace ((8 / 7 * a - a) * (8 / 7 * a - a) + (6 / 7 * a - a) * (6 / 7 * a - a))%R with (a / 7 * (a / 7) + a / 7 * (a / 7))%R in B2 by field. rewrite SQ in B2 by lra.
    replace ((2 * (4 / 5 * a) - 3 / 5 * a - 8 / 7 * a) * (2 * (4 / 5 * a) - 3 / 5 * a - 8 / 7 * a) + (- (4 / 5 * a) + 3 * (3 / 5 * a) - 6 / 7 * a) * (- (4 / 5 * a) + 3 * (3 / 5 * a) - 6 / 7 * a))%R with (a / 7 * (a / 7) + a / 7 * (a / 7))%R in B2 by field. rewrite SQ in B2 by lra.
    rewrite B2. split.
    - intros [(_ & Q & _)|Q]; [exact Q|lia].
    - intros Q. left. split; [rewrite Rabs_pos_eq by lra; lra|]. split; [exact Q|]. split; [lra|]. replace (a / 7 * sqrt 2 / 2 / (a / 2))%R with (sqrt 2 / 7)%R by (field; lra). lra. }
  destruct (RUN 1%R ltac:(lra)) as (l1 & l2 & _ & b2 & _ & P1 & P2 & _ & I2 & _ & K2 & _ & _ & B2). destruct (RUN 2%R ltac:(lra)) as (m1 & m2 & m3 & c2 & c3 & Q1 & Q2 & Q3 & _ & J3 & _ & L3 & C3 & C2).
  assert (T2 : b2 = true) by (apply B2; lra). assert (N2 : c2 = false) by (destruct c2; [exfalso; pose proof (proj1 C2 eq_refl); lra|reflexivity]). subst.
  exists prob1, 1%R, (1 / 4)%R, 1%R, 2, 1%R, (fun _ _ => 1%R), (fun _ _ => 2%R), l2, m3. split; [apply prob1_good|]. split; [apply prob1_set_up|]. split; [apply prob1_solves|]. split; [apply prob1_scales|]. split; [intros g i _ _; ring|].
  rewrite (SV 1%R 2) by lra. rewrite (SV 2%R 2) by lra. change (Z.to_nat (2 + 2)) with 4%nat. cbn [cm_loop]. rewrite P1, P2, Q1, Q2, Q3. do 2 (split; [reflexivity|]). auto. Qed.
Print Assumptions C132_refuted.
Example C132_instance : cp_good prob1 /\ solver_scales prob1 /\ scaled prob1 2 (fun _ _ => 1%R) (fun _ _ => 2%R).
Proof. split; [apply prob1_good|]. split; [apply prob1_scales|]. intros g i _ _. ring. Qed.

(** ** C133: the options *)
Theorem C133_options : forall ktol ptol rred n, let given d (o : option R) := match o with Some v => v | None => d end in
  let ok (o : option R) := match o with Some v => (0 < v)%R | None => True end in
  (cm_options ktol ptol rred n = CVal (mkCO (given (1 / 1000000) ktol) (given (1 / 100000) ptol) (given (1 / 1000) rred) (match n with Some v => v | None => 100 end))%R <-> ok ktol /\ ok ptol /\ ok rred /\ match n with Some v => 0 <= v | None => True end) /\
  (cm_options ktol ptol rred n = CExc \/ exists o, cm_options ktol ptol rred n = CVal o /\ (0 < co_ktol o)%R /\ (0 < co_ptol o)%R /\ (0 < co_rred o)%R /\ 0 <= co_max o).
Proof. intros ktol ptol rred n given ok. unfold cm_options, read_pos, read_max_iter, ok, given.
  assert (RL : forall v, (Rltb 0 v = true /\ (0 < v)%R) \/ (Rltb 0 v = false /\ ~ (0 < v)%R)) by (intros v; destruct (Rltb_spec 0 v); auto).
  destruct ktol as [a|]; [destruct (RL a) as [[-> A]|[-> A]]|]; cbn [cbind]; try (split; [split; [discriminate|tauto]|left; reflexivity]);
  (destruct ptol as [b|]; [destruct (RL b) as [[-> B]|[-> B]]|]; cbn [cbind]; try (split; [split; [discriminate|tauto]|left; reflexivity]));
  (destruct rred as [c|]; [destruct (RL c) as [[-> C]|[-> C]]|]; cbn [cbind]; try (split; [split; [discriminate|tauto]|left; reflexivity]));
  (destruct n as [m|]; [destruct (Z.ltb_spec m 0)|]; cbn [cbind]; try (split; [split; [discriminate|intros (_ & _ & _ & ?); lia]|left; reflexivity]));
  (split; [split; [intros _; repeat split; auto; lra|reflexivity]|right; eexists; split; [reflexivity|cbn [co_ktol co_ptol co_rred co_max]; repeat split; auto; try lra; lia]]). Qed.
Print Assumptions C133_options.
Example C133_instance : cm_options None (Some 2%R) None (Some 7) = CVal (mkCO (1 / 1000000) 2 (1 / 1000) 7) /\ cm_options None (Some 0%R) None None = CExc.
Proof. unfold cm_options, read_pos, read_max_iter. rewrite Rltb_true by lra. rewrite Rltb_false by lra. auto. Qed.
