(** When the CMFD system has exactly one solution and when that is not negative (C173). *)
From Coq Require Import List Bool Reals ZArith Lia Lra Permutation.
From Verif Require Import RUtil MeshModel MeshSpec MeshProofs BcModel ExpModel SnModel CmfdModel SnEqProps HomProps.
From Verif Require Import BcProofs MocProofs SnProps CmfdProps CmfdMacroProps CmsModel CmsProps.
Import ListNotations.
Open Scope Z_scope.

(** ** What the property speaks about *)
(** The correction of no surface exceeds its diffusion coefficient. *)
Definition tame (m : Mesh) (dt dh : Z -> R) : Prop := forall is, 0 <= is < n_surf m -> (Rabs (dh is) <= dt is)%R.
(** Neutrons are removed in every cell. *)
Definition removes (e : CmEnv) : Prop := forall i, 0 <= i < n_pin (cm_m e) -> (0 < cm_rm e i)%R.

(** ** Currents between the cells of a part of the mesh cancel *)
Section Part.
Context (e : CmEnv) (J : Z -> R) (b : Position -> bool).
Hypothesis M : mesh_ok (cm_m e).
Definition within (q : Position * Surface) : bool := internal (cm_m e) q && b (move (fst q) (snd q)).
Lemma part_cancel : lsum (leakage e J) (filter b (cells_of (cm_m e))) = lsum (fun p => lsum (fun s => if within (p, s) then 0%R else leak e J p s) AllSurfaces) (filter b (cells_of (cm_m e))).
Proof. set (m := cm_m e) in *. set (C := filter b (cells_of m)). set (L := list_prod C AllSurfaces). set (f := fun q : Position * Surface => leak e J (fst q) (snd q)).
  assert (IC : forall p, In p C <-> in_mesh m p /\ b p = true) by (intros p; unfold C; rewrite filter_In, cells_of_in by exact M; reflexivity).
  assert (Z0 : lsum f (filter within L) = 0%R).
  { assert (NL : NoDup (filter within L)). { apply NoDup_filter. apply prod_nodup; [apply NoDup_filter, cells_of_nodup; exact M|repeat constructor; cbn; intuition discriminate]. }
    assert (IL : forall q, In q (filter within L) <-> (in_mesh m (fst q) /\ b (fst q) = true) /\ in_mesh m (move (fst q) (snd q)) /\ b (move (fst q) (snd q)) = true).
    { intros [p s]. rewrite filter_In. unfold L. rewrite in_prod_iff, IC. unfold within, internal. cbn [fst snd]. fold m. rewrite andb_true_iff. destruct (in_mesh_dec m (move p s)); intuition; try discriminate. destruct s; cbn; tauto. }
    assert (PB : Permutation (filter within L) (map back (filter within L))).
    { apply NoDup_Permutation; auto.
      - apply FinFun.Injective_map_NoDup; auto. intros a c E. rewrite <- (back_back a), <- (back_back c). congruence.
      - intros q. rewrite in_map_iff. split.
        + intros Q. exists (back q). split; [apply back_back|]. apply IL in Q. apply IL. destruct q as [p s]. unfold back; cbn [fst snd] in *. split; [tauto|]. replace (move (move p s) (opposite s)) with p by (destruct p as [x y z], s; cbn; f_equal; lia). tauto.
        + intros (q' & <- & Q). apply IL in Q. apply IL. destruct q' as [p s]. unfold back; cbn [fst snd] in *. split; [tauto|]. replace (move (move p s) (opposite s)) with p by (destruct p as [x y z], s; cbn; f_equal; lia). tauto. }
    pose proof (lsum_perm f _ _ PB) as E. rewrite lsum_map in E.
    assert (N : lsum (fun q => f (back q)) (filter within L) = lsum (fun q => f q * (-1))%R (filter within L)).
    { apply lsum_ext. intros q Q. apply IL in Q. destruct q as [p s]. unfold f, back. cbn [fst snd] in *. rewrite leak_back by tauto. ring. }
    rewrite N, lsum_scal in E. lra. }
  assert (A : lsum (leakage e J) C = lsum f L). { unfold L. rewrite lsum_prod. reflexivity. }
  assert (B : lsum (fun p => lsum (fun s => if within (p, s) then 0%R else leak e J p s) AllSurfaces) C = lsum (fun q => if within q then 0 else f q)%R L).
  { unfold L. rewrite lsum_prod. reflexivity. }
  rewrite A, B. rewrite lsum_filter in Z0.
  transitivity (lsum (fun q => (if within q then f q else 0) + (if within q then 0 else f q))%R L).
  - apply lsum_ext. intros q _. destruct (within q); ring.
  - rewrite lsum_plus, Z0. ring. Qed.
End Part.
Lemma area_pos : forall e p s, cm_sane e -> in_mesh (cm_m e) p -> (0 < coarse_area e (coarse_cell (cm_m e) p) s)%R.
Proof. intros e p s C P. unfold coarse_area. rewrite position_of_cell by exact P. destruct P as (PX & PY & PZ). pose proof (cs_dx e C _ PX). pose proof (cs_dy e C _ PY). pose proof (cs_dz e C _ PZ). destruct s; apply Rmult_lt_0_compat; assumption. Qed.
Lemma volume_pos : forall e p, cm_sane e -> in_mesh (cm_m e) p -> (0 < coarse_volume e (coarse_cell (cm_m e) p))%R.
Proof. intros e p C P. unfold coarse_volume. rewrite position_of_cell by exact P. destruct P as (PX & PY & PZ). repeat apply Rmult_lt_0_compat; [apply (cs_dx e C)|apply (cs_dy e C)|apply (cs_dz e C)]; assumption. Qed.

Lemma lsum_nonpos : forall {A} (f : A -> R) l, (forall a, In a l -> (f a <= 0)%R) -> (lsum f l <= 0)%R.
Proof. intros A f l H. induction l as [|a l IH]; cbn [lsum]; [lra|]. pose proof (H a (or_introl eq_refl)). pose proof (IH (fun x I => H x (or_intror I))). lra. Qed.
Lemma below_zero : forall a b : R, (0 < a)%R -> (b <= 0)%R -> (a * b <= 0)%R.
Proof. intros. nra. Qed.
Lemma above_zero : forall a b : R, (0 <= a)%R -> (b <= 0)%R -> (a * b <= 0)%R.
Proof. intros. nra. Qed.
(** ** C173 *)
(** A flux whose rows are not negative is not negative. *)
Theorem C173_positive : forall e dt dh x, cm_sane e -> removes e -> tame (cm_m e) dt dh ->
  (forall i, 0 <= i < n_pin (cm_m e) -> exists v, mat_row e dt dh x i = CVal v /\ (0 <= v)%R) -> forall i, 0 <= i < n_pin (cm_m e) -> (0 <= x i)%R.
Proof. intros e dt dh x C RM T H i I. pose proof (cs_m e C) as M. set (m := cm_m e) in *. destruct (Rle_lt_dec 0 (x i)) as [|Neg]; [assumption|exfalso].
  set (b := fun p => Rltb (x (coarse_cell m p)) 0). set (N := filter b (cells_of m)).
  assert (IN : forall p, In p N -> in_mesh m p /\ (x (coarse_cell m p) < 0)%R). { intros p J. unfold N in J. apply filter_In in J. destruct J as [J B]. apply cells_of_in in J; [|exact M]. unfold b in B. destruct (Rltb_spec (x (coarse_cell m p)) 0); [auto|discriminate]. }
  assert (NE : In (coarse_position m i) N). { destruct (cell_of_position m i M I) as [Q E]. unfold N. apply filter_In. split; [apply cells_of_in; auto|]. unfold b. rewrite E. now apply Rltb_true. }
  pose proof (part_cancel e (cm_current m dt dh x) b M) as PC. fold m in PC. fold N in PC.
  assert (LK : (lsum (leakage e (cm_current m dt dh x)) N <= 0)%R).
  { rewrite PC. apply lsum_nonpos. intros p J. apply lsum_nonpos. intros s _. destruct (IN p J) as [P XP].
    destruct (within e b (p, s)) eqn:W; [lra|]. unfold leak. fold m. rewrite (current_out m dt dh x p s M P). set (k := face_index m (face_of p s)). pose proof (area_pos e p s C P) as AP. fold m in AP.
    assert (B : (Rabs (dh k) <= dt k)%R) by (apply T; apply face_index_bounds; [exact M|apply face_of_ok; auto]).
    assert (S1 : (0 <= dt k + signed s (dh k))%R /\ (signed s (dh k) - dt k <= 0)%R) by (unfold Rabs in B; destruct (Rcase_abs (dh k)); destruct s; cbn [signed]; lra).
    assert (BY : (0 <= beyond m x p s)%R). { unfold beyond. unfold within, internal in W. cbn [fst snd] in W. fold m in W. destruct (in_mesh_dec m (move p s)) as [Q|Q]; [|rewrite flux_at_out by exact Q; lra]. rewrite flux_at_in by exact Q. cbn [andb] in W. unfold b in W. destruct (Rltb_spec (x (coarse_cell m (move p s))) 0); [discriminate|lra]. }
    destruct S1 as [S1 S2]. apply below_zero; [exact AP|]. pose proof (above_zero _ (x (coarse_cell m p)) S1 (Rlt_le _ _ XP)). pose proof (above_zero _ _ BY S2). lra. }
  assert (SM : (0 <= lsum (fun p => coarse_volume e (coarse_cell m p) * cm_rm e (coarse_cell m p) * x (coarse_cell m p) + leakage e (cm_current m dt dh x) p)%R N)%R).
  { apply lsum_nonneg. intros p J. destruct (IN p J) as [P _]. destruct (H (coarse_cell m p) (coarse_cell_bounds _ _ P)) as (v & E & V). pose proof (C42_row e dt dh x p M P) as R0. fold m in R0. rewrite R0 in E. injection E as E. lra. }
  rewrite lsum_plus in SM.
  assert (RR : (lsum (fun p => coarse_volume e (coarse_cell m p) * cm_rm e (coarse_cell m p) * x (coarse_cell m p))%R N < 0)%R).
  { assert (NG : forall p, In p N -> (coarse_volume e (coarse_cell m p) * cm_rm e (coarse_cell m p) * x (coarse_cell m p) < 0)%R).
    { intros p J. destruct (IN p J) as [P XP]. pose proof (volume_pos e p C P) as V. fold m in V. pose proof (RM (coarse_cell m p) (coarse_cell_bounds _ _ P)) as Rp. pose proof (Rmult_lt_0_compat _ _ V Rp). nra. }
    clear - NE NG. induction N as [|p l IH]; [destruct NE|]. cbn [lsum]. pose proof (NG p (or_introl eq_refl)) as Np. destruct l as [|q l]; [cbn [lsum]; lra|].
    assert (lsum (fun p => coarse_volume e (coarse_cell m p) * cm_rm e (coarse_cell m p) * x (coarse_cell m p))%R (q :: l) <= 0)%R; [|lra].
    apply lsum_nonpos. intros r Ir. left. apply NG. right. exact Ir. }
  lra. Qed.
Print Assumptions C173_positive.
(** Where the row is positive, so is the flux. *)
Theorem C173_strict : forall e dt dh x i v, cm_sane e -> removes e -> tame (cm_m e) dt dh -> (forall j, 0 <= j < n_pin (cm_m e) -> exists w, mat_row e dt dh x j = CVal w /\ (0 <= w)%R) ->
  0 <= i < n_pin (cm_m e) -> mat_row e dt dh x i = CVal v -> (0 < v)%R -> (0 < x i)%R.
Proof. intros e dt dh x i v C RM T H I E V. pose proof (cs_m e C) as M. pose proof (C173_positive e dt dh x C RM T H) as P0. destruct (P0 i I) as [|Z0]; [assumption|exfalso].
  destruct (cell_of_position (cm_m e) i M I) as [Q Ei]. set (p := coarse_position (cm_m e) i) in *. rewrite <- Ei in E. rewrite (C42_row e dt dh x p M Q) in E. injection E as E. rewrite Ei in E. rewrite <- Z0 in E.
  assert (leakage e (cm_current (cm_m e) dt dh x) p <= 0)%R; [|lra]. unfold leakage. apply lsum_nonpos. intros s _. unfold leak. rewrite (current_out (cm_m e) dt dh x p s M Q). rewrite Ei, <- Z0.
  set (k := face_index (cm_m e) (face_of p s)). pose proof (area_pos e p s C Q) as AP. rewrite Ei in AP.
  assert (B : (Rabs (dh k) <= dt k)%R) by (apply T; apply face_index_bounds; [exact M|apply face_of_ok; auto]).
  assert (S1 : (signed s (dh k) - dt k <= 0)%R) by (unfold Rabs in B; destruct (Rcase_abs (dh k)); destruct s; cbn [signed]; lra).
  assert (BY : (0 <= beyond (cm_m e) x p s)%R). { unfold beyond. destruct (in_mesh_dec (cm_m e) (move p s)) as [Q'|Q']; [|rewrite flux_at_out by exact Q'; lra]. rewrite flux_at_in by exact Q'. apply P0, coarse_cell_bounds, Q'. }
  apply below_zero; [exact AP|]. pose proof (above_zero _ _ BY S1). lra. Qed.
Print Assumptions C173_strict.

(** The rows are linear in the flux. *)
Lemma row_apply_lin : forall c e dt dh i x y z cols, (forall j, In j cols -> z j = (x j + c * y j)%R) -> forall a b, row_apply e dt dh i x cols = CVal a -> row_apply e dt dh i y cols = CVal b -> row_apply e dt dh i z cols = CVal (a + c * b)%R.
Proof. intros c e dt dh i x y z cols. induction cols as [|j r IH]; intros H a b A B; cbn [row_apply] in *; [injection A as <-; injection B as <-; f_equal; ring|].
  rewrite (H j (or_introl eq_refl)). destruct (in_struct (cm_m e) i j).
  - destruct (entry e dt dh i j) as [v| | |]; cbn [cbind] in *; try discriminate. destruct (row_apply e dt dh i x r) as [a'| | |]; cbn [cbind] in A; try discriminate. destruct (row_apply e dt dh i y r) as [b'| | |]; cbn [cbind] in B; try discriminate.
    rewrite (IH (fun j J => H j (or_intror J)) a' b' eq_refl eq_refl). cbn [cbind]. injection A as <-. injection B as <-. f_equal. ring.
  - cbn [cbind] in *. destruct (row_apply e dt dh i x r) as [a'| | |]; cbn [cbind] in A; try discriminate. destruct (row_apply e dt dh i y r) as [b'| | |]; cbn [cbind] in B; try discriminate.
    rewrite (IH (fun j J => H j (or_intror J)) a' b' eq_refl eq_refl). cbn [cbind]. injection A as <-. injection B as <-. f_equal. ring. Qed.
(** More source nowhere gives less flux, so there is no more than one solution. *)
Theorem C173_monotone : forall e dt dh x y, cm_sane e -> removes e -> tame (cm_m e) dt dh ->
  (forall i, 0 <= i < n_pin (cm_m e) -> exists v w, mat_row e dt dh x i = CVal v /\ mat_row e dt dh y i = CVal w /\ (v <= w)%R) -> forall i, 0 <= i < n_pin (cm_m e) -> (x i <= y i)%R.
Proof. intros e dt dh x y C RM T H i I. assert (0 <= y i + -1 * x i)%R; [|lra]. apply (C173_positive e dt dh (fun j => y j + -1 * x j)%R C RM T); [|exact I]. intros j J. destruct (H j J) as (v & w & A & B & L). exists (w + -1 * v)%R. split; [|lra].
  unfold mat_row. exact (row_apply_lin (-1) e dt dh j y x _ _ (fun _ _ => eq_refl) w v B A). Qed.
Print Assumptions C173_monotone.
Theorem C173_unique : forall e dt dh x y, cm_sane e -> removes e -> tame (cm_m e) dt dh -> (forall i, 0 <= i < n_pin (cm_m e) -> mat_row e dt dh x i = mat_row e dt dh y i) -> forall i, 0 <= i < n_pin (cm_m e) -> x i = y i.
Proof. intros e dt dh x y C RM T H i I.
  assert (D : forall z j, 0 <= j < n_pin (cm_m e) -> exists v, mat_row e dt dh z j = CVal v). { intros z j J. destruct (cell_of_position (cm_m e) j (cs_m e C) J) as [Q E]. rewrite <- E. eexists. apply C42_row; [apply (cs_m e C)|exact Q]. }
  apply Rle_antisym; apply (C173_monotone e dt dh); auto; intros j J; destruct (D x j J) as (v & Ex); exists v, v; rewrite <- (H j J); auto using Rle_refl. Qed.
Print Assumptions C173_unique.
(** So a linear solver that solves the systems keeps what solves them already (as C131 asks). *)
Theorem C173_solver : forall p, cp_good p -> (forall g, (g < cp_ng p)%nat -> cm_sane (cp_env p g) /\ removes (cp_env p g) /\ tame (cp_m p) (cp_dt p g) (cp_dh p g)) -> solves p -> keeps_solutions p.
Proof. intros p G S SV g b x Gg H i I. destruct (S g Gg) as (C & RM & T). pose proof (cg_mesh p G g) as EM. assert (M := cs_m _ C).
  apply (C173_unique (cp_env p g) (cp_dt p g) (cp_dh p g)); auto; rewrite ?EM; auto. intros j J.
  assert (D : forall z, mat_row (cp_env p g) (cp_dt p g) (cp_dh p g) z j = CVal (row_val p g z j)). { intros z. unfold row_val. destruct (cell_of_position (cm_m (cp_env p g)) j M) as [Q E]; [now rewrite EM|]. rewrite <- E. rewrite C42_row by auto. reflexivity. }
  rewrite !D. f_equal. rewrite SV by auto. symmetry. apply H, J. Qed.
Print Assumptions C173_solver.

(** When the coefficients that setup_solve makes are tame: with transport data exactly if the current does not exceed what twice
    the diffusion coefficient takes out of the cell it leaves; without transport data always. *)
Theorem C173_tame : forall e is c, cm_sane e -> 0 <= is < n_surf (cm_m e) -> surf_coef e is = CVal c -> let nb := coarse_neigh_cells (cm_m e) is in let fl := flux_at (cm_flux e) (fst nb) in let fr := flux_at (cm_flux e) (snd nb) in
  (0 < fl + fr)%R -> let have := match surface_normal (cm_m e) is with Z_NORM => cm_ax e | _ => cm_rad e end in
  ((Rabs (c_dh c) <= c_dt c)%R <-> (have = false \/ (- (2 * c_dt c * fr) <= cm_cur e is <= 2 * c_dt c * fl)%R)).
Proof. intros e is c C I E nb fl fr P have. destruct have eqn:Hv.
  - destruct (C43_current e (fun _ => c_dt c) (fun _ => c_dh c) is c E eq_refl eq_refl Hv) as [K _]. fold nb in K. fold fl fr in K. specialize (K ltac:(lra)). unfold cm_current in K. fold nb in K. destruct nb as [c1 c2]. cbn [fst snd] in *. fold fl fr in K. rewrite <- K.
    set (d := c_dh c) in *. set (t := c_dt c) in *.
    assert (A : (2 * t * fl - (- t * (fr - fl) + d * (fr + fl)) = (t - d) * (fl + fr))%R) by ring. assert (B : ((- t * (fr - fl) + d * (fr + fl)) + 2 * t * fr = (t + d) * (fl + fr))%R) by ring. split.
    + intros Q. right. assert (0 <= t - d /\ 0 <= t + d)%R as [Q1 Q2] by (unfold Rabs in Q; destruct (Rcase_abs d); lra). pose proof (Rmult_le_pos _ _ Q1 (Rlt_le _ _ P)). pose proof (Rmult_le_pos _ _ Q2 (Rlt_le _ _ P)). lra.
    + intros [Q|[Q1 Q2]]; [discriminate|]. assert (0 <= t - d)%R by (apply (Rmult_le_reg_r (fl + fr)); lra). assert (0 <= t + d)%R by (apply (Rmult_le_reg_r (fl + fr)); lra). unfold Rabs. destruct (Rcase_abs d); lra.
  - destruct (C43_no_data e is c E Hv) as [Z0 _]. rewrite Z0, Rabs_R0. split; [auto|]. intros _. destruct (C43_defined e is C I) as (c' & E' & D). rewrite E in E'. injection E' as <-. exact D. Qed.
Print Assumptions C173_tame.

(** ** The whole solve *)
(** Nothing negative in the data. *)
Definition plain_data (p : CmProb) : Prop := forall g h i, (g < cp_ng p)%nat -> (h < cp_ng p)%nat -> 0 <= i < n_pin (cp_m p) -> (0 <= cp_nf p g i)%R /\ (0 <= cp_chi p g i)%R /\ (0 <= cp_sc p h g i)%R.
Definition not_negative (p : CmProb) (f : Flux) : Prop := forall g i, (g < cp_ng p)%nat -> 0 <= i < n_pin (cp_m p) -> (0 <= f g i)%R.
Section Solve.
Context (p : CmProb).
Hypothesis (G : cp_good p) (SV : solves p) (D : plain_data p).
Hypothesis S : forall g, (g < cp_ng p)%nat -> cm_sane (cp_env p g) /\ removes (cp_env p g) /\ tame (cp_m p) (cp_dt p g) (cp_dh p g).
Lemma rate_nonneg : forall f i, not_negative p f -> 0 <= i < n_pin (cp_m p) -> (0 <= fis_rate p f i)%R.
Proof. intros f i N I. unfold fis_rate. apply lsum_nonneg. intros g Gg. apply in_groups in Gg. apply Rmult_le_pos; [apply (D g g i Gg Gg I)|apply N; auto]. Qed.
Lemma total_nonneg : forall f, not_negative p f -> (0 <= total_fis p f)%R.
Proof. intros f N. unfold total_fis. apply lsum_nonneg. intros i I. apply rate_nonneg; [exact N|]. now apply in_cells. Qed.
Lemma inner_nonneg : forall fs, (forall i, 0 <= i < n_pin (cp_m p) -> (0 <= fs i)%R) -> forall gs f acc, (forall g, In g gs -> (g < cp_ng p)%nat) -> not_negative p f -> not_negative p (fst (cm_inner p fs gs f acc)).
Proof. intros fs F gs. induction gs as [|g r IH]; intros f acc GS N; cbn [cm_inner]; [exact N|]. apply IH; [intros; apply GS; now right|]. intros h i Hh I. unfold set_group. destruct (Nat.eqb_spec h g) as [->|]; [|apply N; auto].
  destruct (S g Hh) as (C & RM & T). pose proof (cg_mesh p G g) as EM. apply (C173_positive (cp_env p g) (cp_dt p g) (cp_dh p g)); auto; rewrite ?EM; auto. intros j J.
  pose proof (SV g (cm_source p g fs f) (f g) j Hh J) as Rv. unfold row_val in Rv. destruct (cell_of_position (cm_m (cp_env p g)) j (cs_m _ C)) as [Q E]; [now rewrite EM|]. rewrite <- E in Rv |- *. rewrite C42_row in Rv |- * by (auto; apply (cs_m _ C)). eexists. split; [reflexivity|]. rewrite Rv, E.
  unfold cm_source. pose proof (volume_pos (cp_env p g) (coarse_position (cm_m (cp_env p g)) j) C Q) as V. rewrite E in V. apply Rmult_le_pos; [|lra]. destruct (D g g j Hh Hh J) as (_ & Dc & _). pose proof (Rmult_le_pos _ _ Dc (F j J)).
  assert (0 <= in_scat p g f j)%R; [|lra]. unfold in_scat. apply lsum_nonneg. intros h2 H2. apply in_groups in H2. destruct (Nat.eqb h2 g); [lra|]. apply Rmult_le_pos; [apply (D g h2 j Hh H2 J)|apply N; auto]. Qed.
Definition fair (l : CmLoop Flux (Z -> R)) : Prop := not_negative p (l_s l) /\ l_tf l = total_fis p (l_s l) /\ (0 <= l_k l)%R /\ (l_k l = 0%R -> l_tf l = 0%R).
Lemma pass_fair : forall ktol ptol rred r0 sc max_iter l l' b, fair l -> cm_pass (cp_ops p) ktol ptol rred r0 sc max_iter l = Some (l', b) -> fair l'.
Proof. intros ktol ptol rred r0 sc max_iter l l' b (N & T & K & _) P. unfold cm_pass in P. cbn [cp_ops op_fis op_inner op_tf op_diff] in P. unfold fission_src, rdiv in P. destruct (Reqb_spec (l_k l) 0) as [|NK]; [discriminate|]. set (fs := fun i => (fis_rate p (l_s l) i * (1 / l_k l))%R) in P.
  assert (F : forall i, 0 <= i < n_pin (cp_m p) -> (0 <= fs i)%R). { intros i I. unfold fs. apply Rmult_le_pos; [now apply rate_nonneg|]. unfold Rdiv. rewrite Rmult_1_l. left. apply Rinv_0_lt_compat. lra. }
  pose proof (inner_nonneg fs F (cp_groups p) (l_s l) 0%R (fun g => proj1 (in_groups p g)) N) as N'. destruct (cm_inner p fs (cp_groups p) (l_s l) 0) as [s ri]. cbn [fst] in N'.
  destruct (Reqb_spec (l_tf l) 0) as [|NT]; [discriminate|]. destruct (Reqb_spec sc 0); [discriminate|]. injection P as <- _. unfold fair. cbn [l_s l_k l_tf]. pose proof (total_nonneg _ N) as T0. rewrite <- T in T0. pose proof (total_nonneg _ N') as T1.
  split; [exact N'|]. split; [reflexivity|]. assert (IV : (0 < / l_tf l)%R) by (apply Rinv_0_lt_compat; lra). split; [unfold Rdiv; apply Rmult_le_pos; [apply Rmult_le_pos; assumption|lra]|].
  intros Z0. unfold Rdiv in Z0. apply Rmult_integral in Z0. destruct Z0 as [Z0|Z0]; [|lra]. apply Rmult_integral in Z0. destruct Z0; [contradiction|assumption]. Qed.
Lemma loop_fair : forall n ktol ptol rred r0 sc max_iter l l', fair l -> cm_loop n (cp_ops p) ktol ptol rred r0 sc max_iter l = Some l' -> fair l'.
Proof. induction n as [|n IH]; intros ktol ptol rred r0 sc max_iter l l' F E; cbn [cm_loop] in E; [discriminate|]. destruct (cm_pass (cp_ops p) ktol ptol rred r0 sc max_iter l) as [[l1 b]|] eqn:P; [|discriminate]. pose proof (pass_fair _ _ _ _ _ _ _ _ _ F P) as F1. destruct b; [injection E as <-; exact F1|]. exact (IH _ _ _ _ _ _ _ _ F1 E). Qed.
End Solve.
(** A solve with tame coefficients from fluxes that are not negative ends with such fluxes, so that there is nothing to clean up,
    and with an eigenvalue that is positive unless no fission is left. *)
Theorem C173_solve : forall p ktol ptol rred max_iter k f l, cp_good p -> solves p -> plain_data p -> (forall g, (g < cp_ng p)%nat -> cm_sane (cp_env p g) /\ removes (cp_env p g) /\ tame (cp_m p) (cp_dt p g) (cp_dh p g)) ->
  (0 < k)%R -> not_negative p f -> cms_solve p ktol ptol rred max_iter k f = Some l ->
  not_negative p (l_s l) /\ same_flux p (l_s l) (fix_neg (l_s l)) /\ (0 <= l_k l)%R /\ ((0 < lsum (production p (l_s l)) (zrange (n_pin (cp_m p))))%R -> (0 < l_k l)%R).
Proof. intros p ktol ptol rred max_iter k f l G SV D S K N E. unfold cms_solve in E. destruct (fission_src p k f) as [fs|]; [|discriminate]. destruct (cm_residual p fs f) as [r0|]; [|discriminate].
  apply (loop_fair p G SV D S) in E; [|unfold fair; cbn [l_s l_k l_tf]; split; [exact N|]; split; [reflexivity|]; split; lra].
  destruct E as (N' & T & K' & Z0). split; [exact N'|]. split; [now apply fix_neg_pos|]. split; [exact K'|]. intros P. destruct K' as [|K']; [assumption|]. symmetry in K'. apply Z0 in K'. rewrite T in K'. change (total_fis p (l_s l)) with (lsum (production p (l_s l)) (zrange (n_pin (cp_m p)))) in K'. lra. Qed.
Print Assumptions C173_solve.

(** With a current out of that range the solution of a positive source can be negative: two cells, fluxes of 1, a current of 3. *)
Theorem C173_refuted : exists e dt dh x, cm_sane e /\ removes e /\ (forall is, 0 <= is < n_surf (cm_m e) -> exists c, surf_coef e is = CVal c /\ dt is = c_dt c /\ dh is = c_dh c) /\ (forall i, 0 <= i < n_pin (cm_m e) -> (0 < cm_flux e i)%R) /\
  (forall i, 0 <= i < n_pin (cm_m e) -> mat_row e dt dh x i = CVal 1%R) /\ 0 <= 0 < n_pin (cm_m e) /\ (x 0%Z < 0)%R.
Proof. exists (env2 (at2 1 1) 6 (fun _ => 1%R) true), (only3 1), (only3 3), (at2 (-1) 3). split; [apply env2_sane|]. split; [intros i _; cbn; lra|]. split.
  - intros is I. destruct (env2_coef 1 1 6 (fun _ => 1%R) true is ltac:(lra) ltac:(lra) I) as (c & Ec & D1 & D2). exists c. split; [exact Ec|]. split; [exact D1|]. rewrite <- D2. unfold only3. destruct (is =? 3); [field|reflexivity].
  - split; [intros i _; cbn; unfold at2; destruct (i =? 0); lra|]. split; [|split; [cbn; lia|unfold at2; cbn; lra]]. intros i I. destruct (rows2 (env2 (at2 1 1) 6 (fun _ => 1%R) true) 3 (at2 (-1) 3) ltac:(eauto)) as [R0 R1]. destruct (two_cells i I) as [-> | ->]; rewrite ?R0, ?R1; f_equal; cbn [env2 cm_rm]; unfold at2; change (0 =? 0) with true; change (1 =? 0) with false; cbv iota; ring. Qed.
Print Assumptions C173_refuted.

(** The problem of C131: corrections of 3/8 against coefficients of 1 on the one inner surface. *)
Example C173_instance : cp_good prob /\ solves prob /\ plain_data prob /\ (forall g, (g < cp_ng prob)%nat -> cm_sane (cp_env prob g) /\ removes (cp_env prob g) /\ tame (cp_m prob) (cp_dt prob g) (cp_dh prob g)) /\
  cp_dh prob 0%nat 3 = (- 3 / 8)%R /\ exists l, cms_solve prob 1 1 1 5 (5 / 4) (fun g => cm_flux (cp_env prob g)) = Some l /\ (0 < l_k l)%R.
Proof. split; [apply prob_good|]. split; [apply prob_solves|].
  assert (PD : plain_data prob). { intros g h i Gg Hh I. change (cp_ng prob) with 2%nat in *. assert (g = 0 \/ g = 1)%nat as [-> | ->] by lia; assert (h = 0 \/ h = 1)%nat as [-> | ->] by lia; cbn; unfold at2; destruct (i =? 0); lra. }
  split; [exact PD|]. split.
  - intros g Gg. change (cp_ng prob) with 2%nat in Gg. destruct (prob_set_up g Gg) as [C _]. split; [exact C|]. assert (g = 0 \/ g = 1)%nat as [-> | ->] by lia; (split; [intros i _; cbn; lra|]); intros is _; cbn [prob cp_dt cp_dh]; unfold only3; destruct (is =? 3); unfold Rabs; destruct (Rcase_abs _); lra.
  - split; [reflexivity|]. destruct C131_instance as (G & U & Kp & _ & Dt & Tf & B). destruct (C131_unchanged prob 1 1 1 5 (5 / 4) G U Kp ltac:(lia) ltac:(lra) Dt) as (l & E & K & _); [|rewrite Tf; lra|exact B|exists l; split; [exact E|rewrite K; lra]].
    intros g i Gg I. change (cp_ng prob) with 2%nat in Gg. assert (g = 0 \/ g = 1)%nat as [-> | ->] by lia; cbn; unfold at2; destruct (i =? 0); lra. Qed.
