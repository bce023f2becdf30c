(** C195: one iteration of a MoC eigenvalue calculation brackets the multiplication factor. *)
From Coq Require Import List Bool Reals ZArith Arith Lia Lra Permutation.
From Verif Require Import RUtil ListUtil McModel MeshModel AngModel BcModel BcProofs StdAlg CoreModel CoreProofs ScatModel ScatProofs MatModel ExpModel MocModel MocProofs MocProps XsModel SrcModel HomProps SrcProps SolModel SolProps MgModel MgProps MgInnerProps SnGroupProps EigProps MocMaxProps MocEigProps InfProps MocLinProofs MocConvProps FixModel FixProofs FixProps MocReflProofs MocReflProps MocRecipProofs MocRecipProps MocOrdProps MocKeffProps.
Import ListNotations.
Open Scope nat_scope.

(** ** Specification *)
(** A state of a calculation: positive multiplication factor and arrays of the right sizes. *)
Definition proper (m : MocStatic) (ng : nat) (s : ESt MocState) : Prop := (0 < e_k _ s)%R /\ length (e_src _ s) = ms_nreg m /\ length (e_fs _ s) = ms_nreg m /\ moc_shape m ng (e_sw _ s).

(** ** Proofs *)
Lemma step_born : forall m ng sct s s', moc_problem m ng sct -> physical (ms_nreg m) ng sct (ms_xs m) -> proper m ng s -> eigen_step MocState mg_flux (moc_sweep m) (ms_xs m) ng (ms_nreg m) (ms_vol m) s = Some s' ->
  exists e t, ext_fits (ms_nreg m) ng e /\ fx_shape m ng (fx_of s) /\ fx_step m ng e (fx_of s) = Got t /\ snd (snd t) = e_sw _ s' /\
    forall x i g, In x (ms_xs m) -> In i (xr_reg x) -> g < ng -> ext_at e i g = (rsum (fun h => births x g h * phi (mg_flux (e_sw _ s)) i h) ng / e_k _ s)%R.
Proof.
  intros m ng sct s s' P Ph (K & Ls & Lf & F) E. assert (Ph' := Ph). destruct Ph' as (M & D & _ & _). assert (Ff := F). destruct Ff as (Ff & _).
  destruct (C51_fission_source (ms_nreg m) ng sct (e_k _ s) (ms_xs m) (mg_flux (e_sw _ s)) (e_fs _ s) ltac:(lra) M D Ff Lf) as (f1 & E1 & L1 & V1 & _). unfold eigen_step in E. rewrite E1 in E. rewrite (groups_born m ng sct f1 P Ph L1 ng 0 (e_src _ s) (e_sw _ s) (le_n _) Ls F) in E.
  destruct (born_at (ms_xs m) (ms_nreg m) ng f1) as [X A]. assert (Fx : fx_shape m ng (fx_of s)) by (split; [exact Ls|exact F]). destruct (step_total m ng sct _ P Ph X (fx_of s) Fx) as (t & Et & Gt & _). exists (born_ext (ms_xs m) (ms_nreg m) ng f1), t. split; [exact X|]. split; [exact Fx|]. split; [exact Et|]. split.
  - destruct (step_parts _ _ _ _ _ Et) as [Gp _]. cbn [fx_of snd] in Gp. rewrite Gp in E. destruct t as [o [a w]]. cbn [snd] in *.
    destruct (total_fission (ms_xs m) ng (mg_flux w) (ms_vol m)); [|discriminate]. destruct (total_fission (ms_xs m) ng (mg_flux (e_sw _ s)) (ms_vol m)); [|discriminate]. destruct (Reqb _ 0); [discriminate|]. destruct (calc_fission_source _ _ _ (mg_flux w) f1); [|discriminate]. injection E as <-. reflexivity.
  - intros x i g Ix Ii Hg. rewrite A; [|now apply (reg_bound (ms_xs m) (ms_nreg m) x i)|exact Hg]. unfold born. rewrite (collapse (fun x r => at0 (xr_ch x) g * at0 f1 r)%R (ms_xs m) x i (proj1 M) Ix Ii). rewrite (V1 x i Ix Ii). unfold births, Rdiv. rewrite <- Rmult_assoc. f_equal. clear. induction ng as [|n IH]; cbn [rsum]; [ring|]. rewrite Rmult_plus_distr_l, IH. ring.
Qed.
Lemma limit_le : forall (x : nat -> R) y z k D, (0 <= k < 1)%R -> (0 <= D)%R -> (forall n, (x n <= y)%R) -> (forall n, (Rabs (x n - z) <= k ^ n * D)%R) -> (z <= y)%R.
Proof.
  intros x y z k D Hk HD Hx Hz. destruct (Rle_lt_dec z y) as [|N]; [assumption|exfalso]. destruct (pow_lt_1_zero k) with (y := ((z - y) / (D + 1))%R) as (n & Hn); [rewrite Rabs_pos_eq; lra|apply Rdiv_lt_0_compat; lra|]. specialize (Hn n (le_n _)). rewrite Rabs_pos_eq in Hn by (apply pow_le; lra).
  specialize (Hx n). specialize (Hz n). apply abs_in in Hz. apply (Rmult_lt_compat_r (D + 1)) in Hn; [|lra]. replace ((z - y) / (D + 1) * (D + 1))%R with (z - y)%R in Hn by (field; lra). assert (0 <= k ^ n)%R by (apply pow_le; lra). lra.
Qed.
(** A state that an iteration lowers nowhere (raises nowhere) is below (above) the solution. *)
Lemma one_sided : forall m ng sct v c e s s', moc_problem m ng sct -> physical (ms_nreg m) ng sct (ms_xs m) -> crossed m -> 1 <= ms_inner m -> (0 <= c < 1)%R -> dominated m ng sct v c -> ext_fits (ms_nreg m) ng e -> fx_shape m ng s -> fx_step m ng e s = Got s' ->
  exists sol, fx_shape m ng sol /\ fx_fixed m ng e sol /\ (fx_below m ng s' s -> forall i h, i < ms_nreg m -> h < ng -> (phi (fx_flux sol) i h <= phi (fx_flux s) i h)%R) /\ (fx_below m ng s s' -> forall i h, i < ms_nreg m -> h < ng -> (phi (fx_flux s) i h <= phi (fx_flux sol) i h)%R).
Proof.
  intros m ng sct v c e s s' P Ph Cr Hn Hc Dm X F E. destruct (C186_converge m ng sct e v c P Ph Cr Hn X Hc Dm) as (k & Hk & A). destruct (A s F) as (it & sol & D & I0 & St & D0 & Fs & _ & Fx & Cv & _). exists sol. split; [exact Fs|]. split; [exact Fx|].
  assert (Rn : forall n, fx_steps m ng e n s = Got (it n)) by (induction n as [|n IH]; [cbn; now rewrite I0|rewrite steps_snoc, IH; apply St]). destruct (C193_one_sided m ng sct e s s' P Ph Cr X F E) as (Up & Dn & _).
  split; intros B i h Hi Hh; pose proof (proj1 Dm h Hh) as Vh; assert (Q0 : (0 <= D * v h)%R) by (apply Rmult_le_pos; lra).
  - apply (limit_le (fun n => phi (fx_flux (it (S n))) i h) _ _ k (D * v h) Hk Q0); [|intros n; rewrite <- Rmult_assoc; exact (proj1 (Cv n) i h Hi Hh)].
    assert (Z : forall n, fx_below m ng (it n) s) by (induction n as [|n IH]; [rewrite I0; apply below_refl|]; destruct (Dn B n) as (a & b & Ea & Eb & Hab); rewrite Rn in Ea; rewrite Rn in Eb; injection Ea as <-; injection Eb as <-; exact (below_trans _ _ _ _ _ Hab IH)). intros n. exact (proj1 (Z (S n)) i h Hi Hh).
  - apply Ropp_le_cancel. apply (limit_le (fun n => - phi (fx_flux (it (S n))) i h)%R _ _ k (D * v h) Hk Q0).
    + assert (Z : forall n, fx_below m ng s (it n)) by (induction n as [|n IH]; [rewrite I0; apply below_refl|]; destruct (Up B n) as (a & b & Ea & Eb & Hab); rewrite Rn in Ea; rewrite Rn in Eb; injection Ea as <-; injection Eb as <-; exact (below_trans _ _ _ _ _ IH Hab)). intros n. apply Ropp_le_contravar. exact (proj1 (Z (S n)) i h Hi Hh).
    + intros n. cbv beta. replace (- phi (fx_flux (it (S n))) i h - - phi (fx_flux sol) i h)%R with (- (phi (fx_flux (it (S n))) i h - phi (fx_flux sol) i h))%R by ring. rewrite Rabs_Ropp, <- Rmult_assoc. exact (proj1 (Cv n) i h Hi Hh).
Qed.
Lemma births_le : forall m ng sct (f1 f2 : nat -> nat -> R) c x i g, physical (ms_nreg m) ng sct (ms_xs m) -> In x (ms_xs m) -> g < ng -> (forall h, h < ng -> (c * f2 i h <= f1 i h)%R) -> (c * rsum (fun h => births x g h * f2 i h) ng <= rsum (fun h => births x g h * f1 i h) ng)%R.
Proof.
  intros m ng sct f1 f2 c x i g (_ & _ & _ & Pos) Ix Hg H. assert (Lg : forall (f : nat -> R) n0, (c * rsum f n0)%R = rsum (fun j => c * f j)%R n0) by (intros f; induction n0 as [|n0 IHn]; cbn [rsum]; [ring|]; rewrite Rmult_plus_distr_l, IHn; reflexivity). rewrite Lg. apply rsum_le. intros j Hj. specialize (H j Hj).
  destruct (Pos x g Ix Hg) as [Pc _]. destruct (Pos x j Ix Hj) as [_ Pn]. assert (B0 : (0 <= births x g j)%R) by (unfold births; now apply Rmult_le_pos). apply (Rmult_le_compat_l (births x g j)) in H; [|exact B0]. lra.
Qed.

Section Bracket.
Variables (m : MocStatic) (ng : nat) (sct : XReg -> nat -> nat -> R) (v : nat -> R) (c : R) (s s' z : ESt MocState).
Hypotheses (P : moc_problem m ng sct) (Ph : physical (ms_nreg m) ng sct (ms_xs m)) (Cr : crossed m) (Hn : 1 <= ms_inner m) (Hc : (0 <= c < 1)%R) (Dm : dominated m ng sct v c) (Np : forall d, types (ms_in m) d <> PRESCRIBED).
Hypotheses (Pr : proper m ng s) (E : eigen_step MocState mg_flux (moc_sweep m) (ms_xs m) ng (ms_nreg m) (ms_vol m) s = Some s') (Cz : converged m ng z).
Notation fs := (phi (mg_flux (e_sw _ s))).
Notation fz := (phi (mg_flux (e_sw _ z))).
Notation ok := (fun i h => i < ms_nreg m /\ h < ng).
Lemma above_grow : nowhere_more m ng (e_sw _ s') (e_sw _ s) -> forall t, (forall i h, i < ms_nreg m -> h < ng -> (t * fz i h <= fs i h)%R) -> forall n i h, i < ms_nreg m -> h < ng -> (t * (e_k _ z / e_k _ s) ^ n * fz i h <= fs i h)%R.
Proof.
  intros Lo t T0. destruct (step_born m ng sct s s' P Ph Pr E) as (e1 & w & X1 & F1 & Ew & Sw & V1). destruct (converged_fixed m ng sct z P Ph Cz) as (e2 & X2 & F2 & S2 & V2). destruct (one_sided m ng sct v c e1 _ _ P Ph Cr Hn Hc Dm X1 F1 Ew) as (sol & Fs & Sf & Dn & _).
  assert (B : fx_below m ng w (fx_of s)) by (unfold fx_below; rewrite Sw; exact Lo). specialize (Dn B). assert (K1 := proj1 Pr). assert (K2 := proj1 Cz).
  induction n as [|n IH]; intros i h Hi Hh; [cbn [pow]; rewrite Rmult_1_r; now apply T0|]. set (u := (t * (e_k _ z / e_k _ s) ^ n)%R) in *. replace (t * (e_k _ z / e_k _ s) ^ S n)%R with (u * (e_k _ z / e_k _ s))%R by (unfold u; cbn [pow]; ring).
  eapply Rle_trans; [|exact (Dn i h Hi Hh)]. change fz with (phi (fx_flux (fx_of z))). apply (scaled_below m ng sct v _ c e1 e2 sol (fx_of z)); auto. intros a g Ha Hg. destruct (reg_of m ng sct Ph a Ha) as (x & Ix & Ia). rewrite (V1 x a g Ix Ia Hg), (V2 x a g Ix Ia Hg).
  match goal with |- (_ * (?a / _) <= _)%R => replace (u * (e_k _ z / e_k _ s) * (a / e_k _ z))%R with (u * a * / e_k _ s)%R by (field; lra) end. apply Rmult_le_compat_r; [apply Rlt_le, Rinv_0_lt_compat; exact K1|]. apply (births_le m ng sct fs fz u x a g Ph Ix Hg). intros j Hj. now apply IH.
Qed.
Lemma below_shrink : nowhere_more m ng (e_sw _ s) (e_sw _ s') -> forall t, (0 < t)%R -> (forall i h, i < ms_nreg m -> h < ng -> (fs i h <= t * fz i h)%R) -> forall n i h, i < ms_nreg m -> h < ng -> (fs i h <= t * (e_k _ z / e_k _ s) ^ n * fz i h)%R.
Proof.
  intros Lo t Tp T0. destruct (step_born m ng sct s s' P Ph Pr E) as (e1 & w & X1 & F1 & Ew & Sw & V1). destruct (converged_fixed m ng sct z P Ph Cz) as (e2 & X2 & F2 & S2 & V2). destruct (one_sided m ng sct v c e1 _ _ P Ph Cr Hn Hc Dm X1 F1 Ew) as (sol & Fs & Sf & _ & Up).
  assert (B : fx_below m ng (fx_of s) w) by (unfold fx_below; rewrite Sw; exact Lo). specialize (Up B). assert (K1 := proj1 Pr). assert (K2 := proj1 Cz). assert (Q : (0 < e_k _ z / e_k _ s)%R) by (now apply Rdiv_lt_0_compat).
  induction n as [|n IH]; intros i h Hi Hh; [cbn [pow]; rewrite Rmult_1_r; now apply T0|]. set (u := (t * (e_k _ z / e_k _ s) ^ n)%R) in *. assert (U : (0 < u)%R) by (unfold u; apply Rmult_lt_0_compat; [exact Tp|now apply pow_lt]). replace (t * (e_k _ z / e_k _ s) ^ S n)%R with (u * (e_k _ z / e_k _ s))%R by (unfold u; cbn [pow]; ring).
  set (r := (u * (e_k _ z / e_k _ s))%R). assert (Rp : (0 < r)%R) by (now apply Rmult_lt_0_compat). eapply Rle_trans; [exact (Up i h Hi Hh)|]. apply (Rmult_le_reg_l (/ r)); [now apply Rinv_0_lt_compat|]. replace (/ r * (r * fz i h))%R with (fz i h) by (field; lra).
  change fz with (phi (fx_flux (fx_of z))). apply (scaled_below m ng sct v _ c e2 e1 (fx_of z) sol); auto. intros a g Ha Hg. destruct (reg_of m ng sct Ph a Ha) as (x & Ix & Ia). rewrite (V1 x a g Ix Ia Hg), (V2 x a g Ix Ia Hg).
  match goal with |- (_ * (?a / _) <= _)%R => replace (/ r * (a / e_k _ s))%R with (/ u * a * / e_k _ z)%R by (unfold r; field; lra) end. apply Rmult_le_compat_r; [apply Rlt_le, Rinv_0_lt_compat; exact K2|]. apply (births_le m ng sct fz fs (/ u) x a g Ph Ix Hg). intros j Hj. apply (Rmult_le_reg_l u); [exact U|]. replace (u * (/ u * fs a j))%R with (fs a j) by (field; lra). now apply IH.
Qed.
End Bracket.

(** C195: if an iteration from a positive flux raises no flux, the multiplication factor it used is at least that of any converged
    calculation of the core. *)
Theorem C195_above : forall m ng sct v c s s' z, moc_problem m ng sct -> physical (ms_nreg m) ng sct (ms_xs m) -> crossed m -> 1 <= ms_inner m -> (0 <= c < 1)%R -> dominated m ng sct v c -> (forall d, types (ms_in m) d <> PRESCRIBED) ->
  proper m ng s -> eigen_step MocState mg_flux (moc_sweep m) (ms_xs m) ng (ms_nreg m) (ms_vol m) s = Some s' -> nowhere_more m ng (e_sw _ s') (e_sw _ s) -> flux_pos m ng s -> converged m ng z -> flux_some m ng z -> (e_k _ z <= e_k _ s)%R.
Proof.
  intros m ng sct v c s s' z P Ph Cr Hn Hc Dm Np Pr E Lo Fp Cz (i0 & h0 & Hi & Hh & Nz). destruct (Rle_lt_dec (e_k _ z) (e_k _ s)) as [|N]; [assumption|exfalso]. assert (K1 := proj1 Pr).
  destruct (start_factor (phi (mg_flux (e_sw _ s))) (phi (mg_flux (e_sw _ z))) (ms_nreg m) ng i0 h0 Fp Nz) as (t & T0 & _ & Tb). pose proof (above_grow m ng sct v c s s' z P Ph Cr Hn Hc Dm Np Pr E Cz Lo t Tb) as G.
  assert (Q : (1 < e_k _ z / e_k _ s)%R) by (apply (Rmult_lt_reg_r (e_k _ s)); [exact K1|]; unfold Rdiv; rewrite Rmult_assoc, Rinv_l by lra; lra). destruct (grows _ _ (phi (mg_flux (e_sw _ s)) i0 h0) Q T0) as (n & Hb). specialize (G n i0 h0 Hi Hh). lra.
Qed.
Print Assumptions C195_above.

(** C195: if an iteration lowers no flux and some flux is positive, the multiplication factor it used is at most that of any converged
    calculation of the core with a positive flux. *)
Theorem C195_below : forall m ng sct v c s s' z, moc_problem m ng sct -> physical (ms_nreg m) ng sct (ms_xs m) -> crossed m -> 1 <= ms_inner m -> (0 <= c < 1)%R -> dominated m ng sct v c -> (forall d, types (ms_in m) d <> PRESCRIBED) ->
  proper m ng s -> eigen_step MocState mg_flux (moc_sweep m) (ms_xs m) ng (ms_nreg m) (ms_vol m) s = Some s' -> nowhere_more m ng (e_sw _ s) (e_sw _ s') -> (exists i h, i < ms_nreg m /\ h < ng /\ (0 < phi (mg_flux (e_sw _ s)) i h)%R) -> converged m ng z -> flux_pos m ng z -> (e_k _ s <= e_k _ z)%R.
Proof.
  intros m ng sct v c s s' z P Ph Cr Hn Hc Dm Np Pr E Lo (i0 & h0 & Hi & Hh & Ps) Cz Fp. destruct (Rle_lt_dec (e_k _ s) (e_k _ z)) as [|N]; [assumption|exfalso]. assert (K1 := proj1 Pr). assert (K2 := proj1 Cz).
  destruct (start_factor (phi (mg_flux (e_sw _ z))) (phi (mg_flux (e_sw _ s))) (ms_nreg m) ng i0 h0 Fp ltac:(lra)) as (t & T0 & Tp & Tb). specialize (Tp Ps). assert (Ti : (0 < / t)%R) by (now apply Rinv_0_lt_compat).
  assert (Tb' : forall i h, i < ms_nreg m -> h < ng -> (phi (mg_flux (e_sw _ s)) i h <= / t * phi (mg_flux (e_sw _ z)) i h)%R) by (intros i h Hi' Hh'; specialize (Tb i h Hi' Hh'); apply (Rmult_le_compat_l (/ t)) in Tb; [|lra]; replace (/ t * (t * phi (mg_flux (e_sw _ s)) i h))%R with (phi (mg_flux (e_sw _ s)) i h) in Tb by (field; lra); exact Tb).
  pose proof (below_shrink m ng sct v c s s' z P Ph Cr Hn Hc Dm Np Pr E Cz Lo (/ t) Ti Tb') as G. set (a := phi (mg_flux (e_sw _ s)) i0 h0) in *. set (b := phi (mg_flux (e_sw _ z)) i0 h0) in *. assert (Bp : (0 < b)%R) by (now apply Fp).
  set (q := (e_k _ z / e_k _ s)%R) in *. assert (Q : (0 < q < 1)%R) by (split; [now apply Rdiv_lt_0_compat|]; apply (Rmult_lt_reg_r (e_k _ s)); [exact K1|]; unfold q, Rdiv; rewrite Rmult_assoc, Rinv_l by lra; lra).
  assert (W : (0 < / t * b)%R) by (now apply Rmult_lt_0_compat). destruct (pow_lt_1_zero q) with (y := (a / (/ t * b))%R) as (n & H); [rewrite Rabs_pos_eq; lra|now apply Rdiv_lt_0_compat|]. specialize (H n (le_n _)). rewrite Rabs_pos_eq in H by (apply pow_le; lra). specialize (G n i0 h0 Hi Hh). fold a b in G.
  apply (Rmult_lt_compat_r (/ t * b)) in H; [|exact W]. replace (a / (/ t * b) * (/ t * b))%R with a in H by (field; split; lra). lra.
Qed.
Print Assumptions C195_below.

(** ** What an iteration from the converged fluxes shows of another factor *)
Definition with_factor (k : R) (s : ESt MocState) : ESt MocState := mkE MocState (e_src _ s) (e_sw _ s) k (e_kp _ s) (e_fs _ s) (e_fsp _ s) (e_hist _ s).
Lemma fixed_both : forall m ng s t, (forall i h, i < ms_nreg m -> h < ng -> phi (fx_flux t) i h = phi (fx_flux s) i h) -> (forall h, h < ng -> bnd_same m h (mg_bnd (snd (snd t))) (mg_bnd (snd (snd s)))) -> fx_below m ng t s /\ fx_below m ng s t.
Proof.
  intros m ng s t Vf Vb. split; (split; [intros i h Hi Hh; specialize (Vf i h Hi Hh); unfold fx_flux in Vf; rewrite Vf; lra|]; intros h Hh; specialize (Vb h Hh)); [eapply F2_impl; [|exact Vb]|apply F2_sym with (Q := fun d1 d2 => forall a n i k, slot (ms_in m) h a n i k -> at0 (fst d1) k = at0 (fst d2) k) in Vb; [eapply F2_impl; [|exact Vb]|]].
  - intros a b Hab q n0 i k Sx. cbn beta in *. rewrite (Hab q n0 i k Sx). lra.
  - intros a b Hab q n0 i k Sx. cbn beta in *. rewrite (Hab q n0 i k Sx). lra.
  - intros a b Hab q n0 i k Sx. symmetry. exact (Hab q n0 i k Sx).
Qed.
Lemma scaled_under : forall m ng c s, (0 <= c <= 1)%R -> fx_nonneg m ng s -> fx_below m ng (scaled_fx c s) s.
Proof.
  intros m ng c s Hc [N1 N2]. split.
  - intros i h Hi Hh. specialize (N1 i h Hi Hh). unfold scaled_fx. cbn [snd mg_flux]. rewrite scaled_phi. unfold fx_flux in *. assert (c * phi (mg_flux (snd (snd s))) i h <= 1 * phi (mg_flux (snd (snd s))) i h)%R by (apply Rmult_le_compat_r; lra). lra.
  - intros h Hh. unfold scaled_fx, bnd_below. cbn [snd mg_bnd]. assert (G : forall d a n i k, In d (mg_bnd (snd (snd s))) -> slot (ms_in m) h a n i k -> (0 <= at0 (fst d) k)%R) by (intros; eapply N2; eauto). clear - G Hc. induction (mg_bnd (snd (snd s))) as [|d l IH]; cbn [map]; constructor; [|apply IH; intros; eapply G; eauto; now right].
    intros a n i k Sx. cbn [fst]. rewrite scaled_at0. pose proof (G d a n i k (or_introl eq_refl) Sx) as G0. assert (c * at0 (fst d) k <= 1 * at0 (fst d) k)%R by (apply Rmult_le_compat_r; lra). lra.
Qed.
Lemma production_le : forall m ng sct f1 f2 c, moc_problem m ng sct -> physical (ms_nreg m) ng sct (ms_xs m) -> (forall i h, i < ms_nreg m -> h < ng -> (c * phi f2 i h <= phi f1 i h)%R) -> (c * SrcProps.production (ms_xs m) ng f2 (ms_vol m) <= SrcProps.production (ms_xs m) ng f1 (ms_vol m))%R.
Proof.
  intros m ng sct f1 f2 c P (M & D & Cv & Pos) H. destruct (mp_vol m ng sct P) as [Lv Pv]. rewrite Forall_forall in Pv. unfold SrcProps.production.
  assert (Lc : forall A (a b : A -> R) l, (forall x, In x l -> (c * a x <= b x)%R) -> (c * lsum a l <= lsum b l)%R) by (intros A a b l; induction l as [|x l IH]; intros Hl; cbn [lsum]; [lra|]; pose proof (Hl x (or_introl eq_refl)); pose proof (IH (fun y Iy => Hl y (or_intror Iy))); lra).
  apply Lc. intros x Ix. apply Lc. intros i Ii. rewrite !rsum_lsum. apply Lc. intros g Ig. apply in_seq in Ig. assert (Hg : g < ng) by lia. pose proof (reg_bound _ _ x i M Ix Ii) as Hi. specialize (H i g Hi Hg). assert (V : (0 < at0 (ms_vol m) i)%R) by (apply Pv, nth_In; lia). destruct (Pos x g Ix Hg) as [_ Pn]. assert (W : (0 <= at0 (ms_vol m) i * at0 (xr_nf x) g)%R) by (apply Rmult_le_pos; lra). apply (Rmult_le_compat_r _ _ _ W) in H. lra.
Qed.
Lemma production_nonneg : forall m ng sct f, moc_problem m ng sct -> physical (ms_nreg m) ng sct (ms_xs m) -> (forall i h, i < ms_nreg m -> h < ng -> (0 <= phi f i h)%R) -> (0 <= SrcProps.production (ms_xs m) ng f (ms_vol m))%R.
Proof. intros m ng sct f P Ph H. pose proof (production_le m ng sct f f 0 P Ph ltac:(intros i h Hi Hh; specialize (H i h Hi Hh); lra)). lra. Qed.

(** C195: an iteration from converged fluxes that are nowhere negative, but with another factor, does raise no flux if that factor is larger,
    and lowers none if it is smaller. *)
Theorem C195_shows : forall m ng sct z k, moc_problem m ng sct -> physical (ms_nreg m) ng sct (ms_xs m) -> crossed m -> converged m ng z -> fx_nonneg m ng (fx_of z) -> (0 < k)%R ->
  exists s', eigen_step MocState mg_flux (moc_sweep m) (ms_xs m) ng (ms_nreg m) (ms_vol m) (with_factor k z) = Some s' /\ ((e_k _ z <= k)%R -> nowhere_more m ng (e_sw _ s') (e_sw _ z)) /\ ((k <= e_k _ z)%R -> nowhere_more m ng (e_sw _ z) (e_sw _ s')).
Proof.
  intros m ng sct z k P Ph Cr Cz Nn K. assert (Ph' := Ph). destruct Ph' as (M & D & Cv & Pos). destruct (mp_vol m ng sct P) as [Lv _]. pose proof (proj1 Cz) as K2. destruct (converged_fixed m ng sct z P Ph Cz) as (e2 & X2 & F2 & S2 & V2). assert (S2' := S2). destruct S2' as (t2 & E2 & Ef2 & Eb2). destruct (fixed_both m ng _ _ Ef2 Eb2) as [B1 B2].
  destruct Cz as (_ & Ls & Lf & F & z' & Ez & _ & _). assert (Pz : SrcProps.production (ms_xs m) ng (mg_flux (e_sw _ z)) (ms_vol m) <> 0%R).
  { unfold eigen_step in Ez. destruct (calc_fission_source _ _ _ _ _); [|discriminate]. destruct (fss_groups _ _ _ _ _ _ _ _ _ _) as [[? ?]|]; [|discriminate]. destruct (total_fission _ _ _ _); [|discriminate]. rewrite (C51_total_fission (ms_nreg m) ng sct _ _ _ M D (proj1 F) Lv) in Ez. destruct (Reqb_spec (SrcProps.production (ms_xs m) ng (mg_flux (e_sw _ z)) (ms_vol m)) 0); [discriminate|assumption]. }
  destruct (C51_fission_source (ms_nreg m) ng sct k (ms_xs m) (mg_flux (e_sw _ z)) (e_fs _ z) ltac:(lra) M D (proj1 F) Lf) as (f1 & Ec & L1 & V1 & _). destruct (born_at (ms_xs m) (ms_nreg m) ng f1) as [X A]. set (e1 := born_ext (ms_xs m) (ms_nreg m) ng f1) in *.
  destruct (step_total m ng sct e1 P Ph X (fx_of z) F2) as (t & Et & Gt & _). destruct (step_parts _ _ _ _ _ Et) as [Gp _]. cbn [fx_of snd] in Gp.
  assert (Vr : forall i g, i < ms_nreg m -> g < ng -> exists q, (0 <= q)%R /\ ext_at e1 i g = (q / k)%R /\ ext_at e2 i g = (q / e_k _ z)%R).
  { intros i g Hi Hg. destruct (reg_of m ng sct Ph i Hi) as (x & Ix & Ii). exists (rsum (fun h => births x g h * phi (mg_flux (e_sw _ z)) i h)%R ng). split.
    - apply rsum_nonneg. intros h Hh. destruct (Pos x g Ix Hg) as [Pc _]. destruct (Pos x h Ix Hh) as [_ Pn]. apply Rmult_le_pos; [unfold births; now apply Rmult_le_pos|now apply Nn].
    - split; [|exact (V2 x i g Ix Ii Hg)]. unfold e1. rewrite A by assumption. unfold born. rewrite (collapse (fun x r => at0 (xr_ch x) g * at0 f1 r)%R (ms_xs m) x i (proj1 M) Ix Ii). rewrite (V1 x i Ix Ii). unfold births, Rdiv. rewrite <- Rmult_assoc. f_equal. clear. induction ng as [|n IH]; cbn [rsum]; [ring|]. rewrite Rmult_plus_distr_l, IH. ring. }
  assert (Hi1 : (e_k _ z <= k)%R -> fx_below m ng t (fx_of z)).
  { intros Hk. eapply below_trans; [|exact B1]. apply (step_ord m ng sct P Ph Cr e1 e2 X X2) with (s1 := fx_of z) (s2 := fx_of z); auto; [|apply below_refl]. intros i g Hi Hg. destruct (Vr i g Hi Hg) as (q & Q0 & -> & ->). apply Rmult_le_compat_l; [exact Q0|]. apply Rinv_le_contravar; lra. }
  assert (Lo1 : (k <= e_k _ z)%R -> fx_below m ng (fx_of z) t).
  { intros Hk. eapply below_trans; [exact B2|]. apply (step_ord m ng sct P Ph Cr e2 e1 X2 X) with (s1 := fx_of z) (s2 := fx_of z); auto; [|apply below_refl]. intros i g Hi Hg. destruct (Vr i g Hi Hg) as (q & Q0 & -> & ->). apply Rmult_le_compat_l; [exact Q0|]. apply Rinv_le_contravar; lra. }
  assert (Sc : exists c, (0 < c)%R /\ forall i h, i < ms_nreg m -> h < ng -> (c * phi (mg_flux (e_sw _ z)) i h <= phi (fx_flux t) i h)%R).
  { assert (Q : (0 < e_k _ z / k)%R) by (now apply Rdiv_lt_0_compat). set (c := Rmin 1 (e_k _ z / k)). assert (C : (0 < c <= 1)%R) by (split; [apply Rmin_glb_lt; lra|apply Rmin_l]). exists c. split; [lra|]. destruct (scaled_ext (ms_nreg m) ng c e2 X2) as (e3 & X3 & H3). pose proof (scaled_fixed m ng sct c e2 e3 _ P Ph X2 X3 H3 F2 S2) as (t3 & E3 & Ef3 & Eb3). destruct (fixed_both m ng _ _ Ef3 Eb3) as [_ B3].
    assert (Bt : fx_below m ng (scaled_fx c (fx_of z)) t).
    { eapply below_trans; [exact B3|]. apply (step_ord m ng sct P Ph Cr e3 e1 X3 X) with (s1 := scaled_fx c (fx_of z)) (s2 := fx_of z); auto; [|now apply scaled_shape|apply scaled_under; [lra|exact Nn]]. intros i g Hi Hg. rewrite (H3 i g Hi Hg). destruct (Vr i g Hi Hg) as (q & Q0 & -> & ->). assert (Cq : (c * / e_k _ z <= / k)%R).
      { apply (Rmult_le_reg_r (e_k _ z)); [exact K2|]. rewrite Rmult_assoc, Rinv_l by lra. pose proof (Rmin_r 1 (e_k _ z / k)). fold c in H. unfold Rdiv in H. lra. } apply (Rmult_le_compat_l q) in Cq; [|exact Q0]. unfold Rdiv. lra. }
    intros i h Hi Hh. pose proof (proj1 Bt i h Hi Hh) as W. unfold scaled_fx in W. cbn [snd mg_flux] in W. rewrite scaled_phi in W. exact W. }
  destruct Sc as (c & C0 & Sc). destruct t as [o [a w]]. cbn [snd] in Gp. unfold fx_flux in Sc. cbn [snd] in Sc. destruct Gt as [La Fw]. cbn [fst snd] in La, Fw.
  pose proof (production_nonneg m ng sct _ P Ph (proj1 Nn)) as Pn. unfold fx_flux in Pn. cbn [fx_of snd] in Pn. pose proof (production_le m ng sct _ _ c P Ph Sc) as Pl.
  assert (Pw : (0 < SrcProps.production (ms_xs m) ng (mg_flux w) (ms_vol m))%R). { assert (0 < c * SrcProps.production (ms_xs m) ng (mg_flux (e_sw _ z)) (ms_vol m))%R by (apply Rmult_lt_0_compat; lra). lra. }
  unfold eigen_step. cbn [with_factor e_src e_sw e_k e_kp e_fs e_fsp e_hist]. rewrite Ec, (groups_born m ng sct f1 P Ph L1 ng 0 (e_src _ z) (e_sw _ z) (le_n _) Ls F). fold e1. rewrite Gp. rewrite (C51_total_fission (ms_nreg m) ng sct _ _ _ M D (proj1 Fw) Lv), (C51_total_fission (ms_nreg m) ng sct _ _ _ M D (proj1 F) Lv). destruct (Reqb_spec (SrcProps.production (ms_xs m) ng (mg_flux (e_sw _ z)) (ms_vol m)) 0) as [|_]; [contradiction|]. cbv zeta.
  match goal with |- context [calc_fission_source ?q _ _ _ _] => destruct (C51_fission_source (ms_nreg m) ng sct q (ms_xs m) (mg_flux w) f1) as (f2 & E4 & _); auto end.
  - apply Rgt_not_eq. apply Rdiv_lt_0_compat; [now apply Rmult_lt_0_compat|]. lra.
  - apply Fw.
  - rewrite E4. eexists. split; [reflexivity|]. cbn [e_sw]. split; [exact Hi1|exact Lo1].
Qed.
Print Assumptions C195_shows.

(** The core behind mirrors of C156: from its flat flux, factors of 2 and 1 bracket the 3/2. *)
Example C195_instance : forall gs, let m := InfProps.mf_static gs in converged m 1 InfProps.mf_s /\ flux_pos m 1 InfProps.mf_s /\ crossed m /\ dominated m 1 (fun _ => mo_sc) (fun _ => 1%R) (3 / 4) /\ proper m 1 (with_factor 2 InfProps.mf_s) /\ proper m 1 (with_factor 1 InfProps.mf_s) /\
  (exists s', eigen_step MocState mg_flux (moc_sweep m) (ms_xs m) 1 2 [1; 1]%R (with_factor 2 InfProps.mf_s) = Some s' /\ nowhere_more m 1 (e_sw _ s') (e_sw _ InfProps.mf_s)) /\
  (exists s', eigen_step MocState mg_flux (moc_sweep m) (ms_xs m) 1 2 [1; 1]%R (with_factor 1 InfProps.mf_s) = Some s' /\ nowhere_more m 1 (e_sw _ InfProps.mf_s) (e_sw _ s')) /\
  forall z, converged m 1 z -> flux_pos m 1 z -> (1 <= e_k _ z <= 2)%R.
Proof.
  intros gs m. destruct (C194_instance gs) as (P & Ph & Cr & Hn & Dm & C & Fp & _). fold m in P, Ph, Cr, Hn, Dm, C, Fp. assert (Pr : forall k, (0 < k)%R -> proper m 1 (with_factor k InfProps.mf_s)) by (intros k Hk; destruct C as (_ & A & B & D & _); split; [exact Hk|]; auto).
  assert (Nn : fx_nonneg m 1 (fx_of InfProps.mf_s)). { pose proof PI_RGT_0. split; [intros i h Hi Hh; apply Rlt_le; now apply Fp|]. intros h d a n i k Hh [<-|[]] Sx. apply rep_at0. apply Rlt_le, Rdiv_lt_0_compat; lra. }
  destruct (C195_shows m 1 (fun _ => mo_sc) InfProps.mf_s 2 P Ph Cr C Nn ltac:(lra)) as (s2 & E2 & H2 & _). destruct (C195_shows m 1 (fun _ => mo_sc) InfProps.mf_s 1 P Ph Cr C Nn ltac:(lra)) as (s1 & E1 & _ & H1). specialize (H2 ltac:(cbn; lra)). specialize (H1 ltac:(cbn; lra)).
  split; [exact C|]. split; [exact Fp|]. split; [exact Cr|]. split; [exact Dm|]. split; [apply Pr; lra|]. split; [apply Pr; lra|]. split; [exists s2; split; [exact E2|exact H2]|]. split; [exists s1; split; [exact E1|exact H1]|]. intros z Cz Fz.
  assert (Np : forall d, types (ms_in m) d <> PRESCRIBED) by (intros d; discriminate). split.
  - apply (C195_below m 1 _ _ (3 / 4) (with_factor 1 InfProps.mf_s) s1 z P Ph Cr Hn ltac:(lra) Dm Np); auto; [apply Pr; lra|]. exists 0, 0. split; [cbn; lia|]. split; [lia|]. apply Fp; cbn; lia.
  - apply (C195_above m 1 _ _ (3 / 4) (with_factor 2 InfProps.mf_s) s2 z P Ph Cr Hn ltac:(lra) Dm Np); auto; [apply Pr; lra|]. exists 0, 0. split; [cbn; lia|]. split; [lia|]. apply Rgt_not_eq, Fz; cbn; lia.
Qed.
