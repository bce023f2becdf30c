(** C200: acceleration by CMFD does not change the multiplication factor that a MoC eigenvalue calculation converges to. *)
From Coq Require Import List Bool Reals ZArith Arith Lia Lra Permutation.
From Verif Require Import RUtil ListUtil McModel MeshModel AngModel BcModel BcProofs StdAlg CoreModel CoreProofs ScatModel ScatProofs MatModel ExpModel MocModel MocProofs MocProps XsModel SrcModel HomProps SrcProps SolModel SolProps MgModel MgProps MgInnerProps SnGroupProps EigProps MocMaxProps MocEigProps InfProps MocLinProofs MocConvProps FixModel FixProofs FixProps MocReflProofs MocReflProps MocRecipProofs MocRecipProps MocOrdProps MocKeffProps MocBracketProps.
From Verif Require Import EigAccModel.
From Verif Require Import CmsModel EigAccProofs PflModel PflProps EigAccProps.
Import ListNotations.
Open Scope nat_scope.

(** ** Specification *)
(** A calculation to compare with: one without acceleration that has converged to positive fluxes. *)
Definition reference (m : MocStatic) (ng : nat) (z : ESt MocState) : Prop := converged m ng z /\ flux_pos m ng z.
(** An iteration with acceleration: CMFD returns the factor [k1] and puts the fluxes [sw1], then the sweeps are made. *)
Definition accelerated (m : MocStatic) (ng : nat) Data note getp setp (csolve : R -> list (list R) -> MocState -> Data -> Out (R * list (list R) * Data)) (s : ESt MocState) (d : Data) (k1 : R) (sw1 : MocState) (s' : ESt MocState) (d' : Data) : Prop :=
  acc_iter MocState mg_flux (moc_sweep m) (ms_xs m) ng (ms_nreg m) (ms_vol m) Data note getp setp csolve true (s, d) = Got (s', d') /\ exists d1, acc_cmfd MocState Data getp setp csolve (e_k _ s) (e_sw _ s) d = Got (k1, sw1, d1).
(** Arrays of the right sizes. *)
Definition sized (m : MocStatic) (ng : nat) (s : ESt MocState) (sw1 : MocState) : Prop := length (e_src _ s) = ms_nreg m /\ length (e_fs _ s) = ms_nreg m /\ moc_shape m ng sw1.
Definition positive (m : MocStatic) (ng : nat) (sw : MocState) : Prop := forall i h, i < ms_nreg m -> h < ng -> (0 < phi (mg_flux sw) i h)%R.

(** ** Proofs *)
Lemma iter_step : forall m ng (s s' : ESt MocState), eigen_iter MocState mg_flux (moc_sweep m) (ms_xs m) ng (ms_nreg m) (ms_vol m) s = Got s' ->
  exists s1, eigen_step MocState mg_flux (moc_sweep m) (ms_xs m) ng (ms_nreg m) (ms_vol m) s = Some s1 /\ e_sw _ s' = e_sw _ s1 /\ e_k _ s' = e_k _ s1.
Proof.
  intros m ng s s' E. unfold eigen_iter in E. destruct (eigen_step _ _ _ _ _ _ _ s) as [s1|]; [|discriminate]. exists s1. split; [reflexivity|]. destruct (normalize (e_fs _ s1)) as [[f ?]|]; [|discriminate]. destruct (normalize (e_fsp _ s1)) as [[fp ?]|]; [|discriminate].
  destruct (sum_sq _ _ _); [|discriminate]. destruct (_ =? 0); [discriminate|]. injection E as <-. split; reflexivity.
Qed.
Lemma acc_parts : forall m ng Data note getp setp csolve s (d : Data) k1 sw1 s' d', accelerated m ng Data note getp setp csolve s d k1 sw1 s' d' ->
  exists s1, eigen_step MocState mg_flux (moc_sweep m) (ms_xs m) ng (ms_nreg m) (ms_vol m) (with_k _ s k1 sw1) = Some s1 /\ e_sw _ s' = e_sw _ s1 /\ e_k _ s' = e_k _ s1.
Proof.
  intros m ng Data note getp setp csolve s d k1 sw1 s' d' (E & d1 & Ec). unfold acc_iter in E. rewrite Ec in E. cbv zeta in E. destruct (eigen_iter _ _ _ _ _ _ _ _) as [s2| |] eqn:Ei; try discriminate. injection E as <- _. now apply iter_step.
Qed.

(** The sweeps that follow a CMFD solve bracket the factor, whatever CMFD did: where they raise no flux that CMFD put, its factor is
    not too small; where they lower none, it is not too large. *)
Theorem C200_bracket : forall m ng sct v c Data note getp setp csolve s (d : Data) k1 sw1 s' d' z, moc_problem m ng sct -> physical (ms_nreg m) ng sct (ms_xs m) -> crossed m -> 1 <= ms_inner m -> (0 <= c < 1)%R -> dominated m ng sct v c -> (forall d, types (ms_in m) d <> PRESCRIBED) -> 1 <= ms_nreg m -> 1 <= ng ->
  reference m ng z -> accelerated m ng Data note getp setp csolve s d k1 sw1 s' d' -> (0 < k1)%R -> sized m ng s sw1 -> positive m ng sw1 ->
  (nowhere_more m ng (e_sw _ s') sw1 -> (e_k _ z <= k1)%R) /\ (nowhere_more m ng sw1 (e_sw _ s') -> (k1 <= e_k _ z)%R).
Proof.
  intros m ng sct v c Data note getp setp csolve s d k1 sw1 s' d' z P Ph Cr Hn Hc Dm Np Hr Hg [Cz Fz] A K (Ls & Lf & Sh) Ps. destruct (acc_parts _ _ _ _ _ _ _ _ _ _ _ _ _ A) as (s1 & E & Es & _). rewrite Es.
  assert (Pr : proper m ng (with_k _ s k1 sw1)) by (repeat split; cbn [with_k e_k e_src e_fs e_sw]; auto; apply Sh).
  assert (Zs : flux_some m ng z) by (exists 0, 0; split; [lia|]; split; [lia|]; apply Rgt_not_eq, Fz; lia). split; intros Lo.
  - exact (C195_above m ng sct v c (with_k _ s k1 sw1) s1 z P Ph Cr Hn Hc Dm Np Pr E Lo Ps Cz Zs).
  - apply (C195_below m ng sct v c (with_k _ s k1 sw1) s1 z P Ph Cr Hn Hc Dm Np Pr E Lo); auto. exists 0, 0. split; [lia|]. split; [lia|]. apply Ps; lia.
Qed.
Print Assumptions C200_bracket.

(** Sweeps that leave the fluxes that CMFD put as they are: the factor of CMFD and of the iteration is the one without acceleration. *)
Theorem C200_same : forall m ng sct v c Data note getp setp csolve s (d : Data) k1 sw1 s' d' z, moc_problem m ng sct -> physical (ms_nreg m) ng sct (ms_xs m) -> crossed m -> 1 <= ms_inner m -> (0 <= c < 1)%R -> dominated m ng sct v c -> (forall d, types (ms_in m) d <> PRESCRIBED) -> 1 <= ms_nreg m -> 1 <= ng ->
  reference m ng z -> accelerated m ng Data note getp setp csolve s d k1 sw1 s' d' -> (0 < k1)%R -> sized m ng s sw1 -> positive m ng sw1 ->
  (forall i h, i < ms_nreg m -> h < ng -> phi (mg_flux (e_sw _ s')) i h = phi (mg_flux sw1) i h) -> (forall h, h < ng -> bnd_same m h (mg_bnd (e_sw _ s')) (mg_bnd sw1)) -> k1 = e_k _ z /\ e_k _ s' = e_k _ z.
Proof.
  intros m ng sct v c Data note getp setp csolve s d k1 sw1 s' d' z P Ph Cr Hn Hc Dm Np Hr Hg [Cz Fz] A K (Ls & Lf & Sh) Ps Ef Eb. destruct (acc_parts _ _ _ _ _ _ _ _ _ _ _ _ _ A) as (s1 & E & Es & Ek). rewrite Es in Ef, Eb. rewrite Ek.
  assert (Fw : flux_fits (ms_nreg m) ng (mg_flux (e_sw _ s1))).
  { destruct (step_born m ng sct (with_k _ s k1 sw1) s1 P Ph) as (e & t & X & Fx & Et & Ew & _); [repeat split; cbn [with_k e_k e_src e_fs e_sw]; auto; apply Sh|exact E|]. destruct (step_total m ng sct e P Ph X _ Fx) as (t' & Et' & Gt & _). rewrite Et in Et'. injection Et' as <-. rewrite <- Ew. apply Gt. }
  assert (C1 : converged m ng (with_k _ s k1 sw1)). { split; [exact K|]. split; [exact Ls|]. split; [exact Lf|]. split; [exact Sh|]. exists s1. split; [exact E|]. split; [exact Ef|exact Eb]. }
  assert (K1 : k1 = e_k _ z) by exact (C194_unique m ng sct v c (with_k _ s k1 sw1) z P Ph Cr Hn Hc Dm Np Hr Hg C1 Cz Ps Fz). split; [exact K1|].
  rewrite <- K1. unfold eigen_step in E. cbn [with_k e_k e_fs e_src e_sw] in E. destruct (calc_fission_source _ _ _ _ _) as [f1|]; [|discriminate]. destruct (fss_groups _ _ _ _ _ _ _ _ _ _) as [[a w]|] eqn:Eg; [|discriminate].
  destruct (total_fission (ms_xs m) ng (mg_flux w) (ms_vol m)) as [t1|] eqn:T1; [|discriminate]. destruct (total_fission (ms_xs m) ng (mg_flux sw1) (ms_vol m)) as [t2|] eqn:T2; [|discriminate]. destruct (Reqb_spec t2 0) as [|N]; [discriminate|]. destruct (calc_fission_source _ _ _ (mg_flux w) f1); [|discriminate]. injection E as <-. cbn [e_k e_sw] in *.
  assert (t1 = t2); [|subst; field; exact N]. destruct Ph as (M & D & _). destruct (mp_vol m ng sct P) as [Lv _]. rewrite (C51_total_fission (ms_nreg m) ng sct _ _ _ M D Fw Lv) in T1. rewrite (C51_total_fission (ms_nreg m) ng sct _ _ _ M D (proj1 Sh) Lv) in T2. injection T1 as <-. injection T2 as <-.
  unfold SrcProps.production. apply lsum_ext. intros x Ix. apply lsum_ext. intros i Ii. apply rsum_ext. intros h Hh. rewrite Ef; [reflexivity|now apply (reg_bound (ms_xs m) (ms_nreg m) x i)|exact Hh].
Qed.
Print Assumptions C200_same.

(** The other way: a converged calculation whose pins CMFD finds in balance stays converged when it is accelerated. *)
Theorem C200_kept : forall m ng Data note cell nxy hs mps fixup o (mk : list (list R) -> MocState -> Data -> CmProb) store (z : ESt MocState) (d : Data) pfs s' d', mesh_good cell nxy hs mps ->
  moc_getp cell nxy mps (mvols hs mps) ng (mg_flux (e_sw _ z)) = Got pfs -> consistent (mk pfs (e_sw _ z) d) pfs (e_k _ z) -> (0 <= co_max o)%Z -> converged m ng z ->
  acc_iter MocState mg_flux (moc_sweep m) (ms_xs m) ng (ms_nreg m) (ms_vol m) Data note (fun s => moc_getp cell nxy mps (mvols hs mps) ng (mg_flux s)) (moc_put cell nxy mps) (cmfd_solve fixup o mk store) true (z, d) = Got (s', d') ->
  (forall i h, i < ms_nreg m -> h < ng -> phi (mg_flux (e_sw _ s')) i h = phi (mg_flux (e_sw _ z)) i h) /\ (forall h, h < ng -> bnd_same m h (mg_bnd (e_sw _ s')) (mg_bnd (e_sw _ z))).
Proof.
  intros m ng Data note cell nxy hs mps fixup o mk store z d pfs s' d' M G C Mo (K & _ & _ & _ & s2 & E2 & Ef & Eb) E. destruct (C174_moc cell nxy hs mps ng Data fixup o mk store (e_k _ z) (e_sw _ z) d pfs M G C ltac:(lra) Mo) as (d1 & Ec).
  destruct (acc_parts m ng Data _ _ _ _ z d (e_k _ z) (e_sw _ z) s' d' (conj E (ex_intro _ d1 Ec))) as (s1 & E1 & Es & _).
  replace (with_k _ z (e_k _ z) (e_sw _ z)) with z in E1 by (destruct z; reflexivity). rewrite E2 in E1. injection E1 as <-. rewrite Es. split; assumption.
Qed.
Print Assumptions C200_kept.

(** Two fissile regions between reflecting sides, from a factor of 9 that CMFD corrects to 3/2. *)
Example C200_instance : forall gs, let m := InfProps.mf_static gs in exists s', reference m 1 InfProps.mf_s /\
  accelerated m 1 unit (fun _ _ d => d) (fun _ => Got []) (fun _ s => Got s) (fun _ _ _ d => Got ((3 / 2)%R, [], d)) (with_factor 9 InfProps.mf_s) tt (3 / 2) (e_sw _ InfProps.mf_s) s' tt /\
  sized m 1 (with_factor 9 InfProps.mf_s) (e_sw _ InfProps.mf_s) /\ positive m 1 (e_sw _ InfProps.mf_s) /\
  (forall i h, i < ms_nreg m -> h < 1 -> phi (mg_flux (e_sw _ s')) i h = phi (mg_flux (e_sw _ InfProps.mf_s)) i h) /\ e_k _ s' = (3 / 2)%R.
Proof.
  intros gs m. destruct (C194_instance gs) as (P & Ph & Cr & Hn & Dm & C & Fp & _). fold m in P, Ph, Cr, Hn, Dm, C, Fp. destruct (InfProps.C156_moc m 1 (fun _ => mo_sc) (fun _ => 1%R) InfProps.mf_s 1 P Ph) as (s' & E & _ & K & _);
    [intros t T; discriminate T|intros x g [<-|[<-|[]]] Hg; assert (g = 0) by lia; subst; unfold mo_sc; cbn; field|apply (InfProps.mf_sound gs)|apply (InfProps.mf_flat gs)|].
  cbn [steps] in E. destruct (eigen_iter _ _ _ _ _ _ _ InfProps.mf_s) as [t| |] eqn:Ei; try discriminate. injection E as ->. exists s'.
  split; [split; assumption|]. split; [|split; [|split; [exact Fp|split; [|exact K]]]].
  - split; [|exists tt; reflexivity]. unfold acc_iter, acc_cmfd. change (with_k _ (with_factor 9 InfProps.mf_s) (3 / 2) (e_sw _ (with_factor 9 InfProps.mf_s))) with InfProps.mf_s. now rewrite Ei.
  - destruct C as (_ & A1 & A2 & A3 & _). split; [exact A1|]. split; [exact A2|exact A3].
  - destruct C as (_ & _ & _ & _ & s1 & E1 & Ef & _). destruct (iter_step m 1 _ _ Ei) as (s2 & E2 & Es & _). rewrite E1 in E2. injection E2 as <-. rewrite Es. exact Ef.
Qed.
