(** C170-C172: superposition of MoC sweeps, stability and convergence of the inner iterations. *)
From Coq Require Import List Bool Reals ZArith Arith Lia Lra Permutation.
From Verif Require Import RUtil ListUtil McModel MeshModel AngModel BcModel BcProofs StdAlg CoreModel CoreProofs ScatModel ScatProofs MatModel ExpModel MocModel MocProofs MocProps XsModel SrcModel SrcProps SolModel SolProps MgModel MgProps MgInnerProps SnGroupProps EigProps MocMaxProps MocEigProps MocLinProofs.
Import ListNotations.
Open Scope nat_scope.

(** C170: whatever two sweeps with the same rays and cross sections compute, the sweep of the sum of their sources and boundary fluxes, the
    second ones times any number, computes the sum of the results.  Flux and boundary fluxes, any boundary conditions, threads and update scheme. *)
Theorem C170_superposition : forall c bi bo g xstr vol quad space gs q1 q2 q3 nt n ps1 ps2 ps3 f1 b1 f2 b2, (forall i, Lin c (q1 i) (q2 i) (q3 i)) -> LinP c ps1 ps2 ps3 ->
  sweep1g (mkME bi bo g xstr vol q1 quad space gs) nt n ps1 = Ok (f1, b1) -> sweep1g (mkME bi bo g xstr vol q2 quad space gs) nt n ps2 = Ok (f2, b2) ->
  exists f3 b3, sweep1g (mkME bi bo g xstr vol q3 quad space gs) nt n ps3 = Ok (f3, b3) /\ Lin c f1 f2 f3 /\ LinB c b1 b2 b3.
Proof. intros c bi bo g xstr vol quad space gs q1 q2 q3 nt n ps1 ps2 ps3 f1 b1 f2 b2 Hq. exact (lin_sweep1g c bi bo g xstr vol quad space gs q1 q2 q3 Hq nt n ps1 ps2 ps3 f1 b1 f2 b2). Qed.
Print Assumptions C170_superposition.

(** A state whose arrays have the right sizes. *)
Definition bdry_shape (m : MocStatic) (d : list R * list R) : Prop := length (fst d) = n_group (ms_in m) * BcProofs.total (sizes (ms_in m)) /\ length (snd d) = BcProofs.total (sizes (ms_in m)).
Definition moc_shape (m : MocStatic) (ng : nat) (s : MocState) : Prop :=
  flux_fits (ms_nreg m) ng (mg_flux s) /\ length (mg_q s) = ms_nreg m /\ length (mg_bnd s) = length (ms_planes m) /\ Forall (bdry_shape m) (mg_bnd s).
(** The incoming fluxes of group [g] differ by between [lo] and [hi]. *)
Definition near (m : MocStatic) (g : nat) (lo hi : R) (ds1 ds2 : list (list R * list R)) : Prop :=
  Forall2 (fun d1 d2 => forall a n i k, slot (ms_in m) g a n i k -> (lo <= at0 (fst d1) k - at0 (fst d2) k <= hi)%R) ds1 ds2.
Definition planes_of (m : MocStatic) (ds : list (list R * list R)) : list PlaneIn := map (fun pb => plane_in (fst pb) (snd pb)) (combine (ms_planes m) ds).

Lemma lin_at0 : forall c a b d i, Lin c a b d -> at0 d i = (at0 a i + c * at0 b i)%R.
Proof. intros c a b d i H. revert i. unfold at0. induction H; intros [|i]; cbn; try ring. apply IHLin. Qed.
Lemma planes_lin : forall m ds1 ds2, length ds1 = length (ms_planes m) -> length ds2 = length (ms_planes m) -> Forall (bdry_shape m) ds1 -> Forall (bdry_shape m) ds2 ->
  exists ds3, length ds3 = length (ms_planes m) /\ Forall (bdry_shape m) ds3 /\ LinP (-1) (planes_of m ds1) (planes_of m ds2) (planes_of m ds3) /\
    (forall g lo hi, near m g lo hi ds1 ds2 -> Forall (fun d => forall a n i k, slot (ms_in m) g a n i k -> (lo <= at0 (fst d) k <= hi)%R) ds3).
Proof.
  intros m. unfold planes_of. generalize (ms_planes m) as pl. induction pl as [|[[f h] r] pl IH]; intros [|[i1 o1] ds1] [|[i2 o2] ds2] L1 L2 F1 F2; try discriminate.
  - exists []. split; [reflexivity|]. split; [constructor|]. split; [constructor|]. constructor.
  - apply Forall_cons_iff in F1. destruct F1 as [[A1 A2] F1]. apply Forall_cons_iff in F2. destruct F2 as [[B1 B2] F2]. cbn [fst snd] in *.
    destruct (IH ds1 ds2) as (ds3 & L3 & F3 & P3 & N3); [now injection L1|now injection L2|assumption|assumption|].
    destruct (lin_exists (-1) i1 i2) as (i3 & Hi); [congruence|]. destruct (lin_exists (-1) o1 o2) as (o3 & Ho); [congruence|].
    exists ((i3, o3) :: ds3). split; [cbn; now rewrite L3|]. split; [constructor; [|assumption]; split; cbn [fst snd]; [now rewrite (proj2 (lin_len _ _ _ _ Hi))|now rewrite (proj2 (lin_len _ _ _ _ Ho))]|].
    split; [cbn; now constructor|]. intros g lo hi N. inversion N as [|? ? ? ? N1 N2]; subst. constructor; [|now apply (N3 g)]. intros a n i k Sx. cbn [fst]. rewrite (lin_at0 _ _ _ _ _ Hi). specialize (N1 a n i k Sx). cbn [fst] in N1. lra.
Qed.
Lemma linB_near : forall m g lo hi b1 b2 b3, LinB (-1) b1 b2 b3 -> Forall (fun d => forall a n i k, slot (ms_in m) g a n i k -> (lo <= at0 (fst d) k <= hi)%R) b3 -> near m g lo hi b1 b2.
Proof.
  intros m g lo hi b1 b2 b3 H. induction H as [|i1 o1 i2 o2 i3 o3 b1 b2 b3 Hi Ho H IH]; intros F; [constructor|]. apply Forall_cons_iff in F. destruct F as [F1 F]. constructor; [|now apply IH]. intros a n i k Sx. specialize (F1 a n i k Sx). cbn [fst] in *. rewrite (lin_at0 _ _ _ _ _ Hi) in F1. lra.
Qed.
Lemma abs_top : forall l : list R, exists M, (0 <= M)%R /\ Forall (fun v => - M <= v <= M)%R l.
Proof.
  intros l. destruct (list_top (map Rabs l)) as (M & M0 & F). exists M. split; [exact M0|]. rewrite Forall_forall in F. apply Forall_forall. intros v I. specialize (F (Rabs v) (in_map _ _ _ I)). cbn beta in F. pose proof (Rle_abs v). pose proof (Rle_abs (- v)). rewrite Rabs_Ropp in *. lra.
Qed.

Section Conv.
Variables (m : MocStatic) (ng : nat) (sct : XReg -> nat -> nat -> R).
Hypothesis P : moc_problem m ng sct.

Lemma planes_ok : forall g q lo hi ds, g < ng -> Forall (bdry_shape m) ds -> Forall (fun d => forall a n i k, slot (ms_in m) g a n i k -> (lo <= at0 (fst d) k <= hi)%R) ds -> Forall (plane_bnd (env_of m g q) lo hi (ms_nreg m) (ms_nt m)) (planes_of m ds).
Proof.
  intros g q lo hi ds Hg Fs Fb. unfold planes_of. apply Forall_forall. intros p I. apply in_map_iff in I. destruct I as ([[[f h] rays] d] & <- & I). apply in_combine_l in I as I1. apply in_combine_r in I as I2. cbn [fst snd plane_in].
  destruct (mp_planes m ng sct P f h rays I1) as (A1 & A2 & A3 & A4 & A5 & A6 & A7). pose proof (proj1 (Forall_forall _ _) Fs d I2) as (B1 & B2). pose proof (proj1 (Forall_forall _ _) Fb d I2) as B3. cbn beta in B3.
  unfold plane_bnd. cbn [pi_height pi_rays pi_first pi_in pi_out env_of me_in me_space me_gs fst snd]. do 5 (split; [assumption|]). split; [intros j rs E; now apply A6|]. do 3 (split; [assumption|]).
  intros a n i k Sx. cbn [env_of me_in me_group] in Sx. assert (K : k < length (fst d)). { rewrite B1. apply (slot_range _ _ _ _ _ _ Sx). rewrite (mp_ng m ng sct P). exact Hg. }
  exists (at0 (fst d) k). split; [unfold at0; now apply nth_error_nth'|]. apply (B3 a n i k Sx).
Qed.
Lemma sweep_bounds : forall g q lo hi ds, g < ng -> length q = ms_nreg m -> (forall i, i < ms_nreg m -> (lo <= at0 q i <= hi)%R) -> length ds = length (ms_planes m) -> Forall (bdry_shape m) ds ->
  (forall s, types (ms_in m) s = VACUUM -> (lo <= 0 <= hi)%R) -> Forall (fun d => forall a n i k, slot (ms_in m) g a n i k -> (lo <= at0 (fst d) k <= hi)%R) ds ->
  exists f bs, sweep1g (env_of m g q) (ms_nt m) (ms_nreg m) (planes_of m ds) = Ok (f, bs) /\ length f = ms_nreg m /\ (forall i, i < ms_nreg m -> (4 * PI * lo <= at0 f i <= 4 * PI * hi)%R) /\
    length bs = length (ms_planes m) /\ Forall (bdry_shape m) bs /\ Forall (fun d => forall a n i k, slot (ms_in m) g a n i k -> (lo <= at0 (fst d) k <= hi)%R) bs.
Proof.
  intros g q lo hi ds Hg Lq Bq Ld Fs Vac Fb. pose proof (planes_ok g q lo hi ds Hg Fs Fb) as Fp. destruct (mp_xstr m ng sct P g Hg) as [X1 X2]. destruct (mp_vol m ng sct P) as [V1 V2]. destruct (mp_space m ng sct P) as [S1 S2].
  destruct (C153_bounds (env_of m g q) q lo hi (ms_nreg m) (ms_nt m) (planes_of m ds) (mp_bc m ng sct P) (mp_out m ng sct P) (mp_sup m ng sct P)) as (f & bs & E & Lf & Bf & Ab).
  { exact Vac. } { exact (mp_gap m ng sct P). } { cbn. rewrite (mp_ng m ng sct P). exact Hg. } { exact (mp_len m ng sct P). } { reflexivity. } { exact Lq. }
  { apply Forall_forall. intros v I. apply (In_nth _ _ 0%R) in I. destruct I as (i & I & <-). apply Bq. lia. }
  { exact X1. } { exact X2. } { exact V1. } { exact V2. } { exact S1. } { exact S2. } { exact (mp_quad m ng sct P). } { exact Fp. }
  { intros i I. unfold planes_of. rewrite swept_bnd by exact Ld. now apply (mp_fill m ng sct P). }
  exists f, bs. split; [exact E|]. split; [exact Lf|]. split; [intros i Hi; rewrite Forall_forall in Bf; apply Bf; unfold at0; apply nth_In; lia|].
  assert (Lab : length bs = length (planes_of m ds)) by (clear - Ab; induction Ab; cbn; lia). split; [rewrite Lab; unfold planes_of; rewrite map_length, combine_length; lia|].
  assert (Y : forall b, In b bs -> exists d, In d ds /\ length (fst b) = length (fst d) /\ length (snd b) = length (snd d) /\ bnd_group (env_of m g q) lo hi (fst b)).
  { unfold planes_of in Ab. clear - Ab. revert bs Ab. generalize (ms_planes m) as pl. induction ds as [|d ds IH]; intros pl bs Ab b I.
    - destruct pl; cbn in Ab; inversion Ab; subst; destruct I.
    - destruct pl as [|p pl]; cbn [combine map] in Ab; inversion Ab as [|? y ? bs' A Ab' E1 E2]; subst; [destruct I|]. destruct I as [<-|I].
      + destruct A as (A1 & A2 & A3 & _). cbn [plane_in pi_in pi_out fst snd] in A1, A2. exists d. split; [now left|]. auto.
      + destruct (IH pl bs' Ab' b I) as (d' & J & K). exists d'. split; [now right|exact K]. }
  split; apply Forall_forall; intros b I; destruct (Y b I) as (d & J & Y1 & Y2 & Y3).
  - rewrite Forall_forall in Fs. destruct (Fs d J) as [Z1 Z2]. split; congruence.
  - intros a n i k Sx. destruct (Y3 a n i k Sx) as (v & Ev & Bv). unfold at0. rewrite (nth_error_nth _ _ _ Ev). exact Bv.
Qed.
Lemma sweep_some : forall g q ds, g < ng -> length q = ms_nreg m -> length ds = length (ms_planes m) -> Forall (bdry_shape m) ds ->
  exists f bs, sweep1g (env_of m g q) (ms_nt m) (ms_nreg m) (planes_of m ds) = Ok (f, bs) /\ length f = ms_nreg m /\ length bs = length (ms_planes m) /\ Forall (bdry_shape m) bs.
Proof.
  intros g q ds Hg Lq Ld Fs. destruct (abs_top (q ++ concat (map fst ds))) as (M & M0 & F). apply Forall_app in F. destruct F as [Fq Fd].
  destruct (sweep_bounds g q (- M) M ds Hg Lq) as (f & bs & E & Lf & _ & Lb & Sb & _); [|exact Ld|exact Fs|intros; lra| |eauto 7].
  - intros i Hi. rewrite Forall_forall in Fq. apply Fq. apply nth_In. lia.
  - apply Forall_forall. intros d I a n i k Sx. rewrite Forall_forall in Fd, Fs. apply Fd. apply in_concat. exists (fst d). split; [now apply in_map|]. apply nth_In. rewrite (proj1 (Fs d I)). apply (slot_range _ _ _ _ _ _ Sx). rewrite (mp_ng m ng sct P). exact Hg.
Qed.
(** Two sweeps compared. *)
Lemma sweep_diff : forall g q1 q2 lo hi ds1 ds2, g < ng -> length q1 = ms_nreg m -> length q2 = ms_nreg m -> length ds1 = length (ms_planes m) -> length ds2 = length (ms_planes m) -> Forall (bdry_shape m) ds1 -> Forall (bdry_shape m) ds2 ->
  (forall i, i < ms_nreg m -> (lo <= at0 q1 i - at0 q2 i <= hi)%R) -> (forall s, types (ms_in m) s = VACUUM -> (lo <= 0 <= hi)%R) -> near m g lo hi ds1 ds2 ->
  exists f1 b1 f2 b2, sweep1g (env_of m g q1) (ms_nt m) (ms_nreg m) (planes_of m ds1) = Ok (f1, b1) /\ sweep1g (env_of m g q2) (ms_nt m) (ms_nreg m) (planes_of m ds2) = Ok (f2, b2) /\
    (forall i, i < ms_nreg m -> (4 * PI * lo <= at0 f1 i - at0 f2 i <= 4 * PI * hi)%R) /\ near m g lo hi b1 b2.
Proof.
  intros g q1 q2 lo hi ds1 ds2 Hg L1 L2 D1 D2 F1 F2 Bq Vac N. destruct (sweep_some g q1 ds1 Hg L1 D1 F1) as (f1 & b1 & E1 & _). destruct (sweep_some g q2 ds2 Hg L2 D2 F2) as (f2 & b2 & E2 & _).
  destruct (planes_lin m ds1 ds2 D1 D2 F1 F2) as (ds3 & D3 & F3 & P3 & N3). destruct (lin_exists (-1) q1 q2) as (q3 & Hq); [congruence|].
  destruct (sweep_bounds g q3 lo hi ds3 Hg) as (f3 & b3 & E3 & _ & Bf & _ & _ & Nb); [now rewrite (proj2 (lin_len _ _ _ _ Hq))| |exact D3|exact F3|exact Vac|now apply N3|].
  { intros i Hi. rewrite (lin_at0 _ _ _ _ _ Hq). specialize (Bq i Hi). lra. }
  destruct (C170_superposition (-1) (ms_in m) (ms_out m) g (ms_xstr m g) (ms_vol m) (ms_quad m) (ms_space m) (ms_gs m) (fun _ => q1) (fun _ => q2) (fun _ => q3) (ms_nt m) (ms_nreg m) _ _ _ f1 b1 f2 b2 (fun _ => Hq) P3 E1 E2) as (f & b & E & Kf & Kb).
  unfold env_of in E3. rewrite E3 in E. injection E as <- <-. exists f1, b1, f2, b2. split; [exact E1|]. split; [exact E2|]. split; [|now apply (linB_near m g lo hi b1 b2 b3)].
  intros i Hi. specialize (Bf i Hi). rewrite (lin_at0 _ _ _ _ _ Kf) in Bf. lra.
Qed.
End Conv.

(** C170: more source and more incoming flux never make less flux, anywhere. *)
Theorem C170_monotone : forall m ng sct g q1 q2 ds1 ds2, moc_problem m ng sct -> g < ng -> length q1 = ms_nreg m -> length q2 = ms_nreg m -> length ds1 = length (ms_planes m) -> length ds2 = length (ms_planes m) -> Forall (bdry_shape m) ds1 -> Forall (bdry_shape m) ds2 ->
  (forall i, i < ms_nreg m -> (at0 q2 i <= at0 q1 i)%R) -> (forall d1 d2 a n i k, In (d1, d2) (combine ds1 ds2) -> slot (ms_in m) g a n i k -> (at0 (fst d2) k <= at0 (fst d1) k)%R) ->
  exists f1 b1 f2 b2, sweep1g (env_of m g q1) (ms_nt m) (ms_nreg m) (planes_of m ds1) = Ok (f1, b1) /\ sweep1g (env_of m g q2) (ms_nt m) (ms_nreg m) (planes_of m ds2) = Ok (f2, b2) /\ forall i, i < ms_nreg m -> (at0 f2 i <= at0 f1 i)%R.
Proof.
  intros m ng sct g q1 q2 ds1 ds2 P Hg L1 L2 D1 D2 F1 F2 Hq Hd. destruct (abs_top (q1 ++ concat (map fst ds1))) as (M1 & A1 & B1). destruct (abs_top (q2 ++ concat (map fst ds2))) as (M2 & A2 & B2). apply Forall_app in B1, B2. destruct B1 as [B1 C1]. destruct B2 as [B2 C2].
  rewrite Forall_forall in B1, C1, B2, C2. assert (V : forall ds M j d k g a n i, Forall (bdry_shape m) ds -> (forall v, In v (concat (map fst ds)) -> (- M <= v <= M)%R) -> nth_error ds j = Some d -> slot (ms_in m) g a n i k -> g < ng -> (- M <= at0 (fst d) k <= M)%R).
  { intros ds M j d k g' a n i Fd C E Sx Hg'. apply C. apply nth_error_In in E. apply in_concat. exists (fst d). split; [now apply in_map|]. rewrite Forall_forall in Fd. apply nth_In. rewrite (proj1 (Fd d E)). apply (slot_range _ _ _ _ _ _ Sx). rewrite (mp_ng m ng sct P). exact Hg'. }
  destruct (sweep_diff m ng sct P g q1 q2 0 (M1 + M2) ds1 ds2 Hg L1 L2 D1 D2 F1 F2) as (f1 & b1 & f2 & b2 & E1 & E2 & B & _).
  - intros i Hi. specialize (Hq i Hi). pose proof (B1 (at0 q1 i) ltac:(unfold at0; apply nth_In; lia)). pose proof (B2 (at0 q2 i) ltac:(unfold at0; apply nth_In; lia)). lra.
  - intros s _. lra.
  - unfold near. assert (W : forall j d1 d2, nth_error ds1 j = Some d1 -> nth_error ds2 j = Some d2 -> forall a n i k, slot (ms_in m) g a n i k -> (0 <= at0 (fst d1) k - at0 (fst d2) k <= M1 + M2)%R).
    { intros j d1 d2 E1 E2 a n i k Sx. pose proof (V ds1 M1 j d1 k g a n i F1 C1 E1 Sx Hg). pose proof (V ds2 M2 j d2 k g a n i F2 C2 E2 Sx Hg). assert (at0 (fst d2) k <= at0 (fst d1) k)%R; [|lra]. apply (Hd d1 d2 a n i k); [|exact Sx].
      clear - E1 E2. revert ds2 j E1 E2. induction ds1 as [|x l IH]; intros [|y r] [|j] E1 E2; cbn in *; try discriminate; [left; congruence|right; eauto]. }
    assert (Ll : length ds1 = length ds2) by congruence. clear - W Ll. revert ds2 Ll W. induction ds1 as [|x l IH]; intros [|y r] Ll W; try discriminate; constructor; [apply (W 0); reflexivity|]. apply IH; [now injection Ll|]. intros j. apply (W (S j)).
  - exists f1, b1, f2, b2. split; [exact E1|]. split; [exact E2|]. intros i Hi. specialize (B i Hi). lra.
Qed.
Print Assumptions C170_monotone.

Section Inner.
Variables (m : MocStatic) (ng : nat) (sct : XReg -> nat -> nat -> R).
Hypothesis P : moc_problem m ng sct.
Hypothesis Ph : physical (ms_nreg m) ng sct (ms_xs m).

(** One inner iteration taken apart. *)
Lemma inner_parts : forall g src s, g < ng -> length src = ms_nreg m -> moc_shape m ng s ->
  exists q f bs s', length q = ms_nreg m /\ (forall x i, In x (ms_xs m) -> In i (xr_reg x) -> at0 q i = ((at0 src i + phi (mg_flux s) i g * sct x g g) * (1 / (at0 (xr_tr x) g * (4 * PI))))%R) /\
    sweep1g (env_of m g q) (ms_nt m) (ms_nreg m) (planes_of m (mg_bnd s)) = Ok (f, bs) /\ moc_inner m g src s = Some s' /\ mg_bnd s' = bs /\ moc_shape m ng s' /\
    (forall i h, i < ms_nreg m -> phi (mg_flux s') i h = if h =? g then at0 f i else phi (mg_flux s) i h).
Proof.
  intros g src s Hg Ls (Ff & Lq & Lb & Fb). destruct Ph as (M & D & Cov & _).
  destruct (self_scatter_ok true (ms_nreg m) ng sct (ms_xs m) (mg_flux s) src g (mg_q s) M D Ff Ls Lq Hg) as (q & Eq & L & Pq & _); [intros _ x I; pose proof (mp_tr m ng sct P x g I Hg); lra|].
  destruct (sweep_some m ng sct P g q (mg_bnd s) Hg L Lb Fb) as (f & bs & E & Lf & Lbs & Fbs). destruct (set_col_def g (ms_nreg m) ng f (mg_flux s) Ff Hg Lf) as (fl & Ec). destruct (set_col_spec _ _ _ _ Ec) as (C1 & C2 & C3 & C4).
  exists q, f, bs, (mkMG fl q bs). split; [exact L|]. split; [exact Pq|]. split; [exact E|]. split; [|split; [reflexivity|split]].
  - unfold moc_inner. rewrite Eq. unfold env_of, planes_of in E. rewrite E, Ec. reflexivity.
  - unfold moc_shape. cbn [mg_flux mg_q mg_bnd]. split; [exact (fits_map _ _ _ _ Ff C2 C3)|]. auto.
  - intros i h Hi. cbn [mg_flux]. apply C4. lia.
Qed.
Lemma inner_shape : forall g src s, g < ng -> length src = ms_nreg m -> moc_shape m ng s -> exists s', moc_inner m g src s = Some s' /\ moc_shape m ng s' /\ (forall i h, i < ms_nreg m -> h <> g -> phi (mg_flux s') i h = phi (mg_flux s) i h).
Proof.
  intros g src s Hg Ls Fs. destruct (inner_parts g src s Hg Ls Fs) as (q & f & bs & s' & _ & _ & _ & E & _ & F & O). exists s'. split; [exact E|]. split; [exact F|]. intros i h Hi Nh. rewrite O by exact Hi. destruct (Nat.eqb_spec h g); [contradiction|reflexivity].
Qed.
Lemma inners_shape : forall g src n s, g < ng -> length src = ms_nreg m -> moc_shape m ng s -> exists s', moc_inners m g src n s = Some s' /\ moc_shape m ng s'.
Proof. intros g src n. induction n as [|n IH]; intros s Hg Ls Fs; cbn [moc_inners]; [eauto|]. destruct (inner_shape g src s Hg Ls Fs) as (s' & -> & F & _). auto. Qed.
Lemma inners_snoc : forall g src n s, moc_inners m g src (S n) s = match moc_inners m g src n s with Some t => moc_inner m g src t | None => None end.
Proof. intros g src n. induction n as [|n IH]; intros s; cbn [moc_inners]; [destruct (moc_inner m g src s); reflexivity|]. destruct (moc_inner m g src s) as [t|]; [|reflexivity]. rewrite <- IH. reflexivity. Qed.

(** Two inner iterations with the same source compared, for scattering within the group of at most [c] times the cross section. *)
Lemma inner_diff : forall c M D g src s1 s2 s1' s2', (0 <= c)%R -> (0 <= D)%R -> (c * D <= M)%R -> (forall x, In x (ms_xs m) -> (sct x g g <= c * at0 (xr_tr x) g)%R) -> g < ng -> length src = ms_nreg m -> moc_shape m ng s1 -> moc_shape m ng s2 ->
  (forall i, i < ms_nreg m -> (Rabs (phi (mg_flux s1) i g - phi (mg_flux s2) i g) <= 4 * PI * D)%R) -> near m g (- M) M (mg_bnd s1) (mg_bnd s2) -> moc_inner m g src s1 = Some s1' -> moc_inner m g src s2 = Some s2' ->
  (forall i, i < ms_nreg m -> (Rabs (phi (mg_flux s1') i g - phi (mg_flux s2') i g) <= 4 * PI * M)%R) /\ near m g (- M) M (mg_bnd s1') (mg_bnd s2').
Proof.
  intros c M D g src s1 s2 s1' s2' Hc HD HM Hx Hg Ls F1 F2 Hf Hn E1 E2. pose proof PI_RGT_0 as PP. destruct (inner_parts g src s1 Hg Ls F1) as (q1 & f1 & b1 & t1 & L1 & Q1 & W1 & I1 & B1 & _ & O1). destruct (inner_parts g src s2 Hg Ls F2) as (q2 & f2 & b2 & t2 & L2 & Q2 & W2 & I2 & B2 & _ & O2).
  rewrite E1 in I1. injection I1 as <-. rewrite E2 in I2. injection I2 as <-. assert (M0 : (0 <= M)%R) by (assert (0 <= c * D)%R by (now apply Rmult_le_pos); lra).
  destruct F1 as (_ & _ & Lb1 & Fb1). destruct F2 as (_ & _ & Lb2 & Fb2).
  destruct (sweep_diff m ng sct P g q1 q2 (- M) M (mg_bnd s1) (mg_bnd s2) Hg L1 L2 Lb1 Lb2 Fb1 Fb2) as (g1 & c1 & g2 & c2 & V1 & V2 & B & N).
  - intros i Hi. destruct Ph as (_ & _ & Cov & _). specialize (Cov i Hi). apply in_concat in Cov. destruct Cov as (l & I & Ii). apply in_map_iff in I. destruct I as (x & <- & Ix). rewrite (Q1 x i Ix Ii), (Q2 x i Ix Ii).
    pose proof (mp_tr m ng sct P x g Ix Hg) as T. pose proof (mp_self m ng sct P x g Ix Hg) as Z. specialize (Hx x Ix). specialize (Hf i Hi). set (d := (phi (mg_flux s1) i g - phi (mg_flux s2) i g)%R) in *. set (tr := at0 (xr_tr x) g) in *. set (ss := sct x g g) in *.
    replace ((at0 src i + phi (mg_flux s1) i g * ss) * (1 / (tr * (4 * PI))) - (at0 src i + phi (mg_flux s2) i g * ss) * (1 / (tr * (4 * PI))))%R with (d / (4 * PI) * (ss / tr))%R by (unfold d; field; split; lra).
    assert (R1 : (0 <= ss / tr <= c)%R). { split; [apply Rmult_le_pos; [exact Z|left; now apply Rinv_0_lt_compat]|]. apply (Rmult_le_reg_r tr); [exact T|]. replace (ss / tr * tr)%R with ss by (field; lra). exact Hx. }
    assert (R2 : (Rabs (d / (4 * PI)) <= D)%R). { unfold Rdiv. rewrite Rabs_mult, (Rabs_pos_eq (/ (4 * PI))) by (left; apply Rinv_0_lt_compat; lra). apply (Rmult_le_reg_r (4 * PI)); [lra|]. replace (Rabs d * / (4 * PI) * (4 * PI))%R with (Rabs d) by (field; lra). lra. }
    assert (R3 : (Rabs (d / (4 * PI) * (ss / tr)) <= c * D)%R). { rewrite Rabs_mult, (Rabs_pos_eq (ss / tr)) by lra. rewrite Rmult_comm. apply Rmult_le_compat; [lra|apply Rabs_pos|lra|exact R2]. }
    set (y := (d / (4 * PI) * (ss / tr))%R) in *. pose proof (Rle_abs y). pose proof (Rle_abs (- y)). rewrite Rabs_Ropp in *. lra.
  - intros s _. lra.
  - exact Hn.
  - rewrite W1 in V1. injection V1 as <- <-. rewrite W2 in V2. injection V2 as <- <-. rewrite B1, B2. split; [|exact N]. intros i Hi. rewrite (O1 i g Hi), (O2 i g Hi), Nat.eqb_refl. specialize (B i Hi). apply Rabs_le. lra.
Qed.
End Inner.

(** Fluxes of two states in group [g] that differ by no more than [M], scalar fluxes by no more than 4 pi M. *)
Definition within (m : MocStatic) (g : nat) (M : R) (s1 s2 : MocState) : Prop :=
  (forall i, i < ms_nreg m -> (Rabs (phi (mg_flux s1) i g - phi (mg_flux s2) i g) <= 4 * PI * M)%R) /\ near m g (- M) M (mg_bnd s1) (mg_bnd s2).
(** C171: as long as scattering within a group does not exceed the cross section, inner iterations never make the difference between two
    starting points larger: any boundary conditions, number of inner iterations, threads and update scheme. *)
Theorem C171_stable : forall m ng sct g src n M s1 s2, moc_problem m ng sct -> physical (ms_nreg m) ng sct (ms_xs m) -> (forall x, In x (ms_xs m) -> (sct x g g <= at0 (xr_tr x) g)%R) -> g < ng -> length src = ms_nreg m ->
  moc_shape m ng s1 -> moc_shape m ng s2 -> (0 <= M)%R -> within m g M s1 s2 -> exists s1' s2', moc_inners m g src n s1 = Some s1' /\ moc_inners m g src n s2 = Some s2' /\ within m g M s1' s2'.
Proof.
  intros m ng sct g src n M s1 s2 P Ph Hx Hg Ls F1 F2 M0 W. revert s1 s2 F1 F2 W. induction n as [|n IH]; intros s1 s2 F1 F2 W; cbn [moc_inners]; [eauto|].
  destruct (inner_shape m ng sct P Ph g src s1 Hg Ls F1) as (t1 & E1 & G1 & _). destruct (inner_shape m ng sct P Ph g src s2 Hg Ls F2) as (t2 & E2 & G2 & _). rewrite E1, E2. apply IH; [exact G1|exact G2|].
  destruct W as [W1 W2]. apply (inner_diff m ng sct P Ph 1 M M g src s1 s2 t1 t2); auto; try lra. intros x I. specialize (Hx x I). lra.
Qed.
Print Assumptions C171_stable.

(** ** Boundaries that send nothing back *)
(** [d'] is [d] with zero where [z] says so. *)
Definition masked (z : nat -> bool) (d d' : list R) : Prop := length d' = length d /\ forall k, k < length d -> at0 d' k = if z k then 0%R else at0 d k.
Lemma masked_none : forall d, masked (fun _ => false) d d.
Proof. split; auto. Qed.
Lemma masked_trans : forall z1 z2 d1 d2 d3, masked z1 d1 d2 -> masked z2 d2 d3 -> masked (fun k => z1 k || z2 k) d1 d3.
Proof. intros z1 z2 d1 d2 d3 [L1 H1] [L2 H2]. split; [congruence|]. intros k Hk. rewrite H2 by lia. rewrite H1 by lia. destruct (z1 k), (z2 k); reflexivity. Qed.
Lemma list_at0 : forall l1 l2 : list R, length l1 = length l2 -> (forall k, k < length l1 -> at0 l1 k = at0 l2 k) -> l1 = l2.
Proof. intros l1 l2 E H. apply (nth_ext _ _ 0%R 0%R E). exact H. Qed.
Lemma masked_fun : forall z d d1 d2, masked z d d1 -> masked z d d2 -> d1 = d2.
Proof. intros z d d1 d2 [L1 H1] [L2 H2]. apply list_at0; [congruence|]. intros k Hk. rewrite H1, H2 by lia. reflexivity. Qed.
Lemma masked_twice : forall z d d1 d2, masked z d d1 -> masked z d1 d2 -> d2 = d1.
Proof. intros z d d1 d2 [L1 H1] [L2 H2]. apply list_at0; [congruence|]. intros k Hk. rewrite H2, H1 by lia. destruct (z k); reflexivity. Qed.

Section Open.
Variables (bi bo : BC).
Hypothesis Open : forall s, types bi s = VACUUM \/ types bi s = PRESCRIBED.
Lemma open_face : forall s i o n, exists z, forall d out r, apply_face (types bi s) d out i o n = Ok r -> masked z d r.
Proof.
  intros s i o n. destruct (Open s) as [->| ->]; cbn [apply_face].
  - exists (fun k => (i <=? k) && (k <? i + n)). intros d out r E. unfold write_range in E. rewrite repeat_length in E. destruct (Nat.leb_spec (i + n) (length d)) as [H|]; [|discriminate]. injection E as <-. split.
    + rewrite !app_length, repeat_length, firstn_length, skipn_length. lia.
    + intros k Hk. unfold at0. destruct (Nat.leb_spec i k) as [A|A]; cbn [andb].
      * rewrite app_nth2 by (rewrite firstn_length; lia). rewrite firstn_length. replace (Nat.min i (length d)) with i by lia. destruct (Nat.ltb_spec k (i + n)) as [B|B].
        -- rewrite app_nth1 by (rewrite repeat_length; lia). apply nth_repeat.
        -- rewrite app_nth2 by (rewrite repeat_length; lia). rewrite repeat_length. rewrite <- (firstn_skipn (i + n) d) at 2. rewrite app_nth2 by (rewrite firstn_length; lia). rewrite firstn_length. f_equal. lia.
      * rewrite app_nth1 by (rewrite firstn_length; lia). rewrite <- (firstn_skipn i d) at 2. rewrite app_nth1 by (rewrite firstn_length; lia). reflexivity.
  - exists (fun _ => false). intros d out r E. injection E as <-. apply masked_none.
Qed.
Lemma open_faces : forall g a norms, exists z, forall d out r, update_faces bi (with_data bo out) g a norms d = Ok r -> masked z d r.
Proof.
  intros g a norms. induction norms as [|n norms (z & IH)]; cbn [update_faces with_data sizes data].
  - exists (fun _ => false). intros d out r E. injection E as <-. apply masked_none.
  - destruct (nth_error (sizes bi) a) as [s|]; [|exists (fun _ => false); discriminate]. destruct (reflect _ _ n) as [ia|]; [|exists (fun _ => false); discriminate]. destruct (face_size s n =? 0); [exists (fun _ => false); intros d out r E; injection E as <-; apply masked_none|].
    destruct (nth_error (quad bi) _) as [an|]; [|exists (fun _ => false); discriminate]. destruct (nth_error (BcModel.offsets 0 (sizes bi)) _) as [oi|]; [|exists (fun _ => false); discriminate]. destruct (nth_error (BcModel.offsets 0 (sizes bo)) a) as [oo|]; [|exists (fun _ => false); discriminate].
    destruct (open_face (upwind_surface (adir an) n) (bc_per_group (sizes bi) * g + face_size oi n) (face_size oo n) (face_size s n)) as (z0 & H0). exists (fun k => z0 k || z k). intros d out r E.
    destruct (apply_face _ d _ _ _ _) as [d'| |] eqn:F; try discriminate. apply (masked_trans _ _ d d' r); [now apply (H0 d out)|now apply (IH d' out)].
Qed.
Lemma open_angles : forall g angs, exists z, forall d out r, update_angles bi (with_data bo out) g angs d = Ok r -> masked z d r.
Proof.
  intros g angs. induction angs as [|a angs (z & IH)]; cbn [update_angles].
  - exists (fun _ => false). intros d out r E. injection E as <-. apply masked_none.
  - destruct (open_faces g a all_normals) as (z0 & H0). exists (fun k => z0 k || z k). intros d out r E. unfold update_angle in E. destruct (update_faces _ _ _ _ _ d) as [d'| |] eqn:F; try discriminate. apply (masked_trans _ _ d d' r); [now apply (H0 d out)|now apply (IH d' out)].
Qed.
Variables (g : nat) (xstr vol : list R) (quad0 : list Angle) (space : list R) (gs : bool).
Notation env q := (mkME bi bo g xstr vol q quad0 space gs).
Lemma open_sweep_angles : forall first h angs iang, exists z, forall q d s r s', sweep_angles (env q) first h iang angs d s = Ok (r, s') -> masked z d r.
Proof.
  intros first h angs. induction angs as [|rays angs IH]; intros iang; cbn [sweep_angles].
  - exists (fun _ => false). intros q d s r s' E. injection E as <- _. apply masked_none.
  - destruct (IH (S iang)) as (z & Hz). destruct (open_faces g iang all_normals) as (z1 & H1). destruct (open_faces g (rev_ang (n_oct bi) iang) all_normals) as (z2 & H2).
    exists (fun k => (if gs then z1 k || z2 k else false) || z k). intros q d s r s' E. destruct (sweep_angle _ _ _ _ _ _ _) as [[d' y]| |] eqn:F; try discriminate. cbn [rbind] in E. refine (masked_trans (fun k => if gs then z1 k || z2 k else false) _ d d' r _ (Hz q d' y r s' E)).
    unfold sweep_angle in F. cbn [me_gs me_in me_out me_group me_xstr me_q] in F. destruct (ang_ctx _ h iang) as [k|]; [|discriminate]. cbn [of_opt rbind] in F. destruct (sweep_rays _ _ _ _ _ _ _) as [w|]; [|discriminate]. cbn [of_opt rbind] in F.
    destruct gs; [|injection F as <- _; apply masked_none]. unfold update_angle in F. destruct (update_faces _ _ _ iang _ d) as [u1| |] eqn:U1; try discriminate. cbn [rbind] in F. destruct (update_faces _ _ _ _ _ u1) as [u2| |] eqn:U2; try discriminate. cbn [rbind] in F. injection F as <- _.
    apply (masked_trans _ _ d u1 u2); [now apply (H1 _ _ _ U1)|now apply (H2 _ _ _ U2)].
Qed.
Lemma open_planes : forall pl, exists z : nat -> nat -> bool, forall q ds ts bs ts', length ds = length pl -> sweep_planes (env q) (map (fun pb => plane_in (fst pb) (snd pb)) (combine pl ds)) ts = Ok (bs, ts') ->
  length bs = length pl /\ forall j d b, nth_error ds j = Some d -> nth_error bs j = Some b -> masked (z j) (fst d) (fst b).
Proof.
  induction pl as [|[[f h] rays] pl (z & IH)].
  - exists (fun _ _ => false). intros q [|d ds] ts bs ts' L E; [|discriminate]. cbn in E. injection E as <- _. split; [reflexivity|]. intros [|j] d b X; discriminate.
  - destruct (open_sweep_angles f h rays 0) as (z1 & H1). destruct (open_angles g (seq 0 (length (sizes bi)))) as (z2 & H2). exists (fun j => match j with 0 => fun k => z1 k || (if gs then false else z2 k) | S j => z j end).
    intros q [|[i0 o0] ds] ts bs ts' L E; [discriminate|]. cbn [combine map plane_in fst snd sweep_planes pi_first pi_height pi_rays pi_in pi_out me_gs me_in me_out me_group] in E.
    destruct (sweep_angles _ _ _ _ _ _ _) as [[u y]| |] eqn:A; try discriminate. cbn [rbind] in E. destruct (if gs then _ else _) as [v| |] eqn:U; try discriminate. cbn [rbind] in E. destruct (sweep_planes _ _ _) as [[bs0 ts0]| |] eqn:B; try discriminate. cbn [rbind] in E. injection E as <- <-.
    destruct (IH q ds _ _ _ ltac:(now injection L) B) as [Lb Hb]. split; [cbn; lia|]. intros [|j] d b X Y; cbn in X, Y; [|eauto]. injection X as <-. injection Y as <-. cbn [fst].
    refine (masked_trans _ (fun k => if gs then false else z2 k) i0 u v (H1 _ _ _ _ _ A) _). destruct gs; [injection U as <-; apply masked_none|]. unfold update_group in U. now apply (H2 _ _ _ U).
Qed.
End Open.

(** No boundary reflects. *)
Definition open_bc (m : MocStatic) : Prop := forall s, types (ms_in m) s = VACUUM \/ types (ms_in m) s = PRESCRIBED.
(** Two states with the same incoming fluxes. *)
Definition same_in (s1 s2 : MocState) : Prop := map fst (mg_bnd s1) = map fst (mg_bnd s2).
Lemma open_inner : forall m g, open_bc m -> exists z : nat -> nat -> bool, forall src s s', length (mg_bnd s) = length (ms_planes m) -> moc_inner m g src s = Some s' ->
  length (mg_bnd s') = length (ms_planes m) /\ forall j d b, nth_error (mg_bnd s) j = Some d -> nth_error (mg_bnd s') j = Some b -> masked (z j) (fst d) (fst b).
Proof.
  intros m g Op. destruct (open_planes (ms_in m) (ms_out m) Op g (ms_xstr m g) (ms_vol m) (ms_quad m) (ms_space m) (ms_gs m) (ms_planes m)) as (z & H). exists z. intros src s s' L E. unfold moc_inner in E. destruct (self_scatter _ _ _ _ _ _) as [q|]; [|discriminate].
  unfold sweep1g in E. destruct (sweep_planes _ _ _) as [[bs ts]| |] eqn:A; try discriminate. cbn [rbind] in E. destruct (finish _ _ _ _) as [f|]; [|discriminate]. cbn [of_opt rbind] in E. destruct (set_col _ _ _) as [fl|]; [|discriminate]. injection E as <-. cbn [mg_bnd]. exact (H _ _ _ _ _ L A).
Qed.
Lemma same_in_nth : forall s1 s2 j d1 d2, same_in s1 s2 -> nth_error (mg_bnd s1) j = Some d1 -> nth_error (mg_bnd s2) j = Some d2 -> fst d1 = fst d2.
Proof. unfold same_in. intros s1 s2 j d1 d2 H E1 E2. pose proof (map_nth_error fst _ _ E1) as A. pose proof (map_nth_error fst _ _ E2) as B. rewrite H in A. congruence. Qed.
Lemma map_fst_nth : forall l1 l2 : list (list R * list R), length l1 = length l2 -> (forall j d1 d2, nth_error l1 j = Some d1 -> nth_error l2 j = Some d2 -> fst d1 = fst d2) -> map fst l1 = map fst l2.
Proof. induction l1 as [|x l IH]; intros [|y r] L H; try discriminate; [reflexivity|]. cbn. f_equal; [apply (H 0 x y); reflexivity|]. apply IH; [now injection L|]. intros j. apply (H (S j)). Qed.
Lemma same_in_inner : forall m g src1 src2 s1 s2 s1' s2', open_bc m -> length (mg_bnd s1) = length (ms_planes m) -> length (mg_bnd s2) = length (ms_planes m) -> same_in s1 s2 -> moc_inner m g src1 s1 = Some s1' -> moc_inner m g src2 s2 = Some s2' -> same_in s1' s2'.
Proof.
  intros m g src1 src2 s1 s2 s1' s2' Op L1 L2 Sm E1 E2. destruct (open_inner m g Op) as (z & H). destruct (H _ _ _ L1 E1) as [M1 H1]. destruct (H _ _ _ L2 E2) as [M2 H2]. apply map_fst_nth; [congruence|]. intros j d1 d2 X1 X2.
  assert (Hj : j < length (ms_planes m)) by (rewrite <- M1; apply nth_error_Some; congruence). destruct (nth_error (mg_bnd s1) j) as [e1|] eqn:Y1; [|apply nth_error_None in Y1; lia]. destruct (nth_error (mg_bnd s2) j) as [e2|] eqn:Y2; [|apply nth_error_None in Y2; lia].
  pose proof (H1 j _ _ Y1 X1) as A. pose proof (H2 j _ _ Y2 X2) as B. rewrite <- (same_in_nth _ _ _ _ _ Sm Y1 Y2) in B. exact (masked_fun _ _ _ _ A B).
Qed.
Lemma same_in_again : forall m g src1 src2 s s1 s2, open_bc m -> length (mg_bnd s) = length (ms_planes m) -> moc_inner m g src1 s = Some s1 -> moc_inner m g src2 s1 = Some s2 -> same_in s2 s1.
Proof.
  intros m g src1 src2 s s1 s2 Op L E1 E2. destruct (open_inner m g Op) as (z & H). destruct (H _ _ _ L E1) as [M1 H1]. destruct (H _ _ _ M1 E2) as [M2 H2]. apply map_fst_nth; [congruence|]. intros j d2 d1 X2 X1.
  assert (Hj : j < length (ms_planes m)) by (rewrite <- M1; apply nth_error_Some; congruence). destruct (nth_error (mg_bnd s) j) as [e|] eqn:Y; [|apply nth_error_None in Y; lia]. exact (masked_twice _ _ _ _ (H1 j _ _ Y X1) (H2 j _ _ X1 X2)).
Qed.
Lemma near_same : forall m g M s1 s2, (0 <= M)%R -> same_in s1 s2 -> near m g (- M) M (mg_bnd s1) (mg_bnd s2).
Proof.
  unfold same_in, near. intros m g M s1 s2 M0. generalize (mg_bnd s1) as l1. generalize (mg_bnd s2) as l2. intros l2 l1. revert l2. induction l1 as [|x l IH]; intros [|y r] E; try discriminate; constructor.
  - intros a n i k _. cbn in E. injection E as E _. rewrite E. lra.
  - apply IH. cbn in E. now injection E.
Qed.

Section Contract.
Variables (m : MocStatic) (ng : nat) (sct : XReg -> nat -> nat -> R) (g : nat) (src : list R) (c : R).
Hypothesis P : moc_problem m ng sct.
Hypothesis Ph : physical (ms_nreg m) ng sct (ms_xs m).
Hypothesis Op : open_bc m.
Hypothesis Hc : (0 <= c)%R.
Hypothesis Hx : forall x, In x (ms_xs m) -> (sct x g g <= c * at0 (xr_tr x) g)%R.
Hypothesis Hg : g < ng.
Hypothesis Ls : length src = ms_nreg m.
Definition apart_by (D : R) (s1 s2 : MocState) : Prop := forall i, i < ms_nreg m -> (Rabs (phi (mg_flux s1) i g - phi (mg_flux s2) i g) <= D)%R.
Lemma contract_1 : forall D s1 s2 s1' s2', (0 <= D)%R -> moc_shape m ng s1 -> moc_shape m ng s2 -> same_in s1 s2 -> apart_by D s1 s2 -> moc_inner m g src s1 = Some s1' -> moc_inner m g src s2 = Some s2' -> apart_by (c * D) s1' s2' /\ same_in s1' s2'.
Proof.
  intros D s1 s2 s1' s2' HD F1 F2 Sm A E1 E2. pose proof PI_RGT_0 as PP. split; [|eapply same_in_inner; eauto; [apply F1|apply F2]].
  assert (0 <= D / (4 * PI))%R by (apply Rmult_le_pos; [exact HD|left; apply Rinv_0_lt_compat; lra]). assert (0 <= c * (D / (4 * PI)))%R by (now apply Rmult_le_pos).
  destruct (inner_diff m ng sct P Ph c (c * (D / (4 * PI))) (D / (4 * PI)) g src s1 s2 s1' s2') as [B _]; auto; try lra; [|now apply near_same|].
  - intros i Hi. replace (4 * PI * (D / (4 * PI)))%R with D by (field; lra). now apply A.
  - intros i Hi. replace (c * D)%R with (4 * PI * (c * (D / (4 * PI))))%R by (field; lra). now apply B.
Qed.
Lemma contract_n : forall n D s1 s2 s1' s2', (0 <= D)%R -> moc_shape m ng s1 -> moc_shape m ng s2 -> same_in s1 s2 -> apart_by D s1 s2 -> moc_inners m g src n s1 = Some s1' -> moc_inners m g src n s2 = Some s2' -> apart_by (c ^ n * D) s1' s2' /\ same_in s1' s2'.
Proof.
  induction n as [|n IH]; intros D s1 s2 s1' s2' HD F1 F2 Sm A E1 E2; cbn [moc_inners] in *.
  - injection E1 as <-. injection E2 as <-. split; [|exact Sm]. intros i Hi. cbn [pow]. rewrite Rmult_1_l. now apply A.
  - destruct (inner_shape m ng sct P Ph g src s1 Hg Ls F1) as (t1 & T1 & G1 & _). destruct (inner_shape m ng sct P Ph g src s2 Hg Ls F2) as (t2 & T2 & G2 & _). rewrite T1 in E1. rewrite T2 in E2. destruct (contract_1 D s1 s2 t1 t2 HD F1 F2 Sm A T1 T2) as [A1 Sm1].
    destruct (IH (c * D)%R t1 t2 s1' s2' (Rmult_le_pos _ _ Hc HD) G1 G2 Sm1 A1 E1 E2) as [A2 Sm2]. split; [|exact Sm2]. intros i Hi. replace (c ^ S n * D)%R with (c ^ n * (c * D))%R by (cbn [pow]; ring). now apply A2.
Qed.
End Contract.
Lemma apart_top : forall m g s1 s2, exists D, (0 <= D)%R /\ apart_by m g D s1 s2.
Proof.
  intros m g s1 s2. destruct (abs_top (map (fun i => phi (mg_flux s1) i g - phi (mg_flux s2) i g)%R (seq 0 (ms_nreg m)))) as (D & D0 & F). exists D. split; [exact D0|]. intros i Hi. rewrite Forall_forall in F. apply Rabs_le. apply F. apply (in_map (fun i => phi (mg_flux s1) i g - phi (mg_flux s2) i g)%R). apply in_seq. lia.
Qed.

(** C172: without reflecting boundaries, and with scattering within the group of at most [c] times the cross section, each inner iteration
    shrinks the difference between two scalar fluxes by the factor [c]. *)
Theorem C172_contraction : forall m ng sct g src c n D s1 s2, moc_problem m ng sct -> physical (ms_nreg m) ng sct (ms_xs m) -> open_bc m -> (0 <= c)%R -> (forall x, In x (ms_xs m) -> (sct x g g <= c * at0 (xr_tr x) g)%R) -> g < ng -> length src = ms_nreg m ->
  (0 <= D)%R -> moc_shape m ng s1 -> moc_shape m ng s2 -> same_in s1 s2 -> (forall i, i < ms_nreg m -> (Rabs (phi (mg_flux s1) i g - phi (mg_flux s2) i g) <= D)%R) ->
  exists s1' s2', moc_inners m g src n s1 = Some s1' /\ moc_inners m g src n s2 = Some s2' /\ forall i, i < ms_nreg m -> (Rabs (phi (mg_flux s1') i g - phi (mg_flux s2') i g) <= c ^ n * D)%R.
Proof.
  intros m ng sct g src c n D s1 s2 P Ph Op Hc Hx Hg Ls HD F1 F2 Sm A. destruct (inners_shape m ng sct P Ph g src n s1 Hg Ls F1) as (t1 & E1 & _). destruct (inners_shape m ng sct P Ph g src n s2 Hg Ls F2) as (t2 & E2 & _). exists t1, t2. split; [exact E1|]. split; [exact E2|].
  apply (contract_n m ng sct g src c P Ph Op Hc Hx Hg Ls n D s1 s2 t1 t2 HD F1 F2 Sm A E1 E2).
Qed.
Print Assumptions C172_contraction.

(** Sequences whose steps shrink geometrically converge, with the usual bound. *)
Lemma geom_tail : forall (u : nat -> R) c d n k, (0 <= c < 1)%R -> (0 <= d)%R -> (forall j, (Rabs (u (S j) - u j) <= c ^ j * d)%R) -> (Rabs (u (n + k)%nat - u n) <= c ^ n * (d / (1 - c)))%R.
Proof.
  intros u c d n k Hc Hd H. assert (T : (Rabs (u (n + k)%nat - u n) <= c ^ n * (d / (1 - c)) * (1 - c ^ k))%R).
  { induction k as [|k IH]; [rewrite Nat.add_0_r, Rminus_diag_eq, Rabs_R0 by reflexivity; cbn [pow]; lra|]. replace (n + S k) with (S (n + k)) by lia.
    replace (u (S (n + k)%nat) - u n)%R with ((u (S (n + k)%nat) - u (n + k)%nat) + (u (n + k)%nat - u n))%R by ring. eapply Rle_trans; [apply Rabs_triang|]. specialize (H (n + k)). rewrite pow_add in H.
    replace (c ^ n * (d / (1 - c)) * (1 - c ^ S k))%R with (c ^ n * c ^ k * d + c ^ n * (d / (1 - c)) * (1 - c ^ k))%R by (cbn [pow]; field; lra). lra. }
  pose proof (pow_le c n (proj1 Hc)) as A. pose proof (pow_le c k (proj1 Hc)) as B. assert (0 <= d / (1 - c))%R by (apply Rmult_le_pos; [exact Hd|left; apply Rinv_0_lt_compat; lra]).
  assert (0 <= c ^ n * (d / (1 - c)))%R by (now apply Rmult_le_pos). nra.
Qed.
Lemma geom_lim : forall (u : nat -> R) c d, (0 <= c < 1)%R -> (0 <= d)%R -> (forall j, (Rabs (u (S j) - u j) <= c ^ j * d)%R) -> exists l, forall n, (Rabs (u n - l) <= c ^ n * (d / (1 - c)))%R.
Proof.
  intros u c d Hc Hd H. assert (K : (0 <= d / (1 - c))%R) by (apply Rmult_le_pos; [exact Hd|left; apply Rinv_0_lt_compat; lra]).
  assert (Cau : Cauchy_crit u).
  { intros eps He. destruct (pow_lt_1_zero c) with (y := (eps / (2 * (d / (1 - c) + 1)))%R) as (N & HN); [rewrite Rabs_pos_eq; lra|apply Rdiv_lt_0_compat; lra|].
    assert (B : forall n, n >= N -> (Rabs (u n - u N) < eps / 2)%R).
    { intros n Hn. replace n with (N + (n - N)) by lia. eapply Rle_lt_trans; [apply (geom_tail u c d N (n - N) Hc Hd H)|]. specialize (HN N ltac:(lia)). rewrite Rabs_pos_eq in HN by (apply pow_le; lra).
      apply Rle_lt_trans with (c ^ N * (d / (1 - c) + 1))%R; [apply Rmult_le_compat_l; [apply pow_le; lra|lra]|]. replace (eps / 2)%R with (eps / (2 * (d / (1 - c) + 1)) * (d / (1 - c) + 1))%R by (field; lra). apply Rmult_lt_compat_r; [lra|exact HN]. }
    exists N. intros a b Ha Hb. unfold R_dist. replace (u a - u b)%R with ((u a - u N) - (u b - u N))%R by ring. eapply Rle_lt_trans; [apply Rabs_triang|]. rewrite Rabs_Ropp. pose proof (B a Ha). pose proof (B b Hb). lra. }
  destruct (R_complete u Cau) as (l & Hl). exists l. intros n. apply Rnot_lt_le. intros X. set (e := (Rabs (u n - l) - c ^ n * (d / (1 - c)))%R) in *. assert (He : (0 < e)%R) by (unfold e; lra). destruct (Hl e He) as (N & HN).
  specialize (HN (n + N) ltac:(lia)). unfold R_dist in HN. pose proof (geom_tail u c d n N Hc Hd H) as T. assert (Y : (Rabs (u n - l) <= Rabs (u (n + N)%nat - u n) + Rabs (u (n + N)%nat - l))%R).
  { replace (u n - l)%R with (- (u (n + N)%nat - u n) + (u (n + N)%nat - l))%R by ring. eapply Rle_trans; [apply Rabs_triang|]. rewrite Rabs_Ropp. lra. } unfold e in HN. lra.
Qed.
Lemma small_zero : forall x c d, (0 <= c < 1)%R -> (forall n, (Rabs x <= c ^ n * d)%R) -> x = 0%R.
Proof.
  intros x c d Hc H. destruct (Req_dec x 0) as [|N]; [assumption|exfalso]. pose proof (Rabs_pos_lt x N) as A. destruct (pow_lt_1_zero c) with (y := (Rabs x / (Rabs d + 1))%R) as (k & Hk); [rewrite Rabs_pos_eq; lra|apply Rdiv_lt_0_compat; [lra|pose proof (Rabs_pos d); lra]|].
  specialize (Hk k ltac:(lia)). specialize (H k). pose proof (Rabs_pos d) as D0. pose proof (Rle_abs d) as D1. rewrite Rabs_pos_eq in Hk by (apply pow_le; lra). pose proof (pow_le c k (proj1 Hc)) as B.
  assert (c ^ k * (Rabs d + 1) < Rabs x)%R. { replace (Rabs x) with (Rabs x / (Rabs d + 1) * (Rabs d + 1))%R by (field; lra). apply Rmult_lt_compat_r; lra. } nra.
Qed.

(** C172: if moreover [c] is less than one, then from any state the inner iterations tend to one flux: it is reached at the rate [c], is
    not changed by another iteration, is the only one with these incoming fluxes that is not, and how far it still is can be told from the
    last change. *)
Theorem C172_converge : forall m ng sct g src c s, moc_problem m ng sct -> physical (ms_nreg m) ng sct (ms_xs m) -> open_bc m -> (0 <= c < 1)%R -> (forall x, In x (ms_xs m) -> (sct x g g <= c * at0 (xr_tr x) g)%R) -> g < ng -> length src = ms_nreg m -> moc_shape m ng s ->
  exists (it : nat -> MocState) (lim : nat -> R) D, (forall n, moc_inners m g src n s = Some (it n)) /\
    (forall n i, i < ms_nreg m -> (Rabs (phi (mg_flux (it (S n))) i g - lim i) <= c ^ n * D)%R) /\
    (forall n d, (forall i, i < ms_nreg m -> (Rabs (phi (mg_flux (it (S (S n)))) i g - phi (mg_flux (it (S n))) i g) <= d)%R) -> forall i, i < ms_nreg m -> (Rabs (phi (mg_flux (it (S (S n)))) i g - lim i) <= c / (1 - c) * d)%R) /\
    (forall t, moc_shape m ng t -> same_in t (it 1) -> (forall i, i < ms_nreg m -> phi (mg_flux t) i g = lim i) -> exists t', moc_inner m g src t = Some t' /\ forall i, i < ms_nreg m -> phi (mg_flux t') i g = lim i) /\
    (forall t t', moc_shape m ng t -> same_in t (it 1) -> moc_inner m g src t = Some t' -> (forall i, i < ms_nreg m -> phi (mg_flux t') i g = phi (mg_flux t) i g) -> forall i, i < ms_nreg m -> phi (mg_flux t) i g = lim i).
Proof.
  intros m ng sct g src c s P Ph Op Hc Hx Hg Ls Fs. set (it := fun n => match moc_inners m g src n s with Some t => t | None => s end).
  assert (I : forall n, moc_inners m g src n s = Some (it n) /\ moc_shape m ng (it n)) by (intros n; unfold it; destruct (inners_shape m ng sct P Ph g src n s Hg Ls Fs) as (t & -> & F); auto).
  assert (St : forall n, moc_inner m g src (it n) = Some (it (S n))). { intros n. destruct (I n) as [E _]. destruct (I (S n)) as [E' _]. rewrite inners_snoc, E in E'. exact E'. }
  assert (Lb : forall n, length (mg_bnd (it n)) = length (ms_planes m)) by (intros n; apply (I n)).
  assert (Sm : forall n, same_in (it (S n)) (it 1)). { induction n as [|n IH]; [reflexivity|]. unfold same_in in *. rewrite <- IH. exact (same_in_again m g src src (it n) (it (S n)) (it (S (S n))) Op (Lb n) (St n) (St (S n))). }
  destruct (apart_top m g (it 2) (it 1)) as (D & D0 & A0). assert (Hc0 : (0 <= c)%R) by lra.
  assert (Sm2 : forall n k, same_in (it (S n)) (it (S k))) by (intros n k; unfold same_in in *; rewrite (Sm n), (Sm k); reflexivity).
  assert (G : forall n, apart_by m g (c ^ n * D) (it (S (S n))) (it (S n))).
  { induction n as [|n IH]; [intros i Hi; cbn [pow]; rewrite Rmult_1_l; now apply A0|]. replace (c ^ S n * D)%R with (c * (c ^ n * D))%R by (cbn [pow]; ring).
    apply (contract_1 m ng sct g src c P Ph Op Hc0 Hx Hg Ls (c ^ n * D) (it (S (S n))) (it (S n)) (it (S (S (S n)))) (it (S (S n)))); auto; [apply Rmult_le_pos; [now apply pow_le|exact D0]|apply I|apply I]. }
  assert (Q : forall i, i < ms_nreg m -> exists l, forall n, (Rabs (phi (mg_flux (it (S n))) i g - l) <= c ^ n * (D / (1 - c)))%R) by (intros i Hi; apply (geom_lim (fun n => phi (mg_flux (it (S n))) i g) c D Hc D0); intros j; now apply (G j)).
  assert (Li : exists lim : nat -> R, forall i, i < ms_nreg m -> forall n, (Rabs (phi (mg_flux (it (S n))) i g - lim i) <= c ^ n * (D / (1 - c)))%R).
  { clear - Q. induction (ms_nreg m) as [|k IH]; [exists (fun _ => 0%R); intros; lia|]. destruct IH as (lim & Hl); [intros i Hi; apply Q; lia|]. destruct (Q k ltac:(lia)) as (l & Hk). exists (fun i => if i =? k then l else lim i). intros i Hi n. destruct (Nat.eqb_spec i k) as [->|]; [apply Hk|apply Hl; lia]. }
  destruct Li as (lim & Hl). assert (K0 : (0 <= D / (1 - c))%R) by (apply Rmult_le_pos; [exact D0|left; apply Rinv_0_lt_compat; lra]).
  exists it, lim, (D / (1 - c))%R. split; [apply I|]. split; [intros n i Hi; now apply Hl|]. split; [|split].
  - intros n d Hd i Hi. assert (d0 : (0 <= d)%R) by (specialize (Hd i Hi); pose proof (Rabs_pos (phi (mg_flux (it (S (S n)))) i g - phi (mg_flux (it (S n))) i g)); lra).
    assert (G2 : forall k, apart_by m g (c ^ k * (c * d)) (it (S (S (S n + k)))) (it (S (S n + k)))).
    { induction k as [|k IH].
      - rewrite Nat.add_0_r. replace (c ^ 0 * (c * d))%R with (c * d)%R by (cbn [pow]; ring). apply (contract_1 m ng sct g src c P Ph Op Hc0 Hx Hg Ls d (it (S (S n))) (it (S n)) (it (S (S (S n)))) (it (S (S n)))); auto; apply I.
      - replace (c ^ S k * (c * d))%R with (c * (c ^ k * (c * d)))%R by (cbn [pow]; ring). replace (S n + S k) with (S (S n + k)) by lia.
        apply (contract_1 m ng sct g src c P Ph Op Hc0 Hx Hg Ls (c ^ k * (c * d)) (it (S (S (S n + k)))) (it (S (S n + k))) (it (S (S (S (S n + k))))) (it (S (S (S n + k))))); auto; [apply Rmult_le_pos; [now apply pow_le|now apply Rmult_le_pos]|apply I|apply I]. }
    destruct (geom_lim (fun k => phi (mg_flux (it (S (S n + k)))) i g) c (c * d) Hc (Rmult_le_pos _ _ Hc0 d0)) as (l & B); [intros j; replace (S n + S j) with (S (S n + j)) by lia; now apply (G2 j)|].
    assert (El : (l - lim i = 0)%R).
    { apply (small_zero _ c (c * d / (1 - c) + D / (1 - c)) Hc). intros k. specialize (B k). cbv beta in B. pose proof (Hl i Hi (S n + k)) as B'. set (w := phi (mg_flux (it (S (S n + k)))) i g) in *. replace (l - lim i)%R with (- (w - l) + (w - lim i))%R by ring. eapply Rle_trans; [apply Rabs_triang|]. rewrite Rabs_Ropp.
      rewrite pow_add in B'. pose proof (pow_le c k Hc0) as Z1. assert (Z2 : (0 <= c ^ S n <= 1)%R) by (split; [now apply pow_le|]; rewrite <- (pow1 (S n)); apply pow_incr; lra).
      assert (c ^ S n * c ^ k * (D / (1 - c)) <= c ^ k * (D / (1 - c)))%R. { replace (c ^ S n * c ^ k * (D / (1 - c)))%R with (c ^ S n * (c ^ k * (D / (1 - c))))%R by ring. assert (0 <= c ^ k * (D / (1 - c)))%R by (now apply Rmult_le_pos). nra. } lra. }
    specialize (B 0). cbv beta in B. rewrite Nat.add_0_r in B. replace (lim i) with l by lra. cbn [pow] in B. rewrite Rmult_1_l in B. replace (c / (1 - c) * d)%R with (c * d / (1 - c))%R by (field; lra). exact B.
  - intros t Ft St1 Et. destruct (inner_shape m ng sct P Ph g src t Hg Ls Ft) as (t' & E & F' & _). exists t'. split; [exact E|]. intros i Hi. assert (Z : (phi (mg_flux t') i g - lim i = 0)%R); [|lra].
    apply (small_zero _ c (2 * (D / (1 - c))) Hc). intros n. assert (Sx : same_in t (it (S n))) by (unfold same_in in *; rewrite St1, (Sm n); reflexivity).
    assert (An : apart_by m g (c ^ n * (D / (1 - c))) t (it (S n))). { intros k Hk. rewrite (Et k Hk), Rabs_minus_sym. now apply Hl. }
    destruct (contract_1 m ng sct g src c P Ph Op Hc0 Hx Hg Ls (c ^ n * (D / (1 - c))) t (it (S n)) t' (it (S (S n)))) as [B _]; auto; [apply Rmult_le_pos; [now apply pow_le|exact K0]|apply I|].
    specialize (B i Hi). pose proof (Hl i Hi (S n)) as B'. set (w := phi (mg_flux (it (S (S n)))) i g) in *. replace (phi (mg_flux t') i g - lim i)%R with ((phi (mg_flux t') i g - w) + (w - lim i))%R by ring. eapply Rle_trans; [apply Rabs_triang|].
    cbn [pow] in B'. assert (0 <= c ^ n * (D / (1 - c)))%R by (apply Rmult_le_pos; [now apply pow_le|exact K0]). nra.
  - intros t t' Ft St1 E Et i Hi. assert (Z : (phi (mg_flux t) i g - lim i = 0)%R); [|lra]. destruct (apart_top m g t (it 1)) as (D2 & D20 & A2).
    destruct (inner_shape m ng sct P Ph g src t Hg Ls Ft) as (t2 & E2 & F2 & _). rewrite E in E2. injection E2 as <-.
    assert (St2 : same_in t' t). { unfold same_in in *. pose proof (same_in_inner m g src src t (it 1) t' (it 2) Op ltac:(apply Ft) (Lb 1) St1 E (St 1)) as Y. unfold same_in in Y. rewrite Y, St1. apply (Sm 1). }
    assert (An : forall n, apart_by m g (c ^ n * D2) t (it (S n))).
    { induction n as [|n IH]; [intros k Hk; cbn [pow]; rewrite Rmult_1_l; now apply A2|]. assert (Sx : same_in t (it (S n))) by (unfold same_in in *; rewrite St1, (Sm n); reflexivity).
      destruct (contract_1 m ng sct g src c P Ph Op Hc0 Hx Hg Ls (c ^ n * D2) t (it (S n)) t' (it (S (S n)))) as [B _]; auto; [apply Rmult_le_pos; [now apply pow_le|exact D20]|apply I|].
      intros k Hk. rewrite <- (Et k Hk). replace (c ^ S n * D2)%R with (c * (c ^ n * D2))%R by (cbn [pow]; ring). now apply B. }
    apply (small_zero _ c (D2 + D / (1 - c)) Hc). intros n. pose proof (An n i Hi) as B. pose proof (Hl i Hi n) as B'. set (w := phi (mg_flux (it (S n))) i g) in *. replace (phi (mg_flux t) i g - lim i)%R with ((phi (mg_flux t) i g - w) + (w - lim i))%R by ring. eapply Rle_trans; [apply Rabs_triang|]. lra.
Qed.
Print Assumptions C172_converge.

(** The two regions of [mo_static]: scattering within the group is half the cross section or less, and the boundaries are open. *)
Example C170_instance : forall gs, moc_problem (mo_static gs) 1 (fun _ => mo_sc) /\ Forall (bdry_shape (mo_static gs)) [(repeat 1%R 8, repeat 0%R 8)] /\ Forall (bdry_shape (mo_static gs)) [(repeat 0%R 8, repeat 0%R 8)] /\
  exists f1 b1 f2 b2, sweep1g (env_of (mo_static gs) 0 [2; 5]%R) 2 2 (planes_of (mo_static gs) [(repeat 1%R 8, repeat 0%R 8)]) = Ok (f1, b1) /\ sweep1g (env_of (mo_static gs) 0 [1; 5]%R) 2 2 (planes_of (mo_static gs) [(repeat 0%R 8, repeat 0%R 8)]) = Ok (f2, b2) /\
    (at0 f2 0 <= at0 f1 0)%R /\ (at0 f2 1 <= at0 f1 1)%R.
Proof.
  intros gs. pose proof (mo_problem gs) as P. assert (S1 : forall v : R, Forall (bdry_shape (mo_static gs)) [(repeat v 8, repeat 0%R 8)]) by (intros v; constructor; [split; reflexivity|constructor]). split; [exact P|]. split; [apply S1|]. split; [apply S1|].
  destruct (C170_monotone (mo_static gs) 1 _ 0 [2; 5]%R [1; 5]%R [(repeat 1%R 8, repeat 0%R 8)] [(repeat 0%R 8, repeat 0%R 8)] P) as (f1 & b1 & f2 & b2 & E1 & E2 & H).
  - lia.
  - reflexivity.
  - reflexivity.
  - reflexivity.
  - reflexivity.
  - apply S1.
  - apply S1.
  - intros [|[|i]] Hi; cbn in Hi; unfold at0; cbn; lra || lia.
  - intros d1 d2 a n i k [[= <- <-]|[]] Sx. pose proof (slot_range _ _ _ _ _ _ Sx ltac:(cbn; lia)) as K. cbn in K. unfold at0. cbn [fst]. do 8 (destruct k as [|k]; [cbn; lra|]). lia.
  - exists f1, b1, f2, b2. split; [exact E1|]. split; [exact E2|]. split; apply H; cbn; lia.
Qed.
Example C172_instance : forall gs, moc_problem (mo_static gs) 1 (fun _ => mo_sc) /\ physical 2 1 (fun _ => mo_sc) [mo_x0; mo_x1] /\ open_bc (mo_static gs) /\ (forall x, In x [mo_x0; mo_x1] -> (mo_sc 0 0 <= 1 / 2 * at0 (xr_tr x) 0)%R) /\ moc_shape (mo_static gs) 1 mo_start /\
  exists (it : nat -> MocState) (lim : nat -> R) D, (forall n, moc_inners (mo_static gs) 0 [1; 0]%R n mo_start = Some (it n)) /\ forall n i, i < 2 -> (Rabs (phi (mg_flux (it (S n))) i 0 - lim i) <= (1 / 2) ^ n * D)%R.
Proof.
  intros gs. pose proof (mo_problem gs) as P. pose proof mo_physical as Ph. assert (Op : open_bc (mo_static gs)) by (intros s; left; reflexivity).
  assert (Hx : forall x, In x [mo_x0; mo_x1] -> (mo_sc 0 0 <= 1 / 2 * at0 (xr_tr x) 0)%R) by (intros x [<-|[<-|[]]]; unfold mo_sc, at0; cbn; lra).
  assert (F : moc_shape (mo_static gs) 1 mo_start). { destruct (mo_state gs) as (A1 & A2 & A3 & A4). split; [exact A1|]. split; [exact A2|]. split; [exact A3|]. eapply Forall_impl; [|exact A4]. intros d (D1 & D2 & _). now split. }
  split; [exact P|]. split; [exact Ph|]. split; [exact Op|]. split; [exact Hx|]. split; [exact F|].
  destruct (C172_converge (mo_static gs) 1 (fun _ => mo_sc) 0 [1; 0]%R (1 / 2) mo_start P Ph Op ltac:(lra) Hx ltac:(lia) eq_refl F) as (it & lim & D & H1 & H2 & _). exists it, lim, D. split; [exact H1|exact H2].
Qed.
(** The same regions with reflecting boundaries, and two starting points that differ everywhere. *)
Definition mr_bc : BC := mkBC 1 (repeat (mkSize 1 1 0) 4) (fun _ => REFLECT) 1 (repeat mx_a 4) [].
Definition mr_static (gs : bool) : MocStatic := mkMS mr_bc mr_bc (fun _ => [1; 2]%R) [1; 1]%R (repeat mx_a 4) [1; 1]%R gs 2 2 3 [mo_x0; mo_x1] [(0, 1%R, [mx_rays; mx_rays])].
Lemma mr_problem : forall gs, moc_problem (mr_static gs) 1 (fun _ => mo_sc).
Proof.
  intros gs. destruct (mo_problem gs) as [A1 A2 A3 A4 A5 A6 A7 A8 A9 A10 A11 A12 A13 A14].
  constructor; [|reflexivity| |exact A4|exact A5|exact A6|exact A7|exact A8|exact A9|exact A10|exact A11|exact A12| |].
  - destruct mx_bc_ok as [B1 B2 B3 B4]. constructor; [exact B1|exact B2|exact B3|exact B4].
  - intros s. right. left. reflexivity.
  - intros f h rays I. exact (A13 f h rays I).
  - intros g q i Hi. exact (A14 g q i Hi).
Qed.
Definition mr_start (v : R) : MocState := mkMG [[v]; [v]]%R [0; 0]%R [(repeat v 8, repeat 0%R 8)].
Example C171_instance : forall gs n, moc_problem (mr_static gs) 1 (fun _ => mo_sc) /\ (forall x, In x [mo_x0; mo_x1] -> (mo_sc 0 0 <= at0 (xr_tr x) 0)%R) /\ within (mr_static gs) 0 2 (mr_start 1) (mr_start 3) /\
  exists s1 s2, moc_inners (mr_static gs) 0 [1; 0]%R n (mr_start 1) = Some s1 /\ moc_inners (mr_static gs) 0 [1; 0]%R n (mr_start 3) = Some s2 /\ within (mr_static gs) 0 2 s1 s2.
Proof.
  intros gs n. pose proof PI2_3_2 as P3. pose proof PI_RGT_0 as PP. unfold PI2 in P3. pose proof (mr_problem gs) as P. assert (Hx : forall x, In x [mo_x0; mo_x1] -> (mo_sc 0 0 <= at0 (xr_tr x) 0)%R) by (intros x [<-|[<-|[]]]; unfold mo_sc, at0; cbn; lra).
  assert (F : forall v, moc_shape (mr_static gs) 1 (mr_start v)) by (intros v; split; [split; [reflexivity|intros row [<-|[<-|[]]]; reflexivity]|]; split; [reflexivity|]; split; [reflexivity|]; constructor; [split; reflexivity|constructor]).
  assert (W : within (mr_static gs) 0 2 (mr_start 1) (mr_start 3)).
  { split.
    - intros [|[|i]] Hi; cbn in Hi; [| |lia]; unfold phi, at0; cbn; rewrite Rabs_left by lra; lra.
    - constructor; [|constructor]. intros a m i k Sx. pose proof (slot_range _ _ _ _ _ _ Sx ltac:(cbn; lia)) as K. cbn in K. unfold at0. cbn [mr_start mg_bnd fst]. do 8 (destruct k as [|k]; [cbn; lra|]). lia. }
  split; [exact P|]. split; [exact Hx|]. split; [exact W|]. exact (C171_stable (mr_static gs) 1 (fun _ => mo_sc) 0 [1; 0]%R n 2 (mr_start 1) (mr_start 3) P mo_physical Hx ltac:(lia) eq_refl (F 1%R) (F 3%R) ltac:(lra) W).
Qed.
