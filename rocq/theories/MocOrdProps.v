(** C193: fixed-source MoC calculations keep order: fluxes stay nonnegative, more source means no less flux, and calculations that start by rising
    or falling everywhere close in on the solution from one side. *)
From Coq Require Import List Bool Reals ZArith Arith Lia Lra Permutation.
From Verif Require Import RUtil ListUtil McModel MeshModel AngModel BcModel BcProofs StdAlg CoreModel CoreProofs ScatModel ScatProofs MatModel ExpModel MocModel MocProofs MocProps XsModel SrcModel HomProps SrcProps SolModel SolProps MgModel MgProps MgInnerProps SnGroupProps EigProps MocMaxProps MocEigProps MocLinProofs MocConvProps FixModel FixProofs FixProps MocReflProofs MocReflProps.
Import ListNotations.
Open Scope nat_scope.

(** ** Specification *)
(** Incoming fluxes of group [h] of one state are at most those of another. *)
Definition bnd_below (m : MocStatic) (h : nat) (ds1 ds2 : list (list R * list R)) : Prop :=
  Forall2 (fun d1 d2 => forall a n i k, slot (ms_in m) h a n i k -> (at0 (fst d1) k <= at0 (fst d2) k)%R) ds1 ds2.
(** Nowhere more flux: scalar fluxes in regions and incoming fluxes, of all groups. *)
Definition nowhere_more (m : MocStatic) (ng : nat) (s1 s2 : MocState) : Prop :=
  (forall i h, i < ms_nreg m -> h < ng -> (phi (mg_flux s1) i h <= phi (mg_flux s2) i h)%R) /\ forall h, h < ng -> bnd_below m h (mg_bnd s1) (mg_bnd s2).
Definition fx_below (m : MocStatic) (ng : nat) (s1 s2 : FxState) : Prop := nowhere_more m ng (snd (snd s1)) (snd (snd s2)).
Definition ext_below (nreg ng : nat) (e1 e2 : option (list (list R))) : Prop := forall i g, i < nreg -> g < ng -> (ext_at e1 i g <= ext_at e2 i g)%R.
(** No flux anywhere is negative. *)
Definition fx_nonneg (m : MocStatic) (ng : nat) (s : FxState) : Prop :=
  (forall i h, i < ms_nreg m -> h < ng -> (0 <= phi (fx_flux s) i h)%R) /\ forall h d a n i k, h < ng -> In d (mg_bnd (snd (snd s))) -> slot (ms_in m) h a n i k -> (0 <= at0 (fst d) k)%R.

(** ** Proofs *)
Section Order.
Variables (m : MocStatic) (ng : nat) (sct : XReg -> nat -> nat -> R).
Hypothesis P : moc_problem m ng sct.
Hypothesis Ph : physical (ms_nreg m) ng sct (ms_xs m).
Hypothesis Cr : crossed m.
Lemma below_near : forall g ds1 ds2, g < ng -> Forall (bdry_shape m) ds1 -> Forall (bdry_shape m) ds2 -> bnd_below m g ds1 ds2 -> exists M, (0 <= M)%R /\ forall M', (M <= M')%R -> near m g 0 M' ds2 ds1.
Proof.
  intros g ds1 ds2 Hg F1 F2 H. induction H as [|d1 d2 l1 l2 H H0 IH]; [exists 0%R; split; [lra|]; constructor|]. inversion F1 as [|? ? [G1 _] F1']; subst. inversion F2 as [|? ? [G2 _] F2']; subst. destruct (IH F1' F2') as (M & M0 & HM).
  destruct (abs_top (fst d1)) as (A & A0 & B1). destruct (abs_top (fst d2)) as (B & B0 & B2). exists (M + A + B)%R. split; [lra|]. intros M' HM'. constructor; [|apply HM; lra]. intros a n i k Sx. specialize (H a n i k Sx).
  assert (Hk : k < n_group (ms_in m) * BcProofs.total (sizes (ms_in m))) by (apply (slot_range _ _ _ _ _ _ Sx); rewrite (mp_ng m ng sct P); exact Hg).
  rewrite Forall_forall in B1, B2. pose proof (B1 (at0 (fst d1) k) ltac:(unfold at0; apply nth_In; rewrite G1; exact Hk)). pose proof (B2 (at0 (fst d2) k) ltac:(unfold at0; apply nth_In; rewrite G2; exact Hk)). lra.
Qed.
Lemma below_same : forall h a b c d, bnd_same m h c a -> bnd_same m h d b -> bnd_below m h a b -> bnd_below m h c d.
Proof.
  intros h a b c d H1 H2 H. revert c d H1 H2. induction H as [|x y a b Hxy H IH]; intros c d H1 H2; inversion H1 as [|u ? c' ? Hu Hc]; subst; inversion H2 as [|w ? d' ? Hw Hd]; subst; constructor; [|now apply IH]. intros q n i k Sx. rewrite (Hu q n i k Sx), (Hw q n i k Sx). exact (Hxy q n i k Sx).
Qed.
Lemma inner_ord : forall g src1 src2 s1 s2 s1' s2', g < ng -> length src1 = ms_nreg m -> length src2 = ms_nreg m -> moc_shape m ng s1 -> moc_shape m ng s2 -> (forall i, i < ms_nreg m -> (at0 src1 i <= at0 src2 i)%R) -> nowhere_more m ng s1 s2 ->
  moc_inner m g src1 s1 = Some s1' -> moc_inner m g src2 s2 = Some s2' -> nowhere_more m ng s1' s2'.
Proof.
  intros g src1 src2 s1 s2 s1' s2' Hg L1 L2 F1 F2 Hs [Hf Hb] E1 E2. pose proof PI_RGT_0 as PP. pose proof (inner_keep m ng sct P Ph Cr g src1 s1 s1' Hg L1 F1 E1) as [_ K1]. pose proof (inner_keep m ng sct P Ph Cr g src2 s2 s2' Hg L2 F2 E2) as [_ K2].
  destruct (inner_parts m ng sct P Ph g src1 s1 Hg L1 F1) as (q1 & f1 & b1 & t1 & Lq1 & Q1 & W1 & I1 & B1 & _ & O1). destruct (inner_parts m ng sct P Ph g src2 s2 Hg L2 F2) as (q2 & f2 & b2 & t2 & Lq2 & Q2 & W2 & I2 & B2 & _ & O2).
  rewrite E1 in I1. injection I1 as <-. rewrite E2 in I2. injection I2 as <-. destruct F1 as (_ & _ & Lb1 & Fb1). destruct F2 as (_ & _ & Lb2 & Fb2).
  destruct (below_near g (mg_bnd s1) (mg_bnd s2) Hg Fb1 Fb2 (Hb g Hg)) as (M & M0 & HM). destruct (abs_top q1) as (A & A0 & HA). destruct (abs_top q2) as (B & B0 & HB). rewrite Forall_forall in HA, HB.
  destruct (sweep_diff m ng sct P g q2 q1 0 (M + A + B) (mg_bnd s2) (mg_bnd s1) Hg Lq2 Lq1 Lb2 Lb1 Fb2 Fb1) as (g2 & c2 & g1 & c1 & V2 & V1 & Bd & Nb).
  - intros i Hi. pose proof (HA (at0 q1 i) ltac:(unfold at0; apply nth_In; lia)). pose proof (HB (at0 q2 i) ltac:(unfold at0; apply nth_In; lia)). split; [|lra]. destruct (reg_of m ng sct Ph i Hi) as (x & Ix & Ii). rewrite (Q1 x i Ix Ii), (Q2 x i Ix Ii). pose proof (mp_tr m ng sct P x g Ix Hg) as T. pose proof (mp_self m ng sct P x g Ix Hg) as Z. specialize (Hs i Hi). specialize (Hf i g Hi Hg).
    assert (0 < 1 / (at0 (xr_tr x) g * (4 * PI)))%R by (apply Rdiv_lt_0_compat; [lra|]; apply Rmult_lt_0_compat; lra). set (w := (1 / (at0 (xr_tr x) g * (4 * PI)))%R) in *. clearbody w.
    assert (phi (mg_flux s1) i g * sct x g g <= phi (mg_flux s2) i g * sct x g g)%R by (now apply Rmult_le_compat_r). assert ((at0 src1 i + phi (mg_flux s1) i g * sct x g g) * w <= (at0 src2 i + phi (mg_flux s2) i g * sct x g g) * w)%R by (apply Rmult_le_compat_r; lra). lra.
  - intros s _. lra.
  - apply HM. lra.
  - rewrite W1 in V1. injection V1 as <- <-. rewrite W2 in V2. injection V2 as <- <-. split.
    + intros i h Hi Hh. rewrite (O1 i h Hi), (O2 i h Hi). destruct (h =? g); [|now apply Hf]. specialize (Bd i Hi). lra.
    + intros h Hh. destruct (Nat.eq_dec h g) as [->|N]; [|exact (below_same h _ _ _ _ (K1 h N) (K2 h N) (Hb h Hh))]. rewrite B1, B2. unfold near in Nb. clear - Nb. revert Nb. generalize (b2) (b1). intros l2 l1 H. induction H as [|x y l2 l1 Hxy H IH]; constructor; [|exact IH]. intros a n i k Sx. specialize (Hxy a n i k Sx). lra.
Qed.
Lemma inners_ord : forall g src1 src2 n s1 s2 s1' s2', g < ng -> length src1 = ms_nreg m -> length src2 = ms_nreg m -> moc_shape m ng s1 -> moc_shape m ng s2 -> (forall i, i < ms_nreg m -> (at0 src1 i <= at0 src2 i)%R) -> nowhere_more m ng s1 s2 ->
  moc_inners m g src1 n s1 = Some s1' -> moc_inners m g src2 n s2 = Some s2' -> nowhere_more m ng s1' s2'.
Proof.
  intros g src1 src2. induction n as [|n IH]; intros s1 s2 s1' s2' Hg L1 L2 F1 F2 Hs Hn E1 E2; cbn [moc_inners] in *; [injection E1 as <-; now injection E2 as <-|].
  destruct (inner_shape m ng sct P Ph g src1 s1 Hg L1 F1) as (t1 & T1 & G1 & _). destruct (inner_shape m ng sct P Ph g src2 s2 Hg L2 F2) as (t2 & T2 & G2 & _). rewrite T1 in E1. rewrite T2 in E2. apply (IH t1 t2 s1' s2'); auto. exact (inner_ord g src1 src2 s1 s2 t1 t2 Hg L1 L2 F1 F2 Hs Hn T1 T2).
Qed.
Variables (e1 e2 : option (list (list R))).
Hypothesis X1 : ext_fits (ms_nreg m) ng e1.
Hypothesis X2 : ext_fits (ms_nreg m) ng e2.
Hypothesis Xb : ext_below (ms_nreg m) ng e1 e2.
Notation grps e := (fss_groups MocState mg_flux (moc_sweep m) (ms_xs m) (ms_nreg m) e None).
Lemma grps_ord : forall cnt ig a1 s1 a2 s2 a1' s1' a2' s2', ig + cnt <= ng -> length a1 = ms_nreg m -> length a2 = ms_nreg m -> moc_shape m ng s1 -> moc_shape m ng s2 -> nowhere_more m ng s1 s2 ->
  grps e1 ig cnt (a1, s1) = Some (a1', s1') -> grps e2 ig cnt (a2, s2) = Some (a2', s2') -> nowhere_more m ng s1' s2'.
Proof.
  induction cnt as [|n IH]; intros ig a1 s1 a2 s2 a1' s1' a2' s2' Hc L1 L2 F1 F2 Hn E1 E2; cbn [fss_groups] in *; [injection E1 as <- <-; now injection E2 as <- <-|]. assert (Hg : ig < ng) by lia.
  destruct (grp_ok m ng sct e1 P Ph X1 ig a1 s1 Hg L1 F1) as (u1 & w1 & G1 & K1 & S1 & I1 & _ & Q1). destruct (grp_ok m ng sct e2 P Ph X2 ig a2 s2 Hg L2 F2) as (u2 & w2 & G2 & K2 & S2 & I2 & _ & Q2). rewrite G1 in E1. rewrite G2 in E2.
  apply (IH (S ig) u1 w1 u2 w2 a1' s1' a2' s2'); auto; [lia|]. apply (inners_ord ig u1 u2 (ms_inner m) s1 s2 w1 w2); auto. intros i Hi. destruct (reg_of m ng sct Ph i Hi) as (x & Ix & Ii). rewrite (Q1 x i Ix Ii), (Q2 x i Ix Ii). apply Rplus_le_compat; [now apply Xb|].
  apply rsum_le. intros h Hh. destruct (Nat.eqb_spec h ig) as [|N]; [lra|]. destruct Ph as (_ & D & _). destruct (D x Ix) as (_ & Nn & _). apply Rmult_le_compat_l; [exact (Nn ig h Hg Hh (fun e => N (eq_sym e)))|]. now apply Hn.
Qed.
Lemma step_ord : forall s1 s2 s1' s2', fx_shape m ng s1 -> fx_shape m ng s2 -> fx_below m ng s1 s2 -> fx_step m ng e1 s1 = Got s1' -> fx_step m ng e2 s2 = Got s2' -> fx_below m ng s1' s2'.
Proof.
  intros s1 s2 s1' s2' [A1 F1] [A2 F2] Hn E1 E2. destruct (step_parts _ _ _ _ _ E1) as [G1 _]. destruct (step_parts _ _ _ _ _ E2) as [G2 _].
  destruct s1 as [o1 [a1 b1]], s2 as [o2 [a2 b2]], s1' as [p1 [c1 d1]], s2' as [p2 [c2 d2]]. cbn [fst snd] in *. exact (grps_ord ng 0 a1 b1 a2 b2 c1 d1 c2 d2 (le_n _) A1 A2 F1 F2 Hn G1 G2).
Qed.
End Order.
Lemma below_refl : forall m ng s, fx_below m ng s s.
Proof. intros m ng s. split; [intros; lra|]. intros h Hh. unfold bnd_below. induction (mg_bnd (snd (snd s))); constructor; auto. intros; lra. Qed.
Lemma below_trans : forall m ng a b c, fx_below m ng a b -> fx_below m ng b c -> fx_below m ng a c.
Proof.
  intros m ng a b c [H1 H2] [K1 K2]. split; [intros i h Hi Hh; eapply Rle_trans; [now apply H1|now apply K1]|]. intros h Hh. eapply F2_trans; [|exact (H2 h Hh)|exact (K2 h Hh)]. intros x y z Hx Hy q n i k Sx. cbn beta in *. eapply Rle_trans; [exact (Hx q n i k Sx)|exact (Hy q n i k Sx)].
Qed.
Lemma steps_total : forall m ng sct ext, moc_problem m ng sct -> physical (ms_nreg m) ng sct (ms_xs m) -> ext_fits (ms_nreg m) ng ext -> forall n s, fx_shape m ng s -> exists t, fx_steps m ng ext n s = Got t /\ fx_shape m ng t.
Proof. intros m ng sct ext P Ph X. induction n as [|n IH]; intros s F; cbn [fx_steps]; [eauto|]. destruct (step_total m ng sct ext P Ph X s F) as (t & E & G & _). rewrite E. auto. Qed.
Lemma steps_snoc : forall m ng ext n s, fx_steps m ng ext (S n) s = match fx_steps m ng ext n s with Got t => fx_step m ng ext t | o => o end.
Proof. intros m ng ext n. induction n as [|n IH]; intros s; cbn [fx_steps]; [destruct (fx_step m ng ext s); reflexivity|]. destruct (fx_step m ng ext s) as [t| |]; [|reflexivity|reflexivity]. apply IH. Qed.

(** C193: of two calculations, the one with no more source and no more flux at the start has no more flux after any number of iterations, in
    any region and group, whatever the boundary conditions. *)
Theorem C193_monotone : forall m ng sct e1 e2 n s1 s2, moc_problem m ng sct -> physical (ms_nreg m) ng sct (ms_xs m) -> crossed m -> ext_fits (ms_nreg m) ng e1 -> ext_fits (ms_nreg m) ng e2 -> ext_below (ms_nreg m) ng e1 e2 ->
  fx_shape m ng s1 -> fx_shape m ng s2 -> fx_below m ng s1 s2 ->
  exists t1 t2, fx_steps m ng e1 n s1 = Got t1 /\ fx_steps m ng e2 n s2 = Got t2 /\ fx_shape m ng t1 /\ fx_shape m ng t2 /\ fx_below m ng t1 t2.
Proof.
  intros m ng sct e1 e2 n s1 s2 P Ph Cr X1 X2 Xb. revert s1 s2. induction n as [|n IH]; intros s1 s2 F1 F2 H; cbn [fx_steps]; [exists s1, s2; auto 6|].
  destruct (step_total m ng sct e1 P Ph X1 s1 F1) as (t1 & E1 & G1 & _). destruct (step_total m ng sct e2 P Ph X2 s2 F2) as (t2 & E2 & G2 & _). rewrite E1, E2. apply IH; auto. exact (step_ord m ng sct P Ph Cr e1 e2 X1 X2 Xb s1 s2 t1 t2 F1 F2 H E1 E2).
Qed.
Print Assumptions C193_monotone.

(** The state with no flux at all, of the shape of [s]. *)
Definition no_flux (s : FxState) : FxState := (fst s, (fst (snd s), mkMG (map (map (fun _ => 0%R)) (fx_flux s)) (mg_q (snd (snd s))) (map (fun d => (map (fun _ => 0%R) (fst d), map (fun _ => 0%R) (snd d))) (mg_bnd (snd (snd s)))))).
Lemma zero_at : forall (l : list R) k, at0 (map (fun _ => 0%R) l) k = 0%R.
Proof. unfold at0. induction l as [|a l IH]; intros [|k]; cbn; auto. Qed.
Lemma zero_phi : forall fl i g, phi (map (map (fun _ : R => 0%R)) fl) i g = 0%R.
Proof. unfold phi. induction fl as [|r fl IH]; intros [|i] g; cbn [map nth]; try (destruct g; reflexivity); [apply (zero_at r g)|apply IH]. Qed.
Lemma no_flux_shape : forall m ng s, fx_shape m ng s -> fx_shape m ng (no_flux s).
Proof.
  intros m ng s [L ((A & B) & C & D & E)]. split; [exact L|]. unfold no_flux, moc_shape. cbn [snd mg_flux mg_q mg_bnd]. split; [split; [rewrite map_length; exact A|]|split; [exact C|split; [rewrite map_length; exact D|]]].
  - intros row I. apply in_map_iff in I. destruct I as (r & <- & Ir). rewrite map_length. now apply B.
  - rewrite Forall_forall in *. intros d I. apply in_map_iff in I. destruct I as (r & <- & Ir). destruct (E r Ir). split; cbn [fst snd]; rewrite map_length; assumption.
Qed.
Lemma no_flux_lin : forall m ng s, fx_lin m ng (-1) (no_flux s) (no_flux s) (no_flux s).
Proof.
  intros m ng s. split; [intros i g _ _; unfold no_flux; cbn [snd mg_flux]; rewrite zero_phi; ring|]. unfold no_flux. cbn [snd mg_bnd]. induction (mg_bnd (snd (snd s))) as [|d l IH]; cbn [map]; constructor; auto; apply lin_intro; auto; intros i _; rewrite zero_at; ring.
Qed.
Lemma no_flux_run : forall m ng sct, moc_problem m ng sct -> physical (ms_nreg m) ng sct (ms_xs m) -> forall n s t, fx_shape m ng s -> fx_lin m ng (-1) s s s -> fx_steps m ng None n s = Got t -> fx_lin m ng (-1) t t t.
Proof.
  intros m ng sct P Ph. induction n as [|n IH]; intros s t F H E; cbn [fx_steps] in E; [injection E as <-; exact H|]. destruct (step_total m ng sct None P Ph I s F) as (u & Eu & G & _). rewrite Eu in E. apply (IH u t G); [|exact E].
  apply (step_lin m ng sct (-1) P Ph None None None I I I) with (s1 := s) (s2 := s) (s3 := s); auto. intros i g _ _. cbn. ring.
Qed.
Lemma nonneg_below : forall m ng s z, fx_shape m ng s -> fx_lin m ng (-1) z z z -> length (mg_bnd (snd (snd z))) = length (mg_bnd (snd (snd s))) -> (fx_below m ng z s <-> fx_nonneg m ng s).
Proof.
  intros m ng s z F [Zf Zb] Ll. assert (Zk : forall d k, In d (mg_bnd (snd (snd z))) -> at0 (fst d) k = 0%R).
  { clear - Zb. assert (G : forall b1 b2 b3, LinB (-1) b1 b2 b3 -> b1 = b2 -> b2 = b3 -> forall d k, In d b1 -> at0 (fst d) k = 0%R). { intros b1 b2 b3 H. induction H as [|i1 o1 i2 o2 i3 o3 b1 b2 b3 Hi Ho H IH]; intros Q1 Q2 d k I0; [destruct I0|]. injection Q1 as -> -> ->. injection Q2 as -> -> ->. destruct I0 as [<-|I0]; [|now apply IH]. cbn [fst]. pose proof (lin_at0 _ _ _ _ k Hi). lra. } intros d k. now apply (G _ _ _ Zb). }
  assert (Zp : forall i h, i < ms_nreg m -> h < ng -> phi (mg_flux (snd (snd z))) i h = 0%R) by (intros i h Hi Hh; pose proof (Zf i h Hi Hh); lra).
  split; intros [H1 H2]; (split; [intros i h Hi Hh; specialize (H1 i h Hi Hh); unfold fx_flux in *; rewrite (Zp i h Hi Hh) in *; exact H1|]).
  - intros h d a n i k Hh I0 Sx. specialize (H2 h Hh). clear - H2 I0 Sx Zk. induction H2 as [|x y l1 l2 Hxy H IH]; [destruct I0|]. destruct I0 as [<-|I0]; [specialize (Hxy a n i k Sx); rewrite (Zk x k (or_introl eq_refl)) in Hxy; exact Hxy|]. apply IH; auto. intros d0 k0 I1. apply Zk. right. exact I1.
  - intros h Hh. unfold bnd_below. assert (G : forall d a n i k, In d (mg_bnd (snd (snd s))) -> slot (ms_in m) h a n i k -> (0 <= at0 (fst d) k)%R) by (intros; eapply H2; eauto). clear - G Zk Ll. revert Ll Zk G. generalize (mg_bnd (snd (snd z))) as l1, (mg_bnd (snd (snd s))) as l2. induction l1 as [|x l1 IH]; intros [|y l2] Ll Zk G; try discriminate; constructor.
    + intros a n i k Sx. rewrite (Zk x k (or_introl eq_refl)). apply (G y a n i k (or_introl eq_refl) Sx).
    + apply IH; [now injection Ll|intros; apply Zk; now right|intros; eapply G; [now right|eassumption]].
Qed.

(** C193: with nonnegative sources, scalar and incoming fluxes, fluxes are nonnegative after any number of iterations. *)
Theorem C193_nonnegative : forall m ng sct ext n s, moc_problem m ng sct -> physical (ms_nreg m) ng sct (ms_xs m) -> crossed m -> ext_fits (ms_nreg m) ng ext -> (forall i g, i < ms_nreg m -> g < ng -> (0 <= ext_at ext i g)%R) ->
  fx_shape m ng s -> fx_nonneg m ng s -> exists t, fx_steps m ng ext n s = Got t /\ fx_shape m ng t /\ fx_nonneg m ng t.
Proof.
  intros m ng sct ext n s P Ph Cr X Xp F H. pose proof (no_flux_shape m ng s F) as Fz. pose proof (no_flux_lin m ng s) as Lz. assert (B0 : fx_below m ng (no_flux s) s) by (apply nonneg_below; auto; unfold no_flux; cbn [snd mg_bnd]; now rewrite map_length).
  destruct (C193_monotone m ng sct None ext n (no_flux s) s P Ph Cr I X Xp Fz F B0) as (z & t & Ez & Et & Gz & Gt & B). exists t. split; [exact Et|]. split; [exact Gt|]. apply (nonneg_below m ng t z Gt); [exact (no_flux_run m ng sct P Ph n (no_flux s) z Fz Lz Ez)| |exact B].
  destruct Gz as (_ & _ & _ & A & _). destruct Gt as (_ & _ & _ & A' & _). congruence.
Qed.
Print Assumptions C193_nonnegative.

(** C193: if the first iteration lowers no flux, none does, and no flux ever exceeds that of a solution which it did not exceed at the start;
    the other way round if the first iteration raises none. *)
Theorem C193_one_sided : forall m ng sct ext s s', moc_problem m ng sct -> physical (ms_nreg m) ng sct (ms_xs m) -> crossed m -> ext_fits (ms_nreg m) ng ext -> fx_shape m ng s -> fx_step m ng ext s = Got s' ->
  (fx_below m ng s s' -> forall n, exists t t', fx_steps m ng ext n s = Got t /\ fx_steps m ng ext (S n) s = Got t' /\ fx_below m ng t t') /\
  (fx_below m ng s' s -> forall n, exists t t', fx_steps m ng ext n s = Got t /\ fx_steps m ng ext (S n) s = Got t' /\ fx_below m ng t' t) /\
  (forall sol n t, fx_shape m ng sol -> fx_fixed m ng ext sol -> fx_steps m ng ext n s = Got t -> (fx_below m ng s sol -> fx_below m ng t sol) /\ (fx_below m ng sol s -> fx_below m ng sol t)).
Proof.
  intros m ng sct ext s s' P Ph Cr X F E. destruct (step_total m ng sct ext P Ph X s F) as (u & Eu & Gu & _). rewrite E in Eu. injection Eu as <-. assert (Xr : ext_below (ms_nreg m) ng ext ext) by (intros i g _ _; lra).
  split; [|split].
  - intros H n. destruct (C193_monotone m ng sct ext ext n s s' P Ph Cr X X Xr F Gu H) as (t & t' & Et & Et' & _ & _ & B). exists t, t'. split; [exact Et|]. split; [|exact B]. cbn [fx_steps]. now rewrite E.
  - intros H n. destruct (C193_monotone m ng sct ext ext n s' s P Ph Cr X X Xr Gu F H) as (t' & t & Et' & Et & _ & _ & B). exists t, t'. split; [exact Et|]. split; [|exact B]. cbn [fx_steps]. now rewrite E.
  - intros sol n t Fs (sl & El & Vf & Vb) Et. revert t Et. induction n as [|n IH]; intros t Et; [cbn [fx_steps] in Et; injection Et as <-; auto|]. rewrite steps_snoc in Et. destruct (steps_total m ng sct ext P Ph X n s F) as (r & Er & Gr). rewrite Er in Et. destruct (IH r Er) as [I1 I2].
    assert (Sl : fx_below m ng sl sol /\ fx_below m ng sol sl).
    { split; (split; [intros i h Hi Hh; specialize (Vf i h Hi Hh); unfold fx_flux in Vf; rewrite Vf; lra|]; intros h Hh; specialize (Vb h Hh)); [eapply F2_impl; [|exact Vb]|apply F2_sym with (Q := fun d1 d2 => forall a n i k, slot (ms_in m) h a n i k -> at0 (fst d1) k = at0 (fst d2) k) in Vb; [eapply F2_impl; [|exact Vb]|]].
      - intros a b Hab q n0 i k Sx. cbn beta in *. rewrite (Hab q n0 i k Sx). lra.
      - intros a b Hab q n0 i k Sx. cbn beta in *. rewrite (Hab q n0 i k Sx). lra.
      - intros a b Hab q n0 i k Sx. symmetry. exact (Hab q n0 i k Sx). }
    split; intros H; [eapply below_trans; [|apply Sl]|eapply below_trans; [apply Sl|]].
    + exact (step_ord m ng sct P Ph Cr ext ext X X Xr r sol t sl Gr Fs (I1 H) Et El).
    + exact (step_ord m ng sct P Ph Cr ext ext X X Xr sol r sl t Fs Gr (I2 H) El Et).
Qed.
Print Assumptions C193_one_sided.

(** C193: so the solutions, too, have no less flux anywhere with more source (and no less prescribed incoming flux). *)
Theorem C193_solutions : forall m ng sct e1 e2 v c s1 s2 sol1 sol2, moc_problem m ng sct -> physical (ms_nreg m) ng sct (ms_xs m) -> crossed m -> 1 <= ms_inner m -> (0 <= c < 1)%R -> dominated m ng sct v c -> ext_fits (ms_nreg m) ng e1 -> ext_fits (ms_nreg m) ng e2 -> ext_below (ms_nreg m) ng e1 e2 ->
  fx_shape m ng s1 -> fx_shape m ng s2 -> fx_below m ng s1 s2 -> fx_shape m ng sol1 -> fx_shape m ng sol2 -> fx_fixed m ng e1 sol1 -> fx_fixed m ng e2 sol2 -> fx_pres m ng sol1 s1 -> fx_pres m ng sol2 s2 ->
  forall i h, i < ms_nreg m -> h < ng -> (phi (fx_flux sol1) i h <= phi (fx_flux sol2) i h)%R.
Proof.
  intros m ng sct e1 e2 v c s1 s2 sol1 sol2 P Ph Cr Hn Hc Dm X1 X2 Xb F1 F2 B G1 G2 S1 S2 Q1 Q2 i h Hi Hh. pose proof (proj1 Dm h Hh) as Vh.
  destruct (C186_converge m ng sct e1 v c P Ph Cr Hn X1 Hc Dm) as (k1 & K1 & A1). destruct (C186_converge m ng sct e2 v c P Ph Cr Hn X2 Hc Dm) as (k2 & K2 & A2). destruct (A1 s1 F1) as (i1 & z1 & D1 & Z1 & W1 & D1p & _ & _ & _ & L1 & U1). destruct (A2 s2 F2) as (i2 & z2 & D2 & Z2 & W2 & D2p & _ & _ & _ & L2 & U2).
  destruct (U1 sol1 G1 Q1 S1) as [V1 _]. destruct (U2 sol2 G2 Q2 S2) as [V2 _]. rewrite (V1 i h Hi Hh), (V2 i h Hi Hh).
  assert (R1 : forall n, fx_steps m ng e1 n s1 = Got (i1 n)) by (induction n as [|n IH]; [cbn; now rewrite Z1|rewrite steps_snoc, IH; apply W1]). assert (R2 : forall n, fx_steps m ng e2 n s2 = Got (i2 n)) by (induction n as [|n IH]; [cbn; now rewrite Z2|rewrite steps_snoc, IH; apply W2]).
  assert (O : forall n, (phi (fx_flux (i1 n)) i h <= phi (fx_flux (i2 n)) i h)%R). { intros n. destruct (C193_monotone m ng sct e1 e2 n s1 s2 P Ph Cr X1 X2 Xb F1 F2 B) as (t1 & t2 & E1 & E2 & _ & _ & [B1 _]). rewrite R1 in E1. rewrite R2 in E2. injection E1 as <-. injection E2 as <-. now apply B1. }
  set (x := phi (fx_flux z1) i h) in *. set (y := phi (fx_flux z2) i h) in *. destruct (Rle_lt_dec x y) as [|N]; [assumption|exfalso]. set (k := Rmax k1 k2). assert (Kr : (0 <= k < 1)%R) by (split; [eapply Rle_trans; [apply K1|apply Rmax_l]|apply Rmax_lub_lt; [apply K1|apply K2]]).
  set (T := ((D1 + D2) * v h)%R). assert (T0 : (0 <= T)%R) by (unfold T; apply Rmult_le_pos; lra). destruct (pow_lt_1_zero k) with (y := ((x - y) / (T + 1))%R) as (n & Hk); [rewrite Rabs_pos_eq; lra|apply Rdiv_lt_0_compat; lra|]. specialize (Hk n (le_n _)). rewrite Rabs_pos_eq in Hk by (apply pow_le; lra).
  assert (P1 : (k1 ^ n <= k ^ n)%R) by (apply pow_incr; split; [apply K1|apply Rmax_l]). assert (P2 : (k2 ^ n <= k ^ n)%R) by (apply pow_incr; split; [apply K2|apply Rmax_r]).
  pose proof (proj1 (L1 n) i h Hi Hh) as M1. pose proof (proj1 (L2 n) i h Hi Hh) as M2. fold x in M1. fold y in M2. pose proof (O (S n)) as On.
  assert (N1 : (k1 ^ n * D1 * v h <= k ^ n * (D1 * v h))%R) by (rewrite Rmult_assoc; apply Rmult_le_compat_r; [apply Rmult_le_pos; lra|exact P1]). assert (N2 : (k2 ^ n * D2 * v h <= k ^ n * (D2 * v h))%R) by (rewrite Rmult_assoc; apply Rmult_le_compat_r; [apply Rmult_le_pos; lra|exact P2]).
  apply abs_in in M1, M2. assert (F : (x - y <= k ^ n * T)%R) by (unfold T; replace (k ^ n * ((D1 + D2) * v h))%R with (k ^ n * (D1 * v h) + k ^ n * (D2 * v h))%R by ring; lra).
  assert (H1 : (k ^ n * (T + 1) < x - y)%R) by (apply (Rmult_lt_compat_r (T + 1)) in Hk; [|lra]; replace ((x - y) / (T + 1) * (T + 1))%R with (x - y)%R in Hk by (field; lra); exact Hk). assert (0 <= k ^ n)%R by (apply pow_le; lra). lra.
Qed.
Print Assumptions C193_solutions.

(** Reflecting core of two groups and regions, sources 1 and 3, from no flux. *)
Definition mq_start (u : R) : FxState := ([], ([0; 0]%R, mkMG [[u; u]; [u; u]]%R [0; 0]%R [(repeat u 16, repeat 0%R 8)])).
Lemma mq_shape : forall gs u, fx_shape (mq_static gs) 2 (mq_start u).
Proof. intros gs u. split; [reflexivity|]. split; [split; [reflexivity|intros row [<-|[<-|[]]]; reflexivity]|]. split; [reflexivity|]. split; [reflexivity|]. constructor; [split; reflexivity|constructor]. Qed.
Lemma rep_at0 : forall (u : R) n k, (0 <= u)%R -> (0 <= at0 (repeat u n) k)%R.
Proof. unfold at0. intros u n. induction n as [|n IH]; intros [|k] Hu; cbn; auto; lra. Qed.
Example C193_instance : forall gs n, moc_problem (mq_static gs) 2 (fun _ => mf_sc) /\ crossed (mq_static gs) /\ fx_nonneg (mq_static gs) 2 (mq_start 0) /\ fx_nonneg (mq_static gs) 2 (mq_start 1) /\
  exists t1 t2, fx_steps (mq_static gs) 2 (mf_ext 1) n (mq_start 0) = Got t1 /\ fx_steps (mq_static gs) 2 (mf_ext 3) n (mq_start 1) = Got t2 /\ fx_nonneg (mq_static gs) 2 t1 /\ fx_below (mq_static gs) 2 t1 t2 /\
    exists t1', fx_steps (mq_static gs) 2 (mf_ext 1) (S n) (mq_start 0) = Got t1' /\ fx_below (mq_static gs) 2 t1 t1'.
Proof.
  intros gs n. pose proof (mq_problem gs) as P. pose proof mf_physical as Ph. pose proof (mq_crossed gs) as Cr. do 2 (split; [assumption|]).
  assert (N : forall u, (0 <= u)%R -> fx_nonneg (mq_static gs) 2 (mq_start u)). { intros u Hu. split; [intros [|[|i]] [|[|h]] Hi Hh; cbn in Hi; try lia; unfold phi; cbn; lra|]. intros h d a q i k Hh [<-|[]] _. now apply rep_at0. }
  split; [apply N; lra|]. split; [apply N; lra|].
  assert (X : forall u i g, (0 <= u)%R -> i < 2 -> g < 2 -> (0 <= ext_at (mf_ext u) i g)%R) by (intros u [|[|i]] [|[|g]] Hu Hi Hg; try lia; cbn; lra).
  assert (Z : forall s, fx_shape (mq_static gs) 2 s -> fx_nonneg (mq_static gs) 2 s -> fx_below (mq_static gs) 2 (mq_start 0) s).
  { intros s F H. apply (nonneg_below (mq_static gs) 2 s (mq_start 0) F); [|destruct F as (_ & _ & _ & A & _); rewrite A; reflexivity|exact H]. exact (no_flux_lin (mq_static gs) 2 (mq_start 0)). }
  destruct (C193_monotone (mq_static gs) 2 _ (mf_ext 1) (mf_ext 3) n (mq_start 0) (mq_start 1) P Ph Cr (mf_fits 1) (mf_fits 3)) as (t1 & t2 & E1 & E2 & G1 & G2 & B); [intros [|[|i]] [|[|g]] Hi Hg; cbn in Hi; try lia; cbn; lra|apply mq_shape|apply mq_shape|apply Z; [apply mq_shape|apply N; lra]|].
  exists t1, t2. split; [exact E1|]. split; [exact E2|]. destruct (C193_nonnegative (mq_static gs) 2 _ (mf_ext 1) n (mq_start 0) P Ph Cr (mf_fits 1) (fun i g => X 1%R i g ltac:(lra)) (mq_shape gs 0) (N 0%R ltac:(lra))) as (t & Et & _ & Nt). rewrite E1 in Et. injection Et as <-. split; [exact Nt|]. split; [exact B|].
  destruct (C193_nonnegative (mq_static gs) 2 _ (mf_ext 1) 1 (mq_start 0) P Ph Cr (mf_fits 1) (fun i g => X 1%R i g ltac:(lra)) (mq_shape gs 0) (N 0%R ltac:(lra))) as (s' & Es & Gs & Ns). cbn [fx_steps] in Es. destruct (fx_step (mq_static gs) 2 (mf_ext 1) (mq_start 0)) as [s1| |] eqn:Ex; try discriminate. injection Es as <-.
  destruct (proj1 (C193_one_sided (mq_static gs) 2 _ (mf_ext 1) (mq_start 0) s1 P Ph Cr (mf_fits 1) (mq_shape gs 0) Ex) (Z s1 Gs Ns) n) as (a & b & Ea & Eb & Bab). rewrite E1 in Ea. injection Ea as <-. exists b. auto.
Qed.
