(** C180-C182: convergence, stopping and linearity of whole fixed-source calculations with the MoC sweeper. *)
From Coq Require Import List Bool Reals ZArith Arith Lia Lra Permutation.
From Verif Require Import RUtil ListUtil McModel MeshModel AngModel BcModel BcProofs StdAlg CoreModel CoreProofs ScatModel ScatProofs MatModel ExpModel MocModel MocProofs MocProps XsModel SrcModel HomProps SrcProps SolModel SolProps MgModel MgProps MgInnerProps SnGroupProps EigProps MocMaxProps MocEigProps MocLinProofs MocConvProps FixModel FixProofs.
Import ListNotations.
Open Scope nat_scope.

(** The scalar flux of a state, states whose arrays have the right sizes, and states with the same incoming boundary fluxes. *)
Definition fx_flux (s : FxState) : list (list R) := mg_flux (snd (snd s)).
Definition fx_shape (m : MocStatic) (ng : nat) (s : FxState) : Prop := length (fst (snd s)) = ms_nreg m /\ moc_shape m ng (snd (snd s)).
Definition fx_same (s t : FxState) : Prop := same_in (snd (snd s)) (snd (snd t)).
(** A solution: an iteration leaves its flux as it is. *)
Definition solves (m : MocStatic) (ng : nat) (ext : option (list (list R))) (s : FxState) : Prop :=
  exists s', fx_step m ng ext s = Got s' /\ forall i g, i < ms_nreg m -> g < ng -> phi (fx_flux s') i g = phi (fx_flux s) i g.
(** Scattering into every group, with the weights [v] for the groups it comes from, is at most [c] times the cross section. *)
Definition dominated (m : MocStatic) (ng : nat) (sct : XReg -> nat -> nat -> R) (v : nat -> R) (c : R) : Prop :=
  (forall g, g < ng -> (0 < v g)%R) /\ forall x g, In x (ms_xs m) -> g < ng -> (rsum (fun h => sct x g h * v h) ng <= c * at0 (xr_tr x) g * v g)%R.

Definition fx_next (m : MocStatic) (ng : nat) (ext : option (list (list R))) (s : FxState) : option FxState := match fx_step m ng ext s with Got s' => Some s' | _ => None end.
Lemma next_step : forall m ng ext s s', fx_next m ng ext s = Some s' <-> fx_step m ng ext s = Got s'.
Proof. intros m ng ext s s'. unfold fx_next. destruct (fx_step m ng ext s); split; intros H; try discriminate; injection H as <-; reflexivity. Qed.

Section One.
Variables (m : MocStatic) (ng : nat) (sct : XReg -> nat -> nat -> R) (ext : option (list (list R))).
Hypothesis P : moc_problem m ng sct.
Hypothesis Ph : physical (ms_nreg m) ng sct (ms_xs m).
Hypothesis Ex : ext_fits (ms_nreg m) ng ext.
Lemma step_total : forall s, fx_shape m ng s -> exists s', fx_step m ng ext s = Got s' /\ fx_shape m ng s' /\ fst s' = fx_flux s.
Proof.
  intros [old [src sw]] [L F]. cbn [fst snd] in *. destruct (grps_ok m ng sct ext P Ph Ex ng 0 src sw (le_n _) L F) as (s2 & sw' & E & L2 & F2 & _). unfold fx_step. cbn [snd]. rewrite E. eexists. split; [reflexivity|]. split; [split; assumption|reflexivity].
Qed.
Lemma next_total : forall s, fx_shape m ng s -> exists s', fx_next m ng ext s = Some s' /\ fx_shape m ng s'.
Proof. intros s H. destruct (step_total s H) as (s' & E & F & _). exists s'. split; [now apply next_step|exact F]. Qed.
Lemma step_parts : forall s s', fx_step m ng ext s = Got s' -> fss_groups MocState mg_flux (moc_sweep m) (ms_xs m) (ms_nreg m) ext None 0 ng (snd s) = Some (snd s') /\ fst s' = fx_flux s.
Proof. intros s s' E. unfold fx_step in E. destruct (fss_groups _ _ _ _ _ _ _ _ _ _) as [st|]; [|discriminate]. injection E as <-. now split. Qed.
Lemma step_again : open_bc m -> forall s s1 s2, fx_shape m ng s -> fx_next m ng ext s = Some s1 -> fx_next m ng ext s1 = Some s2 -> fx_same s2 s1.
Proof.
  intros Op s s1 s2 F E1 E2. destruct (step_total s F) as (t & T & F1 & _). apply next_step in E1. apply next_step in E2. rewrite E1 in T. injection T as <-. destruct (step_parts _ _ E1) as [G1 _]. destruct (step_parts _ _ E2) as [G2 _].
  destruct (grps_mask m ng sct ext P Ph Ex Op ng 0 (le_n _)) as (z & H). destruct s as [o [a b]], s1 as [o1 [a1 b1]], s2 as [o2 [a2 b2]]. cbn [snd fst] in *. destruct F as [La Fb], F1 as [La1 Fb1]. cbn [snd fst] in *.
  apply (masks_again m z b b1 b2); [apply Fb|exact (H _ _ _ _ La Fb G1)|exact (H _ _ _ _ La1 Fb1 G2)].
Qed.
Lemma step_two : open_bc m -> 1 <= ms_inner m -> forall v c, (0 <= c < 1)%R -> dominated m ng sct v c -> forall D s1 s2 s1' s2', (0 <= D)%R -> fx_shape m ng s1 -> fx_shape m ng s2 -> fx_same s1 s2 -> wapart FxState (fun s => phi (fx_flux s)) (ms_nreg m) ng v D s1 s2 ->
  fx_next m ng ext s1 = Some s1' -> fx_next m ng ext s2 = Some s2' -> wapart FxState (fun s => phi (fx_flux s)) (ms_nreg m) ng v (c * D) s1' s2' /\ fx_same s1' s2'.
Proof.
  intros Op Hn v c Hc [Hv Dom] D s1 s2 s1' s2' HD F1 F2 Sm A E1 E2. apply next_step in E1. apply next_step in E2. destruct (step_parts _ _ E1) as [G1 _]. destruct (step_parts _ _ E2) as [G2 _].
  destruct s1 as [o1 [a1 b1]], s2 as [o2 [a2 b2]], s1' as [o1' [a1' b1']], s2' as [o2' [a2' b2']]. cbn [snd fst] in *. destruct F1 as [La1 Fb1], F2 as [La2 Fb2]. cbn [snd fst] in *.
  destruct (grps_two m ng sct ext P Ph Ex Op v c Hc Hv Dom D HD Hn ng 0 a1 b1 a2 b2 a1' b1' a2' b2' (le_n _) La1 La2 Fb1 Fb2 Sm A G1 G2) as [Sm' B]. split; [|exact Sm']. intros i g Hi Hg. apply B; [exact Hi|lia].
Qed.
End One.

(** C180: without reflecting boundaries each outer iteration shrinks the difference between two runs, weighted by group, by the factor [c]. *)
Theorem C180_contraction : forall m ng sct ext v c D s1 s2, moc_problem m ng sct -> physical (ms_nreg m) ng sct (ms_xs m) -> open_bc m -> 1 <= ms_inner m -> ext_fits (ms_nreg m) ng ext -> (0 <= c < 1)%R -> dominated m ng sct v c ->
  (0 <= D)%R -> fx_shape m ng s1 -> fx_shape m ng s2 -> fx_same s1 s2 -> (forall i g, i < ms_nreg m -> g < ng -> (Rabs (phi (fx_flux s1) i g - phi (fx_flux s2) i g) <= D * v g)%R) ->
  exists s1' s2', fx_step m ng ext s1 = Got s1' /\ fx_step m ng ext s2 = Got s2' /\ fx_same s1' s2' /\ forall i g, i < ms_nreg m -> g < ng -> (Rabs (phi (fx_flux s1') i g - phi (fx_flux s2') i g) <= c * D * v g)%R.
Proof.
  intros m ng sct ext v c D s1 s2 P Ph Op Hn Ex Hc Dm HD F1 F2 Sm A. destruct (step_total m ng sct ext P Ph Ex s1 F1) as (t1 & E1 & _). destruct (step_total m ng sct ext P Ph Ex s2 F2) as (t2 & E2 & _). exists t1, t2. split; [exact E1|]. split; [exact E2|].
  destruct (step_two m ng sct ext P Ph Ex Op Hn v c Hc Dm D s1 s2 t1 t2 HD F1 F2 Sm A (proj2 (next_step _ _ _ _ _) E1) (proj2 (next_step _ _ _ _ _) E2)) as [B S']. split; [exact S'|exact B].
Qed.
Print Assumptions C180_contraction.

Lemma shaped : forall (lim : nat -> nat -> R) nreg ng, let fl := map (fun i => map (lim i) (seq 0 ng)) (seq 0 nreg) in flux_fits nreg ng fl /\ forall i g, i < nreg -> g < ng -> phi fl i g = lim i g.
Proof.
  intros lim nreg ng fl. split.
  - split; [unfold fl; now rewrite map_length, seq_length|]. intros row I. unfold fl in I. apply in_map_iff in I. destruct I as (i & <- & _). now rewrite map_length, seq_length.
  - intros i g Hi Hg. unfold phi, at0, fl. rewrite (nth_indep _ _ (map (lim 0) (seq 0 ng))) by (now rewrite map_length, seq_length). rewrite (map_nth (fun i => map (lim i) (seq 0 ng))). rewrite seq_nth by exact Hi. cbn [Nat.add]. rewrite (nth_indep _ _ (lim i 0)) by (now rewrite map_length, seq_length). rewrite map_nth, seq_nth by exact Hg. reflexivity.
Qed.

Section Whole.
Variables (m : MocStatic) (ng : nat) (sct : XReg -> nat -> nat -> R) (ext : option (list (list R))) (v : nat -> R) (c : R).
Hypothesis P : moc_problem m ng sct.
Hypothesis Ph : physical (ms_nreg m) ng sct (ms_xs m).
Hypothesis Op : open_bc m.
Hypothesis Hn : 1 <= ms_inner m.
Hypothesis Ex : ext_fits (ms_nreg m) ng ext.
Hypothesis Hc : (0 <= c < 1)%R.
Hypothesis Dm : dominated m ng sct v c.
Notation Tot := (next_total m ng sct ext P Ph Ex).
Notation Con := (step_two m ng sct ext P Ph Ex Op Hn v c Hc Dm).
Notation Again := (step_again m ng sct ext P Ph Ex Op).
Lemma fx_refl : forall s, fx_same s s.
Proof. reflexivity. Qed.
Lemma fx_sym : forall s t, fx_same s t -> fx_same t s.
Proof. unfold fx_same, same_in. congruence. Qed.
Lemma fx_trans : forall s t u, fx_same s t -> fx_same t u -> fx_same s u.
Proof. unfold fx_same, same_in. congruence. Qed.

(** C180: then every calculation tends, at the rate [c], to the flux of a solution for its incoming fluxes, of which there is one only. *)
Lemma fx_converge : forall s, fx_shape m ng s -> exists (it : nat -> FxState) sol D, it 0 = s /\ (forall n, fx_step m ng ext (it n) = Got (it (S n)) /\ fx_shape m ng (it n)) /\ fx_shape m ng sol /\ (forall n, fx_same sol (it (S n))) /\ solves m ng ext sol /\
  (0 <= D)%R /\ (forall n i g, i < ms_nreg m -> g < ng -> (Rabs (phi (fx_flux (it (S n))) i g - phi (fx_flux sol) i g) <= c ^ n * D * v g)%R) /\
  (forall t, fx_shape m ng t -> fx_same t sol -> solves m ng ext t -> forall i g, i < ms_nreg m -> g < ng -> phi (fx_flux t) i g = phi (fx_flux sol) i g) /\
  (forall n d, fx_same (it (S n)) (it n) -> (forall i g, i < ms_nreg m -> g < ng -> (Rabs (phi (fx_flux (it (S n))) i g - phi (fx_flux (it n)) i g) <= d * v g)%R) -> forall i g, i < ms_nreg m -> g < ng -> (Rabs (phi (fx_flux (it (S n))) i g - phi (fx_flux sol) i g) <= c / (1 - c) * d * v g)%R).
Proof.
  intros s F. destruct (shrink_run FxState (fx_shape m ng) (fx_next m ng ext) Tot s F) as (it & I0 & Sh & St). pose proof (proj1 Dm) as Hv.
  destruct (run_limit FxState (fx_shape m ng) (fx_next m ng ext) fx_same (fun s => phi (fx_flux s)) (ms_nreg m) ng v c Hc Hv Tot Con Again fx_refl fx_sym fx_trans it Sh St) as (lim & D & D0 & Hl).
  destruct (shaped lim (ms_nreg m) ng) as [Fl El]. set (fl := map (fun i => map (lim i) (seq 0 ng)) (seq 0 (ms_nreg m))) in *. set (sol := (fl, (fst (snd (it 1)), mkMG fl (mg_q (snd (snd (it 1)))) (mg_bnd (snd (snd (it 1))))))).
  assert (Fs : fx_shape m ng sol). { destruct (Sh 1) as [A (_ & B1 & B2 & B3)]. split; [exact A|]. split; [exact Fl|]. auto. }
  assert (Sm : forall n, fx_same sol (it (S n))) by (intros n; apply (fx_trans _ (it 1)); [reflexivity|]; apply fx_sym; exact (run_sm1 FxState (fx_shape m ng) (fx_next m ng ext) fx_same Again fx_refl fx_trans it Sh St n)).
  exists it, sol, D. split; [exact I0|]. split; [intros n; split; [apply next_step, St|apply Sh]|]. split; [exact Fs|]. split; [exact Sm|].
  assert (Sv : solves m ng ext sol).
  { destruct (run_fixed FxState (fx_shape m ng) (fx_next m ng ext) fx_same (fun s => phi (fx_flux s)) (ms_nreg m) ng v c Hc Hv Tot Con Again fx_refl fx_sym fx_trans it Sh St lim D D0 Hl sol Fs (Sm 0) El) as (t & E & V). exists t. split; [now apply next_step|]. intros i g Hi Hg. rewrite (V i g Hi Hg). symmetry. now apply El. }
  split; [exact Sv|]. split; [exact D0|]. split; [|split].
  - intros n i g Hi Hg. change (phi (fx_flux sol) i g) with (phi fl i g). rewrite El by assumption. now apply Hl.
  - intros t Ft St1 (t' & E & V) i g Hi Hg. change (phi (fx_flux sol) i g) with (phi fl i g). rewrite El by assumption.
    apply (run_unique FxState (fx_shape m ng) (fx_next m ng ext) fx_same (fun s => phi (fx_flux s)) (ms_nreg m) ng v c Hc Hv Tot Con Again fx_refl fx_sym fx_trans it Sh St lim D Hl t t' Ft (fx_trans _ _ _ St1 (Sm 0)) (proj2 (next_step _ _ _ _ _) E) V i g Hi Hg).
  - intros n d Sn A i g Hi Hg. change (phi (fx_flux sol) i g) with (phi fl i g). rewrite El by assumption.
    apply (run_error FxState (fx_shape m ng) (fx_next m ng ext) fx_same (fun s => phi (fx_flux s)) (ms_nreg m) ng v c Hc Hv Con it Sh St lim D D0 Hl n d Sn A i g Hi Hg).
Qed.
End Whole.
Theorem C180_converge : forall m ng sct ext v c s, moc_problem m ng sct -> physical (ms_nreg m) ng sct (ms_xs m) -> open_bc m -> 1 <= ms_inner m -> ext_fits (ms_nreg m) ng ext -> (0 <= c < 1)%R -> dominated m ng sct v c -> fx_shape m ng s ->
  exists (it : nat -> FxState) sol D, it 0 = s /\ (forall n, fx_step m ng ext (it n) = Got (it (S n))) /\ fx_shape m ng sol /\ (forall n, fx_same sol (it (S n))) /\ solves m ng ext sol /\
    (forall n i g, i < ms_nreg m -> g < ng -> (Rabs (phi (fx_flux (it (S n))) i g - phi (fx_flux sol) i g) <= c ^ n * D * v g)%R) /\
    (forall t, fx_shape m ng t -> fx_same t sol -> solves m ng ext t -> forall i g, i < ms_nreg m -> g < ng -> phi (fx_flux t) i g = phi (fx_flux sol) i g).
Proof.
  intros m ng sct ext v c s P Ph Op Hn Ex Hc Dm F. destruct (fx_converge m ng sct ext v c P Ph Op Hn Ex Hc Dm s F) as (it & sol & D & A1 & A2 & A3 & A4 & A5 & A6 & A7 & A8 & _). exists it, sol, D. do 2 (split; [first [assumption|apply A2]|]). auto.
Qed.
Print Assumptions C180_converge.

(** The residual against the largest change. *)
Lemma resid_sum : forall a b, flux_residual a b = sqrt (lsum (fun p : R * R => (fst p - snd p) * (fst p - snd p))%R (combine a b)).
Proof.
  intros a b. unfold flux_residual. f_equal. assert (Q : forall a b s, fold_left (fun s p => (s + (fst p - snd p) * (fst p - snd p))%R) (combine a b) s = (s + lsum (fun p : R * R => (fst p - snd p) * (fst p - snd p)) (combine a b))%R).
  { clear. induction a as [|x a IH]; intros [|y b] s; cbn [combine fold_left lsum]; try lra. rewrite IH. cbn [fst snd]. lra. } rewrite Q. lra.
Qed.
Lemma sq_sum_in : forall (l : list (R * R)) p, In p l -> ((fst p - snd p) * (fst p - snd p) <= lsum (fun p : R * R => (fst p - snd p) * (fst p - snd p)) l)%R.
Proof.
  intros l p. induction l as [|q l IH]; intros I; [easy|]. cbn [lsum]. assert (0 <= lsum (fun p : R * R => (fst p - snd p) * (fst p - snd p)) l)%R by (apply HomProps.lsum_nonneg; intros; apply Rle_0_sqr). pose proof (Rle_0_sqr (fst q - snd q)) as Q. unfold Rsqr in Q. destruct I as [->|I]; [lra|]. specialize (IH I). lra.
Qed.
Lemma sq_sum_top : forall M (l : list (R * R)), (forall p, In p l -> (Rabs (fst p - snd p) <= M)%R) -> (lsum (fun p : R * R => (fst p - snd p) * (fst p - snd p)) l <= INR (length l) * (M * M))%R.
Proof.
  intros M l. induction l as [|q l IH]; intros H; [cbn; lra|]. cbn [lsum length]. rewrite S_INR. assert (A : (Rabs (fst q - snd q) <= M)%R) by (apply H; now left). assert (IH' := IH (fun p I => H p (or_intror I))).
  assert ((fst q - snd q) * (fst q - snd q) <= M * M)%R; [|lra]. pose proof (Rabs_pos (fst q - snd q)) as B. rewrite <- (Rabs_pos_eq ((fst q - snd q) * (fst q - snd q))) by apply Rle_0_sqr. rewrite Rabs_mult. now apply Rmult_le_compat.
Qed.
Lemma combine_app : forall {A B} (a1 a2 : list A) (b1 b2 : list B), length a1 = length b1 -> combine (a1 ++ a2) (b1 ++ b2) = combine a1 b1 ++ combine a2 b2.
Proof. intros A B. induction a1 as [|x a IH]; intros a2 [|y b] b2 L; try discriminate; [reflexivity|]. cbn. f_equal. apply IH. now injection L. Qed.
Lemma combine_at0 : forall (a b : list R) k, k < length a -> length a = length b -> In (at0 a k, at0 b k) (combine a b).
Proof. unfold at0. induction a as [|x a IH]; intros [|y b] k Hk L; cbn in *; try lia. destruct k as [|k]; [now left|]. right. apply IH; lia. Qed.
Lemma pairs_in : forall ng a b, length a = length b -> (forall row, In row a -> length row = ng) -> (forall row, In row b -> length row = ng) -> forall i g, i < length a -> g < ng -> In (phi a i g, phi b i g) (combine (concat a) (concat b)).
Proof.
  intros ng. induction a as [|x a IH]; intros [|y b] L Fa Fb i g Hi Hg; try discriminate; [cbn in Hi; lia|]. cbn [concat]. assert (Lx : length x = ng) by (apply Fa; now left). assert (Ly : length y = ng) by (apply Fb; now left).
  rewrite combine_app by congruence. apply in_or_app. destruct i as [|i]; [left; unfold phi; cbn [nth]; apply combine_at0; congruence|]. right. apply (IH b); [now injection L|intros; apply Fa; now right|intros; apply Fb; now right|cbn in Hi; lia|exact Hg].
Qed.
Lemma combine_ex : forall (a b : list R) p, length a = length b -> In p (combine a b) -> exists k, k < length a /\ p = (at0 a k, at0 b k).
Proof. unfold at0. induction a as [|x a IH]; intros [|y b] p L I; cbn in *; try easy. destruct I as [<-|I]; [exists 0; split; [lia|reflexivity]|]. destruct (IH b p ltac:(lia) I) as (k & Hk & ->). exists (S k). split; [lia|reflexivity]. Qed.
Lemma pairs_ex : forall ng a b, length a = length b -> (forall row, In row a -> length row = ng) -> (forall row, In row b -> length row = ng) -> forall p, In p (combine (concat a) (concat b)) -> exists i g, i < length a /\ g < ng /\ p = (phi a i g, phi b i g).
Proof.
  intros ng. induction a as [|x a IH]; intros [|y b] L Fa Fb p I; try discriminate; [easy|]. cbn [concat] in I. assert (Lx : length x = ng) by (apply Fa; now left). assert (Ly : length y = ng) by (apply Fb; now left). rewrite combine_app in I by congruence. apply in_app_or in I. destruct I as [I|I].
  - destruct (combine_ex x y p ltac:(congruence) I) as (k & Hk & ->). exists 0, k. split; [cbn; lia|]. split; [lia|reflexivity].
  - destruct (IH b ltac:(now injection L) (fun r Ir => Fa r (or_intror Ir)) (fun r Ir => Fb r (or_intror Ir)) p I) as (i & g & Hi & Hg & ->). exists (S i), g. split; [cbn; lia|]. split; [exact Hg|reflexivity].
Qed.
Lemma concat_len : forall ng (a : list (list R)), (forall row, In row a -> length row = ng) -> length (concat a) = length a * ng.
Proof. intros ng a. induction a as [|x a IH]; intros H; [reflexivity|]. cbn [concat length]. rewrite app_length, IH by (intros; apply H; now right). rewrite (H x) by now left. lia. Qed.
Lemma resid_change : forall nreg ng a b i g, flux_fits nreg ng a -> flux_fits nreg ng b -> i < nreg -> g < ng -> (Rabs (phi a i g - phi b i g) <= flux_residual (concat a) (concat b))%R.
Proof.
  intros nreg ng a b i g [La Fa] [Lb Fb] Hi Hg. rewrite resid_sum. rewrite <- (sqrt_Rsqr_abs (phi a i g - phi b i g)). apply sqrt_le_1_alt. unfold Rsqr. apply (sq_sum_in _ (phi a i g, phi b i g)). apply (pairs_in ng); auto; lia.
Qed.
Lemma resid_top : forall nreg ng a b M, flux_fits nreg ng a -> flux_fits nreg ng b -> (0 <= M)%R -> (forall i g, i < nreg -> g < ng -> (Rabs (phi a i g - phi b i g) <= M)%R) -> (flux_residual (concat a) (concat b) <= INR (nreg * ng) * M)%R.
Proof.
  intros nreg ng a b M [La Fa] [Lb Fb] HM H. rewrite resid_sum. set (N := nreg * ng). assert (K : length (combine (concat a) (concat b)) = N) by (rewrite combine_length, (concat_len ng a Fa), (concat_len ng b Fb), La, Lb; unfold N; lia).
  rewrite <- (sqrt_Rsqr (INR N * M)) by (apply Rmult_le_pos; [apply pos_INR|exact HM]). apply sqrt_le_1_alt. eapply Rle_trans; [apply (sq_sum_top M)|].
  - intros p I. destruct (pairs_ex ng a b ltac:(congruence) Fa Fb p I) as (i & g & Hi & Hg & ->). cbn [fst snd]. apply H; lia.
  - rewrite K. unfold Rsqr. assert (Q : (INR N <= INR N * INR N)%R) by (rewrite <- mult_INR; apply le_INR; destruct N; nia). replace (INR N * M * (INR N * M))%R with (INR N * INR N * (M * M))%R by ring. apply Rmult_le_compat_r; [now apply Rmult_le_pos|exact Q].
Qed.

(** The outer loop along a run. *)
Lemma loop_run : forall m ng ext tol (it : nat -> FxState), (forall n, fx_step m ng ext (it n) = Got (it (S n))) -> forall left k, exists n, fixed_loop FxState (fx_step m ng ext) (fx_small tol) left k (it k) = Got (it n, n) /\ k <= n <= k + left /\
  (left <> 0 -> k < n) /\ (n < k + left -> fx_small tol (it n) = true) /\ forall j, k < j < n -> fx_small tol (it j) = false.
Proof.
  intros m ng ext tol it H. induction left as [|l IH]; intros k; cbn [fixed_loop]; [exists k; split; [reflexivity|]; split; [lia|]; split; [lia|]; split; [lia|]; intros; lia|].
  rewrite H. replace (k + 1) with (S k) by lia. destruct (fx_small tol (it (S k))) eqn:E.
  - exists (S k). split; [reflexivity|]. split; [lia|]. split; [lia|]. split; [auto|]. intros; lia.
  - destruct (IH (S k)) as (n & E1 & B & _ & C & D). exists n. split; [exact E1|]. split; [lia|]. split; [lia|]. split; [intros; apply C; lia|]. intros j Hj. destruct (Nat.eq_dec j (S k)) as [->|N]; [exact E|apply D; lia].
Qed.
Lemma vtop : forall (v : nat -> R) ng, exists V, (0 <= V)%R /\ forall g, g < ng -> (v g <= V)%R.
Proof. intros v ng. induction ng as [|n (V & V0 & H)]; [exists 0%R; split; [lra|intros; lia]|]. exists (V + Rabs (v n))%R. pose proof (Rabs_pos (v n)). pose proof (Rle_abs (v n)). split; [lra|]. intros g Hg. destruct (Nat.eq_dec g n) as [->|N]; [lra|]. specialize (H g ltac:(lia)). lra. Qed.

(** C181: with enough iterations allowed, the calculation always ends because the residual is below the tolerance. *)
Theorem C181_stops : forall m ng sct ext v c tol s, moc_problem m ng sct -> physical (ms_nreg m) ng sct (ms_xs m) -> open_bc m -> 1 <= ms_inner m -> ext_fits (ms_nreg m) ng ext -> (0 <= c < 1)%R -> dominated m ng sct v c -> (0 < tol)%R -> fx_shape m ng s ->
  exists N, forall mx, N <= mx -> exists s' n, fx_solve m ng ext tol mx s = Got (s', n) /\ 1 <= n <= N /\ (fx_resid s' < tol)%R.
Proof.
  intros m ng sct ext v c tol s P Ph Op Hn Ex Hc Dm Ht F. destruct (fx_converge m ng sct ext v c P Ph Op Hn Ex Hc Dm s F) as (it & sol & D & I0 & St & _ & _ & _ & D0 & Hl & _). destruct (vtop v ng) as (V & V0 & HV). pose proof (proj1 Dm) as Hv.
  set (B := (INR (ms_nreg m * ng) * (2 * D * V))%R). assert (B0 : (0 <= B)%R) by (unfold B; apply Rmult_le_pos; [apply pos_INR|]; apply Rmult_le_pos; lra).
  destruct (pow_lt_1_zero c) with (y := (tol / (B + 1))%R) as (k & Hk); [rewrite Rabs_pos_eq; lra|apply Rdiv_lt_0_compat; lra|]. specialize (Hk k (le_n _)). pose proof (pow_le c k (proj1 Hc)) as C0. rewrite Rabs_pos_eq in Hk by exact C0.
  assert (Sm : fx_small tol (it (S (S k))) = true).
  { unfold fx_small. apply Rltb_true. unfold fx_resid. destruct (step_parts m ng ext _ _ (proj1 (St (S k)))) as [_ Eo]. rewrite Eo. apply Rle_lt_trans with (INR (ms_nreg m * ng) * (2 * (c ^ k * D * V)))%R.
    - apply resid_top; [apply (proj2 (St (S (S k))))|apply (proj2 (St (S k)))|assert (0 <= c ^ k * D * V)%R by (repeat apply Rmult_le_pos; assumption); lra|].
      intros i g Hi Hg. pose proof (Hl (S k) i g Hi Hg) as A1. pose proof (Hl k i g Hi Hg) as A2. unfold fx_flux in *. set (z := phi (mg_flux (snd (snd sol))) i g) in *. pose proof (Hv g Hg) as W. specialize (HV g Hg).
      assert (A3 : (c ^ k * D * v g <= c ^ k * D * V)%R) by (apply Rmult_le_compat_l; [now apply Rmult_le_pos|exact HV]). assert (A4 : (c ^ S k * D * v g <= c ^ k * D * v g)%R). { cbn [pow]. assert (0 <= c ^ k * D * v g)%R by (apply Rmult_le_pos; [now apply Rmult_le_pos|lra]). nra. }
      match goal with |- (Rabs (?a - ?b) <= _)%R => replace (a - b)%R with ((a - z) + - (b - z))%R by ring end. eapply Rle_trans; [apply Rabs_triang|]. rewrite Rabs_Ropp. lra.
    - replace (INR (ms_nreg m * ng) * (2 * (c ^ k * D * V)))%R with (c ^ k * B)%R by (unfold B; ring). apply Rle_lt_trans with (c ^ k * (B + 1))%R; [apply Rmult_le_compat_l; lra|]. replace tol with (tol / (B + 1) * (B + 1))%R by (field; lra). apply Rmult_lt_compat_r; lra. }
  exists (S (S k)). intros mx Hm. destruct (loop_run m ng ext tol it (fun n => proj1 (St n)) mx 0) as (n & E & Bn & Pos & Hs & Hj). rewrite I0 in E. exists (it n), n. split; [exact E|]. assert (N1 : 0 < n) by (apply Pos; lia).
  assert (N2 : n <= S (S k)). { destruct (le_lt_dec n (S (S k))) as [|Q]; [assumption|]. specialize (Hj (S (S k)) ltac:(lia)). congruence. }
  split; [lia|]. assert (Sn : fx_small tol (it n) = true). { destruct (Nat.eq_dec n (S (S k))) as [->|Q]; [exact Sm|]. apply Hs. lia. } unfold fx_small in Sn. destruct (Rltb_spec (fx_resid (it n)) tol) as [Z|Z]; [exact Z|discriminate].
Qed.
Print Assumptions C181_stops.

(** C181: and then the flux is within the tolerance times c/(1-c), and the ratio of the weights, of the solution. *)
Theorem C181_error : forall m ng sct ext v c tol vmin mx s s' n sol, moc_problem m ng sct -> physical (ms_nreg m) ng sct (ms_xs m) -> open_bc m -> 1 <= ms_inner m -> ext_fits (ms_nreg m) ng ext -> (0 <= c < 1)%R -> dominated m ng sct v c -> (0 < vmin)%R -> (forall g, g < ng -> (vmin <= v g)%R) -> fx_shape m ng s ->
  fx_solve m ng ext tol mx s = Got (s', n) -> (fx_resid s' < tol)%R -> 2 <= n \/ (n = 1 /\ fx_same s' s) -> fx_shape m ng sol -> fx_same sol s' -> solves m ng ext sol ->
  forall i g, i < ms_nreg m -> g < ng -> (Rabs (phi (fx_flux s') i g - phi (fx_flux sol) i g) <= c / (1 - c) * (tol / vmin) * v g)%R.
Proof.
  intros m ng sct ext v c tol vmin mx s s' n sol P Ph Op Hn Ex Hc Dm Hm0 Hm F E Hr Hn2 Fs Ss Sv i g Hi Hg. destruct (fx_converge m ng sct ext v c P Ph Op Hn Ex Hc Dm s F) as (it & so & D & I0 & St & Fso & Sso & _ & D0 & Hl & Un & Er).
  destruct (loop_run m ng ext tol it (fun n => proj1 (St n)) mx 0) as (n' & E' & _). rewrite I0 in E'. unfold fx_solve in E. rewrite E in E'. injection E' as -> ->. assert (N1 : 1 <= n') by (destruct Hn2 as [|[]]; lia). destruct n' as [|n]; [lia|].
  rewrite (Un sol Fs (fx_trans _ _ _ Ss (fx_sym _ _ (Sso n))) Sv i g Hi Hg). apply Er; auto.
  - destruct Hn2 as [H2|[H0 H1]]; [|injection H0 as ->; now rewrite I0]. destruct n as [|n]; [lia|]. apply (fx_trans _ so); [apply fx_sym, Sso|apply Sso].
  - intros j h Hj Hh. destruct (step_parts m ng ext _ _ (proj1 (St n))) as [_ Eo]. unfold fx_resid in Hr. rewrite Eo in Hr. pose proof (resid_change (ms_nreg m) ng _ _ j h (proj1 (proj2 (proj2 (St (S n))))) (proj1 (proj2 (proj2 (St n)))) Hj Hh) as A. unfold fx_flux in *.
    specialize (Hm h Hh). assert (0 <= tol)%R by (pose proof (Rabs_pos (phi (mg_flux (snd (snd (it (S n))))) j h - phi (mg_flux (snd (snd (it n)))) j h)); lra).
    apply Rle_trans with (tol / vmin * vmin)%R; [replace (tol / vmin * vmin)%R with tol by (field; lra); lra|]. apply Rmult_le_compat_l; [apply Rmult_le_pos; [assumption|left; now apply Rinv_0_lt_compat]|exact Hm].
Qed.
Print Assumptions C181_error.

(** C182.  Three fluxes, sources and states of which the third is the first plus [k] times the second. *)
Definition flux_lin (nreg ng : nat) (k : R) (f1 f2 f3 : list (list R)) : Prop := forall i g, i < nreg -> g < ng -> phi f3 i g = (phi f1 i g + k * phi f2 i g)%R.
Definition ext_lin (nreg ng : nat) (k : R) (e1 e2 e3 : option (list (list R))) : Prop := forall i g, i < nreg -> g < ng -> ext_at e3 i g = (ext_at e1 i g + k * ext_at e2 i g)%R.
Definition moc_lin (m : MocStatic) (ng : nat) (k : R) (s1 s2 s3 : MocState) : Prop := flux_lin (ms_nreg m) ng k (mg_flux s1) (mg_flux s2) (mg_flux s3) /\ LinB k (mg_bnd s1) (mg_bnd s2) (mg_bnd s3).
Definition fx_lin (m : MocStatic) (ng : nat) (k : R) (s1 s2 s3 : FxState) : Prop := moc_lin m ng k (snd (snd s1)) (snd (snd s2)) (snd (snd s3)).
Lemma lin_intro : forall k a b d, length a = length b -> length d = length b -> (forall i, i < length b -> at0 d i = (at0 a i + k * at0 b i)%R) -> Lin k a b d.
Proof.
  intros k. induction a as [|x a IH]; intros [|y b] [|z d] L1 L2 H; try discriminate; [constructor|]. pose proof (H 0 ltac:(cbn; lia)) as H0. unfold at0 in H0. cbn [nth] in H0. rewrite H0. constructor. apply IH; [now injection L1|now injection L2|]. intros i Hi. apply (H (S i)). cbn. lia.
Qed.
Lemma lin_planes_of : forall k m b1 b2 b3, LinB k b1 b2 b3 -> LinP k (planes_of m b1) (planes_of m b2) (planes_of m b3).
Proof.
  intros k m b1 b2 b3 H. unfold planes_of. revert H. generalize (ms_planes m) as pl. intros pl H. revert pl. induction H as [|i1 o1 i2 o2 i3 o3 b1 b2 b3 Hi Ho H IH]; intros [|[[f h] r] pl]; cbn; try constructor; auto.
Qed.
Section Linear.
Variables (m : MocStatic) (ng : nat) (sct : XReg -> nat -> nat -> R) (k : R).
Hypothesis P : moc_problem m ng sct.
Hypothesis Ph : physical (ms_nreg m) ng sct (ms_xs m).
Lemma inner_lin : forall g r1 r2 r3 s1 s2 s3 s1' s2' s3', g < ng -> length r1 = ms_nreg m -> length r2 = ms_nreg m -> length r3 = ms_nreg m -> moc_shape m ng s1 -> moc_shape m ng s2 -> moc_shape m ng s3 -> (forall i, i < ms_nreg m -> at0 r3 i = (at0 r1 i + k * at0 r2 i)%R) -> moc_lin m ng k s1 s2 s3 ->
  moc_inner m g r1 s1 = Some s1' -> moc_inner m g r2 s2 = Some s2' -> moc_inner m g r3 s3 = Some s3' -> moc_lin m ng k s1' s2' s3'.
Proof.
  intros g r1 r2 r3 s1 s2 s3 s1' s2' s3' Hg L1 L2 L3 F1 F2 F3 Hr [Hf Hb] E1 E2 E3. pose proof PI_RGT_0 as PP.
  destruct (inner_parts m ng sct P Ph g r1 s1 Hg L1 F1) as (q1 & f1 & b1 & t1 & K1 & Q1 & W1 & I1 & B1 & _ & O1). destruct (inner_parts m ng sct P Ph g r2 s2 Hg L2 F2) as (q2 & f2 & b2 & t2 & K2 & Q2 & W2 & I2 & B2 & _ & O2). destruct (inner_parts m ng sct P Ph g r3 s3 Hg L3 F3) as (q3 & f3 & b3 & t3 & K3 & Q3 & W3 & I3 & B3 & _ & O3).
  rewrite E1 in I1. injection I1 as <-. rewrite E2 in I2. injection I2 as <-. rewrite E3 in I3. injection I3 as <-.
  assert (Lq : Lin k q1 q2 q3). { apply lin_intro; try congruence. intros i Hi. rewrite K2 in Hi. destruct (reg_of m ng sct Ph i Hi) as (x & Ix & Ii). rewrite (Q1 x i Ix Ii), (Q2 x i Ix Ii), (Q3 x i Ix Ii), (Hr i Hi), (Hf i g Hi Hg). ring. }
  destruct (C170_superposition k (ms_in m) (ms_out m) g (ms_xstr m g) (ms_vol m) (ms_quad m) (ms_space m) (ms_gs m) (fun _ => q1) (fun _ => q2) (fun _ => q3) (ms_nt m) (ms_nreg m) _ _ _ f1 b1 f2 b2 (fun _ => Lq) (lin_planes_of k m _ _ _ Hb) W1 W2) as (f & b & E & Kf & Kb).
  unfold env_of in W3. rewrite E in W3. injection W3 as -> ->. split; [|now rewrite B1, B2, B3]. intros i h Hi Hh. rewrite (O1 i h Hi), (O2 i h Hi), (O3 i h Hi). destruct (h =? g); [now apply lin_at0|now apply Hf].
Qed.
Lemma inners_lin : forall g r1 r2 r3 n s1 s2 s3 s1' s2' s3', g < ng -> length r1 = ms_nreg m -> length r2 = ms_nreg m -> length r3 = ms_nreg m -> moc_shape m ng s1 -> moc_shape m ng s2 -> moc_shape m ng s3 -> (forall i, i < ms_nreg m -> at0 r3 i = (at0 r1 i + k * at0 r2 i)%R) -> moc_lin m ng k s1 s2 s3 ->
  moc_inners m g r1 n s1 = Some s1' -> moc_inners m g r2 n s2 = Some s2' -> moc_inners m g r3 n s3 = Some s3' -> moc_lin m ng k s1' s2' s3'.
Proof.
  intros g r1 r2 r3. induction n as [|n IH]; intros s1 s2 s3 s1' s2' s3' Hg L1 L2 L3 F1 F2 F3 Hr Hl E1 E2 E3; cbn [moc_inners] in *; [injection E1 as <-; injection E2 as <-; now injection E3 as <-|].
  destruct (inner_shape m ng sct P Ph g r1 s1 Hg L1 F1) as (t1 & T1 & G1 & _). destruct (inner_shape m ng sct P Ph g r2 s2 Hg L2 F2) as (t2 & T2 & G2 & _). destruct (inner_shape m ng sct P Ph g r3 s3 Hg L3 F3) as (t3 & T3 & G3 & _). rewrite T1 in E1. rewrite T2 in E2. rewrite T3 in E3.
  apply (IH t1 t2 t3 s1' s2' s3'); auto. exact (inner_lin g r1 r2 r3 s1 s2 s3 t1 t2 t3 Hg L1 L2 L3 F1 F2 F3 Hr Hl T1 T2 T3).
Qed.
Variables (e1 e2 e3 : option (list (list R))).
Hypothesis X1 : ext_fits (ms_nreg m) ng e1.
Hypothesis X2 : ext_fits (ms_nreg m) ng e2.
Hypothesis X3 : ext_fits (ms_nreg m) ng e3.
Hypothesis Xl : ext_lin (ms_nreg m) ng k e1 e2 e3.
Notation grps e := (fss_groups MocState mg_flux (moc_sweep m) (ms_xs m) (ms_nreg m) e None).
Lemma grps_lin : forall cnt ig a1 s1 a2 s2 a3 s3 a1' s1' a2' s2' a3' s3', ig + cnt <= ng -> length a1 = ms_nreg m -> length a2 = ms_nreg m -> length a3 = ms_nreg m -> moc_shape m ng s1 -> moc_shape m ng s2 -> moc_shape m ng s3 -> moc_lin m ng k s1 s2 s3 ->
  grps e1 ig cnt (a1, s1) = Some (a1', s1') -> grps e2 ig cnt (a2, s2) = Some (a2', s2') -> grps e3 ig cnt (a3, s3) = Some (a3', s3') -> moc_lin m ng k s1' s2' s3'.
Proof.
  induction cnt as [|n IH]; intros ig a1 s1 a2 s2 a3 s3 a1' s1' a2' s2' a3' s3' Hc L1 L2 L3 F1 F2 F3 Hl E1 E2 E3; cbn [fss_groups] in *; [injection E1 as <- <-; injection E2 as <- <-; now injection E3 as <- <-|]. assert (Hg : ig < ng) by lia.
  destruct (grp_ok m ng sct e1 P Ph X1 ig a1 s1 Hg L1 F1) as (u1 & w1 & G1 & K1 & S1 & I1 & _ & Q1). destruct (grp_ok m ng sct e2 P Ph X2 ig a2 s2 Hg L2 F2) as (u2 & w2 & G2 & K2 & S2 & I2 & _ & Q2). destruct (grp_ok m ng sct e3 P Ph X3 ig a3 s3 Hg L3 F3) as (u3 & w3 & G3 & K3 & S3 & I3 & _ & Q3).
  rewrite G1 in E1. rewrite G2 in E2. rewrite G3 in E3. apply (IH (S ig) u1 w1 u2 w2 u3 w3 a1' s1' a2' s2' a3' s3'); auto; [lia|]. apply (inners_lin ig u1 u2 u3 (ms_inner m) s1 s2 s3 w1 w2 w3); auto.
  intros i Hi. destruct (reg_of m ng sct Ph i Hi) as (x & Ix & Ii). rewrite (Q1 x i Ix Ii), (Q2 x i Ix Ii), (Q3 x i Ix Ii), (Xl i ig Hi Hg).
  rewrite (rsum_ext (fun h => if h =? ig then 0%R else (sct x ig h * phi (mg_flux s3) i h)%R) (fun h => ((if (h =? ig)%nat then 0 else sct x ig h * phi (mg_flux s1) i h) + k * (if (h =? ig)%nat then 0 else sct x ig h * phi (mg_flux s2) i h))%R)).
  - rewrite rsum_plus, rsum_scal. ring.
  - intros h Hh. destruct (h =? ig); [ring|]. rewrite (proj1 Hl i h Hi Hh). ring.
Qed.
Lemma step_lin : forall s1 s2 s3 s1' s2' s3', fx_shape m ng s1 -> fx_shape m ng s2 -> fx_shape m ng s3 -> fx_lin m ng k s1 s2 s3 -> fx_step m ng e1 s1 = Got s1' -> fx_step m ng e2 s2 = Got s2' -> fx_step m ng e3 s3 = Got s3' -> fx_lin m ng k s1' s2' s3'.
Proof.
  intros s1 s2 s3 s1' s2' s3' [A1 F1] [A2 F2] [A3 F3] Hl E1 E2 E3. destruct (step_parts _ _ _ _ _ E1) as [G1 _]. destruct (step_parts _ _ _ _ _ E2) as [G2 _]. destruct (step_parts _ _ _ _ _ E3) as [G3 _].
  destruct s1 as [o1 [a1 b1]], s2 as [o2 [a2 b2]], s3 as [o3 [a3 b3]], s1' as [p1 [c1 d1]], s2' as [p2 [c2 d2]], s3' as [p3 [c3 d3]]. cbn [fst snd] in *. exact (grps_lin ng 0 a1 b1 a2 b2 a3 b3 c1 d1 c2 d2 c3 d3 (le_n _) A1 A2 A3 F1 F2 F3 Hl G1 G2 G3).
Qed.
End Linear.

(** [n] outer iterations. *)
Fixpoint fx_steps (m : MocStatic) (ng : nat) (ext : option (list (list R))) (n : nat) (s : FxState) : Out FxState :=
  match n with O => Got s | S j => match fx_step m ng ext s with Got s' => fx_steps m ng ext j s' | o => o end end.
(** C182: after any number of outer iterations, with any boundary conditions, the flux of the sum of two sources from the sum of two starting
    points is the sum of the fluxes, the second ones times any number. *)
Theorem C182_superposition : forall m ng sct k e1 e2 e3 n s1 s2 s3, moc_problem m ng sct -> physical (ms_nreg m) ng sct (ms_xs m) -> ext_fits (ms_nreg m) ng e1 -> ext_fits (ms_nreg m) ng e2 -> ext_fits (ms_nreg m) ng e3 -> ext_lin (ms_nreg m) ng k e1 e2 e3 ->
  fx_shape m ng s1 -> fx_shape m ng s2 -> fx_shape m ng s3 -> fx_lin m ng k s1 s2 s3 ->
  exists t1 t2 t3, fx_steps m ng e1 n s1 = Got t1 /\ fx_steps m ng e2 n s2 = Got t2 /\ fx_steps m ng e3 n s3 = Got t3 /\ forall i g, i < ms_nreg m -> g < ng -> phi (fx_flux t3) i g = (phi (fx_flux t1) i g + k * phi (fx_flux t2) i g)%R.
Proof.
  intros m ng sct k e1 e2 e3 n s1 s2 s3 P Ph X1 X2 X3 Xl. revert s1 s2 s3. induction n as [|n IH]; intros s1 s2 s3 F1 F2 F3 Hl; cbn [fx_steps].
  - exists s1, s2, s3. do 3 (split; [reflexivity|]). exact (proj1 Hl).
  - destruct (step_total m ng sct e1 P Ph X1 s1 F1) as (t1 & E1 & G1 & _). destruct (step_total m ng sct e2 P Ph X2 s2 F2) as (t2 & E2 & G2 & _). destruct (step_total m ng sct e3 P Ph X3 s3 F3) as (t3 & E3 & G3 & _). rewrite E1, E2, E3. apply IH; auto.
    exact (step_lin m ng sct k P Ph e1 e2 e3 X1 X2 X3 Xl s1 s2 s3 t1 t2 t3 F1 F2 F3 Hl E1 E2 E3).
Qed.
Print Assumptions C182_superposition.

Lemma flux_ext : forall nreg ng a b, flux_fits nreg ng a -> flux_fits nreg ng b -> (forall i g, i < nreg -> g < ng -> phi a i g = phi b i g) -> a = b.
Proof.
  intros nreg ng a b [La Fa] [Lb Fb]. revert a b La Lb Fa Fb. induction nreg as [|n IH]; intros [|x a] [|y b] La Lb Fa Fb H; try discriminate; [reflexivity|]. f_equal.
  - assert (Lx : length x = ng) by (apply Fa; now left). assert (Ly : length y = ng) by (apply Fb; now left). apply list_at0; [congruence|]. intros g Hg. apply (H 0 g); lia.
  - apply IH; [now injection La|now injection Lb|intros; apply Fa; now right|intros; apply Fb; now right|]. intros i g Hi Hg. apply (H (S i) g); lia.
Qed.
Lemma flux_scaled : forall nreg ng k a b, flux_fits nreg ng a -> flux_fits nreg ng b -> (forall i g, i < nreg -> g < ng -> phi b i g = (k * phi a i g)%R) -> b = map (map (Rmult k)) a.
Proof.
  intros nreg ng k a b Fa Fb H. apply (flux_ext nreg ng); [exact Fb| |].
  - destruct Fa as [La Ra]. split; [now rewrite map_length|]. intros row I. apply in_map_iff in I. destruct I as (r & <- & Ir). rewrite map_length. now apply Ra.
  - intros i g Hi Hg. rewrite (H i g Hi Hg). destruct Fa as [La Ra]. unfold phi, at0. rewrite (nth_indep (map (map (Rmult k)) a) [] (map (Rmult k) [])) by (rewrite map_length; lia). rewrite (map_nth (map (Rmult k))). rewrite (nth_indep (map (Rmult k) (nth i a [])) 0%R (k * 0)%R); [now rewrite (map_nth (Rmult k))|]. rewrite map_length, (Ra (nth i a [])); [exact Hg|]. apply nth_In. lia.
Qed.
Lemma resid_scaled : forall k a b, (0 <= k)%R -> flux_residual (map (Rmult k) a) (map (Rmult k) b) = (k * flux_residual a b)%R.
Proof.
  intros k a b K. rewrite !resid_sum. assert (E : forall a b, lsum (fun p : R * R => (fst p - snd p) * (fst p - snd p))%R (combine (map (Rmult k) a) (map (Rmult k) b)) = (k * k * lsum (fun p : R * R => (fst p - snd p) * (fst p - snd p)) (combine a b))%R).
  { clear. induction a as [|x a IH]; intros [|y b]; cbn [map combine lsum fst snd]; try ring. rewrite IH. ring. }
  rewrite E, sqrt_mult_alt by (now apply Rmult_le_pos). rewrite sqrt_square by exact K. reflexivity.
Qed.
(** C182: with the source, the starting point and the tolerance times the same positive number, the calculation takes as many iterations and
    ends with the flux times that number. *)
Theorem C182_scale : forall m ng sct k ext ext' tol mx s s', moc_problem m ng sct -> physical (ms_nreg m) ng sct (ms_xs m) -> ext_fits (ms_nreg m) ng ext -> ext_fits (ms_nreg m) ng ext' -> (0 < k)%R -> (forall i g, i < ms_nreg m -> g < ng -> ext_at ext' i g = (k * ext_at ext i g)%R) ->
  fx_shape m ng s -> fx_shape m ng s' -> fx_lin m ng (k - 1) s s s' ->
  exists t t' n, fx_solve m ng ext tol mx s = Got (t, n) /\ fx_solve m ng ext' (k * tol) mx s' = Got (t', n) /\ forall i g, i < ms_nreg m -> g < ng -> phi (fx_flux t') i g = (k * phi (fx_flux t) i g)%R.
Proof.
  intros m ng sct k ext ext' tol mx s s' P Ph X X' K Xl. unfold fx_solve. generalize 0 as n0. revert s s'. induction mx as [|mx IH]; intros s s' n0 F F' Hl; cbn [fixed_loop].
  - exists s, s', n0. do 2 (split; [reflexivity|]). intros i g Hi Hg. unfold fx_flux. rewrite (proj1 Hl i g Hi Hg). ring.
  - destruct (step_total m ng sct ext P Ph X s F) as (t & E & G & Ot). destruct (step_total m ng sct ext' P Ph X' s' F') as (t' & E' & G' & Ot'). rewrite E, E'.
    assert (Xk : ext_lin (ms_nreg m) ng (k - 1) ext ext ext') by (intros i g Hi Hg; rewrite (Xl i g Hi Hg); ring). pose proof (step_lin m ng sct (k - 1) P Ph ext ext ext' X X X' Xk s s s' t t t' F F F' Hl E E E') as Hl'.
    assert (V : forall a b, fx_shape m ng a -> fx_shape m ng b -> fx_lin m ng (k - 1) a a b -> fx_flux b = map (map (Rmult k)) (fx_flux a)).
    { intros a b Fa Fb La. apply (flux_scaled (ms_nreg m) ng); [apply (proj2 Fa)|apply (proj2 Fb)|]. intros i g Hi Hg. unfold fx_flux. rewrite (proj1 La i g Hi Hg). ring. }
    assert (Rs : fx_resid t' = (k * fx_resid t)%R). { unfold fx_resid. rewrite Ot, Ot'. change (mg_flux (snd (snd t'))) with (fx_flux t'). change (mg_flux (snd (snd t))) with (fx_flux t). rewrite (V t t' G G' Hl'), (V s s' F F' Hl), <- !concat_map. apply resid_scaled. lra. }
    assert (Sm : fx_small (k * tol) t' = fx_small tol t). { unfold fx_small. rewrite Rs. destruct (Rltb_spec (fx_resid t) tol) as [Z|Z]; [apply Rltb_true; now apply Rmult_lt_compat_l|]. apply Rltb_false. apply Rmult_le_compat_l; lra. }
    rewrite Sm. destruct (fx_small tol t); [|exact (IH t t' (n0 + 1) G G' Hl')]. exists t, t', (n0 + 1). do 2 (split; [reflexivity|]). intros i g Hi Hg. unfold fx_flux. rewrite (proj1 Hl' i g Hi Hg). ring.
Qed.
Print Assumptions C182_scale.

(** C180: weights as asked for exist whenever nothing scatters to a group of smaller number and scattering within each group is less than
    [a] times the cross section, for every [c] larger than [a]: however strong the scattering down. *)
Lemma xs_top : forall (f t : XReg -> R) xs, (forall x, In x xs -> (0 < t x)%R) -> exists V, (0 < V)%R /\ forall x, In x xs -> (f x <= t x * V)%R.
Proof.
  intros f t xs. induction xs as [|x xs IH]; intros H; [exists 1%R; split; [lra|easy]|]. destruct IH as (V & V0 & HV); [intros; apply H; now right|]. assert (T : (0 < t x)%R) by (apply H; now left).
  exists (V + Rabs (f x) / t x)%R. assert (A : (0 <= Rabs (f x) / t x)%R) by (apply Rmult_le_pos; [apply Rabs_pos|left; now apply Rinv_0_lt_compat]). split; [lra|]. intros y [<-|I].
  - replace (t x * (V + Rabs (f x) / t x))%R with (t x * V + Rabs (f x))%R by (field; lra). pose proof (Rle_abs (f x)). assert (0 < t x * V)%R by (now apply Rmult_lt_0_compat). lra.
  - specialize (HV y I). specialize (H y (or_intror I)). assert (0 <= t y * (Rabs (f x) / t x))%R by (apply Rmult_le_pos; lra). lra.
Qed.
Theorem C180_downscatter : forall m ng sct a c, moc_problem m ng sct -> (a < c)%R -> (forall x g h, In x (ms_xs m) -> g < h < ng -> sct x g h = 0%R) -> (forall x g, In x (ms_xs m) -> g < ng -> (sct x g g <= a * at0 (xr_tr x) g)%R) -> exists v, dominated m ng sct v c.
Proof.
  intros m ng sct a c P Hac Up Slf.
  assert (W : forall n, n <= ng -> exists v : nat -> R, (forall g, g < n -> (0 < v g)%R) /\ forall x g, In x (ms_xs m) -> g < n -> (rsum (fun h => sct x g h * v h) g <= (c - a) * at0 (xr_tr x) g * v g)%R).
  { induction n as [|n IH]; intros Hn; [exists (fun _ => 1%R); split; intros; lia|]. destruct IH as (v & V0 & HV); [lia|].
    destruct (xs_top (fun x => rsum (fun h => sct x n h * v h)%R n) (fun x => (c - a) * at0 (xr_tr x) n)%R (ms_xs m)) as (V & VP & B); [intros x I; apply Rmult_lt_0_compat; [lra|apply (mp_tr m ng sct P x n I); lia]|].
    exists (fun h => if h =? n then V else v h). split.
    - intros g Hg. destruct (Nat.eqb_spec g n); [exact VP|apply V0; lia].
    - intros x g I Hg. rewrite (rsum_ext _ (fun h => (sct x g h * v h)%R)) by (intros h Hh; destruct (Nat.eqb_spec h n); [lia|reflexivity]). destruct (Nat.eqb_spec g n) as [->|N]; [now apply B|apply HV; [exact I|lia]]. }
  destruct (W ng (le_n _)) as (v & V0 & HV). exists v. split; [exact V0|]. intros x g I Hg. replace ng with (S g + (ng - S g)) by lia. rewrite rsum_app. rewrite (rsum_ext (fun i => (sct x g (S g + i)%nat * v (S g + i)%nat)%R) (fun _ => 0%R)) by (intros h Hh; rewrite (Up x g (S g + h) I ltac:(lia)); ring). rewrite rsum_zero, Rplus_0_r. cbn [rsum].
  specialize (HV x g I Hg). pose proof (Slf x g I Hg) as A. pose proof (V0 g Hg) as VG. assert (sct x g g * v g <= a * at0 (xr_tr x) g * v g)%R by (apply Rmult_le_compat_r; lra). lra.
Qed.
Print Assumptions C180_downscatter.

(** Two groups, two regions, scattering down, one external source. *)
Definition mf_sc : nat -> nat -> R := fun to from => match to, from with 0, 0 => 1 / 2 | 1, 0 => 1 / 4 | 1, 1 => 1 / 2 | _, _ => 0 end%R.
Definition mf_sm := mkSM 2 [1 / 2; 1 / 4; 1 / 2]%R [0 + 1 / 2 + 1 / 4; 0 + 1 / 2]%R [mkRow 0 0 0; mkRow 0 1 1].
Definition mf_x0 : XReg := mkXR [0] false [1; 1]%R [0; 0]%R [0; 0]%R [0; 0]%R [1 / 4; 1 / 2]%R mf_sm.
Definition mf_x1 : XReg := mkXR [1] false [2; 2]%R [0; 0]%R [0; 0]%R [0; 0]%R [5 / 4; 3 / 2]%R mf_sm.
Definition mf_bc : BC := mkBC 2 (repeat (mkSize 1 1 0) 4) (fun _ => VACUUM) 1 (repeat mx_a 4) [].
Definition mf_static (gs : bool) : MocStatic := mkMS mf_bc mf_bc (fun _ => [1; 2]%R) [1; 1]%R (repeat mx_a 4) [1; 1]%R gs 2 2 3 [mf_x0; mf_x1] [(0, 1%R, [mx_rays; mx_rays])].
Definition mf_start (u : R) : FxState := ([], ([0; 0]%R, mkMG [[u; u]; [u; u]]%R [0; 0]%R [(repeat 0%R 16, repeat 0%R 8)])).
Definition mf_ext (u : R) : option (list (list R)) := Some [[u; 0]; [0; u]]%R.
Lemma mf_problem : forall gs, moc_problem (mf_static gs) 2 (fun _ => mf_sc).
Proof.
  intros gs. destruct (mo_problem gs) as [A1 A2 A3 A4 A5 A6 A7 A8 A9 A10 A11 A12 A13 A14]. constructor.
  - destruct mx_bc_ok as [B1 B2 B3 B4]. constructor; [exact B1|exact B2|exact B3|exact B4].
  - reflexivity.
  - exact A3.
  - exact A4.
  - reflexivity.
  - reflexivity.
  - intros g Hg. split; [reflexivity|cbn; repeat constructor; lra].
  - exact A8.
  - exact A9.
  - exact A10.
  - intros x g [<-|[<-|[]]] Hg; destruct g as [|[|g]]; try lia; unfold at0; cbn; lra.
  - intros x g _ Hg. destruct g as [|[|g]]; try lia; unfold mf_sc; lra.
  - intros f h rays I. exact (A13 f h rays I).
  - intros g q i Hi. exact (A14 g q i Hi).
Qed.
Lemma mf_physical : physical 2 2 (fun _ => mf_sc) [mf_x0; mf_x1].
Proof.
  split; [split; [repeat constructor; cbn; intuition lia|cbn; intuition lia]|]. split.
  - intros x [<-|[<-|[]]]; (split; [unfold compress, band, mf_sc; cbn [first_bound last_bound map seq]; rewrite ?(Rltb_true 0 (1 / 2)), ?(Rltb_true 0 (1 / 4)), ?(Rltb_false 0 0) by lra; reflexivity|]; split; [intros i g Hi Hg _; destruct i as [|[|i]]; destruct g as [|[|g]]; try lia; unfold mf_sc; lra|]; repeat split; reflexivity).
  - split; [intros i Hi; cbn; lia|]. intros x g [<-|[<-|[]]] Hg; destruct g as [|[|g]]; try lia; unfold at0; cbn; lra.
Qed.
Lemma mf_shape : forall gs u, fx_shape (mf_static gs) 2 (mf_start u).
Proof.
  intros gs u. split; [reflexivity|]. split; [split; [reflexivity|intros row [<-|[<-|[]]]; reflexivity]|]. split; [reflexivity|]. split; [reflexivity|]. constructor; [split; reflexivity|constructor].
Qed.
Lemma mf_fits : forall u, ext_fits 2 2 (mf_ext u).
Proof. intros u [|[|i]] [|[|g]] Hi Hg; try lia; eexists; reflexivity. Qed.
Lemma mf_dominated : forall gs, dominated (mf_static gs) 2 (fun _ => mf_sc) (fun _ => 1%R) (3 / 4).
Proof. intros gs. split; [intros; lra|]. intros x g [<-|[<-|[]]] Hg; destruct g as [|[|g]]; try lia; unfold at0, mf_sc; cbn; lra. Qed.
Example C180_instance : forall gs, moc_problem (mf_static gs) 2 (fun _ => mf_sc) /\ physical 2 2 (fun _ => mf_sc) [mf_x0; mf_x1] /\ open_bc (mf_static gs) /\ ext_fits 2 2 (mf_ext 1) /\ dominated (mf_static gs) 2 (fun _ => mf_sc) (fun _ => 1%R) (3 / 4) /\ fx_shape (mf_static gs) 2 (mf_start 1) /\
  exists (it : nat -> FxState) sol D, it 0 = mf_start 1 /\ (forall n, fx_step (mf_static gs) 2 (mf_ext 1) (it n) = Got (it (S n))) /\ solves (mf_static gs) 2 (mf_ext 1) sol /\ forall n i g, i < 2 -> g < 2 -> (Rabs (phi (fx_flux (it (S n))) i g - phi (fx_flux sol) i g) <= (3 / 4) ^ n * D)%R.
Proof.
  intros gs. pose proof (mf_problem gs) as P. pose proof mf_physical as Ph. assert (Op : open_bc (mf_static gs)) by (intros s; left; reflexivity). pose proof (mf_fits 1) as Ex. pose proof (mf_dominated gs) as Dm. pose proof (mf_shape gs 1) as F.
  do 6 (split; [assumption|]). destruct (C180_converge (mf_static gs) 2 _ (mf_ext 1) _ (3 / 4) (mf_start 1) P Ph Op ltac:(cbn; lia) Ex ltac:(lra) Dm F) as (it & sol & D & H1 & H2 & _ & _ & H5 & H6 & _). exists it, sol, D. do 3 (split; [assumption|]). intros n i g Hi Hg. specialize (H6 n i g Hi Hg). cbv beta in H6. rewrite Rmult_1_r in H6. exact H6.
Qed.
Example C181_instance : forall gs, exists N, forall mx, N <= mx -> exists s' n, fx_solve (mf_static gs) 2 (mf_ext 1) (1 / 1000) mx (mf_start 1) = Got (s', n) /\ 1 <= n <= N /\ (fx_resid s' < 1 / 1000)%R.
Proof.
  intros gs. apply (C181_stops (mf_static gs) 2 (fun _ => mf_sc) (mf_ext 1) (fun _ => 1%R) (3 / 4) (1 / 1000) (mf_start 1) (mf_problem gs) mf_physical); try lra; [intros s; left; reflexivity|cbn; lia|apply mf_fits|apply mf_dominated|apply mf_shape].
Qed.
Lemma mf_settled : forall gs s', fx_step (mf_static gs) 2 (mf_ext 1) (mf_start 1) = Got s' -> fx_same s' (mf_start 1).
Proof.
  intros gs s' E. assert (Op : open_bc (mf_static gs)) by (intros s; left; reflexivity). destruct (grps_mask (mf_static gs) 2 (fun _ => mf_sc) (mf_ext 1) (mf_problem gs) mf_physical (mf_fits 1) Op 2 0 (le_n _)) as (z & H). destruct (step_parts _ _ _ _ _ E) as [G _]. destruct s' as [o [a b]]. cbn [snd] in G.
  destruct (mf_shape gs 1) as [L F]. destruct (H _ _ _ _ L F G) as [Lb Hm]. unfold fx_same, same_in. cbn [snd]. destruct (mg_bnd b) as [|d [|]]; try discriminate. cbn [map mf_start mg_bnd snd fst]. f_equal.
  destruct (Hm 0 (repeat 0%R 16, repeat 0%R 8) d eq_refl eq_refl) as [Ld Hd]. cbn [fst] in *. apply list_at0; [exact Ld|]. intros k Hk. rewrite Ld in Hk. rewrite Hd by exact Hk. unfold at0. destruct (z 0 k); [|reflexivity]. symmetry. clear. do 16 (destruct k as [|k]; [reflexivity|]). destruct k; reflexivity.
Qed.
Example C181_error_instance : forall gs, exists s' n sol, fx_solve (mf_static gs) 2 (mf_ext 1) (1 / 1000) n (mf_start 1) = Got (s', n) /\ solves (mf_static gs) 2 (mf_ext 1) sol /\ forall i g, i < 2 -> g < 2 -> (Rabs (phi (fx_flux s') i g - phi (fx_flux sol) i g) <= 3 / 1000)%R.
Proof.
  intros gs. destruct (C181_instance gs) as (N & H). assert (Op : open_bc (mf_static gs)) by (intros s; left; reflexivity).
  destruct (fx_converge (mf_static gs) 2 _ (mf_ext 1) _ (3 / 4) (mf_problem gs) mf_physical Op ltac:(cbn; lia) (mf_fits 1) ltac:(lra) (mf_dominated gs) (mf_start 1) (mf_shape gs 1)) as (it & sol & D & I0 & St & Fs & Ss & Sv & _).
  assert (Q : exists s' n, fx_solve (mf_static gs) 2 (mf_ext 1) (1 / 1000) n (mf_start 1) = Got (s', n) /\ 1 <= n /\ (fx_resid s' < 1 / 1000)%R /\ s' = it n).
  { destruct (H N (le_n _)) as (s' & n & E & Bn & Rn). destruct (loop_run _ _ _ (1 / 1000) it (fun n => proj1 (St n)) N 0) as (n' & E' & _ & _ & _ & Hj). rewrite I0 in E'. unfold fx_solve in E. rewrite E in E'. injection E' as -> <-.
    destruct (loop_run _ _ _ (1 / 1000) it (fun n => proj1 (St n)) n 0) as (p & E2 & Bp & Pp & Hp & _). rewrite I0 in E2. assert (p = n) as ->.
    { destruct (Nat.eq_dec p n) as [|Np]; [assumption|]. specialize (Hp ltac:(lia)). specialize (Hj p ltac:(lia)). congruence. }
    exists (it n), n. split; [exact E2|]. split; [lia|]. now split. }
  destruct Q as (s' & n & E & Bn & Rn & ->). exists (it n), n, sol. split; [exact E|]. split; [exact Sv|]. intros i g Hi Hg.
  pose proof (C181_error (mf_static gs) 2 _ (mf_ext 1) _ (3 / 4) (1 / 1000) 1 n (mf_start 1) (it n) n sol (mf_problem gs) mf_physical Op ltac:(cbn; lia) (mf_fits 1) ltac:(lra) (mf_dominated gs) ltac:(lra) ltac:(intros; cbn; lra) (mf_shape gs 1) E Rn) as B.
  destruct n as [|n]; [lia|]. replace (3 / 1000)%R with (3 / 4 / (1 - 3 / 4) * (1 / 1000 / 1) * 1)%R by field. apply B; auto. destruct n as [|n]; [right|left; lia]. split; [reflexivity|]. apply (mf_settled gs). pose proof (proj1 (St 0)) as E0. rewrite I0 in E0. exact E0.
Qed.
Example C182_instance : forall gs tol mx, exists t t' n, fx_solve (mf_static gs) 2 (mf_ext 1) tol mx (mf_start 1) = Got (t, n) /\ fx_solve (mf_static gs) 2 (mf_ext 3) (3 * tol) mx (mf_start 3) = Got (t', n) /\ forall i g, i < 2 -> g < 2 -> phi (fx_flux t') i g = (3 * phi (fx_flux t) i g)%R.
Proof.
  intros gs tol mx. apply (C182_scale (mf_static gs) 2 (fun _ => mf_sc) 3 (mf_ext 1) (mf_ext 3) tol mx (mf_start 1) (mf_start 3) (mf_problem gs) mf_physical (mf_fits 1) (mf_fits 3)); [lra| |apply mf_shape|apply mf_shape|].
  - intros [|[|i]] [|[|g]] Hi Hg; cbn in Hi; try lia; cbn; lra.
  - split; [intros [|[|i]] [|[|g]] Hi Hg; cbn in Hi; try lia; unfold phi, at0; cbn; lra|]. cbn [mf_start snd mg_bnd]. constructor; [| |constructor]; (apply lin_intro; [reflexivity|reflexivity|]; rewrite repeat_length; intros i Hi; unfold at0; do 16 (destruct i as [|i]; [cbn; lra|]); lia).
Qed.
