(** Lemmas for the tallies and records of a Monte Carlo eigenvalue calculation. *)
From Coq Require Import Reals ZArith List Bool Lia Lra Psatz Permutation.
From Verif Require Import RUtil ListUtil StdAlg MeshModel GeomModel AngModel PmModel ScatModel XsModel PartModel SolModel McModel McProofs TallyModel TallyProofs HistModel RngModel McEigModel.
Import ListNotations.
Local Open Scope R_scope.
Notation total := TallyProofs.total.

(** ** Specification: what a cycle scored *)
(** The total of [f] over the scores, and the weight of the particles started. *)
Definition scored (f : Ev -> R) (es : list MEv) : R := total (map (fun e => match e with Made x => f x | Begin _ => 0 end) es).
Definition weight_in (es : list MEv) : R := total (map (fun e => match e with Made _ => 0 | Begin w => w end) es).
(** Score per unit of starting weight. *)
Definition per_weight (f : Ev -> R) (c : Cycle) : R := scored f (cy_ev c) / weight_in (cy_ev c).
Definition k_track (e : Ev) : R := match e with TrackK v => v | _ => 0 end.
Definition k_collide (e : Ev) : R := match e with CollideK v => v | _ => 0 end.
Definition coarse_at (g i : nat) (e : Ev) : R := match e with Coarse g' i' v => if (g' =? g)%nat && (i' =? i)%nat then v else 0 | _ => 0 end.
Definition fine_at (g i : nat) (e : Ev) : R := match e with Fine g' i' v => if (g' =? g)%nat && (i' =? i)%nat then v else 0 | _ => 0 end.
Definition col_at (g i : nat) (e : Ev) : R := match e with FineCol g' i' v => if (g' =? g)%nat && (i' =? i)%nat then v else 0 | _ => 0 end.
Definition power_at (i : nat) (e : Ev) : R := match e with Power i' v => if (i' =? i)%nat then v else 0 | _ => 0 end.
(** Sites banked per particle started. *)
Definition yield (c : Cycle) : R := INR (cy_sites c) / INR (length (cy_src c)).

Lemma scored_cons : forall f e es, scored f (e :: es) = (match e with Made x => f x | Begin _ => 0 end) + scored f es.
Proof. reflexivity. Qed.
Lemma weight_cons : forall e es, weight_in (e :: es) = (match e with Made _ => 0 | Begin w => w end) + weight_in es.
Proof. reflexivity. Qed.

(** ** Scalar tallies over a cycle *)
Lemma group_score_len : forall l g i v l', group_score l g i v = Some l' -> length l' = length l.
Proof.
  intros l g i v l' H. unfold group_score in H. destruct (nth_error l g) as [t|]; [|discriminate]. destruct (tp_score t i v) as [t'|]; [|discriminate].
  revert g l' H. induction l as [|a l IH]; intros [|g] l' H; cbn in H; try discriminate; [injection H as <-; reflexivity|]. destruct (set_nth l g t') as [m|] eqn:E; [|discriminate]. injection H as <-. cbn. f_equal. exact (IH _ _ E).
Qed.
Lemma events_scalar : forall es p p', pu_events p es = Some p' ->
  ts_sum (pu_tl p') = ts_sum (pu_tl p) + scored k_track es /\ ts_w (pu_tl p') = ts_w (pu_tl p) + weight_in es /\
  ts_sum (pu_col p') = ts_sum (pu_col p) + scored k_collide es /\ ts_w (pu_col p') = ts_w (pu_col p) + weight_in es /\ pu_an p' = pu_an p.
Proof.
  induction es as [|e es IH]; intros p p' H; cbn [pu_events] in H.
  - injection H as <-. unfold scored, weight_in, total. cbn. repeat split; lra.
  - destruct (pu_event p e) as [q|] eqn:E; [|discriminate]. destruct (IH _ _ H) as (A & B & C & D & F). rewrite A, B, C, D, F, !scored_cons, !weight_cons. clear - E.
    destruct e as [w|[]]; cbn [pu_event] in E; try (injection E as <-; cbn; repeat split; lra).
    + destruct (tp_score (pu_pp p) pin v); [|discriminate]. injection E as <-. cbn. repeat split; lra.
    + destruct (group_score (pu_co p) g pin v); [|discriminate]. injection E as <-. cbn. repeat split; lra.
    + destruct (group_score (pu_fi p) g reg v); [|discriminate]. injection E as <-. cbn. repeat split; lra.
    + destruct (group_score (pu_fc p) g reg v); [|discriminate]. injection E as <-. cbn. repeat split; lra.
Qed.

(** ** Spatial tallies over a cycle *)
Definition sel_co (g : nat) (e : MEv) : list POp := match e with Begin w => [PWeight w] | Made (Coarse g' i v) => if (g' =? g)%nat then [PScore i v] else [] | _ => [] end.
Definition sel_fi (g : nat) (e : MEv) : list POp := match e with Begin w => [PWeight w] | Made (Fine g' i v) => if (g' =? g)%nat then [PScore i v] else [] | _ => [] end.
Definition sel_fc (g : nat) (e : MEv) : list POp := match e with Begin w => [PWeight w] | Made (FineCol g' i v) => if (g' =? g)%nat then [PScore i v] else [] | _ => [] end.
Definition sel_pp (e : MEv) : list POp := match e with Begin w => [PWeight w] | Made (Power i v) => [PScore i v] | _ => [] end.

Lemma set_nth_at : forall {A} (l : list A) k v l', set_nth l k v = Some l' -> forall j, nth_error l' j = if (k =? j)%nat then Some v else nth_error l j.
Proof.
  induction l as [|a l IH]; intros [|k] v l' H j; cbn in H; try discriminate.
  - injection H as <-. destruct j; reflexivity.
  - destruct (set_nth l k v) as [m|] eqn:E; [|discriminate]. injection H as <-. destruct j as [|j]; [reflexivity|]. cbn. exact (IH _ _ _ E j).
Qed.
Lemma group_score_at : forall l g i v l' j t, group_score l g i v = Some l' -> nth_error l j = Some t ->
  exists t', nth_error l' j = Some t' /\ (if (g =? j)%nat then tp_score t i v else Some t) = Some t'.
Proof.
  intros l g i v l' j t H Hj. unfold group_score in H. destruct (nth_error l g) as [u|] eqn:Eg; [|discriminate]. destruct (tp_score u i v) as [u'|] eqn:Es; [|discriminate]. rewrite (set_nth_at _ _ _ _ H j).
  destruct (Nat.eqb_spec g j) as [->|N]; [|exists t; auto]. rewrite Eg in Hj. injection Hj as ->. exists u'. auto.
Qed.
Lemma fold_tp_none : forall ops, fold_left tp_op ops None = None.
Proof. induction ops; cbn; auto. Qed.
Lemma events_co : forall es p p' g t, pu_events p es = Some p' -> nth_error (pu_co p) g = Some t ->
  exists t', nth_error (pu_co p') g = Some t' /\ fold_left tp_op (flat_map (sel_co g) es) (Some t) = Some t'.
Proof.
  induction es as [|e es IH]; intros p p' g t H Hg; cbn [pu_events] in H.
  - injection H as <-. exists t. auto.
  - destruct (pu_event p e) as [q|] eqn:E; [|discriminate]. cbn [flat_map]. rewrite fold_left_app.
    assert (K : exists t1, nth_error (pu_co q) g = Some t1 /\ fold_left tp_op (sel_co g e) (Some t) = Some t1).
    { destruct e as [w|[]]; cbn [pu_event] in E; cbn [sel_co]; try (injection E as <-; exists t; split; [exact Hg|reflexivity]).
      - injection E as <-. cbn [pu_co]. rewrite nth_error_map, Hg. eexists. split; reflexivity.
      - destruct (tp_score (pu_pp p) pin v); [|discriminate]. injection E as <-. exists t. auto.
      - destruct (group_score (pu_co p) g0 pin v) as [l|] eqn:G; [|discriminate]. injection E as <-. destruct (group_score_at _ _ _ _ _ _ _ G Hg) as (t1 & A & B). exists t1. split; [exact A|]. destruct (g0 =? g)%nat; [cbn; exact B|cbn; exact B].
      - destruct (group_score (pu_fi p) g0 reg v); [|discriminate]. injection E as <-. exists t. auto.
      - destruct (group_score (pu_fc p) g0 reg v); [|discriminate]. injection E as <-. exists t. auto. }
    destruct K as (t1 & A & B). rewrite B. exact (IH _ _ _ _ H A).
Qed.
Lemma events_fi : forall es p p' g t, pu_events p es = Some p' -> nth_error (pu_fi p) g = Some t ->
  exists t', nth_error (pu_fi p') g = Some t' /\ fold_left tp_op (flat_map (sel_fi g) es) (Some t) = Some t'.
Proof.
  induction es as [|e es IH]; intros p p' g t H Hg; cbn [pu_events] in H.
  - injection H as <-. exists t. auto.
  - destruct (pu_event p e) as [q|] eqn:E; [|discriminate]. cbn [flat_map]. rewrite fold_left_app.
    assert (K : exists t1, nth_error (pu_fi q) g = Some t1 /\ fold_left tp_op (sel_fi g e) (Some t) = Some t1).
    { destruct e as [w|[]]; cbn [pu_event] in E; cbn [sel_fi]; try (injection E as <-; exists t; split; [exact Hg|reflexivity]).
      - injection E as <-. cbn [pu_fi]. rewrite nth_error_map, Hg. eexists. split; reflexivity.
      - destruct (tp_score (pu_pp p) pin v); [|discriminate]. injection E as <-. exists t. auto.
      - destruct (group_score (pu_co p) g0 pin v); [|discriminate]. injection E as <-. exists t. auto.
      - destruct (group_score (pu_fi p) g0 reg v) as [l|] eqn:G; [|discriminate]. injection E as <-. destruct (group_score_at _ _ _ _ _ _ _ G Hg) as (t1 & A & B). exists t1. split; [exact A|]. destruct (g0 =? g)%nat; [cbn; exact B|cbn; exact B].
      - destruct (group_score (pu_fc p) g0 reg v); [|discriminate]. injection E as <-. exists t. auto. }
    destruct K as (t1 & A & B). rewrite B. exact (IH _ _ _ _ H A).
Qed.
Lemma events_fc : forall es p p' g t, pu_events p es = Some p' -> nth_error (pu_fc p) g = Some t ->
  exists t', nth_error (pu_fc p') g = Some t' /\ fold_left tp_op (flat_map (sel_fc g) es) (Some t) = Some t'.
Proof.
  induction es as [|e es IH]; intros p p' g t H Hg; cbn [pu_events] in H.
  - injection H as <-. exists t. auto.
  - destruct (pu_event p e) as [q|] eqn:E; [|discriminate]. cbn [flat_map]. rewrite fold_left_app.
    assert (K : exists t1, nth_error (pu_fc q) g = Some t1 /\ fold_left tp_op (sel_fc g e) (Some t) = Some t1).
    { destruct e as [w|[]]; cbn [pu_event] in E; cbn [sel_fc]; try (injection E as <-; exists t; split; [exact Hg|reflexivity]).
      - injection E as <-. cbn [pu_fc]. rewrite nth_error_map, Hg. eexists. split; reflexivity.
      - destruct (tp_score (pu_pp p) pin v); [|discriminate]. injection E as <-. exists t. auto.
      - destruct (group_score (pu_co p) g0 pin v); [|discriminate]. injection E as <-. exists t. auto.
      - destruct (group_score (pu_fi p) g0 reg v); [|discriminate]. injection E as <-. exists t. auto.
      - destruct (group_score (pu_fc p) g0 reg v) as [l|] eqn:G; [|discriminate]. injection E as <-. destruct (group_score_at _ _ _ _ _ _ _ G Hg) as (t1 & A & B). exists t1. split; [exact A|]. destruct (g0 =? g)%nat; [cbn; exact B|cbn; exact B]. }
    destruct K as (t1 & A & B). rewrite B. exact (IH _ _ _ _ H A).
Qed.
Lemma events_pp : forall es p p', pu_events p es = Some p' -> fold_left tp_op (flat_map sel_pp es) (Some (pu_pp p)) = Some (pu_pp p').
Proof.
  induction es as [|e es IH]; intros p p' H; cbn [pu_events] in H.
  - injection H as <-. reflexivity.
  - destruct (pu_event p e) as [q|] eqn:E; [|discriminate]. cbn [flat_map]. rewrite fold_left_app.
    assert (K : fold_left tp_op (sel_pp e) (Some (pu_pp p)) = Some (pu_pp q)).
    { destruct e as [w|[]]; cbn [pu_event] in E; cbn [sel_pp]; try (injection E as <-; reflexivity).
      - destruct (tp_score (pu_pp p) pin v) eqn:T; [|discriminate]. injection E as <-. cbn. exact T.
      - destruct (group_score (pu_co p) g pin v); [|discriminate]. injection E as <-. reflexivity.
      - destruct (group_score (pu_fi p) g reg v); [|discriminate]. injection E as <-. reflexivity.
      - destruct (group_score (pu_fc p) g reg v); [|discriminate]. injection E as <-. reflexivity. }
    rewrite K. exact (IH _ _ H).
Qed.
Lemma events_len : forall es p p', pu_events p es = Some p' -> length (pu_co p') = length (pu_co p) /\ length (pu_fi p') = length (pu_fi p) /\ length (pu_fc p') = length (pu_fc p).
Proof.
  induction es as [|e es IH]; intros p p' H; cbn [pu_events] in H.
  - injection H as <-. auto.
  - destruct (pu_event p e) as [q|] eqn:E; [|discriminate]. destruct (IH _ _ H) as (A & B & C). rewrite A, B, C. clear - E.
    destruct e as [w|[]]; cbn [pu_event] in E; try (injection E as <-; cbn; rewrite ?map_length; auto; fail).
    + destruct (tp_score (pu_pp p) pin v); [|discriminate]. injection E as <-. auto.
    + destruct (group_score (pu_co p) g pin v) eqn:G; [|discriminate]. injection E as <-. cbn. rewrite (group_score_len _ _ _ _ _ G). auto.
    + destruct (group_score (pu_fi p) g reg v) eqn:G; [|discriminate]. injection E as <-. cbn. rewrite (group_score_len _ _ _ _ _ G). auto.
    + destruct (group_score (pu_fc p) g reg v) eqn:G; [|discriminate]. injection E as <-. cbn. rewrite (group_score_len _ _ _ _ _ G). auto.
Qed.
(** Scores that were accepted were in range. *)
Lemma accepted : forall ops t t', fold_left tp_op ops (Some t) = Some t' -> Forall (in_range (length (tp_buf t))) ops.
Proof.
  induction ops as [|o ops IH]; intros t t' H; [constructor|]. cbn [fold_left] in H. destruct o as [i v|w]; cbn [tp_op] in H.
  - unfold tp_score in H. destruct (add_nth (tp_buf t) i v) as [b|] eqn:E; [|rewrite fold_tp_none in H; discriminate]. pose proof (add_nth_length _ _ _ _ E) as L. constructor.
    + cbn. destruct (Nat.lt_ge_cases i (length (tp_buf t))) as [|G]; [assumption|]. rewrite (add_nth_none _ _ _ G) in E. discriminate.
    + specialize (IH _ _ H). cbn in IH. rewrite L in IH. exact IH.
  - constructor; [exact I|]. exact (IH _ _ H).
Qed.
(** Groups and regions of the fine-mesh scores of a completed cycle are in range. *)
Definition fine_ok (ng nr : nat) (e : MEv) : Prop := match e with Made (Fine g r _) => (g < ng)%nat /\ (r < nr)%nat | Made (FineCol g r _) => (g < ng)%nat /\ (r < nr)%nat | _ => True end.
Lemma group_score_in : forall l g i v l', group_score l g i v = Some l' -> exists t, nth_error l g = Some t /\ (i < length (tp_buf t))%nat.
Proof.
  intros l g i v l' H. unfold group_score in H. destruct (nth_error l g) as [t|] eqn:E; [|discriminate]. exists t. split; [reflexivity|]. unfold tp_score in H. destruct (add_nth (tp_buf t) i v) as [b|] eqn:B; [|discriminate].
  destruct (Nat.lt_ge_cases i (length (tp_buf t))) as [|G]; [assumption|]. rewrite (add_nth_none _ _ _ G) in B. discriminate.
Qed.
Definition wide (n : nat) (l : list TSpatial) : Prop := Forall (fun t => length (tp_buf t) = n) l.
Lemma group_score_wide : forall n l g i v l', wide n l -> group_score l g i v = Some l' -> wide n l'.
Proof.
  intros n l g i v l' F H. unfold wide in *. apply Forall_forall. intros t I. apply In_nth_error in I. destruct I as [j I]. unfold group_score in H. destruct (nth_error l g) as [u|] eqn:Eg; [|discriminate]. destruct (tp_score u i v) as [u'|] eqn:Es; [|discriminate]. rewrite (set_nth_at _ _ _ _ H j) in I.
  rewrite Forall_forall in F. destruct (g =? j)%nat; [|exact (F _ (nth_error_In _ _ I))]. injection I as <-. unfold tp_score in Es. destruct (add_nth (tp_buf u) i v) as [b|] eqn:B; [|discriminate]. injection Es as <-. cbn. rewrite (add_nth_length _ _ _ _ B). exact (F _ (nth_error_In _ _ Eg)).
Qed.
Lemma events_ok : forall es p p' nr, pu_events p es = Some p' -> wide nr (pu_fi p) -> wide nr (pu_fc p) -> length (pu_fc p) = length (pu_fi p) -> Forall (fine_ok (length (pu_fi p)) nr) es.
Proof.
  induction es as [|e es IH]; intros p p' nr H Wi Wc L; [constructor|]. cbn [pu_events] in H. destruct (pu_event p e) as [q|] eqn:E; [|discriminate].
  assert (K : fine_ok (length (pu_fi p)) nr e /\ wide nr (pu_fi q) /\ wide nr (pu_fc q) /\ length (pu_fc q) = length (pu_fi p) /\ length (pu_fi q) = length (pu_fi p)).
  { clear H IH. unfold wide in *. destruct e as [w|[]]; cbn [pu_event] in E; cbn [fine_ok]; try (injection E as <-; cbn; auto; fail).
    - injection E as <-. cbn. rewrite !map_length. split; [exact I|]. split; [|split; [|auto]]; apply Forall_forall; intros t It; apply in_map_iff in It; destruct It as (u & <- & Iu); cbn; revert u Iu; apply Forall_forall; assumption.
    - destruct (tp_score (pu_pp p) pin v); [|discriminate]. injection E as <-. auto.
    - destruct (group_score (pu_co p) g pin v); [|discriminate]. injection E as <-. auto.
    - destruct (group_score (pu_fi p) g reg v) as [l|] eqn:G; [|discriminate]. injection E as <-. cbn. destruct (group_score_in _ _ _ _ _ G) as (t & T & B). rewrite (group_score_len _ _ _ _ _ G). split; [|split; [exact (group_score_wide _ _ _ _ _ _ Wi G)|auto]].
      split; [apply nth_error_Some; congruence|]. rewrite Forall_forall in Wi. rewrite <- (Wi t (nth_error_In _ _ T)). exact B.
    - destruct (group_score (pu_fc p) g reg v) as [l|] eqn:G; [|discriminate]. injection E as <-. cbn. destruct (group_score_in _ _ _ _ _ G) as (t & T & B). rewrite (group_score_len _ _ _ _ _ G). split; [|split; [exact Wi|split; [exact (group_score_wide _ _ _ _ _ _ Wc G)|auto]]].
      split; [rewrite <- L; apply nth_error_Some; congruence|]. rewrite Forall_forall in Wc. rewrite <- (Wc t (nth_error_In _ _ T)). exact B. }
  destruct K as (A & B & C & D & F). constructor; [exact A|]. rewrite <- F. apply (IH _ _ _ H B C). congruence.
Qed.

(** ** What a tally holds after some cycles *)
Record held (norm : list R) (vals : nat -> list R) (n : nat) (t : TSpatial) : Prop := mkHeld {
  hd_norm : tp_norm t = norm; hd_data : length (tp_data t) = length norm; hd_buf : length (tp_buf t) = length norm;
  hd_zero : forall i, nth i (tp_buf t) 0 = 0; hd_w : tp_w t = 0; hd_n : tp_n t = n;
  hd_at : forall i, (i < length norm)%nat -> nth_error (tp_data t) i = Some (total (vals i), total (map (fun x => x * x) (vals i))) }.
Lemma held_new : forall norm, held norm (fun _ => []) 0 (tp_new norm).
Proof.
  intros norm. constructor; cbn; rewrite ?map_length; auto; [intros; apply nth_map_zero|]. intros i Hi. rewrite nth_error_map. destruct (nth_error norm i) eqn:E; [reflexivity|]. apply nth_error_None in E. lia.
Qed.
Lemma held_reset : forall norm vals n t, held norm vals n t -> held norm (fun _ => []) 0 (tp_reset t).
Proof.
  intros norm vals n t [A B C D E F G]. constructor; cbn; rewrite ?map_length; auto; [intros; apply nth_map_zero|]. intros i Hi. rewrite nth_error_map. rewrite (G i Hi). reflexivity.
Qed.
Lemma total_snoc : forall l x, total (l ++ [x]) = total l + x.
Proof. intros. rewrite total_app. unfold total at 2. cbn. lra. Qed.
Lemma held_cycle : forall norm vals n t ops t', held norm vals n t -> fold_left tp_op ops (Some t) = Some t' -> held norm (fun i => vals i ++ [value_in i ops]) (S n) (tp_commit t').
Proof.
  intros norm vals n t ops t' [A B C D E F G] H. pose proof (accepted _ _ _ H) as Ac. destruct (tp_realization_ok ops t Ac) as (t1 & R1 & N1 & L1 & B1 & Z1 & W1 & C1 & D1); [congruence|exact D|exact E|].
  unfold tp_realization in R1. rewrite H in R1. injection R1 as R1. rewrite R1. clear R1. constructor.
  - congruence.
  - congruence.
  - congruence.
  - exact Z1.
  - exact W1.
  - congruence.
  - intros i Hi. rewrite (D1 i _ (G i Hi)). cbn [fst snd]. rewrite map_app, total_snoc. cbn [map]. rewrite total_snoc. reflexivity.
Qed.
Lemma combine_at : forall {A B} (l : list A) (m : list B) i a b, nth_error l i = Some a -> nth_error m i = Some b -> nth_error (combine l m) i = Some (a, b).
Proof. induction l as [|x l IH]; intros [|y m] [|i] a b H1 H2; cbn in *; try discriminate; [congruence|]. now apply IH. Qed.
Lemma held_get : forall norm vals n t i a, held norm vals n t -> nth_error norm i = Some a -> length (vals i) = n -> (0 < n)%nat ->
  exists sd, nth_error (tp_get t) i = Some (average (vals i) / a, sd) /\ ((2 <= n)%nat -> sd = sqrt (sample_variance (vals i) / a) / (average (vals i) / a)).
Proof.
  intros norm vals n t i a [A B C D E F G] Ha L Hn. assert (Hi : (i < length norm)%nat) by (apply nth_error_Some; congruence).
  unfold tp_get. rewrite nth_error_map, A, (combine_at _ _ _ _ _ Ha (G i Hi)). cbn [option_map fst snd]. rewrite F. unfold tp_get1. cbn [fst snd].
  eexists. split; [f_equal; f_equal; unfold average; rewrite L; unfold Rdiv; ring|].
  intro N2. unfold sample_variance. rewrite sq_dev_mean by lia. unfold average. rewrite L. assert (2 <= INR n) by (apply (le_INR 2); lia). f_equal.
  - f_equal. unfold Rdiv. rewrite Rmult_1_l, Rmult_minus_distr_r, Rinv_mult. ring.
  - unfold Rdiv; ring.
Qed.

(** The values of a tally are scores per weight. *)
Lemma sel_value : forall (sel : MEv -> list POp) (f : Ev -> R) i es,
  (forall e, total (map (op_score i) (sel e)) = match e with Made x => f x | Begin _ => 0 end) -> (forall e, total (map op_weight (sel e)) = match e with Made _ => 0 | Begin w => w end) ->
  value_in i (flat_map sel es) = scored f es / weight_in es.
Proof.
  intros sel f i es H1 H2. unfold value_in. f_equal; [|f_equal].
  - induction es as [|e es IH]; [reflexivity|]. cbn [flat_map]. rewrite map_app, total_app, IH, H1. reflexivity.
  - induction es as [|e es IH]; [reflexivity|]. cbn [flat_map]. rewrite map_app, total_app, IH, H2. reflexivity.
Qed.
Lemma value_co : forall g i es, value_in i (flat_map (sel_co g) es) = scored (coarse_at g i) es / weight_in es.
Proof. intros. apply sel_value; intros [w|[]]; cbn; unfold total; cbn; try lra; destruct (g0 =? g)%nat; cbn; try lra; destruct (pin =? i)%nat; lra. Qed.
Lemma value_fi : forall g i es, value_in i (flat_map (sel_fi g) es) = scored (fine_at g i) es / weight_in es.
Proof. intros. apply sel_value; intros [w|[]]; cbn; unfold total; cbn; try lra; destruct (g0 =? g)%nat; cbn; try lra; destruct (reg =? i)%nat; lra. Qed.
Lemma value_fc : forall g i es, value_in i (flat_map (sel_fc g) es) = scored (col_at g i) es / weight_in es.
Proof. intros. apply sel_value; intros [w|[]]; cbn; unfold total; cbn; try lra; destruct (g0 =? g)%nat; cbn; try lra; destruct (reg =? i)%nat; lra. Qed.
Lemma value_pp : forall i es, value_in i (flat_map sel_pp es) = scored (power_at i) es / weight_in es.
Proof. intros. apply sel_value; intros [w|[]]; cbn; unfold total; cbn; try lra; destruct (pin =? i)%nat; lra. Qed.

Lemma held_ext : forall norm v w n t, (forall i, v i = w i) -> held norm v n t -> held norm w n t.
Proof. intros norm v w n t H [A B C D E F G]. constructor; auto. intros i Hi. rewrite <- H. exact (G i Hi). Qed.

(** ** The pusher after some cycles *)
Record tallied (ng : nat) (cvol vol : list R) (cs : list Cycle) (p : Pusher) : Prop := mkTal {
  tl_co : length (pu_co p) = ng; tl_fi : length (pu_fi p) = ng; tl_fc : length (pu_fc p) = ng;
  tl_hco : forall g t, nth_error (pu_co p) g = Some t -> held cvol (fun i => map (per_weight (coarse_at g i)) cs) (length cs) t;
  tl_hfi : forall g t, nth_error (pu_fi p) g = Some t -> held vol (fun i => map (per_weight (fine_at g i)) cs) (length cs) t;
  tl_hfc : forall g t, nth_error (pu_fc p) g = Some t -> held vol (fun i => map (per_weight (col_at g i)) cs) (length cs) t;
  tl_hpp : held cvol (fun i => map (per_weight (power_at i)) cs) (length cs) (pu_pp p) }.
Definition fresh (p : Pusher) : Prop := pu_tl p = ts_new /\ pu_col p = ts_new /\ pu_an p = ts_new.

Lemma nth_error_repeat_inv : forall {A} (a : A) n i x, nth_error (repeat a n) i = Some x -> x = a.
Proof. induction n; intros [|i] x H; cbn in H; try discriminate; [congruence|exact (IHn _ _ H)]. Qed.
Lemma tallied_new : forall ng cvol vol, tallied ng cvol vol [] (pu_new ng cvol vol).
Proof.
  intros. constructor; cbn; rewrite ?repeat_length; auto; intros; try (rewrite (nth_error_repeat_inv _ _ _ _ H)); apply held_new.
Qed.
Lemma tallied_reset : forall ng cvol vol cs p, tallied ng cvol vol cs p -> tallied ng cvol vol [] (pu_reset true p).
Proof.
  intros ng cvol vol cs p [A B C D E F G]. constructor; cbn; rewrite ?map_length; auto.
  - intros g t H. rewrite nth_error_map in H. destruct (nth_error (pu_co p) g) as [u|] eqn:U; [|discriminate]. injection H as <-. exact (held_reset _ _ _ _ (D g u U)).
  - intros g t H. rewrite nth_error_map in H. destruct (nth_error (pu_fi p) g) as [u|] eqn:U; [|discriminate]. injection H as <-. exact (held_reset _ _ _ _ (E g u U)).
  - intros g t H. rewrite nth_error_map in H. destruct (nth_error (pu_fc p) g) as [u|] eqn:U; [|discriminate]. injection H as <-. exact (held_reset _ _ _ _ (F g u U)).
  - exact (held_reset _ _ _ _ G).
Qed.
Lemma tallied_keep : forall ng cvol vol cs p, tallied ng cvol vol cs p -> tallied ng cvol vol cs (pu_reset false p).
Proof. intros ng cvol vol cs p [A B C D E F G]. constructor; cbn; assumption. Qed.
Lemma fresh_reset : forall b p, fresh (pu_reset b p).
Proof. intros [] p; repeat split. Qed.
Lemma nth_back : forall {A} (l l' : list A) g t, length l' = length l -> nth_error l' g = Some t -> exists u, nth_error l g = Some u.
Proof. intros A l l' g t L H. destruct (nth_error l g) as [u|] eqn:E; [eauto|]. apply nth_error_None in E. assert (g < length l')%nat by (apply nth_error_Some; congruence). lia. Qed.

(** One cycle. *)
Lemma tallied_cycle : forall ng cvol vol cs p c p', tallied ng cvol vol cs p -> fresh p -> pu_simulate p c = Some p' ->
  tallied ng cvol vol (cs ++ [c]) p' /\ fst (ts_get (pu_tl p')) = per_weight k_track c /\ fst (ts_get (pu_col p')) = per_weight k_collide c /\ fst (ts_get (pu_an p')) = yield c /\ Forall (fine_ok ng (length vol)) (cy_ev c).
Proof.
  intros ng cvol vol cs p c p' [A B C D E F G] (N1 & N2 & N3) H. unfold pu_simulate in H. destruct (pu_events p (cy_ev c)) as [q|] eqn:Q; [|discriminate]. injection H as <-.
  destruct (events_scalar _ _ _ Q) as (S1 & S2 & S3 & S4 & S5). destruct (events_len _ _ _ Q) as (L1 & L2 & L3). rewrite N1 in S1, S2. rewrite N2 in S3, S4. rewrite N3 in S5. cbn [ts_new ts_sum ts_w] in *.
  assert (LS : length (cs ++ [c]) = S (length cs)) by (rewrite app_length; cbn; lia).
  split; [|split; [|split; [|split]]].
  - constructor; unfold pu_commit; cbn [pu_co pu_fi pu_fc pu_pp]; rewrite ?map_length; try congruence.
    + intros g t H. rewrite nth_error_map in H. destruct (nth_error (pu_co q) g) as [u|] eqn:U; [|discriminate]. injection H as <-. destruct (nth_back _ _ _ _ L1 U) as [v V]. destruct (events_co _ _ _ _ _ Q V) as (u' & U' & T). rewrite U in U'. injection U' as <-.
      rewrite LS. refine (held_ext _ _ _ _ _ _ (held_cycle _ _ _ _ _ _ (D g v V) T)). intro i. cbv beta. rewrite map_app. cbn [map]. rewrite value_co. reflexivity.
    + intros g t H. rewrite nth_error_map in H. destruct (nth_error (pu_fi q) g) as [u|] eqn:U; [|discriminate]. injection H as <-. destruct (nth_back _ _ _ _ L2 U) as [v V]. destruct (events_fi _ _ _ _ _ Q V) as (u' & U' & T). rewrite U in U'. injection U' as <-.
      rewrite LS. refine (held_ext _ _ _ _ _ _ (held_cycle _ _ _ _ _ _ (E g v V) T)). intro i. cbv beta. rewrite map_app. cbn [map]. rewrite value_fi. reflexivity.
    + intros g t H. rewrite nth_error_map in H. destruct (nth_error (pu_fc q) g) as [u|] eqn:U; [|discriminate]. injection H as <-. destruct (nth_back _ _ _ _ L3 U) as [v V]. destruct (events_fc _ _ _ _ _ Q V) as (u' & U' & T). rewrite U in U'. injection U' as <-.
      rewrite LS. refine (held_ext _ _ _ _ _ _ (held_cycle _ _ _ _ _ _ (F g v V) T)). intro i. cbv beta. rewrite map_app. cbn [map]. rewrite value_fc. reflexivity.
    + rewrite LS. refine (held_ext _ _ _ _ _ _ (held_cycle _ _ _ _ _ _ G (events_pp _ _ _ Q))). intro i. cbv beta. rewrite map_app. cbn [map]. rewrite value_pp. reflexivity.
  - cbn. rewrite S1, S2, !Rplus_0_l. reflexivity.
  - cbn. rewrite S3, S4, !Rplus_0_l. reflexivity.
  - cbn. rewrite S5. cbn. unfold yield. rewrite !Rplus_0_l. unfold Rdiv at 1. rewrite Rinv_1. ring.
  - rewrite <- B. apply (events_ok _ _ _ _ Q); [| |congruence]; apply Forall_forall; intros t I; apply In_nth_error in I; destruct I as [g I]; [exact (hd_buf _ _ _ _ (E g t I))|exact (hd_buf _ _ _ _ (F g t I))].
Qed.

(** ** The solver after some cycles *)
(** The mean and relative deviation of the mean of [l] as TallyScalar gives them. *)
Definition running (l : list R) : R * R := ts_get (fold_left (fun t x => ts_weight (ts_score t x) 1) l ts_new).
Definition prefixes (l : list R) : list (list R) := map (fun j => firstn (S j) l) (seq 0 (length l)).
Lemma prefixes_snoc : forall l x, prefixes (l ++ [x]) = prefixes l ++ [l ++ [x]].
Proof.
  intros l x. unfold prefixes. rewrite app_length. cbn [length]. rewrite Nat.add_1_r, seq_S, map_app. cbn [map plus]. f_equal.
  - apply map_ext_in. intros j I. apply in_seq in I. rewrite firstn_app. replace (S j - length l)%nat with 0%nat by lia. cbn [firstn]. now rewrite app_nil_r.
  - f_equal. rewrite firstn_all2; [reflexivity|]. rewrite app_length. cbn. lia.
Qed.
Record recorded (g : GMesh) (all act : list Cycle) (s : Solver) : Prop := mkRec {
  rc_ktl : so_ktl s = map (per_weight k_track) all; rc_kcol : so_kcol s = map (per_weight k_collide) all; rc_kan : so_kan s = map yield all;
  rc_h : map EOk (so_h s) = map (fun c => shannon_entropy g (cy_src c)) all;
  rc_tl : so_tl s = fold_left (fun t x => ts_weight (ts_score t x) 1) (map (per_weight k_track) act) ts_new;
  rc_col : so_col s = fold_left (fun t x => ts_weight (ts_score t x) 1) (map (per_weight k_collide) act) ts_new;
  rc_an : so_an s = fold_left (fun t x => ts_weight (ts_score t x) 1) (map yield act) ts_new;
  rc_mtl : so_mtl s = map running (prefixes (map (per_weight k_track) act)); rc_mcol : so_mcol s = map running (prefixes (map (per_weight k_collide) act));
  rc_man : so_man s = map running (prefixes (map yield act)) }.
Lemma recorded_new : forall g ng cvol vol, recorded g [] [] (so_new ng cvol vol).
Proof. intros. constructor; reflexivity. Qed.
Lemma recorded_clear : forall g all act s, recorded g all act s -> recorded g all act (so_clear s).
Proof. intros g all act s []. constructor; cbn; assumption. Qed.
Lemma fold_snoc : forall (l : list R) x, fold_left (fun t x => ts_weight (ts_score t x) 1) (l ++ [x]) ts_new = ts_weight (ts_score (fold_left (fun t x => ts_weight (ts_score t x) 1) l ts_new) x) 1.
Proof. intros. rewrite fold_left_app. reflexivity. Qed.
Lemma running_snoc : forall l x t, t = fold_left (fun t x => ts_weight (ts_score t x) 1) l ts_new -> map running (prefixes (l ++ [x])) = map running (prefixes l) ++ [ts_get (ts_weight (ts_score t x) 1)].
Proof. intros l x t ->. rewrite prefixes_snoc, map_app. cbn [map]. unfold running at 2. rewrite fold_snoc. reflexivity. Qed.

Lemma step_recorded : forall g ng cvol vol active s c s' all act tcs, so_step g active s c = SOk s' -> recorded g all act s -> tallied ng cvol vol tcs (so_pu s) -> fresh (so_pu s) ->
  recorded g (all ++ [c]) (if active then act ++ [c] else act) s' /\ tallied ng cvol vol (tcs ++ [c]) (so_pu s') /\ fresh (so_pu s') /\ Forall (fine_ok ng (length vol)) (cy_ev c).
Proof.
  intros g ng cvol vol active s c s' all act tcs H [A1 A2 A3 A4 A5 A6 A7 A8 A9 A10] T Fr. unfold so_step in H. destruct (pu_simulate (so_pu s) c) as [p|] eqn:P; [|discriminate]. destruct (tallied_cycle _ _ _ _ _ _ _ T Fr P) as (T' & K1 & K2 & K3 & FO).
  destruct (shannon_entropy g (cy_src c)) as [h| |] eqn:Eh; [|discriminate|discriminate]. cbv zeta in H. rewrite K1, K2, K3 in H.
  assert (HH : map EOk (so_h s ++ [h]) = map (fun c => shannon_entropy g (cy_src c)) (all ++ [c])) by (rewrite !map_app, A4; cbn [map]; rewrite Eh; reflexivity).
  destruct active; injection H as <-; cbn [so_pu]; (split; [|split; [exact (tallied_keep _ _ _ _ _ T')|split; [exact (fresh_reset false p)|exact FO]]]); constructor; cbn [so_ktl so_kcol so_kan so_h so_tl so_col so_an so_mtl so_mcol so_man]; try exact HH; try assumption; rewrite ?map_app; cbn [map]; try congruence; try (rewrite fold_snoc, <- ?A5, <- ?A6, <- ?A7; reflexivity).
  - rewrite (running_snoc _ _ _ A5), <- A8. reflexivity.
  - rewrite (running_snoc _ _ _ A6), <- A9. reflexivity.
  - rewrite (running_snoc _ _ _ A7), <- A10. reflexivity.
Qed.
Lemma steps_recorded : forall g ng cvol vol active cs s s' all act tcs, so_steps g active s cs = SOk s' -> recorded g all act s -> tallied ng cvol vol tcs (so_pu s) -> fresh (so_pu s) ->
  recorded g (all ++ cs) (if active then act ++ cs else act) s' /\ tallied ng cvol vol (tcs ++ cs) (so_pu s') /\ fresh (so_pu s') /\ Forall (fun c => Forall (fine_ok ng (length vol)) (cy_ev c)) cs.
Proof.
  intros g ng cvol vol active. induction cs as [|c cs IH]; intros s s' all act tcs H Rc T Fr; cbn [so_steps] in H.
  - injection H as <-. rewrite !app_nil_r. destruct active; auto.
  - destruct (so_step g active s c) as [s1| |] eqn:E; try discriminate. destruct (step_recorded _ _ _ _ _ _ _ _ _ _ _ E Rc T Fr) as (R1 & T1 & F1 & O1). destruct (IH _ _ _ _ _ H R1 T1 F1) as (R2 & T2 & F2 & O2).
    rewrite <- app_assoc in T2. cbn [app] in T2. split; [|auto]. destruct active; rewrite <- !app_assoc in R2; cbn [app] in R2; exact R2.
Qed.
