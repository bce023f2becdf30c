(** Lemmas for tallies and entropy. *)
From Coq Require Import ZArith List Lia Bool Permutation Reals Lra.
From Verif Require Import StdAlg StdAlgProofs RUtil MeshModel MeshSpec MeshProofs GeomModel McModel TallyModel.
Import ListNotations.
Open Scope R_scope.

(** ** Specification: sample statistics *)

Definition total (l : list R) : R := fold_right Rplus 0 l.
Definition average (l : list R) : R := total l / INR (length l).
Definition sample_variance (l : list R) : R :=
  total (map (fun x => (x - average l) * (x - average l)) l) / (INR (length l) - 1).

Lemma total_app : forall a b, total (a ++ b) = total a + total b.
Proof. unfold total. induction a; intros; cbn; [lra|]. rewrite IHa. lra. Qed.

Lemma total_perm : forall a b, Permutation a b -> total a = total b.
Proof. unfold total. induction 1; cbn in *; lra. Qed.

Lemma sq_dev : forall m l, total (map (fun x => (x - m) * (x - m)) l) =
  total (map (fun x => x * x) l) - 2 * m * total l + INR (length l) * (m * m).
Proof.
  intros m l. induction l as [|a l IH].
  - unfold total; cbn. lra.
  - cbn [map total fold_right length]. unfold total in IH. rewrite IH. rewrite S_INR.
    unfold total. ring.
Qed.

Lemma sq_dev_mean : forall l, (0 < length l)%nat ->
  total (map (fun x => (x - average l) * (x - average l)) l) =
  total (map (fun x => x * x) l) - total l * total l / INR (length l).
Proof.
  intros l H. rewrite sq_dev. unfold average.
  assert (INR (length l) <> 0) by (apply not_0_INR; lia). field. auto.
Qed.

(** ** Scalar tallies *)

Lemma ts_op_comm : forall t a b, ts_op (ts_op t a) b = ts_op (ts_op t b) a.
Proof. intros [] [] []; unfold ts_op, ts_score, ts_weight; cbn; f_equal; ring. Qed.

Lemma fold_comm_perm : forall {S A} (f : S -> A -> S), (forall s a b, f (f s a) b = f (f s b) a) ->
  forall l1 l2, Permutation l1 l2 -> forall s, fold_left f l1 s = fold_left f l2 s.
Proof.
  intros S A f C l1 l2 P. induction P; intros s; cbn; auto.
  - now rewrite C.
  - now rewrite IHP1.
Qed.

Lemma ts_run : forall xs t, fold_left (fun t x => ts_weight (ts_score t x) 1) xs t =
  mkTS (ts_sum t + total xs) (ts_sq t + total (map (fun x => x * x) xs)) (ts_w t + INR (length xs)).
Proof.
  induction xs as [|x xs IH]; intros t.
  - cbn. destruct t; cbn; f_equal; lra.
  - cbn [fold_left]. rewrite IH. unfold ts_weight, ts_score. cbn [ts_sum ts_sq ts_w].
    cbn [length map total fold_right]. rewrite S_INR. unfold total. f_equal; ring.
Qed.

Lemma ts_get_stats : forall xs, (2 <= length xs)%nat ->
  ts_get (fold_left (fun t x => ts_weight (ts_score t x) 1) xs ts_new) =
  (average xs, sqrt (sample_variance xs / INR (length xs)) / average xs).
Proof.
  intros xs H. rewrite ts_run. unfold ts_new, ts_get. cbn [ts_sum ts_sq ts_w].
  rewrite !Rplus_0_l. fold (average xs). f_equal. f_equal. f_equal.
  unfold sample_variance. rewrite sq_dev_mean by lia. unfold average.
  assert (2 <= INR (length xs)) by (apply (le_INR 2); lia). field. split; lra.
Qed.

(** ** Spatial tallies *)

Lemma add_nth_length : forall l i v l', add_nth l i v = Some l' -> length l' = length l.
Proof.
  induction l as [|a l IH]; intros i v l' H; destruct i; cbn in H; try discriminate.
  - injection H as <-. reflexivity.
  - destruct (add_nth l i v) eqn:E; [|discriminate]. injection H as <-. cbn. f_equal. eauto.
Qed.

Lemma add_nth_some : forall l i v, (i < length l)%nat -> exists l', add_nth l i v = Some l'.
Proof.
  induction l as [|a l IH]; intros i v H; cbn in *; [lia|]. destruct i; [eauto|].
  destruct (IH i v) as (l' & ->); [lia|eauto].
Qed.

Lemma add_nth_none : forall l i v, (length l <= i)%nat -> add_nth l i v = None.
Proof.
  induction l as [|a l IH]; intros i v H; cbn in *; [reflexivity|]. destruct i; [lia|].
  now rewrite IH by lia.
Qed.

Lemma add_nth_nth : forall l i v l', add_nth l i v = Some l' ->
  forall j, nth j l' 0 = nth j l 0 + (if Nat.eqb i j then v else 0).
Proof.
  induction l as [|a l IH]; intros i v l' H j; destruct i; cbn in H; try discriminate.
  - injection H as <-. destruct j; cbn; lra.
  - destruct (add_nth l i v) eqn:E; [|discriminate]. injection H as <-. destruct j; cbn; [lra|]. eauto.
Qed.

Lemma add_nth_comm : forall l i v j w,
  match add_nth l i v with Some l' => add_nth l' j w | None => None end =
  match add_nth l j w with Some l' => add_nth l' i v | None => None end.
Proof.
  induction l as [|a l IH]; intros i v j w; [destruct i, j; reflexivity|].
  destruct i, j; cbn.
  - f_equal. f_equal. ring.
  - destruct (add_nth l j w); reflexivity.
  - destruct (add_nth l i v); reflexivity.
  - specialize (IH i v j w). destruct (add_nth l i v), (add_nth l j w); cbn in *;
      try rewrite IH; try rewrite <- IH; reflexivity.
Qed.

Lemma tp_op_comm : forall t a b, tp_op (tp_op t a) b = tp_op (tp_op t b) a.
Proof.
  intros [t|] a b; [|reflexivity]. destruct t as [norm data buf w n]. destruct a as [i v|w1], b as [j u|w2];
    cbn; unfold tp_score, tp_add_weight; cbn.
  - pose proof (add_nth_comm buf i v j u) as H.
    destruct (add_nth buf i v), (add_nth buf j u); cbn in *; unfold tp_score; cbn; try rewrite H; try rewrite <- H; reflexivity.
  - destruct (add_nth buf i v); reflexivity.
  - destruct (add_nth buf j u); reflexivity.
  - do 2 f_equal. ring.
Qed.

(** What a realization contributes to region [i], and its weight. *)
Definition op_score (i : nat) (o : POp) : R := match o with PScore j v => if Nat.eqb j i then v else 0 | _ => 0 end.
Definition op_weight (o : POp) : R := match o with PWeight w => w | _ => 0 end.
Definition in_range (n : nat) (o : POp) : Prop := match o with PScore j _ => (j < n)%nat | _ => True end.
Definition value_in (i : nat) (ops : list POp) : R :=
  total (map (op_score i) ops) / total (map op_weight ops).

Lemma tp_ops : forall ops t, Forall (in_range (length (tp_buf t))) ops ->
  exists buf, fold_left tp_op ops (Some t) =
    Some (mkTP (tp_norm t) (tp_data t) buf (tp_w t + total (map op_weight ops)) (tp_n t)) /\
    length buf = length (tp_buf t) /\
    forall i, nth i buf 0 = nth i (tp_buf t) 0 + total (map (op_score i) ops).
Proof.
  induction ops as [|o ops IH]; intros t F.
  - exists (tp_buf t). cbn. rewrite Rplus_0_r. destruct t; repeat split; auto. intros; lra.
  - inversion F as [|? ? Fo F']; subst. destruct o as [j v|w]; cbn in Fo.
    + destruct (add_nth_some (tp_buf t) j v Fo) as (b & E).
      pose proof (add_nth_length _ _ _ _ E) as L. pose proof (add_nth_nth _ _ _ _ E) as N.
      destruct (IH (mkTP (tp_norm t) (tp_data t) b (tp_w t) (tp_n t))) as (buf & E2 & L2 & N2).
      { cbn. now rewrite L. }
      exists buf. cbn [fold_left]. unfold tp_op at 2, tp_score. rewrite E, E2. cbn [tp_norm tp_data tp_w tp_n tp_buf] in *.
      split; [|split].
      * do 2 f_equal. cbn. unfold total. cbn. lra.
      * congruence.
      * intros i. rewrite N2, N. cbn. unfold total. destruct (Nat.eqb_spec j i); lra.
    + destruct (IH (tp_add_weight t w) F') as (buf & E2 & L2 & N2).
      exists buf. cbn [fold_left]. unfold tp_op at 2. rewrite E2.
      unfold tp_add_weight in *. cbn [tp_norm tp_data tp_w tp_n tp_buf] in *.
      split; [|split]; auto.
      * do 2 f_equal. cbn. unfold total. lra.
      * intros i. rewrite N2. cbn. unfold total. lra.
Qed.

Lemma nth_map_zero : forall {A} (l : list A) i, nth i (map (fun _ => 0) l) 0 = 0.
Proof. induction l; intros [|i]; cbn; auto. Qed.

Lemma tp_realization_ok : forall ops t, Forall (in_range (length (tp_buf t))) ops ->
  length (tp_data t) = length (tp_buf t) -> (forall i, nth i (tp_buf t) 0 = 0) -> tp_w t = 0 ->
  exists t', tp_realization (Some t) ops = Some t' /\ tp_norm t' = tp_norm t /\
    length (tp_data t') = length (tp_data t) /\ length (tp_buf t') = length (tp_buf t) /\
    (forall i, nth i (tp_buf t') 0 = 0) /\ tp_w t' = 0 /\ tp_n t' = S (tp_n t) /\
    forall i d, nth_error (tp_data t) i = Some d ->
      nth_error (tp_data t') i = Some (fst d + value_in i ops, snd d + value_in i ops * value_in i ops).
Proof.
  intros ops t F L Z W. destruct (tp_ops ops t F) as (buf & E & Lb & Nb).
  unfold tp_realization. rewrite E. eexists. split; [reflexivity|]. unfold tp_commit. cbn.
  rewrite !map_length, combine_length, L, Lb, Nat.min_id. repeat split; auto.
  - intros; apply nth_map_zero.
  - intros i [f s] H.
    assert (Hi : (i < length buf)%nat).
    { rewrite Lb, <- L. apply nth_error_Some. congruence. }
    assert (Hb : nth_error buf i = Some (nth i buf 0)) by (apply nth_error_nth'; auto).
    assert (Hc : nth_error (combine (tp_data t) buf) i = Some ((f, s), nth i buf 0)).
    { clear - H Hb. generalize dependent (nth i buf 0). intros r. revert buf i H. generalize (tp_data t) as dl.
      induction dl as [|d dl IH]; intros buf i H Hb; destruct i, buf; cbn in *; try discriminate.
      - congruence.
      - now apply IH. }
    rewrite nth_error_map, Hc. cbn. rewrite Nb, Z, W, !Rplus_0_l.
    unfold value_in. do 2 f_equal; unfold Rdiv; ring.
Qed.

Lemma tp_run_ok : forall rs t, Forall (Forall (in_range (length (tp_buf t)))) rs ->
  length (tp_data t) = length (tp_buf t) -> (forall i, nth i (tp_buf t) 0 = 0) -> tp_w t = 0 ->
  exists t', fold_left tp_realization rs (Some t) = Some t' /\ tp_norm t' = tp_norm t /\
    length (tp_data t') = length (tp_data t) /\ tp_n t' = (tp_n t + length rs)%nat /\
    forall i d, nth_error (tp_data t) i = Some d ->
      nth_error (tp_data t') i = Some (fst d + total (map (value_in i) rs),
        snd d + total (map (fun x => x * x) (map (value_in i) rs))).
Proof.
  induction rs as [|ops rs IH]; intros t F L Z W.
  - exists t. cbn. repeat split; auto; try lia. intros i [f s] H. rewrite H. cbn. now rewrite !Rplus_0_r.
  - inversion F as [|? ? Fo F']; subst. cbn [fold_left].
    destruct (tp_realization_ok ops t Fo L Z W) as (t1 & E & N1 & L1 & B1 & Z1 & W1 & C1 & D1).
    rewrite E. destruct (IH t1) as (t' & E' & N' & L' & C' & D').
    { rewrite B1. exact F'. }
    { congruence. }
    { exact Z1. }
    { exact W1. }
    exists t'. split; [exact E'|]. split; [congruence|]. split; [congruence|]. split; [cbn; lia|].
    intros i d H. rewrite (D' i _ (D1 i d H)). cbn. unfold total. do 2 f_equal; ring.
Qed.

Lemma tp_get_stats : forall norm rs i a, Forall (Forall (in_range (length norm))) rs ->
  nth_error norm i = Some a -> (2 <= length rs)%nat ->
  exists t, fold_left tp_realization rs (Some (tp_new norm)) = Some t /\
    let vs := map (value_in i) rs in
    nth_error (tp_get t) i = Some (average vs / a, sqrt (sample_variance vs / a) / (average vs / a)).
Proof.
  intros norm rs i a F Ha Hn.
  destruct (tp_run_ok rs (tp_new norm)) as (t & E & N & L & C & D).
  - cbn. now rewrite map_length.
  - cbn. now rewrite !map_length.
  - intros; cbn; apply nth_map_zero.
  - reflexivity.
  - exists t. split; [exact E|]. cbn zeta. cbn in N, L, C, D.
    assert (Hd : nth_error (map (fun _ => (0, 0)) norm) i = Some (0, 0)).
    { rewrite nth_error_map, Ha. reflexivity. }
    specialize (D i _ Hd). cbn [fst snd] in D. rewrite !Rplus_0_l in D.
    unfold tp_get. rewrite nth_error_map.
    assert (Hc : nth_error (combine (tp_norm t) (tp_data t)) i =
      Some (a, (total (map (value_in i) rs), total (map (fun x => x * x) (map (value_in i) rs))))).
    { rewrite N. clear - Ha D. revert D.
      generalize (total (map (value_in i) rs), total (map (fun x => x * x) (map (value_in i) rs))) as p.
      revert norm i Ha. generalize (tp_data t) as dl. intros dl norm i Ha p. revert norm i Ha.
      induction dl as [|d dl IH]; intros norm j Ha D; destruct j, norm; cbn in *; try discriminate.
      - congruence.
      - now apply IH. }
    rewrite Hc. cbn [option_map fst snd]. unfold tp_get1. cbn [fst snd]. rewrite C.
    assert (2 <= INR (length rs)) by (apply (le_INR 2); lia).
    set (vs := map (value_in i) rs) in *.
    assert (Lv : length vs = length rs) by (unfold vs; apply map_length).
    unfold sample_variance. rewrite sq_dev_mean by lia. unfold average. rewrite Lv.
    f_equal. f_equal.
    + unfold Rdiv. ring.
    + f_equal.
      * f_equal. unfold Rdiv. rewrite Rmult_1_l, Rmult_minus_distr_r, Rinv_mult. ring.
      * unfold Rdiv; ring.
Qed.

(** ** Locating points *)

(** Strictly increasing mesh lines. *)
Definition increasing (l : list R) : Prop :=
  forall i j x y, (i < j)%nat -> nth_error l i = Some x -> nth_error l j = Some y -> x < y.

Lemma increasing_lb : forall l v, increasing l -> lb_partitioned R Rltb l v.
Proof.
  intros l v I i j x y Hij Hx Hy. unfold Rltb. destruct (Rlt_dec y v); [|discriminate]. intros _.
  destruct (Rlt_dec x v); auto. exfalso.
  destruct (Nat.eq_dec i j) as [->|N]; [rewrite Hx in Hy; injection Hy as ->; lra|].
  assert (x < y) by (eapply (I i j); eauto; lia). lra.
Qed.

Lemma lower_bound_cell : forall l v i a b, increasing l -> nth_error l i = Some a -> nth_error l (S i) = Some b ->
  a < v <= b -> lower_bound Rltb l v = Some (S i).
Proof.
  intros l v i a b I Ha Hb H.
  destruct (lower_bound_spec R Rltb l v (increasing_lb l v I)) as (k & E & Hk & Lo & Hi).
  rewrite E. f_equal.
  destruct (Nat.lt_trichotomy k (S i)) as [C|[C|C]]; auto.
  - specialize (Hi i a ltac:(lia) Ha). unfold Rltb in Hi. destruct (Rlt_dec a v); [discriminate|lra].
  - specialize (Lo (S i) b ltac:(lia) Hb). unfold Rltb in Lo. destruct (Rlt_dec b v); [lra|discriminate].
Qed.

(** ** Populations *)

Lemma total_cons : forall a l, total (a :: l) = a + total l.
Proof. reflexivity. Qed.

Lemma add_nth_total : forall l i v l', add_nth l i v = Some l' -> total l' = total l + v.
Proof.
  induction l as [|a l IH]; intros i v l' H; destruct i; cbn in H; try discriminate.
  - injection H as <-. rewrite !total_cons. lra.
  - destruct (add_nth l i v) eqn:E; [|discriminate]. injection H as <-.
    rewrite !total_cons, (IH _ _ _ E). lra.
Qed.

Lemma add_nth_nonneg : forall l i v l', 0 <= v -> add_nth l i v = Some l' -> Forall (Rle 0) l -> Forall (Rle 0) l'.
Proof.
  induction l as [|a l IH]; intros i v l' Hv H F; destruct i; cbn in H; try discriminate; inversion F; subst.
  - injection H as <-. constructor; [lra|auto].
  - destruct (add_nth l i v) eqn:E; [|discriminate]. injection H as <-. constructor; eauto.
Qed.

Lemma populate_spec : forall g sites pops pops', Forall (fun s => snd s = 1) sites -> Forall (Rle 0) pops ->
  populate g pops sites = POk pops' ->
  length pops' = length pops /\ total pops' = total pops + INR (length sites) /\ Forall (Rle 0) pops'.
Proof.
  induction sites as [|[p w] r IH]; intros pops pops' F N H; cbn [populate] in H.
  - injection H as <-. cbn. repeat split; auto; lra.
  - inversion F as [|? ? Fw F']; subst. cbn in Fw. subst w.
    destruct (cell_of_point g p) as [ic|]; [|discriminate].
    destruct ((ic <? 0)%Z || (n_pin (dims g) <? ic)%Z); [discriminate|].
    destruct (add_nth pops (Z.to_nat ic) 1) eqn:E; [|discriminate].
    destruct (IH _ _ F' (add_nth_nonneg pops _ 1 _ ltac:(lra) E N) H) as (L & T & N').
    rewrite (add_nth_length _ _ _ _ E) in L. rewrite (add_nth_total _ _ _ _ E) in T.
    repeat split; auto. cbn [length]. rewrite S_INR. lra.
Qed.

(** ** The entropy sum *)

Definition ent_term (n : nat) (p : R) : R := if Rltb 0 (p / INR n) then - (p / INR n * log2 (p / INR n)) else 0.

Lemma entropy_sum_total : forall n pops, entropy_sum n pops = total (map (ent_term n) pops).
Proof.
  intros n pops. unfold entropy_sum.
  assert (G : forall l h, fold_left (fun h p => let pj := p / INR n in if Rltb 0 pj then h - pj * log2 pj else h) l h =
    h + total (map (ent_term n) l)).
  { induction l as [|p l IH]; intros h; [unfold total; cbn; lra|].
    cbn [fold_left map]. rewrite IH, total_cons. unfold ent_term at 2. cbn zeta. rdec; lra. }
  rewrite G. lra.
Qed.

Lemma total_const_le : forall {A} (f g : A -> R) l, (forall x, In x l -> f x <= g x) -> total (map f l) <= total (map g l).
Proof.
  induction l as [|a l IH]; intros H; [unfold total; cbn; lra|]. cbn [map]. rewrite !total_cons.
  assert (f a <= g a) by (apply H; now left). assert (total (map f l) <= total (map g l)) by (apply IH; intros; apply H; now right).
  lra.
Qed.

Lemma total_lower : forall l, Forall (Rle 0) l -> 0 <= total l.
Proof. induction 1; [unfold total; cbn; lra|]. rewrite total_cons. lra. Qed.

Lemma in_le_total : forall l x, Forall (Rle 0) l -> In x l -> x <= total l.
Proof.
  induction l as [|a l IH]; intros x F I; [destruct I|]. inversion F; subst. rewrite total_cons.
  pose proof (total_lower l H2). destruct I as [->|I]; [lra|]. specialize (IH x H2 I). lra.
Qed.

Lemma ln_le_pred : forall x, 0 < x -> ln x <= x - 1.
Proof.
  intros x Hx. destruct (Req_dec x 1) as [->|N]; [rewrite ln_1; lra|].
  assert (ln x < x - 1); [|lra].
  rewrite <- (ln_exp (x - 1)). apply ln_increasing; auto.
  pose proof (exp_ineq1 (x - 1) ltac:(lra)). lra.
Qed.

Lemma ln2_pos : 0 < ln 2.
Proof. rewrite <- ln_1. apply ln_increasing; lra. Qed.

Lemma entropy_bounds : forall n N pops, (0 < n)%nat -> (0 < N)%nat -> length pops = N -> total pops = INR n ->
  Forall (Rle 0) pops -> 0 <= entropy_sum n pops <= log2 (INR N).
Proof.
  intros n N pops Hn HN L T F. rewrite entropy_sum_total.
  assert (Pn : 0 < INR n) by (apply lt_0_INR; auto). assert (PN : 0 < INR N) by (apply lt_0_INR; auto).
  pose proof ln2_pos as L2. split.
  - apply total_lower. apply Forall_forall. intros y I. apply in_map_iff in I. destruct I as (p & <- & I).
    unfold ent_term. rdec; [|lra]. unfold log2.
    assert (p <= INR n) by (rewrite <- T; now apply in_le_total).
    assert (Q : p / INR n <= 1).
    { apply Rmult_le_reg_r with (INR n); auto. unfold Rdiv. rewrite Rmult_assoc, Rinv_l; lra. }
    assert (ln (p / INR n) <= 0). { pose proof (ln_le_pred (p / INR n) r). lra. }
    set (q := p / INR n) in *.
    replace (- (q * (ln q / ln 2))) with (q * (- ln q) * / ln 2) by (unfold Rdiv; ring).
    apply Rmult_le_pos; [apply Rmult_le_pos; lra|]. left. now apply Rinv_0_lt_compat.
  - apply Rle_trans with (total (map (fun p => (/ INR N - p / INR n + p / INR n * ln (INR N)) / ln 2) pops)).
    + apply total_const_le. intros p I. unfold ent_term.
      assert (0 <= p) by (rewrite Forall_forall in F; now apply F).
      assert (0 < / INR N) by now apply Rinv_0_lt_compat.
      rdec.
      * unfold log2. set (q := p / INR n) in *.
        replace (- (q * (ln q / ln 2))) with ((- (q * ln q)) / ln 2) by (unfold Rdiv; ring).
        unfold Rdiv. apply Rmult_le_compat_r; [left; now apply Rinv_0_lt_compat|].
        assert (P1 : 0 < INR N * q) by now apply Rmult_lt_0_compat.
        pose proof (ln_le_pred (/ (INR N * q)) (Rinv_0_lt_compat _ P1)) as B.
        rewrite ln_Rinv in B by auto. rewrite ln_mult in B by auto.
        apply (Rmult_le_compat_l q) in B; [|lra].
        replace (q * (/ (INR N * q) - 1)) with (/ INR N - q) in B by (field; lra). lra.
      * assert (Q0 : 0 <= p / INR n). { apply Rmult_le_pos; auto. left. now apply Rinv_0_lt_compat. }
        assert (p / INR n = 0) by lra. rewrite H1. unfold Rdiv.
        apply Rmult_le_pos; [lra|]. left. now apply Rinv_0_lt_compat.
    + assert (G : forall l, total (map (fun p => (/ INR N - p / INR n + p / INR n * ln (INR N)) / ln 2) l) =
        (INR (length l) / INR N - total l / INR n + total l / INR n * ln (INR N)) / ln 2).
      { induction l as [|p l IH]; [unfold total; cbn; unfold Rdiv; ring|].
        cbn [map length]. rewrite !total_cons, IH, S_INR. unfold Rdiv. ring. }
      rewrite G, L, T. unfold log2. right. field. lra.
Qed.

Lemma cell_located : forall g p i j k x0 x1 y0 y1 z0 z1,
  increasing (xv g) -> increasing (yv g) -> increasing (zv g) ->
  nth_error (xv g) i = Some x0 -> nth_error (xv g) (S i) = Some x1 -> x0 < p3x p <= x1 ->
  nth_error (yv g) j = Some y0 -> nth_error (yv g) (S j) = Some y1 -> y0 < p3y p <= y1 ->
  nth_error (zv g) k = Some z0 -> nth_error (zv g) (S k) = Some z1 -> z0 < p3z p <= z1 ->
  cell_of_point g p = Some (coarse_cell (dims g) {| px := Z.of_nat i; py := Z.of_nat j; pz := Z.of_nat k |}).
Proof.
  intros. unfold cell_of_point.
  rewrite (lower_bound_cell (xv g) (p3x p) i x0 x1), (lower_bound_cell (yv g) (p3y p) j y0 y1),
    (lower_bound_cell (zv g) (p3z p) k z0 z1) by auto.
  do 2 f_equal. f_equal; lia.
Qed.

(** A point inside the domain (lower faces excluded). *)
Definition inside (g : GMesh) (p : Point3) : Prop :=
  exists i j k x0 x1 y0 y1 z0 z1,
  nth_error (xv g) i = Some x0 /\ nth_error (xv g) (S i) = Some x1 /\ x0 < p3x p <= x1 /\
  nth_error (yv g) j = Some y0 /\ nth_error (yv g) (S j) = Some y1 /\ y0 < p3y p <= y1 /\
  nth_error (zv g) k = Some z0 /\ nth_error (zv g) (S k) = Some z1 /\ z0 < p3z p <= z1.

Lemma populate_inside : forall g sites pops, increasing (xv g) -> increasing (yv g) -> increasing (zv g) ->
  Forall (fun s => inside g (fst s)) sites -> length pops = Z.to_nat (n_pin (dims g)) ->
  exists pops', populate g pops sites = POk pops'.
Proof.
  induction sites as [|[p w] r IH]; intros pops Ix Iy Iz F L; [eexists; reflexivity|].
  inversion F as [|? ? Fp F']; subst. cbn [fst] in Fp.
  destruct Fp as (i & j & k & x0 & x1 & y0 & y1 & z0 & z1 & A1 & A2 & A3 & B1 & B2 & B3 & C1 & C2 & C3).
  cbn [populate]. rewrite (cell_located g p i j k x0 x1 y0 y1 z0 z1) by auto.
  set (q := {| px := Z.of_nat i; py := Z.of_nat j; pz := Z.of_nat k |}).
  assert (IM : MeshSpec.in_mesh (dims g) q).
  { assert (S i < length (xv g))%nat by (apply nth_error_Some; congruence).
    assert (S j < length (yv g))%nat by (apply nth_error_Some; congruence).
    assert (S k < length (zv g))%nat by (apply nth_error_Some; congruence).
    unfold MeshSpec.in_mesh, dims, q; cbn. lia. }
  pose proof (MeshProofs.coarse_cell_bounds _ _ IM) as B.
  destruct (Z.ltb_spec (coarse_cell (dims g) q) 0); [lia|].
  destruct (Z.ltb_spec (n_pin (dims g)) (coarse_cell (dims g) q)); [lia|]. cbn [orb].
  destruct (add_nth_some pops (Z.to_nat (coarse_cell (dims g) q)) w) as (l' & E); [lia|]. rewrite E.
  apply IH; auto. rewrite <- L. eapply add_nth_length; eauto.
Qed.

Lemma total_repeat0 : forall n, total (repeat 0 n) = 0.
Proof. induction n; [reflexivity|]. cbn [repeat]. rewrite total_cons. lra. Qed.

Lemma shannon_bounds : forall g sites h, sites <> [] -> (0 < n_pin (dims g))%Z ->
  Forall (fun s => snd s = 1) sites -> shannon_entropy g sites = EOk h -> 0 <= h <= log2 (IZR (n_pin (dims g))).
Proof.
  intros g sites h Hne Hn F H. unfold shannon_entropy in H.
  destruct (populate g (repeat 0 (Z.to_nat (n_pin (dims g)))) sites) as [pops| |] eqn:E; try discriminate.
  injection H as <-.
  assert (F0 : Forall (Rle 0) (repeat 0 (Z.to_nat (n_pin (dims g))))).
  { apply Forall_forall. intros x I. apply repeat_spec in I. lra. }
  destruct (populate_spec _ _ _ _ F F0 E) as (L & T & N). rewrite total_repeat0, Rplus_0_l in T.
  rewrite repeat_length in L.
  rewrite <- (Z2Nat.id (n_pin (dims g))) by lia. rewrite <- INR_IZR_INZ.
  apply entropy_bounds; auto; try lia. destruct sites; [congruence|cbn; lia].
Qed.

Lemma add_opt_comm_populate : forall g sites1 sites2, Permutation sites1 sites2 ->
  forall pops h, populate g pops sites1 = POk h -> populate g pops sites2 = POk h.
Proof.
  intros g l1 l2 P. induction P as [|[p w] l1 l2 P IH|[p w] [p' w'] l|l1 l2 l3 P1 IH1 P2 IH2]; intros pops h H; auto.
  - cbn [populate] in *. destruct (cell_of_point g p); [|discriminate].
    destruct ((_ <? _)%Z || _); [discriminate|]. destruct (add_nth pops _ w); [|discriminate]. auto.
  - cbn [populate] in *.
    destruct (cell_of_point g p') as [c'|]; [|discriminate].
    destruct ((c' <? 0)%Z || (n_pin (dims g) <? c')%Z); [discriminate|].
    destruct (add_nth pops (Z.to_nat c') w') as [q|] eqn:E; [|discriminate].
    destruct (cell_of_point g p) as [c|]; [|discriminate].
    destruct ((c <? 0)%Z || (n_pin (dims g) <? c)%Z); [discriminate|].
    pose proof (add_nth_comm pops (Z.to_nat c') w' (Z.to_nat c) w) as C. rewrite E in C.
    destruct (add_nth q (Z.to_nat c) w) eqn:E2; [|discriminate].
    destruct (add_nth pops (Z.to_nat c) w); [|discriminate]. now rewrite <- C.
Qed.
