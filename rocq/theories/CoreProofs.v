(** Lemmas about the pin, lattice and plane model. *)
From Coq Require Import List Lia Bool Reals Lra ZArith Arith.
From Verif Require Import RUtil McModel McProofs ListUtil StdAlg StdAlgProofs MatModel CoreModel BcProofs.
Import ListNotations.
Open Scope nat_scope.

(* ------------------------------------------------------------ fuzzy comparison *)
Lemma FUZZ_pos : (0 < REAL_FUZZ < / 1000)%R.
Proof.
  unfold REAL_FUZZ. assert (2 ^ 52 = 4503599627370496)%R as -> by (simpl; lra). lra.
Qed.

Lemma fuzzy_lt_iff : forall l r, fuzzy_lt l r = true <-> (l < r - REAL_FUZZ * Rabs r)%R.
Proof.
  intros l r. unfold fuzzy_lt. destruct (Reqb_spec r 0) as [->|N].
  - rewrite Rabs_R0. destruct (Rltb_spec l 0); split; intros; try lra; try discriminate.
  - assert (0 < Rabs r)%R as P by now apply Rabs_pos_lt.
    assert (E : ((l - r) / Rabs r < - REAL_FUZZ)%R <-> (l < r - REAL_FUZZ * Rabs r)%R).
    { split; intros H.
      - apply (Rmult_lt_compat_r (Rabs r)) in H; [|exact P]. unfold Rdiv in H. rewrite Rmult_assoc, Rinv_l in H by lra. lra.
      - apply (Rmult_lt_reg_r (Rabs r)); [exact P|]. unfold Rdiv. rewrite Rmult_assoc, Rinv_l by lra. lra. }
    destruct (Rltb_spec ((l - r) / Rabs r) (- REAL_FUZZ)); split; intros; try discriminate; tauto.
Qed.
Lemma fuzzy_lt_false : forall l r, fuzzy_lt l r = false <-> (r - REAL_FUZZ * Rabs r <= l)%R.
Proof.
  intros l r. pose proof (fuzzy_lt_iff l r) as H. destruct (fuzzy_lt l r); split; intros E; try congruence.
  - destruct H as [H _]. specialize (H eq_refl). lra.
  - destruct (Rle_dec (r - REAL_FUZZ * Rabs r) l) as [|N]; auto. destruct H as [_ H]. exfalso. assert (false = true) by (apply H; lra). discriminate.
Qed.

(** Coordinates in increasing order. *)
Definition increasing (l : list R) : Prop :=
  forall i j a b, i < j -> nth_error l i = Some a -> nth_error l j = Some b -> (a < b)%R.

Lemma increasing_le : forall l i j a b, increasing l -> i <= j -> nth_error l i = Some a -> nth_error l j = Some b -> (a <= b)%R.
Proof.
  intros l i j a b H L A B. destruct (Nat.eq_dec i j) as [->|N].
  - assert (a = b) by congruence. lra.
  - left. apply (H i j); auto. lia.
Qed.

Lemma fuzzy_partitioned : forall l v, increasing l -> lb_partitioned R fuzzy_lt l v.
Proof.
  intros l v H i j x y L X Y F. apply fuzzy_lt_iff in F. apply fuzzy_lt_iff.
  pose proof (increasing_le l i j x y H L X Y). lra.
Qed.

Lemma u32_small : forall z, (0 <= z < 2 ^ 32)%Z -> u32 z = z.
Proof. intros z H. unfold u32. now apply Z.mod_small. Qed.
Lemma u32_m1 : u32 (-1) = (2 ^ 32 - 1)%Z.
Proof. reflexivity. Qed.

(** What [locate] computes, in terms of the number [lb] of interfaces below the point. *)
Lemma locate_char : forall equiv edges n v pos en, length edges = n + 1 -> 1 <= n -> (Z.of_nat n < 2 ^ 32 - 1)%Z -> increasing edges ->
  nth_error edges n = Some en -> (v - REAL_FUZZ * Rabs v <= en)%R ->
  exists lb e, lb <= n /\ nth_error edges lb = Some e /\
    (forall j x, j < lb -> nth_error edges j = Some x -> (x < v - REAL_FUZZ * Rabs v)%R) /\
    (forall j x, lb <= j -> nth_error edges j = Some x -> (v - REAL_FUZZ * Rabs v <= x)%R) /\
    locate equiv edges n v pos =
      Some (if equiv v e && pos then Nat.min (n - 1) lb else if lb =? 0 then n - 1 else Nat.min (n - 1) (lb - 1)).
Proof.
  intros equiv edges n v pos en Hl Hn Hz Hi Hen Hv.
  destruct (lower_bound_spec R fuzzy_lt edges v (fuzzy_partitioned _ _ Hi)) as (lb & E & B & Lo & Hi').
  assert (lb <= n) as Bn.
  { destruct (le_lt_dec lb n); auto. exfalso. specialize (Lo n en l Hen). apply fuzzy_lt_iff in Lo. lra. }
  assert (exists e, nth_error edges lb = Some e) as [e Ee].
  { destruct (nth_error edges lb) eqn:Q; [eauto|]. apply nth_error_None in Q. lia. }
  exists lb, e. split; [exact Bn|]. split; [exact Ee|].
  split; [intros j x Hj Hx; apply fuzzy_lt_iff; eapply Lo; eauto|].
  split; [intros j x Hj Hx; apply fuzzy_lt_false; eapply Hi'; eauto|].
  unfold locate. rewrite E, Ee. f_equal.
  assert (forall k, k <= n + 1 -> 1 <= k -> Z.to_nat (u32 (Z.of_nat k - 1)) = k - 1) as U.
  { intros k K1 K2. rewrite u32_small by lia. lia. }
  destruct (equiv v e && pos).
  - rewrite U by lia. f_equal. lia.
  - destruct (Nat.eqb_spec lb 0) as [->|N].
    + change (Z.of_nat 0 - 1)%Z with (-1)%Z. rewrite u32_m1. lia.
    + rewrite U by lia. reflexivity.
Qed.

(* ------------------------------------------------------------ loops *)
Lemma yx_loop_in : forall nx ny iy ix, In (iy, ix) (yx_loop nx ny) <-> iy < ny /\ ix < nx.
Proof.
  intros. unfold yx_loop. rewrite in_flat_map. split.
  - intros (y & Y & H). apply in_seq in Y. apply in_map_iff in H. destruct H as (x & E & X). apply in_seq in X.
    injection E as <- <-. lia.
  - intros [Y X]. exists iy. split; [apply in_seq; lia|]. apply in_map_iff. exists ix. split; auto. apply in_seq. lia.
Qed.

Lemma index_inj : forall nx a b c d, b < nx -> d < nx -> a * nx + b = c * nx + d -> a = c /\ b = d.
Proof.
  intros nx a b c d B D E. assert (b = d).
  { assert ((a * nx + b) mod nx = (c * nx + d) mod nx) as M by now rewrite E.
    rewrite (Nat.add_comm (a * nx)), (Nat.add_comm (c * nx)), !Nat.mod_add, !Nat.mod_small in M by lia. exact M. }
  subst. split; auto. assert (a * nx = c * nx) by lia. apply Nat.mul_cancel_r in H; lia.
Qed.
Lemma index_bound : forall nx ny a b, a < ny -> b < nx -> a * nx + b < nx * ny.
Proof. intros nx ny a b A B. pose proof (Nat.mul_le_mono_r (S a) ny nx). lia. Qed.
Lemma index_split : forall nx ny k, k < nx * ny -> exists y x, y < ny /\ x < nx /\ k = y * nx + x.
Proof.
  intros nx ny k H. assert (nx <> 0) by (intros ->; cbn in H; lia). exists (k / nx), (k mod nx).
  split; [apply Nat.div_lt_upper_bound; lia|]. split; [apply Nat.mod_upper_bound; lia|].
  rewrite (Nat.div_mod k nx) at 1 by lia. lia.
Qed.

Lemma NoDup_yx : forall nx ny (w : nat * nat -> nat),
  (forall a b c d, a < ny -> c < ny -> b < nx -> d < nx -> w (a, b) = w (c, d) -> a = c /\ b = d) ->
  NoDup (map w (yx_loop nx ny)).
Proof.
  intros nx ny w H.
  assert (ND : NoDup (yx_loop nx ny)).
  { unfold yx_loop. apply NoDup_flat_map.
    - apply seq_NoDup.
    - intros y _. apply FinFun.Injective_map_NoDup; [|apply seq_NoDup]. intros p q E. congruence.
    - intros y1 y2 b _ _ B1 B2. apply in_map_iff in B1. apply in_map_iff in B2.
      destruct B1 as (? & <- & _). destruct B2 as (? & E & _). congruence. }
  revert ND H. assert (forall q, In q (yx_loop nx ny) -> fst q < ny /\ snd q < nx) as I.
  { intros [a b] Q. now apply yx_loop_in in Q. }
  revert I. generalize (yx_loop nx ny). intros l. induction l as [|[a b] l IH]; intros I ND H; cbn [map]; constructor.
  - intros C. apply in_map_iff in C. destruct C as ([c d] & E & C). inversion ND; subst.
    pose proof (I (a, b) (or_introl eq_refl)) as [A1 A2]. pose proof (I (c, d) (or_intror C)) as [B1 B2]. cbn in *.
    destruct (H c d a b B1 A1 B2 A2 E). subst. contradiction.
  - inversion ND; subst. apply IH; auto. intros q Q. apply I. now right.
Qed.

Lemma set_nth_lt : forall {A} (l : list A) i v, i < length l -> exists l', set_nth l i v = Some l'.
Proof. intros A. induction l as [|x l IH]; intros [|i] v H; cbn in *; try lia; eauto.
  destruct (IH i v ltac:(lia)) as [l' E]. rewrite E. eauto. Qed.

(** A loop writing distinct positions. *)
Lemma fold_write : forall {X P} (get : X -> Out P) (w : X -> nat) (l : list X) (st : list (option P)),
  (forall x, In x l -> exists p, get x = Got p) -> (forall x, In x l -> w x < length st) -> NoDup (map w l) ->
  exists st', fold_out (fun s x => match get x with
                                   | Got p => match set_nth s (w x) (Some p) with Some s' => Got s' | None => Undef end
                                   | Threw => Threw | Undef => Undef end) st l = Got st' /\
    length st' = length st /\
    (forall x p, In x l -> get x = Got p -> nth_error st' (w x) = Some (Some p)) /\
    (forall j, ~ In j (map w l) -> nth_error st' j = nth_error st j).
Proof.
  intros X P get w. induction l as [|x l IH]; intros st G W N; cbn [fold_out map] in *.
  - exists st. repeat split; auto. intros ? ? [].
  - destruct (G x (or_introl eq_refl)) as [p Ep]. rewrite Ep.
    destruct (set_nth_lt st (w x) (Some p) (W x (or_introl eq_refl))) as [s1 E1]. rewrite E1.
    destruct (set_nth_spec _ _ _ _ E1) as (L1 & _ & S1). inversion N as [|? ? NI N2]; subst.
    destruct (IH s1) as (st' & E & L & A & B); [intros y Y; apply G; now right| |exact N2|].
    { intros y Y. rewrite L1. apply W. now right. }
    exists st'. split; [exact E|]. split; [lia|]. split.
    + intros y q [->|Y] Q.
      * rewrite B by exact NI. rewrite S1. rewrite Nat.eqb_refl. congruence.
      * auto.
    + intros j J. rewrite B by (intros C; apply J; now right). rewrite S1. destruct (Nat.eqb_spec j (w x)); auto.
      exfalso. apply J. left. auto.
Qed.

Lemma fold_threw : forall {X P} (get : X -> Out P) (w : X -> nat) (l : list X) (st : list (option P)),
  (forall x, In x l -> get x <> Undef) -> (forall x, In x l -> w x < length st) -> (exists x, In x l /\ get x = Threw) ->
  fold_out (fun s x => match get x with
                       | Got p => match set_nth s (w x) (Some p) with Some s' => Got s' | None => Undef end
                       | Threw => Threw | Undef => Undef end) st l = Threw.
Proof.
  intros X P get w. induction l as [|x l IH]; intros st G W (y & Y & T); [destruct Y|]. cbn [fold_out].
  destruct (get x) as [p| |] eqn:E; auto.
  - destruct (set_nth_lt st (w x) (Some p) (W x (or_introl eq_refl))) as [s1 E1]. rewrite E1.
    destruct (set_nth_spec _ _ _ _ E1) as (L1 & _ & _). apply IH.
    + intros z Z. apply G. now right.
    + intros z Z. rewrite L1. apply W. now right.
    + destruct Y as [->|Y]; [congruence|]. eauto.
  - exfalso. apply (G x); auto. now left.
Qed.

Lemma fold_out_ext : forall {S X} (f g : S -> X -> Out S) l s, (forall s x, f s x = g s x) -> fold_out f s l = fold_out g s l.
Proof. intros S X f g. induction l as [|x l IH]; intros s H; cbn; auto. rewrite H. destruct (g s x); auto. Qed.

(** A loop of checks. *)
Lemma fold_check : forall {X} (ok : X -> Out bool) (l : list X), (forall x, In x l -> exists b, ok x = Got b) ->
  fold_out (fun _ x => match ok x with Got true => Got tt | Got false => Threw | Threw => Threw | Undef => Undef end) tt l =
  if forallb (fun x => match ok x with Got b => b | _ => false end) l then Got tt else Threw.
Proof.
  intros X ok. induction l as [|x l IH]; intros H; cbn [fold_out forallb]; auto.
  destruct (H x (or_introl eq_refl)) as [b ->]. destruct b; cbn [andb]; auto. apply IH. intros y Y. apply H. now right.
Qed.

Lemma all_some_spec : forall {P} (l : list (option P)) (q : list P), all_some l = Some q <-> l = map Some q.
Proof.
  intros P. induction l as [|[p|] l IH]; intros q; cbn [all_some].
  - destruct q; cbn; split; congruence.
  - destruct (all_some l) as [r|] eqn:E.
    + split.
      * intros [= <-]. cbn. f_equal. now apply IH.
      * intros H. destruct q as [|b q]; [discriminate|]. cbn in H. injection H as -> H.
        apply IH in H. injection H as ->. reflexivity.
    + split; [discriminate|]. intros H. destruct q as [|b q]; [discriminate|]. cbn in H. injection H as -> H.
      apply IH in H. discriminate.
  - split; [discriminate|]. destruct q; discriminate.
Qed.
Lemma all_some_ex : forall {P} (l : list (option P)), (forall k, k < length l -> exists p, nth_error l k = Some (Some p)) ->
  exists q, l = map Some q.
Proof.
  intros P. induction l as [|o l IH]; intros H; [exists []; reflexivity|].
  destruct (H 0 ltac:(cbn; lia)) as [p E]. cbn in E. injection E as ->.
  destruct IH as [q ->]. { intros k K. apply (H (S k)). cbn. lia. } exists (p :: q). reflexivity.
Qed.

Lemma reads_spec : forall {P Q} (l : list P) (f : P -> Q) idx, (forall i, In i idx -> i < length l) ->
  exists q, reads l f idx = Some q /\ length q = length idx /\
    forall k i p, nth_error idx k = Some i -> nth_error l i = Some p -> nth_error q k = Some (f p).
Proof.
  intros P Q l f. induction idx as [|i idx IH]; intros H; cbn [reads].
  - exists []. repeat split; auto. intros [|k] i p E; discriminate.
  - destruct (nth_error l i) as [p|] eqn:E.
    + destruct IH as (q & Eq & L & N). { intros j J. apply H. now right. }
      rewrite Eq. exists (f p :: q). split; auto. split; [cbn; lia|].
      intros [|k] j r; cbn; intros E1 E2; [congruence|]. eapply N; eauto.
    + apply nth_error_None in E. specialize (H i (or_introl eq_refl)). lia.
Qed.

(* ------------------------------------------------------------ running sums *)
Lemma psums_length : forall l a, length (psums a l) = length l + 1.
Proof. induction l as [|x l IH]; intros a; cbn [psums length]; auto. rewrite IH. lia. Qed.
Lemma psums_nth : forall l a i, i <= length l -> nth_error (psums a l) i = Some (a + rsum (fun k => nth k l 0%R) i)%R.
Proof.
  induction l as [|x l IH]; intros a i H; cbn [length] in H.
  - assert (i = 0) by lia. subst. cbn. f_equal. lra.
  - destruct i as [|i]; [cbn; f_equal; lra|]. cbn [psums nth_error]. rewrite IH by lia. f_equal.
    change (S i) with (1 + i). rewrite (rsum_app _ 1 i). cbn [rsum nth Nat.add]. lra.
Qed.
Lemma psums_increasing : forall l a, (forall x, In x l -> (0 < x)%R) -> increasing (psums a l).
Proof.
  intros l a P i j x y L X Y.
  assert (j < length (psums a l)) by (apply nth_error_Some; congruence). rewrite psums_length in H.
  rewrite psums_nth in X by lia. rewrite psums_nth in Y by lia. injection X as <-. injection Y as <-.
  assert (rsum (fun k => nth k l 0%R) i < rsum (fun k => nth k l 0%R) j)%R; [|lra].
  apply Rlt_le_trans with (rsum (fun k => nth k l 0%R) (S i)).
  - cbn. assert (0 < nth i l 0)%R; [|lra]. apply P. apply nth_In. lia.
  - apply rsum_mono; [lia|]. intros k K. left. apply P. apply nth_In. lia.
Qed.
Lemma offsets_length : forall l a, length (offsets a l) = length l.
Proof. induction l; intros; cbn; auto. Qed.
Lemma offsets_nth : forall l a i, i < length l -> nth_error (offsets a l) i = Some (a + list_sum (firstn i l)).
Proof.
  induction l as [|x l IH]; intros a i H; cbn [length] in H; [lia|]. destruct i as [|i].
  - cbn. f_equal. lia.
  - cbn [offsets nth_error firstn]. rewrite IH by lia. f_equal. change (list_sum (x :: firstn i l)) with (x + list_sum (firstn i l)). lia.
Qed.
Lemma fold_plus_rsum : forall l a, fold_left Rplus l a = (a + rsum (fun k => nth k l 0%R) (length l))%R.
Proof.
  induction l as [|x l IH]; intros a; cbn [fold_left length]; [cbn; lra|].
  rewrite IH. change (S (length l)) with (1 + length l). rewrite (rsum_app (fun k => nth k (x :: l) 0%R) 1 (length l)).
  cbn [rsum nth Nat.add]. lra.
Qed.
