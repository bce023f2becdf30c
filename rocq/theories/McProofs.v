(** Lemmas for the Monte Carlo driver model. *)
From Coq Require Import ZArith List Lia Bool Permutation Reals Lra.
From Verif Require Import StdAlg StdAlgProofs RngModel RngSpec RngProofs McModel.
Import ListNotations.
Open Scope Z_scope.

(** ** Stable sort is determined by the per-key subsequences *)

Section Sort.
  Context {D : Type}.
  Notation site := (Site D).
  Notation key i := (fun p : site => sid p =? i).

  Inductive sorted : list site -> Prop :=
  | sorted_nil : sorted []
  | sorted_cons : forall x l, Forall (fun y => sid x <= sid y) l -> sorted l -> sorted (x :: l).

  Lemma insert_forall : forall (P : site -> Prop) x l, P x -> Forall P l -> Forall P (insert_stable site_ltb x l).
  Proof.
    intros P x l Px; induction l as [|y r IH]; intros F; cbn; [auto|].
    destruct (site_ltb y x); auto. inversion F; subst; auto.
  Qed.

  Lemma insert_sorted : forall x l, sorted l -> sorted (insert_stable site_ltb x l).
  Proof.
    intros x l; induction l as [|y r IH]; intros S; cbn; [repeat constructor|].
    inversion S as [|? ? F S' E]; subst. unfold site_ltb.
    destruct (Z.ltb_spec (sid y) (sid x)).
    - constructor; auto. apply insert_forall; [lia|auto].
    - constructor; auto. constructor; [lia|]. eapply Forall_impl; [|exact F]. cbn; intros; lia.
  Qed.

  Lemma sort_sorted : forall l, sorted (stable_sort site_ltb l).
  Proof. induction l; cbn; [constructor|]. now apply insert_sorted. Qed.

  Lemma insert_filter : forall i x l, sorted l ->
    filter (key i) (insert_stable site_ltb x l) = filter (key i) (x :: l).
  Proof.
    intros i x l; induction l as [|y r IH]; intros S; [reflexivity|].
    cbn [insert_stable]. unfold site_ltb at 1. destruct (Z.ltb_spec (sid y) (sid x)); [|reflexivity].
    inversion S as [|? ? F S' E]; subst. cbn [filter]. rewrite IH by auto. cbn [filter].
    destruct (Z.eqb_spec (sid y) i), (Z.eqb_spec (sid x) i); auto. lia.
  Qed.

  Lemma sort_filter : forall i l, filter (key i) (stable_sort site_ltb l) = filter (key i) l.
  Proof.
    induction l as [|x l IH]; [reflexivity|]. cbn [stable_sort].
    rewrite insert_filter by apply sort_sorted. cbn [filter]. now rewrite IH.
  Qed.

  Lemma filter_key_in : forall i l x, In x (filter (key i) l) <-> In x l /\ sid x = i.
  Proof. intros; rewrite filter_In, Z.eqb_eq; tauto. Qed.

  Lemma sorted_filter_unique : forall l1 l2, sorted l1 -> sorted l2 ->
    (forall i, filter (key i) l1 = filter (key i) l2) -> l1 = l2.
  Proof.
    induction l1 as [|x r IH]; intros l2 S1 S2 H.
    - destruct l2 as [|y r2]; auto. specialize (H (sid y)). cbn in H. rewrite Z.eqb_refl in H. discriminate.
    - destruct l2 as [|y r2].
      + specialize (H (sid x)). cbn in H. rewrite Z.eqb_refl in H. discriminate.
      + inversion S1 as [|? ? F1 S1' E1]; inversion S2 as [|? ? F2 S2' E2]; subst.
        rewrite Forall_forall in F1, F2.
        assert (EQ : sid x = sid y).
        { assert (I1 : In y (x :: r)).
          { apply (filter_key_in (sid y)). rewrite H. apply filter_key_in. split; [now left|auto]. }
          assert (I2 : In x (y :: r2)).
          { apply (filter_key_in (sid x)). rewrite <- H. apply filter_key_in. split; [now left|auto]. }
          assert (sid x <= sid y) by (destruct I1 as [->|I1]; [lia|now apply F1]).
          assert (sid y <= sid x) by (destruct I2 as [->|I2]; [lia|now apply F2]). lia. }
        assert (X : x = y).
        { specialize (H (sid x)). cbn in H. rewrite Z.eqb_refl, <- EQ, Z.eqb_refl in H. congruence. }
        subst y. f_equal. apply IH; auto. intros i. specialize (H i). cbn in H.
        destruct (sid x =? i); congruence.
  Qed.

  Lemma stable_sort_determined : forall l1 l2, (forall i, filter (key i) l1 = filter (key i) l2) ->
    stable_sort site_ltb l1 = stable_sort site_ltb l2.
  Proof.
    intros l1 l2 H. apply sorted_filter_unique; try apply sort_sorted.
    intros; now rewrite !sort_filter.
  Qed.
End Sort.

(** ** Merging *)

Lemma concat_all_nil : forall {A} (ls : list (list A)), Forall (fun l => l = []) ls -> concat ls = [].
Proof. induction 1; cbn; [reflexivity|]. now subst. Qed.

Lemma merge_perm : forall {A} (ls : list (list A)) r, merge ls r -> Permutation (concat ls) r.
Proof.
  induction 1 as [ls F | l1 l2 x t r M IH].
  - now rewrite concat_all_nil.
  - rewrite concat_app in *. cbn in *. rewrite <- Permutation_middle. now apply perm_skip.
Qed.

Lemma merge_filter : forall {A} (f : A -> bool) ls r, merge ls r ->
  merge (map (filter f) ls) (filter f r).
Proof.
  induction 1 as [ls F | l1 l2 x t r M IH].
  - constructor. apply Forall_map. eapply Forall_impl; [|exact F]. now intros a ->.
  - rewrite map_app in *. cbn in *. destruct (f x); auto. now constructor.
Qed.

(** With at most one non-empty list the merge is that list. *)
Definition lone {A} (ls : list (list A)) : Prop :=
  exists l1 l l2, ls = l1 ++ l :: l2 /\ Forall (fun l => l = []) l1 /\ Forall (fun l => l = []) l2.

Lemma split_eq_nil : forall {A} (l1 l2 a1 a2 : list (list A)) x t l,
  l1 ++ (x :: t) :: l2 = a1 ++ l :: a2 -> Forall (fun l => l = []) a1 -> Forall (fun l => l = []) a2 ->
  l1 = a1 /\ l = x :: t /\ l2 = a2.
Proof.
  induction l1 as [|y l1 IH]; intros l2 a1 a2 x t l E F1 F2.
  - destruct a1 as [|z a1]; cbn in E.
    + injection E; intros; subst; auto.
    + injection E; intros; subst. inversion F1; discriminate.
  - destruct a1 as [|z a1]; cbn in E.
    + injection E; intros; subst. apply Forall_app in F2. destruct F2 as [_ F2]. inversion F2; discriminate.
    + injection E; intros E' ->. inversion F1; subst. destruct (IH _ _ _ _ _ _ E') as (-> & -> & ->); auto.
Qed.

Lemma merge_lone : forall {A} (ls : list (list A)) r, merge ls r -> lone ls -> r = concat ls.
Proof.
  induction 1 as [ls F | l1 l2 x t r M IH]; intros L.
  - symmetry; now apply concat_all_nil.
  - destruct L as (a1 & l & a2 & E & F1 & F2).
    destruct (split_eq_nil _ _ _ _ _ _ _ E F1 F2) as (-> & -> & ->).
    rewrite concat_app. cbn. rewrite (concat_all_nil a1) by auto. cbn. f_equal.
    rewrite IH; [|exists a1, t, a2; auto].
    rewrite concat_app. cbn. rewrite (concat_all_nil a1) by auto. reflexivity.
Qed.

Lemma concat_short_lone : forall {A} (ls : list (list A)), ls <> [] -> (length (concat ls) <= 1)%nat -> lone ls.
Proof.
  induction ls as [|l ls IH]; intros N H; [congruence|].
  cbn in H. rewrite app_length in H. destruct l as [|x l].
  - destruct ls as [|l' ls].
    + exists [], [], []; auto.
    + destruct IH as (a1 & y & a2 & E & F1 & F2); [congruence | exact H |].
      exists ([] :: a1), y, a2. rewrite E. auto.
  - exists [], (x :: l), ls. repeat split; auto. cbn in H.
    assert (L : length (concat ls) = 0%nat) by lia. clear - L.
    induction ls as [|a ls IH]; constructor; cbn in L; rewrite app_length in L.
    + destruct a; auto. cbn in L; lia.
    + apply IH; lia.
Qed.

(** ** Determinism of a cycle *)

Section Cycle.
  Variable D : Type.
  Variable history : Z -> D -> list D * list R.
  Notation site := (Site D).
  Notation key i := (fun p : site => sid p =? i).

  Lemma progeny_id : forall off p q, In q (progeny D history off p) -> sid q = sid p.
  Proof. intros off p q I; unfold progeny in I. apply in_map_iff in I. destruct I as (d & <- & _). reflexivity. Qed.

  Lemma filter_all : forall {A} (f : A -> bool) l, (forall x, In x l -> f x = true) -> filter f l = l.
  Proof.
    induction l; intros H; cbn; [reflexivity|]. rewrite H by now left. f_equal. apply IHl.
    intros; apply H; now right.
  Qed.

  Lemma filter_none : forall {A} (f : A -> bool) l, (forall x, In x l -> f x = false) -> filter f l = [].
  Proof.
    induction l; intros H; cbn; [reflexivity|]. rewrite H by now left. apply IHl. intros; apply H; now right.
  Qed.

  Lemma filter_progeny : forall off i l,
    filter (key i) (flat_map (progeny D history off) l) = flat_map (progeny D history off) (filter (key i) l).
  Proof.
    induction l as [|p l IH]; [reflexivity|]. cbn [flat_map filter]. rewrite filter_app, IH.
    destruct (Z.eqb_spec (sid p) i).
    - cbn [flat_map]. f_equal. apply filter_all. intros x I. apply progeny_id in I. apply Z.eqb_eq. congruence.
    - rewrite filter_none; auto. intros x I. apply progeny_id in I. apply Z.eqb_neq. congruence.
  Qed.

  Lemma nodup_filter_short : forall i (l : list site), NoDup (map sid l) -> (length (filter (key i) l) <= 1)%nat.
  Proof.
    induction l as [|p l IH]; intros N; cbn; [lia|]. inversion N; subst.
    destruct (Z.eqb_spec (sid p) i); [|auto].
    rewrite filter_none; [cbn; lia|]. intros x I. apply Z.eqb_neq. intros E. apply H1.
    rewrite e, <- E. now apply in_map.
  Qed.

  Lemma perm_filter : forall {A} (f : A -> bool) l1 l2, Permutation l1 l2 -> Permutation (filter f l1) (filter f l2).
  Proof.
    induction 1; cbn; auto.
    - destruct (f x); auto.
    - destruct (f y), (f x); auto using perm_swap, Permutation_refl.
    - eapply perm_trans; eauto.
  Qed.

  Lemma perm_short : forall {A} (l1 l2 : list A), Permutation l1 l2 -> (length l1 <= 1)%nat -> l1 = l2.
  Proof.
    intros A l1 l2 P H. destruct l1 as [|x [|y l1]]; cbn in H; try lia.
    - apply Permutation_nil in P. auto.
    - apply Permutation_length_1_inv in P. auto.
  Qed.

  Lemma concat_map_filter : forall (sched : list (list site)) i,
    concat (map (filter (key i)) sched) = filter (key i) (concat sched).
  Proof. induction sched; intros; cbn; [reflexivity|]. now rewrite filter_app, IHsched. Qed.

  Lemma concat_map_flat_map : forall {A B} (f : A -> list B) (ls : list (list A)),
    concat (map (flat_map f) ls) = flat_map f (concat ls).
  Proof. induction ls; cbn; [reflexivity|]. now rewrite flat_map_app, IHls. Qed.

  (** The progeny of history [i], in order, whatever the schedule. *)
  Lemma bank_by_parent : forall off bank sched r i, NoDup (map sid bank) -> Permutation (concat sched) bank ->
    merge (map (flat_map (progeny D history off)) sched) r ->
    filter (key i) r = flat_map (progeny D history off) (filter (key i) bank).
  Proof.
    intros off bank sched r i N P M.
    assert (N' : NoDup (map sid (concat sched))).
    { eapply Permutation_NoDup; [|exact N]. apply Permutation_map. now apply Permutation_sym. }
    apply (merge_filter (key i)) in M. rewrite map_map in M.
    rewrite (map_ext _ (fun hs => flat_map (progeny D history off) (filter (key i) hs))) in M
      by (intros; apply filter_progeny).
    rewrite <- map_map with (f := filter (key i)) (g := flat_map (progeny D history off)) in M.
    destruct sched as [|s0 sched'].
    - cbn in P. apply Permutation_nil in P. subst bank. inversion M; subst; auto.
      destruct l1; discriminate.
    - rewrite (merge_lone _ _ M).
      + rewrite concat_map_flat_map, concat_map_filter. f_equal.
        apply perm_short; [now apply perm_filter|]. now apply nodup_filter_short.
      + destruct (concat_short_lone (map (filter (key i)) (s0 :: sched'))) as (a1 & l & a2 & E & F1 & F2).
        * discriminate.
        * rewrite concat_map_filter. now apply nodup_filter_short.
        * rewrite E, map_app. cbn [map].
          exists (map (flat_map (progeny D history off)) a1), (flat_map (progeny D history off) l),
            (map (flat_map (progeny D history off)) a2).
          repeat split; auto; apply Forall_map; (eapply Forall_impl; [|eassumption]); now intros x ->.
  Qed.

  Lemma simulate_bank_sorted : forall off bank r1 sc1 r2 sc2, NoDup (map sid bank) ->
    simulate_bank D history off bank r1 sc1 -> simulate_bank D history off bank r2 sc2 ->
    stable_sort site_ltb r1 = stable_sort site_ltb r2.
  Proof.
    intros off bank r1 sc1 r2 sc2 N (s1 & P1 & M1 & _) (s2 & P2 & M2 & _).
    apply stable_sort_determined. intros i.
    rewrite (bank_by_parent off bank s1 r1 i N P1 M1). symmetry. now apply bank_by_parent with (sched := s2).
  Qed.

  Lemma fold_Rplus_acc : forall l a, fold_left Rplus l a = (a + fold_right Rplus 0 l)%R.
  Proof. induction l; intros; cbn; [lra|]. rewrite IHl. lra. Qed.

  Lemma sum_perm : forall l1 l2, Permutation l1 l2 -> fold_left Rplus l1 0%R = fold_left Rplus l2 0%R.
  Proof.
    intros l1 l2 P. rewrite !fold_Rplus_acc. f_equal. induction P; cbn; try lra.
  Qed.

  Lemma flat_map_perm : forall {A B} (f : A -> list B) l1 l2, Permutation l1 l2 ->
    Permutation (flat_map f l1) (flat_map f l2).
  Proof.
    induction 1; cbn; auto.
    - now apply Permutation_app_head.
    - rewrite !app_assoc. apply Permutation_app_tail. apply Permutation_app_comm.
    - eapply perm_trans; eauto.
  Qed.

  Lemma simulate_bank_scores : forall off bank r1 sc1 r2 sc2,
    simulate_bank D history off bank r1 sc1 -> simulate_bank D history off bank r2 sc2 ->
    fold_left Rplus sc1 0%R = fold_left Rplus sc2 0%R /\ length r1 = length r2.
  Proof.
    intros off bank r1 sc1 r2 sc2 (s1 & P1 & M1 & S1) (s2 & P2 & M2 & S2).
    apply merge_perm in M1, M2, S1, S2.
    rewrite concat_map_flat_map in M1, M2. rewrite concat_map_flat_map in S1, S2.
    assert (P : Permutation (concat s1) (concat s2)) by (eapply perm_trans; [exact P1|]; now apply Permutation_sym).
    split.
    - apply sum_perm. rewrite <- S1, <- S2. now apply flat_map_perm.
    - rewrite <- (Permutation_length M1), <- (Permutation_length M2).
      apply Permutation_length. now apply flat_map_perm.
  Qed.

  Lemma renumber_ids : forall l i, map sid (renumber D i l) = map (fun k => i + Z.of_nat k) (seq 0 (length l)).
  Proof.
    induction l as [|p l IH]; intros i; cbn; [reflexivity|]. f_equal; [lia|].
    rewrite IH, <- seq_shift, map_map. apply map_ext. intros; lia.
  Qed.

  Lemma renumber_nodup : forall l i, NoDup (map sid (renumber D i l)).
  Proof.
    intros; rewrite renumber_ids. apply FinFun.Injective_map_NoDup; [|apply seq_NoDup].
    intros a b; lia.
  Qed.

  Lemma step_nodup : forall ppc a b, step D history ppc a b -> NoDup (map sid (bank D b)).
  Proof. intros ppc a b (bank' & sc & l & s & _ & _ & ->). cbn. apply renumber_nodup. Qed.

  Lemma step_deterministic : forall ppc a b c, NoDup (map sid (bank D a)) ->
    step D history ppc a b -> step D history ppc a c -> b = c.
  Proof.
    intros ppc a b c N (r1 & sc1 & l1 & s1 & M1 & R1 & ->) (r2 & sc2 & l2 & s2 & M2 & R2 & ->).
    rewrite (simulate_bank_sorted _ _ _ _ _ _ N M1 M2) in R1. rewrite R2 in R1. injection R1 as -> ->.
    destruct (simulate_bank_scores _ _ _ _ _ _ M1 M2) as [E1 E2]. now rewrite E1, E2.
  Qed.

  Lemma steps_nodup : forall ppc n a b, NoDup (map sid (bank D a)) -> steps D history ppc n a b ->
    NoDup (map sid (bank D b)).
  Proof. intros ppc n a b N S. destruct S; auto. eapply step_nodup; eauto. Qed.

  Lemma steps_deterministic : forall ppc n a b c, NoDup (map sid (bank D a)) ->
    steps D history ppc n a b -> steps D history ppc n a c -> b = c.
  Proof.
    intros ppc n a b c N S. revert c. induction S as [a|n a b b' S IH T]; intros c S2.
    - inversion S2; auto.
    - inversion S2 as [|? ? d ? S3 T3]; subst. rewrite <- (IH N d S3) in T3.
      eapply step_deterministic; [|exact T|exact T3]. eapply steps_nodup; eauto.
  Qed.

  (** A sequential run (one thread, histories in bank order) is one of the schedules. *)
  Lemma merge_one : forall {A} (l : list A), merge [l] l.
  Proof.
    induction l; [constructor; auto|]. apply (merge_step [] []). exact IHl.
  Qed.

  Lemma simulate_bank_sequential : forall off bank,
    simulate_bank D history off bank (flat_map (progeny D history off) bank) (flat_map (scores D history off) bank).
  Proof.
    intros. exists [bank]. cbn. rewrite app_nil_r. repeat split; auto using merge_one.
  Qed.
End Cycle.

(** ** resize *)

Lemma at_z_some : forall {A} (l : list A) i, 0 <= i < Z.of_nat (length l) -> exists x, at_z l i = Some x /\ In x l.
Proof.
  intros A l i H. unfold at_z. destruct (Z.ltb_spec i 0); [lia|].
  destruct (nth_error l (Z.to_nat i)) eqn:E.
  - exists a; split; auto. eapply nth_error_In; eauto.
  - apply nth_error_None in E. lia.
Qed.

Lemma set_nth_some : forall {A} (l : list A) i v, (i < length l)%nat ->
  exists l', set_nth l i v = Some l' /\ length l' = length l.
Proof.
  induction l as [|a l IH]; intros i v H; cbn in *; [lia|].
  destruct i; [eexists; split; [reflexivity|auto]|].
  destruct (IH i v) as (l' & E & L); [lia|]. rewrite E. eexists; split; [reflexivity|]. cbn; lia.
Qed.

(** The draws used by resize are all below the rounding threshold. *)
Definition good_draws (k : nat) (s : Z) : Prop :=
  forall j, (j < k)%nat -> rng_step (draws j s) < 2^63 - 512.

Lemma draws_S : forall j s, draws (S j) s = draws j (rng_step s).
Proof. intros j s. unfold draws, iter_n. induction j; [reflexivity|]. change (Nat.iter (S (S j)) rng_step s) with (rng_step (Nat.iter (S j) rng_step s)). rewrite IHj. reflexivity. Qed.

Lemma good_draws_S : forall k s, good_draws (S k) s -> rng_step s < 2^63 - 512 /\ good_draws k (rng_step s).
Proof.
  intros k s H. split.
  - apply (H 0%nat). lia.
  - intros j Hj. rewrite <- draws_S. apply H. lia.
Qed.

Lemma grow_ok : forall {A} k n s (sites : list A), 0 < n < 2^31 -> n <= Z.of_nat (length sites) ->
  good_draws k s -> exists l, grow k n s sites = Some (l, draws k s) /\ length l = (length sites + k)%nat /\ (forall x, In x l <-> In x sites) /\ firstn (length sites) l = sites.
Proof.
  intros A k. induction k as [|k IH]; intros n s sites Hn Hl G; cbn [grow].
  - exists sites. repeat split; auto; try lia. apply firstn_all.
  - apply good_draws_S in G. destruct G as [G0 G].
    destruct (proj1 (random_int_iff s n Hn)) as [_ R]. specialize (R G0).
    destruct (at_z_some sites (rng_random_int s n)) as (x & E & I); [lia|]. rewrite E.
    destruct (IH n (rng_step s) (sites ++ [x])) as (l & E2 & L & M & F); auto.
    { rewrite app_length; lia. }
    exists l. rewrite draws_S. split; [exact E2|]. rewrite app_length in L; cbn in L. split; [lia|]. split.
    + intros y. rewrite M, in_app_iff. cbn. split; [intros [H|[<-|[]]]|]; auto.
    + rewrite app_length in F; cbn in F.
      replace (length sites) with (Nat.min (length sites) (length sites + 1)) by lia.
      rewrite <- firstn_firstn, F, firstn_app, Nat.sub_diag, firstn_all. cbn. apply app_nil_r.
Qed.

Lemma removelast_len : forall {A} (l : list A), length (removelast l) = (length l - 1)%nat.
Proof.
  induction l as [|a l IH]; [reflexivity|]. destruct l as [|b l]; [reflexivity|].
  change (removelast (a :: b :: l)) with (a :: removelast (b :: l)). cbn [length] in *. rewrite IH. lia.
Qed.

Lemma set_nth_app1 : forall {A} (l r : list A) i v, (i < length l)%nat ->
  set_nth (l ++ r) i v = match set_nth l i v with Some l' => Some (l' ++ r) | None => None end.
Proof.
  induction l as [|a l IH]; intros r i v H; cbn in *; [lia|].
  destruct i; [reflexivity|]. rewrite IH by lia. destruct (set_nth l i v); reflexivity.
Qed.

Lemma set_nth_last : forall {A} (l : list A) a v, set_nth (l ++ [a]) (length l) v = Some (l ++ [v]).
Proof. induction l as [|x l IH]; intros a v; cbn; [reflexivity|]. now rewrite IH. Qed.

Lemma set_nth_swap : forall {A} (l l' : list A) i v, set_nth l i v = Some l' ->
  exists x, nth_error l i = Some x /\ Permutation (v :: l) (x :: l').
Proof.
  induction l as [|a l IH]; intros l' i v H; destruct i; cbn in H; try discriminate.
  - injection H as <-. exists a. split; [reflexivity|]. apply perm_swap.
  - destruct (set_nth l i v) as [l2|] eqn:E; [|discriminate]. injection H as <-.
    destruct (IH l2 i v E) as (x & N & P). exists x. split; [exact N|].
    eapply perm_trans; [apply perm_swap|]. eapply perm_trans; [apply perm_skip, P|]. apply perm_swap.
Qed.

Lemma overwrite_pop : forall {A} (l : list A) a i, (i < length (l ++ [a]))%nat ->
  exists l' x, set_nth (l ++ [a]) i a = Some l' /\ length l' = length (l ++ [a]) /\ nth_error (l ++ [a]) i = Some x /\ Permutation (l ++ [a]) (x :: removelast l').
Proof.
  intros A l a i H. rewrite app_length in H. cbn in H.
  destruct (Nat.eq_dec i (length l)) as [->|N].
  - exists (l ++ [a]), a. rewrite set_nth_last, nth_error_app2, Nat.sub_diag, removelast_last by lia.
    repeat split; auto. apply Permutation_sym, Permutation_cons_append.
  - destruct (set_nth_some l i a) as (l2 & E & L); [lia|].
    destruct (set_nth_swap _ _ _ _ E) as (x & Nx & P).
    exists (l2 ++ [a]), x. rewrite set_nth_app1, E by lia.
    rewrite nth_error_app1 by lia. rewrite removelast_last, !app_length, L. repeat split; auto.
    eapply perm_trans; [apply Permutation_sym, Permutation_cons_append|]. exact P.
Qed.

Lemma shrink_ok : forall {A} k s (sites : list A), Z.of_nat (length sites) < 2^31 -> (k <= length sites)%nat ->
  good_draws k s -> exists l removed, shrink k s sites = Some (l, draws k s) /\ length l = (length sites - k)%nat /\ Permutation sites (removed ++ l).
Proof.
  intros A k. induction k as [|k IH]; intros s sites Hl Hk G; cbn [shrink].
  - exists sites, []. repeat split; auto; lia.
  - apply good_draws_S in G. destruct G as [G0 G].
    destruct (@exists_last A sites) as (l0 & a & E0).
    { intros ->. cbn in Hk; lia. }
    subst sites. rewrite app_length in *; cbn [length] in *.
    destruct (proj1 (random_int_iff s (Z.of_nat (length l0 + 1)) ltac:(lia))) as [_ R]. specialize (R G0).
    set (i := rng_random_int s (Z.of_nat (length l0 + 1))) in *.
    unfold at_z. destruct (Z.ltb_spec (Z.of_nat (length l0 + 1) - 1) 0); [lia|].
    rewrite nth_error_app2 by lia.
    replace (Z.to_nat (Z.of_nat (length l0 + 1) - 1) - length l0)%nat with 0%nat by lia. cbn [nth_error].
    destruct (Z.ltb_spec i 0); [lia|].
    destruct (overwrite_pop l0 a (Z.to_nat i)) as (l' & x & E & L & Nx & P).
    { rewrite app_length; cbn; lia. }
    rewrite E. rewrite app_length in L; cbn in L.
    destruct (IH (rng_step s) (removelast l')) as (l & rem & E2 & L2 & P2).
    { rewrite removelast_len; lia. }
    { rewrite removelast_len; lia. }
    { exact G. }
    exists l, (x :: rem). rewrite draws_S. split; [exact E2|]. rewrite removelast_len in L2. split; [lia|].
    eapply perm_trans; [exact P|]. cbn. now apply perm_skip.
Qed.

Lemma resize_ok : forall {A} n s (sites : list A), sites <> [] -> Z.of_nat (length sites) < 2^31 ->
  good_draws (n - length sites + (length sites - n)) s ->
  exists l, resize n s sites = Some (l, draws (n - length sites + (length sites - n)) s) /\ length l = n /\
    ((length sites <= n)%nat -> firstn (length sites) l = sites /\ forall x, In x l -> In x sites) /\
    ((n <= length sites)%nat -> exists removed, Permutation sites (removed ++ l)).
Proof.
  intros A n s sites Hne Hs G. unfold resize.
  assert (Hl : (0 < length sites)%nat) by (destruct sites; [congruence|cbn; lia]).
  destruct (Nat.ltb_spec (length sites) n) as [C|C].
  - replace (n - length sites + (length sites - n))%nat with (n - length sites)%nat in * by lia.
    destruct (grow_ok (n - length sites) (Z.of_nat (length sites)) s sites) as (l & E & L & M & F); auto; try lia.
    rewrite E. destruct (Nat.ltb_spec n (length l)); [lia|]. exists l. split; [reflexivity|]. split; [lia|].
    split; [|lia]. intros _. split; [exact F|]. intros x; apply M.
  - replace (n - length sites + (length sites - n))%nat with (length sites - n)%nat in * by lia.
    destruct (Nat.ltb_spec n (length sites)) as [C2|C2].
    + destruct (shrink_ok (length sites - n) s sites) as (l & rem & E & L & P); auto; try lia.
      rewrite E. exists l. split; [reflexivity|]. split; [lia|]. split; [lia|]. intros _. now exists rem.
    + exists sites. replace (length sites - n)%nat with 0%nat by lia. split; [reflexivity|]. split; [lia|].
      split; intros _.
      * split; [apply firstn_all|auto].
      * exists []. auto.
Qed.

Lemma resize_undefined : forall {A} (x : A) seed, 0 <= seed < 2^63 ->
  exists k : nat, Z.of_nat k < 2^63 /\ resize 2 (draws k seed) [x] = None.
Proof.
  intros A x seed H. destruct (random_one_reached seed H) as (k & B & _ & U). exists k. split; [exact B|].
  unfold resize. cbn [length Nat.ltb Nat.leb Nat.sub grow Z.of_nat].
  change (Z.pos (Pos.of_succ_nat 0)) with 1. rewrite (U 1 ltac:(lia)). reflexivity.
Qed.

Lemma resize_empty_undefined : forall {A} n s, (0 < n)%nat -> resize n s (@nil A) = None.
Proof.
  intros A n s H. unfold resize. cbn [length]. destruct (Nat.ltb_spec 0 n); [|lia].
  rewrite Nat.sub_0_r. destruct n; [lia|]. cbn [grow]. unfold at_z.
  destruct (rng_random_int s (Z.of_nat 0) <? 0); [reflexivity|]. now destruct (Z.to_nat _).
Qed.

Lemma solve_calls_length : forall nc ni, 0 <= ni <= nc ->
  length (solve_calls nc ni) = Z.to_nat (nc + 1) /\
  count_occ Bool.bool_dec (solve_calls nc ni) true = Z.to_nat (nc - ni + 1).
Proof.
  intros nc ni H. unfold solve_calls. rewrite app_length, !repeat_length. split; [lia|].
  rewrite count_occ_app, (count_occ_repeat_neq Bool.bool_dec) by discriminate.
  now rewrite count_occ_repeat_eq.
Qed.
