From Coq Require Import ZArith List Bool Arith Lia Permutation Sorted.
From Verif Require Import StdAlg.
Import ListNotations.

Section Bounds.
  Variable A : Type.
  Variable ltb : A -> A -> bool.

  (* the elements smaller than v form a prefix *)
  Definition lb_partitioned (l : list A) (v : A) : Prop :=
    forall i j x y, i <= j -> nth_error l i = Some x -> nth_error l j = Some y ->
      ltb y v = true -> ltb x v = true.
  Definition ub_partitioned (l : list A) (v : A) : Prop :=
    forall i j x y, i <= j -> nth_error l i = Some x -> nth_error l j = Some y ->
      ltb v x = true -> ltb v y = true.

  Lemma half_lt len : 0 < len -> Nat.div2 len < len.
  Proof. intros H. apply Nat.lt_div2. exact H. Qed.

  Lemma lb_loop_safe fuel : forall l v first len, len <= fuel -> first + len <= length l ->
    exists i, lb_loop ltb fuel l v first len = Some i /\ first <= i <= first + len.
  Proof.
    induction fuel as [|fuel IH]; intros l v first len Hf Hl.
    - assert (len = 0) by lia. subst. exists first. split; [reflexivity|lia].
    - destruct len as [|len']; [exists first; split; [reflexivity|lia]|].
      set (len := S len') in *. pose proof (half_lt len ltac:(lia)) as Hh.
      cbn [lb_loop]. fold len. unfold len at 1. 
      destruct (nth_error l (first + Nat.div2 len)) as [x|] eqn:En.
      + destruct (ltb x v).
        * destruct (IH l v (first + Nat.div2 len + 1) (len - Nat.div2 len - 1)) as (i & E & Hi); [lia|lia|].
          exists i. split; [exact E|lia].
        * destruct (IH l v first (Nat.div2 len)) as (i & E & Hi); [lia|lia|].
          exists i. split; [exact E|lia].
      + apply nth_error_None in En. lia.
  Qed.

  Lemma lb_loop_spec fuel : forall l v first len, len <= fuel -> first + len <= length l ->
    lb_partitioned l v ->
    (forall j x, j < first -> nth_error l j = Some x -> ltb x v = true) ->
    (forall j x, first + len <= j -> nth_error l j = Some x -> ltb x v = false) ->
    exists i, lb_loop ltb fuel l v first len = Some i /\ i <= length l /\
      (forall j x, j < i -> nth_error l j = Some x -> ltb x v = true) /\
      (forall j x, i <= j -> nth_error l j = Some x -> ltb x v = false).
  Proof.
    induction fuel as [|fuel IH]; intros l v first len Hf Hl Hp Hlo Hhi.
    - assert (len = 0) by lia. subst. exists first. split; [reflexivity|].
      split; [lia|]. split; [exact Hlo|]. intros j x Hj. apply Hhi. lia.
    - destruct len as [|len'].
      { exists first. split; [reflexivity|]. split; [lia|]. split; [exact Hlo|].
        intros j x Hj. apply Hhi. lia. }
      set (len := S len') in *. pose proof (half_lt len ltac:(lia)) as Hh.
      cbn [lb_loop]. fold len. unfold len at 1.
      destruct (nth_error l (first + Nat.div2 len)) as [x|] eqn:En.
      + destruct (ltb x v) eqn:Ex.
        * apply IH; try lia; try assumption.
          -- intros j y Hj Ey. apply (Hp j (first + Nat.div2 len) y x); try lia; assumption.
          -- intros j y Hj Ey. apply Hhi with j; [lia|exact Ey].
        * apply IH; try lia; try assumption.
          intros j y Hj Ey. destruct (ltb y v) eqn:Eyv; [|reflexivity].
          rewrite (Hp (first + Nat.div2 len) j x y) in Ex; solve [assumption | lia | discriminate].
      + apply nth_error_None in En. lia.
  Qed.

  Lemma lower_bound_spec l v : lb_partitioned l v ->
    exists i, lower_bound ltb l v = Some i /\ i <= length l /\
      (forall j x, j < i -> nth_error l j = Some x -> ltb x v = true) /\
      (forall j x, i <= j -> nth_error l j = Some x -> ltb x v = false).
  Proof.
    intros Hp. unfold lower_bound. apply lb_loop_spec; try lia; try assumption.
    intros j x Hj E. assert (j < length l) by (apply nth_error_Some; congruence). lia.
  Qed.

  Lemma lower_bound_safe l v : exists i, lower_bound ltb l v = Some i /\ i <= length l.
  Proof.
    unfold lower_bound. destruct (lb_loop_safe (length l) l v 0 (length l)) as (i & E & H); try lia.
    exists i. split; [exact E|lia].
  Qed.

  Lemma ub_loop_spec fuel : forall l v first len, len <= fuel -> first + len <= length l ->
    ub_partitioned l v ->
    (forall j x, j < first -> nth_error l j = Some x -> ltb v x = false) ->
    (forall j x, first + len <= j -> nth_error l j = Some x -> ltb v x = true) ->
    exists i, ub_loop ltb fuel l v first len = Some i /\ i <= length l /\
      (forall j x, j < i -> nth_error l j = Some x -> ltb v x = false) /\
      (forall j x, i <= j -> nth_error l j = Some x -> ltb v x = true).
  Proof.
    induction fuel as [|fuel IH]; intros l v first len Hf Hl Hp Hlo Hhi.
    - assert (len = 0) by lia. subst. exists first. split; [reflexivity|].
      split; [lia|]. split; [exact Hlo|]. intros j x Hj. apply Hhi. lia.
    - destruct len as [|len'].
      { exists first. split; [reflexivity|]. split; [lia|]. split; [exact Hlo|].
        intros j x Hj. apply Hhi. lia. }
      set (len := S len') in *. pose proof (half_lt len ltac:(lia)) as Hh.
      cbn [ub_loop]. fold len. unfold len at 1.
      destruct (nth_error l (first + Nat.div2 len)) as [x|] eqn:En.
      + destruct (ltb v x) eqn:Ex.
        * apply IH; try lia; try assumption.
          intros j y Hj Ey. apply (Hp (first + Nat.div2 len) j x y); try lia; assumption.
        * apply IH; try lia; try assumption.
          -- intros j y Hj Ey. destruct (ltb v y) eqn:Eyv; [|reflexivity].
             rewrite (Hp j (first + Nat.div2 len) y x) in Ex; solve [assumption | lia | discriminate].
          -- intros j y Hj Ey. apply Hhi with j; [lia|exact Ey].
      + apply nth_error_None in En. lia.
  Qed.

  Lemma upper_bound_spec l v : ub_partitioned l v ->
    exists i, upper_bound ltb l v = Some i /\ i <= length l /\
      (forall j x, j < i -> nth_error l j = Some x -> ltb v x = false) /\
      (forall j x, i <= j -> nth_error l j = Some x -> ltb v x = true).
  Proof.
    intros Hp. unfold upper_bound. apply ub_loop_spec; try lia; try assumption.
    intros j x Hj E. assert (j < length l) by (apply nth_error_Some; congruence). lia.
  Qed.

  (* ---------------------------------------------------------------- stable_sort *)
  Lemma insert_stable_perm x l : Permutation (x :: l) (insert_stable ltb x l).
  Proof.
    induction l as [|y r IH]; simpl; [apply Permutation_refl|].
    destruct (ltb y x); [|apply Permutation_refl].
    eapply perm_trans; [apply perm_swap|]. apply perm_skip. exact IH.
  Qed.

  Lemma stable_sort_perm l : Permutation l (stable_sort ltb l).
  Proof.
    induction l as [|x r IH]; simpl; [apply perm_nil|].
    eapply perm_trans; [apply perm_skip; exact IH|]. apply insert_stable_perm.
  Qed.
End Bounds.
