(** List and finite-sum facts shared by several models; not tied to any source line. *)
From Coq Require Import List Lia Reals Lra Arith.
From Verif Require Import McModel McProofs.
Import ListNotations.
Open Scope nat_scope.

(** Left-to-right sum of f 0, ..., f (n-1). *)
Fixpoint rsum (f : nat -> R) (n : nat) : R := match n with O => 0%R | S k => (rsum f k + f k)%R end.

Lemma rsum_ext : forall f g n, (forall i, i < n -> f i = g i) -> rsum f n = rsum g n.
Proof. induction n as [|n IH]; intros H; cbn; auto. rewrite IH, H; auto. Qed.
Lemma rsum_le : forall f g n, (forall i, i < n -> (f i <= g i)%R) -> (rsum f n <= rsum g n)%R.
Proof. induction n as [|n IH]; intros H; cbn; [lra|]. specialize (IH ltac:(auto)). specialize (H n ltac:(lia)). lra. Qed.
Lemma rsum_zero : forall n, rsum (fun _ => 0%R) n = 0%R.
Proof. induction n; cbn; lra. Qed.
Lemma rsum_nonneg : forall f n, (forall i, i < n -> (0 <= f i)%R) -> (0 <= rsum f n)%R.
Proof. intros f n H. rewrite <- (rsum_zero n). now apply rsum_le. Qed.
Lemma rsum_scal : forall f c n, rsum (fun i => (c * f i)%R) n = (c * rsum f n)%R.
Proof. induction n as [|n IH]; cbn; [lra|]. rewrite IH. lra. Qed.
Lemma rsum_scal_r : forall f c n, rsum (fun i => (f i * c)%R) n = (rsum f n * c)%R.
Proof. induction n as [|n IH]; cbn; [lra|]. rewrite IH. lra. Qed.
Lemma rsum_plus : forall f g n, rsum (fun i => (f i + g i)%R) n = (rsum f n + rsum g n)%R.
Proof. induction n as [|n IH]; cbn; [lra|]. rewrite IH. lra. Qed.
Lemma rsum_minus : forall f g n, rsum (fun i => (f i - g i)%R) n = (rsum f n - rsum g n)%R.
Proof. induction n as [|n IH]; cbn; [lra|]. rewrite IH. lra. Qed.
Lemma rsum_mono : forall f n m, n <= m -> (forall i, i < m -> (0 <= f i)%R) -> (rsum f n <= rsum f m)%R.
Proof.
  intros f n m H. induction H; intros P; [lra|]. cbn. specialize (IHle ltac:(intros; apply P; lia)).
  specialize (P m ltac:(lia)). lra.
Qed.
Lemma rsum_swap : forall (f : nat -> nat -> R) n m, rsum (fun i => rsum (f i) m) n = rsum (fun j => rsum (fun i => f i j) n) m.
Proof.
  induction n as [|n IH]; intros m; cbn; [now rewrite rsum_zero|]. rewrite IH. now rewrite <- rsum_plus.
Qed.
Lemma rsum_single : forall f n k, k < n -> (forall i, i < n -> i <> k -> f i = 0%R) -> rsum f n = f k.
Proof.
  induction n as [|n IH]; intros k Hk H; [lia|]. cbn. destruct (Nat.eq_dec k n) as [->|Ne].
  - rewrite (rsum_ext f (fun _ => 0%R)), rsum_zero; [lra|]. intros i Hi. apply H; lia.
  - rewrite (IH k), (H n); [lra|lia|lia|lia|]. intros i Hi. apply H. lia.
Qed.
Lemma rsum_telescope : forall (f : nat -> R) n, rsum (fun i => (f (S i) - f i)%R) n = (f n - f 0%nat)%R.
Proof. induction n as [|n IH]; cbn; [lra|]. rewrite IH. lra. Qed.
Lemma rsum_app : forall f n m, rsum f (n + m) = (rsum f n + rsum (fun i => f (n + i)%nat) m)%R.
Proof.
  intros f n m. induction m as [|m IH]; [rewrite Nat.add_0_r; cbn; lra|].
  rewrite Nat.add_succ_r. cbn. rewrite IH. lra.
Qed.

Lemma set_nth_spec : forall {A} (l l' : list A) i v, set_nth l i v = Some l' ->
  length l' = length l /\ i < length l /\ forall j, nth_error l' j = if j =? i then Some v else nth_error l j.
Proof.
  induction l as [|a l IH]; intros l' i v H; destruct i as [|i]; cbn in H; try discriminate.
  - injection H as <-. cbn. repeat split; try lia. intros [|j]; reflexivity.
  - destruct (set_nth l i v) as [l2|] eqn:E; [|discriminate]. injection H as <-.
    destruct (IH _ _ _ E) as (L & Hi & P). cbn. repeat split; try lia. intros [|j]; cbn; auto.
Qed.
