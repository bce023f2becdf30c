(** Boolean comparisons on R used by the models; not tied to any source line. *)
From Coq Require Import Reals Lra Bool.
Open Scope R_scope.

Definition Rltb (a b : R) : bool := if Rlt_dec a b then true else false.
Definition Rleb (a b : R) : bool := if Rle_dec a b then true else false.
Definition Reqb (a b : R) : bool := if Req_EM_T a b then true else false.

Lemma Rltb_spec : forall a b, reflect (a < b) (Rltb a b).
Proof. intros; unfold Rltb; destruct (Rlt_dec a b); now constructor. Qed.
Lemma Rleb_spec : forall a b, reflect (a <= b) (Rleb a b).
Proof. intros; unfold Rleb; destruct (Rle_dec a b); now constructor. Qed.
Lemma Reqb_spec : forall a b, reflect (a = b) (Reqb a b).
Proof. intros; unfold Reqb; destruct (Req_EM_T a b); now constructor. Qed.

(** Case split on every comparison in the goal. *)
Ltac rdec := repeat match goal with
  | |- context [Rltb ?a ?b] => destruct (Rltb_spec a b)
  | |- context [Rleb ?a ?b] => destruct (Rleb_spec a b)
  | |- context [Reqb ?a ?b] => destruct (Reqb_spec a b)
  end.

Lemma Rltb_true : forall a b, a < b -> Rltb a b = true.
Proof. intros a b H. destruct (Rltb_spec a b); auto; contradiction. Qed.
Lemma Rltb_false : forall a b, b <= a -> Rltb a b = false.
Proof. intros a b H. destruct (Rltb_spec a b); auto; lra. Qed.
