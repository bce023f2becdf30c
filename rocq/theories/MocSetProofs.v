(** Lemmas for the set-up of the MoC sweeper. *)
From Coq Require Import ZArith List Lia Bool Sorted Permutation Reals Lra.
From Verif Require Import RUtil ListUtil XsModel SrcModel MgModel MeshModel MeshProofs AngModel AngProofs AngProps AqModel AqProps AqwProps BcModel BcProofs StdAlg MatModel GeomModel CoreModel CoreProofs PmModel RatModel RatProofs RatProps RayModel RayProofs RayTrModel RayProps MocModel MocProofs VolModel VolProps OrdProps MocSetModel.
Import ListNotations.
Open Scope R_scope.

(** ** Angles *)

(** The search for a rational approximation ends within the steps allowed. *)
Lemma enough_steps : forall a hx hy s, 0 < a < PI / 2 -> modularize_rational 502 a hx hy s <> None.
Proof.
  intros a hx hy s A E. unfold modularize_rational, rational_counts in E. set (m := if Rltb a (PI / 4) then tan a else tan (PI / 2 - a)) in *. pose proof PI_RGT_0.
  assert (M : 0 <= m <= 1).
  { unfold m. assert (T : forall x, 0 < x <= PI / 4 -> 0 <= tan x <= 1). { intros x X. split; [left; apply tan_gt_0; lra|]. destruct (proj2 X) as [L|L]; [left; rewrite <- tan_PI4; apply tan_increasing; lra|subst; rewrite tan_PI4; lra]. }
    destruct (Rltb_spec a (PI / 4)); apply T; lra. }
  destruct (C53_within_tolerance 501 m (2 / 1000) M) as (p & q & Er & _).
  - unfold INT_MAX. lra.
  - lra.
  - rewrite INR_IZR_INZ. change (Z.of_nat 501) with 501%Z. lra.
  - rewrite Er in E. discriminate.
Qed.
(** What an angle becomes. *)
Definition laid (d : CoreDims) (a : Angle) (N : Z * Z) : Angle := mkAngle (mod_dir (cd_hx d) (cd_hy d) (fst N) (snd N) (theta (adir a))) (weight a).
Definition counted (o : RayOpts) (d : CoreDims) (a : Angle) (N : Z * Z) : Prop := angle_counts o d (AngModel.alpha (adir a)) = Got N /\ (1 <= fst N)%Z /\ (1 <= snd N)%Z.
Definition zip {A B C} (f : A -> B -> C) (l : list A) (m : list B) : list C := map (fun p => f (fst p) (snd p)) (combine l m).
Lemma lay_spec : forall o d n l i done rest res, l = done ++ rest -> length done = i -> length rest = n -> lay_angles o d (length l) (seq i n) (expand l) = Got res ->
  Forall2 (counted o d) rest (fst res) /\ snd res = expand (done ++ zip (laid d) rest (fst res)).
Proof.
  intros o d n. induction n as [|n IH]; intros l i done rest res E D Rn H.
  - destruct rest; [|discriminate]. cbn [seq lay_angles] in H. injection H as <-. cbn [fst snd]. split; [constructor|]. rewrite E. reflexivity.
  - destruct rest as [|a rest]; [discriminate|]. cbn [seq lay_angles] in H.
    assert (N : nth_error l i = Some a) by (subst l; rewrite nth_error_app2 by lia; replace (i - length done)%nat with 0%nat by lia; reflexivity).
    assert (NE : nth_error (expand l) i = Some a) by (unfold expand; rewrite nth_error_app1 by (apply nth_error_Some; congruence); exact N). rewrite NE in H.
    destruct (angle_counts o d (AngModel.alpha (adir a))) as [K| |] eqn:EK; try discriminate. cbn [bind] in H. destruct (Z.ltb_spec (fst K) 1); [discriminate|]. destruct (Z.ltb_spec (snd K) 1); [discriminate|]. cbn [orb] in H.
    set (b := mkAngle (dir_angles (mod_alpha (cd_hx d) (cd_hy d) (fst K) (snd K)) (theta (adir a))) (weight a)) in *. change b with (laid d a K) in *. clear b. set (b := laid d a K) in *.
    assert (U : upd l i b = Some (done ++ b :: rest)). { clearbody b. subst l. clear -D. revert i D. induction done as [|x done IH]; intros i D; [cbn in D; subst; reflexivity|]. cbn in D. destruct i as [|i]; [discriminate|]. cbn [app upd]. rewrite (IH i) by lia. reflexivity. }
    rewrite (modify_angle_ok l (done ++ b :: rest) i b U) in H. replace (length l) with (length (done ++ b :: rest)) in H by (subst l; rewrite !app_length; reflexivity).
    destruct (lay_angles o d (length (done ++ b :: rest)) (seq (S i) n) (expand (done ++ b :: rest))) as [res'| |] eqn:E'; try discriminate. cbn [bind] in H. injection H as <-.
    destruct (IH (done ++ b :: rest) (S i) (done ++ [b]) rest res') as [F S]; [rewrite <- app_assoc; reflexivity|rewrite app_length; cbn; lia|cbn in Rn; lia|exact E'|].
    cbn [fst snd]. split; [constructor; [split; [exact EK|lia]|exact F]|]. rewrite S. unfold zip. cbn [combine map fst snd]. rewrite <- app_assoc. reflexivity.
Qed.
(** Four copies. *)
Lemma push_spec : forall {A} n m i (l r : list A), length l = (n + i)%nat -> push_again (seq i m) l = Some r ->
  (exists t, r = l ++ t /\ length t = m) /\ forall k, (i <= k < i + m)%nat -> nth_error r (n + k) = nth_error r k.
Proof.
  intros A n m. induction m as [|m IH]; intros i l r L H; cbn [seq push_again] in H.
  - injection H as <-. split; [exists []; rewrite app_nil_r; auto|lia].
  - destruct (nth_error l i) as [x|] eqn:E; [|discriminate]. destruct (IH (S i) (l ++ [x]) r) as [(t & Et & Lt) P]; [rewrite app_length; cbn; lia|exact H|].
    split; [exists (x :: t); split; [rewrite Et, <- app_assoc; reflexivity|cbn; lia]|]. intros k K. destruct (Nat.eq_dec k i) as [->|Ne]; [|apply P; lia].
    rewrite Et, <- app_assoc. rewrite (nth_error_app2 l) by lia. rewrite L, Nat.sub_diag. cbn [app nth_error]. rewrite nth_error_app1; [symmetry; exact E|]. apply nth_error_Some. congruence.
Qed.
Lemma push_four : forall {A} (l r : list A), l <> [] -> push_again (seq 0 (3 * length l)) l = Some r -> length r = (4 * length l)%nat /\ forall k, (k < 4 * length l)%nat -> nth_error r k = nth_error l (k mod length l).
Proof.
  intros A l r N H. destruct (push_spec (length l) (3 * length l) 0 l r ltac:(lia) H) as [(t & -> & Lt) P]. split; [rewrite app_length; lia|].
  assert (P0 : (0 < length l)%nat) by (destruct l; [congruence|cbn; lia]).
  assert (Q : forall j k, (k < length l)%nat -> (j * length l + k < 4 * length l)%nat -> nth_error (l ++ t) (j * length l + k) = nth_error l k).
  { induction j as [|j IH]; intros k K B; [cbn; rewrite nth_error_app1 by lia; reflexivity|]. replace (S j * length l + k)%nat with (length l + (j * length l + k))%nat by lia. rewrite P by lia. apply IH; lia. }
  intros k K. pose proof (Nat.div_mod k (length l) ltac:(lia)) as DM. pose proof (Nat.mod_upper_bound k (length l) ltac:(lia)). rewrite DM at 1. replace (length l * (k / length l))%nat with (k / length l * length l)%nat by lia. apply Q; lia.
Qed.
