(** C93: ray segments inside a pin. *)
From Coq Require Import Reals ZArith List Bool Lra Lia Psatz Permutation.
From Verif Require Import RUtil StdAlg StdAlgProofs GeomModel GeomProofs CoreModel TallyProofs PmModel PmProps.
Import ListNotations.
Local Open Scope R_scope.

(** ** Points of a chord that rises *)
Section Chord.
Variables a b : Point2.
Hypothesis rise : pty a < pty b.
Let l : Line := {| p1 := a; p2 := b |}.
Let K : R := dist2 a b / (pty b - pty a).

Lemma chord_ends : on_segment l a /\ on_segment l b.
Proof. split; [exists 0|exists 1]; unfold at_param, l; cbn [p1 p2]; (split; [lra|split; ring]). Qed.
Lemma chord_y : forall p, on_segment l p -> pty a <= pty p <= pty b.
Proof. intros p [t [Ht [_ Hy]]]. unfold l in Hy; cbn [p1 p2] in Hy. nra. Qed.
Lemma chord_x : forall p, on_segment l p -> ptx p = ptx a + (pty p - pty a) * ((ptx b - ptx a) / (pty b - pty a)).
Proof. intros p [t [Ht [Hx Hy]]]. unfold l in *; cbn [p1 p2] in *. rewrite Hx, Hy. field. lra. Qed.
Lemma chord_inj : forall p q, on_segment l p -> on_segment l q -> pty p = pty q -> p = q.
Proof.
  intros [px py] [qx qy] Hp Hq E. cbn [pty] in E. pose proof (chord_x _ Hp) as X. pose proof (chord_x _ Hq) as Y. cbn [ptx pty] in X, Y. subst qy. rewrite <- Y in X. congruence.
Qed.
Lemma chord_at : forall y, pty a <= y <= pty b -> exists p, on_segment l p /\ pty p = y.
Proof.
  intros y H. exists {| ptx := ptx a + (y - pty a) / (pty b - pty a) * (ptx b - ptx a); pty := y |}. split; [|reflexivity].
  exists ((y - pty a) / (pty b - pty a)). split.
  - split; [apply Rmult_le_pos; [lra|]; left; apply Rinv_0_lt_compat; lra|]. apply (Rmult_le_reg_r (pty b - pty a)); [lra|]. replace ((y - pty a) / (pty b - pty a) * (pty b - pty a)) with (y - pty a) by (field; lra). lra.
  - unfold at_param, l; cbn [p1 p2 ptx pty]. split; [ring|]. field. lra.
Qed.
Lemma chord_dist : forall p q, on_segment l p -> on_segment l q -> pty p <= pty q -> dist2 q p = K * (pty q - pty p).
Proof.
  intros p q Hp Hq L. unfold K, dist2. rewrite (chord_x p Hp), (chord_x q Hq). set (m := (ptx b - ptx a) / (pty b - pty a)).
  assert (M : ptx b = ptx a + (pty b - pty a) * m) by (unfold m; field; lra). rewrite M.
  replace ((ptx a + (pty q - pty a) * m - (ptx a + (pty p - pty a) * m)) * (ptx a + (pty q - pty a) * m - (ptx a + (pty p - pty a) * m)) + (pty q - pty p) * (pty q - pty p)) with ((1 + m * m) * ((pty q - pty p) * (pty q - pty p))) by ring.
  replace ((ptx a - (ptx a + (pty b - pty a) * m)) * (ptx a - (ptx a + (pty b - pty a) * m)) + (pty a - pty b) * (pty a - pty b)) with ((1 + m * m) * ((pty b - pty a) * (pty b - pty a))) by ring.
  rewrite (sqrt_mult (1 + m * m) ((pty q - pty p) * (pty q - pty p))), (sqrt_mult (1 + m * m) ((pty b - pty a) * (pty b - pty a))) by nra. rewrite !sqrt_square by lra. field. lra.
Qed.
Lemma chord_between : forall p q z y, on_segment l p -> on_segment l q -> pty p <= y <= pty q -> on_segment l z -> pty z = y -> exists t, 0 <= t <= 1 /\ ptx z = ptx p + t * (ptx q - ptx p) /\ pty z = pty p + t * (pty q - pty p).
Proof.
  intros p q z y Hp Hq Hy Hz Ez. pose proof (chord_x p Hp) as Xp. pose proof (chord_x q Hq) as Xq. pose proof (chord_x z Hz) as Xz. set (m := (ptx b - ptx a) / (pty b - pty a)) in *.
  destruct (Req_dec (pty p) (pty q)) as [E|N].
  - exists 0. split; [lra|]. assert (pty z = pty p) by lra. split; [rewrite Xz, Xp, H; ring|lra].
  - exists ((pty z - pty p) / (pty q - pty p)). split; [|split].
    + split; [apply Rmult_le_pos; [lra|]; left; apply Rinv_0_lt_compat; lra|]. apply (Rmult_le_reg_r (pty q - pty p)); [lra|]. replace ((pty z - pty p) / (pty q - pty p) * (pty q - pty p)) with (pty z - pty p) by (field; lra). lra.
    + rewrite Xz, Xp, Xq. field. lra.
    + field. lra.
Qed.

(** ** Sorting and dropping duplicates *)
Lemma ascending_tl : forall x r, ascending (x :: r) -> ascending r.
Proof. intros x [|y r] H; [exact I|]. destruct H; assumption. Qed.
Lemma ascending_head : forall r x z, ascending (x :: r) -> In z r -> pty x <= pty z.
Proof.
  induction r as [|y r IH]; intros x z H I; [destruct I|]. destruct H as [H1 H2]. destruct I as [<-|I]; [assumption|]. specialize (IH y z H2 I). lra.
Qed.
Lemma ascending_drop : forall x y r, ascending (x :: y :: r) -> ascending (x :: r).
Proof. intros x y [|z r] H; [exact I|]. destruct H as [H1 [H2 H3]]. split; [lra|assumption]. Qed.
Lemma ascending_lastP : forall r x z, ascending (x :: r) -> In z (x :: r) -> pty z <= pty (last r x).
Proof.
  induction r as [|y r IH]; intros x z H I; [destruct I as [<-|[]]; cbn; lra|]. rewrite last_cons'. destruct H as [H1 H2].
  destruct I as [<-|I]; [specialize (IH y y H2 (or_introl eq_refl)); lra|]. apply IH; assumption.
Qed.

Section Uniq.
Variable eqp : Point2 -> Point2 -> bool.
Lemma uniq_in : forall r x z, In z (uniq eqp x r) -> In z (x :: r).
Proof.
  induction r as [|y r IH]; intros x z H; [exact H|]. cbn [uniq] in H. destruct (eqp x y).
  - apply IH in H. destruct H; [left; assumption|right; right; assumption].
  - destruct H as [H|H]; [left; assumption|right; apply IH; assumption].
Qed.
Lemma uniq_head : forall r x, exists t, uniq eqp x r = x :: t.
Proof. induction r as [|y r IH]; intro x; cbn [uniq]; [eexists; reflexivity|]. destruct (eqp x y); [apply IH|eexists; reflexivity]. Qed.
Lemma uniq_ascending : forall r x, ascending (x :: r) -> ascending (uniq eqp x r).
Proof.
  induction r as [|y r IH]; intros x H; [exact I|]. cbn [uniq]. destruct (eqp x y).
  - apply IH. apply ascending_drop with y. assumption.
  - destruct H as [H1 H2]. specialize (IH y H2). destruct (uniq_head r y) as [t E]. rewrite E in *. split; assumption.
Qed.
Lemma uniq_last : forall r x d, last (uniq eqp x r) d = last r x \/ eqp (last (uniq eqp x r) d) (last r x) = true.
Proof.
  induction r as [|y r IH]; intros x d; [left; reflexivity|]. cbn [uniq]. rewrite last_cons'.
  assert (G : forall r x d, eqp x (last r x) = true -> last (uniq eqp x r) d = last (uniq eqp x r) d) by reflexivity.
  destruct (eqp x y) eqn:E.
  - destruct r as [|z r]; [right; cbn; assumption|]. rewrite last_cons'. destruct (IH x d) as [H|H]; rewrite last_cons' in H; auto.
  - rewrite last_cons'. destruct (uniq_head r y) as [t Et]. destruct (IH y x) as [H|H]; auto.
Qed.
(** When equal means the same point on this list, nothing but repetitions is dropped. *)
Lemma uniq_keeps : forall r x, (forall p q, In p (x :: r) -> In q (x :: r) -> eqp p q = true -> p = q) -> forall z, In z (x :: r) -> In z (uniq eqp x r).
Proof.
  induction r as [|y r IH]; intros x H z I; [exact I|]. cbn [uniq]. destruct (eqp x y) eqn:E.
  - assert (x = y) by (apply H; [left; reflexivity|right; left; reflexivity|assumption]). subst y. apply IH.
    + intros p q Hp Hq. apply H; [destruct Hp; [left|right; right]|destruct Hq; [left|right; right]]; assumption.
    + destruct I as [I|I]; [left; assumption|assumption].
  - destruct I as [I|I]; [left; assumption|]. right. apply IH; [|assumption]. intros p q Hp Hq. apply H; right; assumption.
Qed.
End Uniq.

(** The lengths of the segments between ascending points add up. *)
Lemma segments_sum : forall r x, ascending (x :: r) -> Forall (on_segment l) (x :: r) ->
  Rsum (map fst (segments (x :: r))) = K * (pty (last r x) - pty x).
Proof.
  induction r as [|y r IH]; intros x H F; [cbn; ring|]. change (segments (x :: y :: r)) with ((dist2 y x, midpoint y x) :: segments (y :: r)). cbn [map fst].
  change (Rsum (dist2 y x :: map fst (segments (y :: r)))) with (dist2 y x + Rsum (map fst (segments (y :: r)))). rewrite last_cons'.
  inversion F as [|? ? F1 F2]; subst. destruct H as [H1 H2]. rewrite IH by assumption. inversion F2; subst. rewrite chord_dist by assumption. ring.
Qed.

(** Consecutive points. *)
Fixpoint adjacent (x y : Point2) (u : list Point2) : Prop := match u with p :: (q :: _) as r => (p = x /\ q = y) \/ adjacent x y r | _ => False end.
Lemma adjacent_in : forall u x y, adjacent x y u -> In x u /\ In y u.
Proof. induction u as [|p u IH]; intros x y A; [destruct A|]. destruct u as [|q u]; [destruct A|]. destruct A as [[-> ->]|A]; [split; [left|right; left]; reflexivity|]. apply IH in A. destruct A; split; right; assumption. Qed.
Lemma adjacent_gap : forall u x y z, ascending u -> adjacent x y u -> In z u -> pty z <= pty x \/ pty y <= pty z.
Proof.
  induction u as [|p u IH]; intros x y z H A I; [destruct I|]. destruct u as [|q u]; [destruct A|]. change ((p = x /\ q = y) \/ adjacent x y (q :: u)) in A. destruct A as [[-> ->]|A].
  - destruct I as [<-|[<-|I]]; [left; lra|right; lra|]. right. apply (ascending_head u y z); [apply (ascending_tl x); assumption|assumption].
  - destruct I as [<-|I]; [|apply IH; [apply (ascending_tl p); assumption|assumption|assumption]].
    left. pose proof (proj1 (adjacent_in _ _ _ A)) as Ix.
    apply (ascending_head (q :: u) p x); assumption.
Qed.

Lemma unique_sorted : forall eqp pts u, sort_gives (a :: b :: pts) u -> Forall (on_segment l) pts ->
  exists r, u = a :: r /\ last r a = b /\ Forall (on_segment l) (a :: r) /\ unique eqp u = uniq eqp a r.
Proof.
  intros eqp pts u [P A] F. destruct chord_ends as [Ea Eb].
  assert (Fu : Forall (on_segment l) u).
  { apply Forall_forall. intros z Hz. apply (Permutation_in z (Permutation_sym P)) in Hz. destruct Hz as [<-|[<-|Hz]]; [assumption|assumption|]. rewrite Forall_forall in F. auto. }
  destruct u as [|x r]; [apply Permutation_sym, Permutation_nil in P; discriminate|].
  assert (Ex : x = a).
  { rewrite Forall_forall in Fu. assert (Ia : In a (x :: r)) by (apply (Permutation_in a P); left; reflexivity). pose proof (Fu x (or_introl eq_refl)) as Sx.
    apply chord_inj; [assumption|assumption|]. pose proof (chord_y x Sx). destruct Ia as [<-|Ia]; [reflexivity|]. pose proof (ascending_head r x a A Ia). lra. }
  subst x. exists r. split; [reflexivity|]. split; [|split; [assumption|reflexivity]].
  assert (Ib : In b (a :: r)) by (apply (Permutation_in b P); right; left; reflexivity).
  pose proof (ascending_lastP r a b A Ib) as H. rewrite Forall_forall in Fu.
  assert (IL : In (last r a) (a :: r)) by (clear; revert a; induction r as [|y r IH]; intro a; [left; reflexivity|]; rewrite last_cons'; right; apply IH).
  pose proof (Fu _ IL) as SL. apply chord_inj; [assumption|assumption|]. pose proof (chord_y _ SL). lra.
Qed.

(** The segment lengths of any sorted list of points of the chord: together they reach from [a] to the last point kept,
    which is [b] or a point the comparison takes for [b]. *)
Lemma lengths : forall eqp find pts u, sort_gives (a :: b :: pts) u -> Forall (on_segment l) pts ->
  exists e, on_segment l e /\ (e = b \/ eqp e b = true) /\ Rsum (map fst (trace_result eqp find u)) = dist2 e a /\ Forall (fun s => 0 <= fst s) (trace_result eqp find u)
  /\ Rsum (map fst (trace_result eqp find u)) + dist2 b e = dist2 b a.
Proof.
  intros eqp find pts u S F. destruct (unique_sorted eqp pts u S F) as [r [Eu [Lr [Fr Uq]]]]. destruct chord_ends as [Ea Eb].
  unfold trace_result. rewrite map_map. change (fun x => fst (fst x, find (snd x))) with (fun x : R * Point2 => fst x). rewrite Uq.
  destruct S as [_ As]. rewrite Eu in As. pose proof (uniq_ascending eqp r a As) as Au. destruct (uniq_head eqp r a) as [t Et]. rewrite Et in *.
  assert (Fu : Forall (on_segment l) (a :: t)).
  { apply Forall_forall. intros z Hz. rewrite <- Et in Hz. apply uniq_in in Hz. rewrite Forall_forall in Fr. auto. }
  exists (last t a). assert (IL : In (last t a) (a :: t)) by (clear; revert a; induction t as [|y t IH]; intro a; [left; reflexivity|]; rewrite last_cons'; right; apply IH).
  assert (SL : on_segment l (last t a)) by (rewrite Forall_forall in Fu; auto). split; [assumption|]. split; [|split; [|split]].
  - pose proof (uniq_last eqp r a a) as Q. rewrite Et, last_cons', Lr in Q. exact Q.
  - rewrite segments_sum by assumption. symmetry. apply chord_dist; [assumption|assumption|]. apply chord_y. assumption.
  - clear. apply Forall_forall. intros x Hx. apply in_map_iff in Hx. destruct Hx as [s [<- Hs]]. cbn [fst]. clear - Hs. revert Hs. generalize (a :: t) as w. induction w as [|x r IH]; intro H; [destruct H|]. destruct r as [|y r]; [destruct H|].
    destruct H as [<-|H]; [apply sqrt_pos|apply IH; assumption].
  - rewrite segments_sum by assumption. rewrite (chord_dist _ b), (chord_dist a b) by (try assumption; try lra; apply chord_y; assumption). ring.
Qed.

(** Regions: if equality on the points is exact, no point found lies strictly inside a segment. *)
Lemma no_point_inside : forall eqp pts u x y z, sort_gives (a :: b :: pts) u -> Forall (on_segment l) pts ->
  (forall p q, In p u -> In q u -> eqp p q = true -> p = q) -> adjacent x y (unique eqp u) -> In z pts -> pty x < pty z < pty y -> False.
Proof.
  intros eqp pts u x y z S F E A I H. destruct (unique_sorted eqp pts u S F) as [r [Eu [Lr [Fr Uq]]]]. rewrite Uq in A.
  assert (Iz : In z (uniq eqp a r)).
  { apply uniq_keeps; [rewrite <- Eu; assumption|]. rewrite <- Eu. apply (Permutation_in z (proj1 S)). right; right. assumption. }
  destruct S as [_ As]. rewrite Eu in As. pose proof (adjacent_gap _ x y z (uniq_ascending eqp r a As) A Iz). lra.
Qed.
Lemma adjacent_on : forall eqp pts u x y, sort_gives (a :: b :: pts) u -> Forall (on_segment l) pts -> adjacent x y (unique eqp u) -> on_segment l x /\ on_segment l y.
Proof.
  intros eqp pts u x y S F A. destruct (unique_sorted eqp pts u S F) as [r [Eu [Lr [Fr Uq]]]]. rewrite Uq in A. apply adjacent_in in A. rewrite Forall_forall in Fr.
  destruct A as [A1 A2]. apply uniq_in in A1. apply uniq_in in A2. auto.
Qed.
Lemma adjacent_le : forall eqp pts u x y, sort_gives (a :: b :: pts) u -> Forall (on_segment l) pts -> adjacent x y (unique eqp u) -> pty x <= pty y.
Proof.
  intros eqp pts u x y S F A. destruct (unique_sorted eqp pts u S F) as [r [Eu [Lr [Fr Uq]]]]. rewrite Uq in A. destruct S as [_ As]. rewrite Eu in As. pose proof (uniq_ascending eqp r a As) as Au. clear - A Au.
  revert A Au. generalize (uniq eqp a r) as w. induction w as [|p u IH]; intros A Au; [destruct A|]. destruct u as [|q u]; [destruct A|]. destruct A as [[-> ->]|A]; [destruct Au; assumption|]. apply IH; [assumption|destruct Au; assumption].
Qed.
End Chord.

(** ** Rectangular pins *)
Lemma lower_bound_same : forall l x y, increasing l -> (forall v, In v l -> (v < x <-> v < y)) -> lower_bound Rltb l x = lower_bound Rltb l y.
Proof.
  intros l x y I H.
  destruct (lower_bound_spec R Rltb l x (increasing_lb l x I)) as [i [E [Hi [Lo Up]]]]. destruct (lower_bound_spec R Rltb l y (increasing_lb l y I)) as [j [E' [Hj [Lo' Up']]]].
  rewrite E, E'. f_equal. destruct (Nat.lt_trichotomy i j) as [C|[C|C]]; [|assumption|]; exfalso.
  - destruct (nth_error l i) as [v|] eqn:N; [|apply nth_error_None in N; lia]. specialize (Up i v ltac:(lia) N). specialize (Lo' i v ltac:(lia) N).
    pose proof (H v (nth_error_In _ _ N)) as Q. destruct (Rltb_spec v x); [discriminate|]. destruct (Rltb_spec v y); [|discriminate]. tauto.
  - destruct (nth_error l j) as [v|] eqn:N; [|apply nth_error_None in N; lia]. specialize (Up' j v ltac:(lia) N). specialize (Lo j v ltac:(lia) N).
    pose proof (H v (nth_error_In _ _ N)) as Q. destruct (Rltb_spec v x); [|discriminate]. destruct (Rltb_spec v y); [discriminate|]. tauto.
Qed.
Lemma interior_divisions : forall pitch n v, In v (interior (divisions pitch n)) <-> exists i, (0 < i < n)%nat /\ v = INR i * (pitch / INR n) - 0.5 * pitch.
Proof.
  intros pitch n v. unfold interior, divisions. cbn [seq map tl]. set (f := fun i => INR i * (pitch / INR n) - 0.5 * pitch).
  destruct n as [|n]; [cbn; split; [tauto|intros [i [H _]]; lia]|]. rewrite seq_S, map_app. cbn [map]. rewrite removelast_last, in_map_iff. split.
  - intros [i [E I]]. apply in_seq in I. exists i. split; [lia|symmetry; exact E].
  - intros [i [H E]]. exists i. split; [symmetry; exact E|]. apply in_seq. lia.
Qed.
Lemma divisions_cases : forall pitch n v, (0 < n)%nat -> In v (divisions pitch n) -> v = - (0.5 * pitch) \/ v = 0.5 * pitch \/ In v (interior (divisions pitch n)).
Proof.
  intros pitch n v Hn I. unfold divisions in I. apply in_map_iff in I. destruct I as [i [<- I]]. apply in_seq in I. assert (N : 0 < INR n) by (apply lt_0_INR; lia).
  destruct (Nat.eq_dec i 0) as [->|]; [left; cbn [INR]; ring|]. destruct (Nat.eq_dec i n) as [->|]; [right; left; field_simplify; lra|].
  right; right. apply interior_divisions. exists i. split; [lia|reflexivity].
Qed.

(** Whether a point lies in the pin. *)
Definition inside (pitch : R) (p : Point2) : Prop := Rabs (ptx p) <= pitch / 2 /\ Rabs (pty p) <= pitch / 2.
Lemma inside_bounds : forall pitch p, inside pitch p <-> (- (pitch / 2) <= ptx p <= pitch / 2 /\ - (pitch / 2) <= pty p <= pitch / 2).
Proof.
  intros pitch p. unfold inside. split.
  - intros [A B]. pose proof (Rle_abs (ptx p)). pose proof (Rle_abs (- ptx p)). pose proof (Rle_abs (pty p)). pose proof (Rle_abs (- pty p)). rewrite Rabs_Ropp in *. lra.
  - intros [A B]. split; apply Rabs_le; lra.
Qed.
Lemma chord_inside : forall pitch a b p, inside pitch a -> inside pitch b -> on_segment {| p1 := a; p2 := b |} p -> inside pitch p.
Proof. intros pitch a b p A B [t [Ht [Hx Hy]]]. apply inside_bounds in A. apply inside_bounds in B. apply inside_bounds. cbn [p1 p2] in *. rewrite Hx, Hy. split; nra. Qed.

Lemma rect_pts_on : forall pm a b, Forall (on_segment {| p1 := a; p2 := b |}) (trace_points (rp_lines pm) {| p1 := a; p2 := b |}).
Proof. intros pm a b. apply Forall_forall. intros z Hz. apply trace_points_in in Hz. destruct Hz as [li [_ E]]. apply intersect_ll_sound in E. apply E. Qed.

Lemma rect_ctor_inv : forall id pitch nx ny pm, rect_ctor id pitch nx ny = PVal pm ->
  0 < pitch /\ (1 <= nx)%Z /\ (1 <= ny)%Z /\ rp_pitch pm = pitch /\ rp_nx pm = Z.to_nat nx /\ rp_ny pm = Z.to_nat ny /\ rp_hx pm = divisions pitch (Z.to_nat nx) /\ rp_hy pm = divisions pitch (Z.to_nat ny)
  /\ rp_lines pm = rect_lines pitch (rp_hx pm) (rp_hy pm).
Proof.
  intros id pitch nx ny pm H. unfold rect_ctor, base_ctor in H. destruct (id <? 0)%Z; [discriminate|].
  destruct (Rleb_spec pitch 0) as [P|P]; [discriminate|]. cbn [pbind] in H. destruct (Z.ltb_spec nx 1) as [X|X]; [discriminate|]. destruct (Z.ltb_spec ny 1) as [Y|Y]; [discriminate|].
  injection H as <-. apply Rnot_le_lt in P. cbn. repeat (split; [first [assumption|lia|reflexivity]|]). reflexivity.
Qed.

Section RectChord.
Variables (pitch : R) (nx ny : nat) (a b : Point2).
Hypothesis HP : 0 < pitch.
Hypothesis HX : (0 < nx)%nat.
Hypothesis HY : (0 < ny)%nat.
Hypothesis rise : pty a < pty b.
Hypothesis Ia : inside pitch a.
Hypothesis Ib : inside pitch b.
Let l : Line := {| p1 := a; p2 := b |}.
Let hx := divisions pitch nx.
Let hy := divisions pitch ny.
Let pts := trace_points (rect_lines pitch hx hy) l.

Lemma x_line_found : forall v z, In v (interior hx) -> on_segment l z -> ptx z = v -> ptx a <> ptx b -> In z pts.
Proof.
  intros v z I S E N. unfold pts. apply trace_points_in. set (h := 0.5 * pitch).
  exists {| p1 := {| ptx := v; pty := - h |}; p2 := {| ptx := v; pty := h |} |}. split; [unfold rect_lines; apply in_or_app; left; apply (in_map (fun x => {| p1 := {| ptx := x; pty := - h |}; p2 := {| ptx := x; pty := h |} |})); assumption|].
  pose proof (chord_inside pitch a b z Ia Ib S) as Q. apply inside_bounds in Q. destruct Q as [_ Q]. assert (H0 : 0 < h) by (unfold h; lra).
  apply intersect_ll_complete; [|exists ((pty z + h) / (2 * h)); split|exact S].
  - unfold cross, l. cbn [p1 p2 ptx pty]. intro C. assert (h * (ptx b - ptx a) = 0) by lra. apply Rmult_integral in H. lra.
  - split; [apply Rmult_le_pos; [unfold h; lra|left; apply Rinv_0_lt_compat; lra]|]. apply (Rmult_le_reg_r (2 * h)); [lra|]. replace ((pty z + h) / (2 * h) * (2 * h)) with (pty z + h) by (field; lra). unfold h; lra.
  - unfold at_param. cbn [p1 p2 ptx pty]. split; [rewrite E; ring|]. field. lra.
Qed.
Lemma y_line_found : forall v z, In v (interior hy) -> on_segment l z -> pty z = v -> In z pts.
Proof.
  intros v z I S E. unfold pts. apply trace_points_in. set (h := 0.5 * pitch).
  exists {| p1 := {| ptx := - h; pty := v |}; p2 := {| ptx := h; pty := v |} |}. split; [unfold rect_lines; apply in_or_app; right; apply (in_map (fun y => {| p1 := {| ptx := - h; pty := y |}; p2 := {| ptx := h; pty := y |} |})); assumption|].
  pose proof (chord_inside pitch a b z Ia Ib S) as Q. apply inside_bounds in Q. destruct Q as [Q _]. assert (H0 : 0 < h) by (unfold h; lra).
  apply intersect_ll_complete; [|exists ((ptx z + h) / (2 * h)); split|exact S].
  - unfold cross, l. cbn [p1 p2 ptx pty]. intro C. assert (h * (pty b - pty a) = 0) by lra. apply Rmult_integral in H. lra.
  - split; [apply Rmult_le_pos; [unfold h; lra|left; apply Rinv_0_lt_compat; lra]|]. apply (Rmult_le_reg_r (2 * h)); [lra|]. replace ((ptx z + h) / (2 * h) * (2 * h)) with (ptx z + h) by (field; lra). unfold h; lra.
  - unfold at_param. cbn [p1 p2 ptx pty]. split; [|rewrite E; ring]. field. lra.
Qed.

(** An open piece of the chord, free of the points found. *)
Variables y1 y2 : R.
Hypothesis gap : forall z, In z pts -> y1 < pty z < y2 -> False.
Hypothesis range : pty a <= y1 /\ y2 <= pty b.

Lemma same_x : forall p q v, on_segment l p -> on_segment l q -> y1 < pty p < y2 -> y1 < pty q < y2 -> In v hx -> v < ptx q -> v < ptx p.
Proof.
  intros p q v Sp Sq Gp Gq Iv Hv. destruct (Rlt_dec v (ptx p)) as [|N]; [assumption|exfalso]. apply Rnot_lt_le in N.
  pose proof (chord_inside pitch a b q Ia Ib Sq) as Qq. apply inside_bounds in Qq. pose proof (chord_inside pitch a b p Ia Ib Sp) as Qp. apply inside_bounds in Qp.
  pose proof (chord_x a b rise p Sp) as Xp. pose proof (chord_x a b rise q Sq) as Xq. set (m := (ptx b - ptx a) / (pty b - pty a)) in *.
  assert (M : ptx b = ptx a + (pty b - pty a) * m) by (unfold m; field; lra).
  assert (Nab : ptx a <> ptx b) by (intro E; assert (m * (pty b - pty a) = 0) by lra; apply Rmult_integral in H; destruct H as [H|H]; [rewrite H in *; lra|lra]).
  destruct (divisions_cases pitch nx v HX Iv) as [E|[E|I]].
  - pose proof (proj1 (inside_bounds _ _) Ia) as BA. pose proof (proj1 (inside_bounds _ _) Ib) as BB. assert (ptx p = - (pitch / 2)) by lra. nra.
  - lra.
  - assert (Z : exists z, on_segment l z /\ ptx z = v /\ y1 < pty z < y2).
    { assert (Nm : m <> 0) by (intros E; rewrite E in M; lra). set (y := pty a + (v - ptx a) / m).
      assert (B : y1 < y < y2).
      { assert (Ey : v = ptx a + (y - pty a) * m) by (unfold y; field; assumption). destruct (Rdichotomy _ _ Nm); nra. }
      destruct (chord_at a b rise y ltac:(lra)) as [z [Sz Ez]]. exists z. split; [assumption|]. split; [|rewrite Ez; assumption].
      rewrite (chord_x a b rise z Sz), Ez. fold m. unfold y. field. assumption. }
    destruct Z as [z [Sz [Ez Gz]]]. exact (gap z (x_line_found v z I Sz Ez Nab) Gz).
Qed.
Lemma same_y : forall p q v, on_segment l p -> on_segment l q -> y1 < pty p < y2 -> y1 < pty q < y2 -> In v hy -> v < pty q -> v < pty p.
Proof.
  intros p q v Sp Sq Gp Gq Iv Hv. destruct (Rlt_dec v (pty p)) as [|N]; [assumption|exfalso]. apply Rnot_lt_le in N.
  pose proof (chord_inside pitch a b q Ia Ib Sq) as Qq. apply inside_bounds in Qq. pose proof (proj1 (inside_bounds _ _) Ia) as BA. pose proof (proj1 (inside_bounds _ _) Ib) as BB.
  destruct (divisions_cases pitch ny v HY Iv) as [E|[E|I]]; [lra|lra|].
  destruct (chord_at a b rise v ltac:(lra)) as [z [Sz Ez]]. apply (gap z); [|lra].
  apply (y_line_found v); assumption.
Qed.
Lemma rect_same : forall pm p q, rp_pitch pm = pitch -> rp_hx pm = hx -> rp_hy pm = hy -> on_segment l p -> on_segment l q -> y1 < pty p < y2 -> y1 < pty q < y2 -> rect_find_reg pm p = rect_find_reg pm q.
Proof.
  intros pm p q Ep Ex Ey Sp Sq Gp Gq. unfold rect_find_reg. rewrite Ep, Ex, Ey.
  pose proof (chord_inside pitch a b p Ia Ib Sp) as [A1 A2]. pose proof (chord_inside pitch a b q Ia Ib Sq) as [B1 B2].
  rewrite !Rltb_false by lra.
  rewrite (lower_bound_same hx (ptx p) (ptx q)); [|apply divisions_increasing; assumption|intros v Iv; split; intro H; [apply (same_x q p)|apply (same_x p q)]; assumption].
  rewrite (lower_bound_same hy (pty p) (pty q)); [reflexivity|apply divisions_increasing; assumption|intros v Iv; split; intro H; [apply (same_y q p)|apply (same_y p q)]; assumption].
Qed.
End RectChord.

(** ** The theorems *)
(** [res] describes the chord from [a] to [b] cut at the points [cuts]: one entry per piece, with its length and a region [r]
    such that every point strictly inside the piece is in that region ([in_reg]). *)
Definition describes (a b : Point2) (in_reg : Point2 -> Reg -> Prop) (cuts : list Point2) (res : list (R * Reg)) : Prop :=
  length cuts = S (length res) /\ hd_error cuts = Some a /\
  forall k s r, nth_error res k = Some (s, r) -> exists x y, nth_error cuts k = Some x /\ nth_error cuts (S k) = Some y /\ s = dist2 y x /\
    on_segment {| p1 := a; p2 := b |} x /\ on_segment {| p1 := a; p2 := b |} y /\ pty x <= pty y /\
    forall p, on_segment {| p1 := a; p2 := b |} p -> pty x < pty p < pty y -> in_reg p r.

Lemma segments_nth : forall u k s m, nth_error (segments u) k = Some (s, m) -> exists x y, nth_error u k = Some x /\ nth_error u (S k) = Some y /\ adjacent x y u /\ s = dist2 y x /\ m = midpoint y x.
Proof.
  induction u as [|x u IH]; intros k s m H; [destruct k; discriminate|]. destruct u as [|y u]; [destruct k; discriminate|].
  change (segments (x :: y :: u)) with ((dist2 y x, midpoint y x) :: segments (y :: u)) in H. destruct k as [|k].
  - cbn in H. injection H as <- <-. exists x, y. repeat split; try reflexivity. left. split; reflexivity.
  - cbn [nth_error] in H. destruct (IH k s m H) as [p [q [A [B [C D]]]]]. exists p, q. split; [exact A|]. split; [exact B|]. split; [right; exact C|exact D].
Qed.
Lemma segments_length : forall u, length (segments u) = (length u - 1)%nat.
Proof. induction u as [|x u IH]; [reflexivity|]. destruct u as [|y u]; [reflexivity|]. change (segments (x :: y :: u)) with ((dist2 y x, midpoint y x) :: segments (y :: u)). cbn [length] in *. lia. Qed.
Lemma midpoint_on : forall a b x y, on_segment {| p1 := a; p2 := b |} x -> on_segment {| p1 := a; p2 := b |} y -> on_segment {| p1 := a; p2 := b |} (midpoint y x).
Proof. intros a b x y [s [Hs [Xs Ys]]] [t [Ht [Xt Yt]]]. exists ((s + t) / 2). cbn [p1 p2] in *. unfold at_param, midpoint. cbn [p1 p2 ptx pty]. rewrite Xs, Ys, Xt, Yt. split; [lra|split; field_simplify; lra]. Qed.

(** The lengths alone, for any comparison of points: the segments reach from the start to the last point kept, which is the
    end of the chord or a point taken for it. *)
Theorem C93_rect_lengths : forall pm eqp a b u, pty a < pty b -> sort_gives (rect_points pm a b) u ->
  exists e, on_segment {| p1 := a; p2 := b |} e /\ (e = b \/ eqp e b = true) /\ Forall (fun s => 0 <= fst s) (trace_result eqp (rect_find_reg pm) u)
  /\ Rsum (map fst (trace_result eqp (rect_find_reg pm) u)) + dist2 b e = dist2 b a.
Proof.
  intros pm eqp a b u H S. destruct (lengths a b H eqp (rect_find_reg pm) _ u S (rect_pts_on pm a b)) as [e [A [B [C [D E]]]]]. exists e. auto.
Qed.
Print Assumptions C93_rect_lengths.

Lemma describe : forall a b eqp find (in_reg : Point2 -> Reg -> Prop) pts u, pty a < pty b -> sort_gives (a :: b :: pts) u -> Forall (on_segment {| p1 := a; p2 := b |}) pts ->
  (forall p q, In p (a :: b :: pts) -> In q (a :: b :: pts) -> eqp p q = true -> p = q) ->
  (forall y1 y2, pty a <= y1 -> y2 <= pty b -> (forall z, In z pts -> y1 < pty z < y2 -> False) -> forall p q, on_segment {| p1 := a; p2 := b |} p -> on_segment {| p1 := a; p2 := b |} q -> y1 < pty p < y2 -> y1 < pty q < y2 -> in_reg p (find q)) ->
  exists cuts, describes a b in_reg cuts (trace_result eqp find u) /\ Rsum (map fst (trace_result eqp find u)) = dist2 b a.
Proof.
  intros a b eqp find in_reg pts u H S F X G.
  assert (Xu : forall p q, In p u -> In q u -> eqp p q = true -> p = q).
  { intros p q Hp Hq. apply X; apply (Permutation_in _ (Permutation_sym (proj1 S))); assumption. }
  exists (unique eqp u). destruct (unique_sorted a b H eqp pts u S F) as [r [Eu [Lr [Fr Uq]]]].
  split.
  - split; [|split].
    + unfold trace_result. rewrite map_length, segments_length, Uq. destruct (uniq_head eqp r a) as [t Et]. rewrite Et. cbn [length]. lia.
    + rewrite Uq. destruct (uniq_head eqp r a) as [t Et]. rewrite Et. reflexivity.
    + intros k s g N. unfold trace_result in N. rewrite nth_error_map in N. destruct (nth_error (segments (unique eqp u)) k) as [[s' m]|] eqn:E; [|discriminate]. cbn in N. injection N as <- <-.
      destruct (segments_nth _ _ _ _ E) as [x [y [A [B [C [D1 D2]]]]]]. exists x, y. split; [exact A|]. split; [exact B|]. split; [exact D1|].
      destruct (adjacent_on a b H eqp pts u x y S F C) as [Sx Sy]. pose proof (adjacent_le a b H eqp pts u x y S F C) as Lxy. split; [exact Sx|]. split; [exact Sy|]. split; [exact Lxy|]. intros p Sp Hp.
      pose proof (chord_y a b H x Sx). pose proof (chord_y a b H y Sy).
      apply (G (pty x) (pty y)); [lra|lra| |exact Sp| |exact Hp|].
      * intros z Iz Hz. exact (no_point_inside a b H eqp pts u x y z S F Xu C Iz Hz).
      * rewrite D2. apply midpoint_on; assumption.
      * rewrite D2. unfold midpoint. cbn [pty]. lra.
  - destruct (chord_ends a b) as [Sa Sb].
    pose proof (uniq_last eqp r a a) as Q. destruct (uniq_head eqp r a) as [t Et].
    assert (IL : In (last (uniq eqp a r) a) (a :: r)) by (apply (uniq_in eqp); rewrite Et, last_cons'; clear; revert a; induction t as [|y t IH]; intro a; [left; reflexivity|]; rewrite last_cons'; right; apply IH).
    assert (LB : last (uniq eqp a r) a = b).
    { rewrite Lr in Q. destruct Q as [Q|Q]; [exact Q|]. apply Xu; [rewrite Eu; exact IL| |exact Q]. apply (Permutation_in b (proj1 S)). right; left; reflexivity. }
    unfold trace_result. rewrite map_map. change (fun x => fst (fst x, find (snd x))) with (fun x : R * Point2 => fst x). rewrite Uq, Et.
    assert (Fu : Forall (on_segment {| p1 := a; p2 := b |}) (a :: t)) by (apply Forall_forall; intros z Hz; rewrite <- Et in Hz; apply uniq_in in Hz; rewrite Forall_forall in Fr; auto).
    destruct S as [_ As]. rewrite Eu in As. pose proof (uniq_ascending eqp r a As) as Au. rewrite Et in Au, LB. rewrite last_cons' in LB.
    pose proof (segments_sum a b H t a Au Fu) as SS. rewrite LB in SS. change (fun x : R * Point2 => fst x) with (@fst R Point2). rewrite SS. symmetry. apply (chord_dist a b H a b Sa Sb). lra.
Qed.

(** A cell of a rectangular pin, with its right and top edges. *)
Definition in_cell (pitch : R) (nx ny : nat) (p : Point2) (r : Reg) : Prop :=
  forall i j, (i < nx)%nat -> (j < ny)%nat -> edge pitch nx i < ptx p <= edge pitch nx (S i) -> edge pitch ny j < pty p <= edge pitch ny (S j) -> r = RIdx (Z.of_nat j * Z.of_nat nx + Z.of_nat i).

(** A chord that rises through a rectangular pin, on whose crossing points the comparison is exact: the lengths add up to the
    chord and every piece lies in the cell reported for it. *)
Theorem C93_rect : forall id pitch nx ny pm eqp a b u, rect_ctor id pitch nx ny = PVal pm -> pty a < pty b -> inside pitch a -> inside pitch b ->
  (forall p q, In p (rect_points pm a b) -> In q (rect_points pm a b) -> eqp p q = true -> p = q) ->
  sort_gives (rect_points pm a b) u ->
  exists cuts, describes a b (in_cell pitch (Z.to_nat nx) (Z.to_nat ny)) cuts (trace_result eqp (rect_find_reg pm) u)
  /\ Rsum (map fst (trace_result eqp (rect_find_reg pm) u)) = dist2 b a.
Proof.
  intros id pitch nx ny pm eqp a b u H Rise Ia Ib X S. destruct (rect_ctor_inv _ _ _ _ _ H) as [HP [HX [HY [E1 [E2 [E3 [E4 [E5 E6]]]]]]]].
  apply (describe a b eqp (rect_find_reg pm) _ _ u Rise S (rect_pts_on pm a b) X).
  intros y1 y2 B1 B2 Gap p q Sp Sq Gp Gq. unfold in_cell. intros i j Hi Hj Cx Cy.
  destruct (C94_rect id pitch nx ny pm p H) as [Q _]. rewrite E6, E4, E5 in Gap.
  rewrite <- (rect_same pitch (Z.to_nat nx) (Z.to_nat ny) a b HP ltac:(lia) ltac:(lia) Rise Ia Ib y1 y2 Gap (conj B1 B2) pm p q E1 E4 E5 Sp Sq Gp Gq).
  rewrite (Q i j) by (assumption || lia). rewrite Z2Nat.id by lia. reflexivity.
Qed.
Print Assumptions C93_rect.
