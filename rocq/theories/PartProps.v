(** Property theorems for distances along a flight: C95. *)
From Coq Require Import Reals ZArith List Bool Lia Lra Psatz.
From Verif Require Import RUtil StdAlg GeomModel GeomProofs TallyProofs CoreModel CoreProofs AngModel PmModel PmProps PmTraceProps PmCylTrace PmCylChord PartModel.
Import ListNotations.
Local Open Scope R_scope.

(** ** Specification *)
(** The point reached after a path of length [t] in direction [d]. *)
Definition at_path (p : Point2) (d : Dir) (t : R) : Point2 := {| ptx := ptx p + t * ox d; pty := pty p + t * oy d |}.
(** Signed offset of a point from the line through the two ends (scaled by their distance), and its rate of change. *)
Definition offset (l : Line) (p : Point2) : R := (ptx (p2 l) - ptx (p1 l)) * (pty p - pty (p1 l)) - (pty (p2 l) - pty (p1 l)) * (ptx p - ptx (p1 l)).
Definition rate (l : Line) (d : Dir) : R := (ptx (p2 l) - ptx (p1 l)) * oy d - (pty (p2 l) - pty (p1 l)) * ox d.
Definition on_line (l : Line) (p : Point2) : Prop := offset l p = 0.
(** [r] tells the first time after the start at which [hit] holds. *)
Definition first_hit (hit : R -> Prop) (r : option R) : Prop :=
  match r with Some t => 0 < t /\ hit t /\ forall t', 0 < t' < t -> ~ hit t' | None => forall t', 0 < t' -> ~ hit t' end.
(** The cases the tolerances leave clear: a line that is not ahead, or one that is clearly off the point and not parallel. *)
Definition clear_line (coinc : bool) (l : Line) (p : Point2) (d : Dir) : Prop :=
  (0 <= offset l p * rate l d /\ (offset l p <> 0 \/ rate l d <> 0)) \/
  (coinc = false /\ REAL_FUZZ < Rabs (offset l p) /\ REAL_FUZZ <= Rabs (rate l d)).
Definition unit_dir (d : Dir) : Prop := ox d * ox d + oy d * oy d + oz d * oz d = 1.
(** For circles: off the circle, or on the side the direction of travel says. *)
Definition clear_circle (coinc : bool) (ci : Circle) (p : Point2) (d : Dir) : Prop :=
  (coinc = false /\ REAL_FUZZ <= Rabs (power ci p)) \/
  (let k := (ptx p - ptx (cc ci)) * ox d + (pty p - pty (cc ci)) * oy d in (k < 0 -> power ci p <= 0) /\ (0 <= k -> 0 <= power ci p)).

Lemma offset_at : forall l p d t, offset l (at_path p d t) = offset l p + t * rate l d.
Proof. intros. unfold offset, at_path, rate. cbn [ptx pty]. ring. Qed.

(** ** C95 *)
(** The distance to a line (the whole line through the two points) is that of the first crossing. *)
Theorem C95_line : forall l p d coinc, clear_line coinc l p d -> first_hit (fun t => on_line l (at_path p d t)) (line_dist l p d coinc).
Proof.
  intros l p d coinc H. unfold line_dist.
  replace ((pty (p1 l) - pty (p2 l)) * ptx p + (ptx (p2 l) - ptx (p1 l)) * pty p + (ptx (p1 l) * pty (p2 l) - ptx (p2 l) * pty (p1 l))) with (offset l p) by (unfold offset; ring).
  replace (ox d * (pty (p1 l) - pty (p2 l)) + oy d * (ptx (p2 l) - ptx (p1 l))) with (rate l d) by (unfold rate; ring).
  set (o := offset l p) in *. set (r := rate l d) in *. pose proof fuzz_pos as FP.
  assert (A : 0 <= o * r -> o <> 0 \/ r <> 0 -> forall t', 0 < t' -> ~ on_line l (at_path p d t')).
  { intros S N t' T. unfold on_line. rewrite offset_at. fold o r. intro E. assert (E2 : o = - (t' * r)) by lra. rewrite E2 in S. assert (r * r <= 0) by nra. assert (r = 0) by nra. destruct N as [N|N]; [rewrite E2, H1 in N; lra|congruence]. }
  destruct H as [[S N]|[C [F G]]].
  - unfold clear_line in *. fold o r in S, N. destruct coinc; [exact (A S N)|]. destruct (Rltb_spec (Rabs r) REAL_FUZZ) as [L|L]; [exact (A S N)|].
    assert (R0 : r <> 0) by (intros E; rewrite E, Rabs_R0 in L; lra).
    destruct (Rltb_spec 0 (- o / r)) as [L2|L2]; cbn [andb]; [|exact (A S N)]. exfalso. assert (0 < (- o / r) * (r * r)) by (apply Rmult_lt_0_compat; nra). replace (- o / r * (r * r)) with (- (o * r)) in H by (field; exact R0). lra.
  - fold o in F. fold r in G. subst coinc. rewrite Rltb_false by lra. assert (R0 : r <> 0) by (intros E; rewrite E, Rabs_R0 in G; lra). assert (O0 : o <> 0) by (intros E; rewrite E, Rabs_R0 in F; lra).
    destruct (Rltb_spec 0 (- o / r)) as [L2|L2].
    + rewrite Rltb_true by exact F. cbn [andb first_hit]. split; [exact L2|]. unfold on_line. split.
      * rewrite offset_at. fold o r. field. exact R0.
      * intros t' T E. rewrite offset_at in E. fold o r in E. assert (E2 : t' = - o / r) by (apply (Rmult_eq_reg_r r); [|exact R0]; replace (- o / r * r) with (- o) by (field; exact R0); lra). lra.
    + cbn [andb]. refine (A _ (or_introl O0)). assert (- o / r <= 0) by lra. assert (Q : - (o * r) = (- o / r) * (r * r)) by (field; exact R0). assert ((- o / r) * (r * r) <= 0) by nra. lra.
Qed.
Print Assumptions C95_line.

Lemma power_at : forall ci p d t, unit_dir d -> power ci (at_path p d t) = (1 - oz d * oz d) * (t * t) + 2 * ((ptx p - ptx (cc ci)) * ox d + (pty p - pty (cc ci)) * oy d) * t + power ci p.
Proof. intros ci p d t U. unfold unit_dir in U. unfold power, at_path. cbn [ptx pty]. replace (1 - oz d * oz d) with (ox d * ox d + oy d * oy d) by lra. ring. Qed.

(** The roots of [a t^2 + 2 k t + c]. *)
Lemma root_plus : forall a k c, 0 < a -> 0 <= k * k - a * c -> a * ((- k + sqrt (k * k - a * c)) / a * ((- k + sqrt (k * k - a * c)) / a)) + 2 * k * ((- k + sqrt (k * k - a * c)) / a) + c = 0.
Proof. intros a k c A D. pose proof (sqrt_def _ D) as Q. set (s := sqrt (k * k - a * c)) in *. replace (a * ((- k + s) / a * ((- k + s) / a)) + 2 * k * ((- k + s) / a) + c) with ((s * s - k * k + a * c) / a) by (field; lra). rewrite Q. field. lra. Qed.
Lemma root_minus : forall a k c, 0 < a -> 0 <= k * k - a * c -> a * ((- k - sqrt (k * k - a * c)) / a * ((- k - sqrt (k * k - a * c)) / a)) + 2 * k * ((- k - sqrt (k * k - a * c)) / a) + c = 0.
Proof. intros a k c A D. pose proof (sqrt_def _ D) as Q. set (s := sqrt (k * k - a * c)) in *. replace (a * ((- k - s) / a * ((- k - s) / a)) + 2 * k * ((- k - s) / a) + c) with ((s * s - k * k + a * c) / a) by (field; lra). rewrite Q. field. lra. Qed.
Lemma roots : forall a k c t, 0 < a -> a * (t * t) + 2 * k * t + c = 0 -> 0 <= k * k - a * c /\ (t = (- k + sqrt (k * k - a * c)) / a \/ t = (- k - sqrt (k * k - a * c)) / a).
Proof.
  intros a k c t A E. assert (D : (a * t + k) * (a * t + k) = k * k - a * c) by (replace ((a * t + k) * (a * t + k)) with (a * (a * (t * t) + 2 * k * t + c) + k * k - a * c) by ring; rewrite E; ring).
  assert (D0 : 0 <= k * k - a * c) by (rewrite <- D; apply Rle_0_sqr). split; [exact D0|]. rewrite <- D. destruct (Rle_dec 0 (a * t + k)) as [L|L].
  - left. rewrite sqrt_square by exact L. field. lra.
  - right. replace ((a * t + k) * (a * t + k)) with ((- (a * t + k)) * (- (a * t + k))) by ring. rewrite sqrt_square by lra. field. lra.
Qed.
Lemma quad_plus_first : forall a k c, 0 < a -> c <= 0 -> (c = 0 -> k < 0) -> let t := (- k + sqrt (k * k - a * c)) / a in 0 < t /\ a * (t * t) + 2 * k * t + c = 0 /\ forall t', 0 < t' < t -> a * (t' * t') + 2 * k * t' + c < 0.
Proof.
  intros a k c A C K t. assert (D : 0 <= k * k - a * c) by nra. assert (T : 0 < t).
  { unfold t. apply Rdiv_lt_0_compat; [|exact A]. pose proof (sqrt_pos (k * k - a * c)). destruct (Req_dec c 0) as [->|N]; [specialize (K eq_refl); lra|]. assert (Rabs k < sqrt (k * k - a * c)).
    { rewrite <- (sqrt_square (Rabs k)) by apply Rabs_pos. apply sqrt_lt_1; [apply Rle_0_sqr|exact D|]. rewrite <- Rabs_mult, Rabs_right by (apply Rle_ge, Rle_0_sqr). nra. } pose proof (Rle_abs k). lra. }
  assert (E : a * (t * t) + 2 * k * t + c = 0) by (apply root_plus; assumption). clearbody t. split; [exact T|]. split; [exact E|]. intros t' T'.
  assert (Q : (a * (t' * t') + 2 * k * t' + c) * t = (t - t') * c - a * t' * (t - t') * t) by (replace ((a * (t' * t') + 2 * k * t' + c) * t) with ((t - t') * c - a * t' * (t - t') * t + t' * (a * (t * t) + 2 * k * t + c)) by ring; rewrite E; ring).
  assert (0 < a * t' * (t - t') * t) by (apply Rmult_lt_0_compat; [apply Rmult_lt_0_compat; [apply Rmult_lt_0_compat|]|]; lra). assert ((t - t') * c <= 0) by nra. nra.
Qed.

(** The distance to a circle is that of the first crossing. *)
Theorem C95_circle : forall ci p d coinc, unit_dir d -> Rabs (oz d) < 1 -> clear_circle coinc ci p d -> first_hit (fun t => power ci (at_path p d t) = 0) (circle_dist ci p d coinc).
Proof.
  intros ci p d coinc U Z H. unfold circle_dist, clear_circle in *. pose proof fuzz_pos as FP.
  assert (A : 0 < 1 - oz d * oz d) by (apply Rabs_def2 in Z; nra). set (a := 1 - oz d * oz d) in *. destruct (Reqb_spec a 0); [lra|].
  set (x := ptx p - ptx (cc ci)) in *. set (y := pty p - pty (cc ci)) in *. set (k := x * ox d + y * oy d) in *. change (x * x + y * y - cr ci * cr ci) with (power ci p). set (c := power ci p) in *. cbv zeta in *.
  assert (P : forall t, power ci (at_path p d t) = a * (t * t) + 2 * k * t + c) by (intros t; apply power_at; exact U).
  assert (FH : forall r, first_hit (fun t => a * (t * t) + 2 * k * t + c = 0) r -> first_hit (fun t => power ci (at_path p d t) = 0) r).
  { intros [t|]; cbn [first_hit]; [intros (X1 & X2 & X3); split; [exact X1|]; split; [rewrite P; exact X2|]; intros t' T'; rewrite P; auto|intros X t' T'; rewrite P; auto]. }
  apply FH. clear FH P.
  destruct (Rltb_spec (k * k - a * c) 0) as [L|L]. { cbn [first_hit]. intros t' T' E. destruct (roots a k c t' A E) as [D _]. lra. }
  assert (D : 0 <= k * k - a * c) by lra. clear L.
  assert (AWAY : 0 <= c -> 0 <= k -> forall t', 0 < t' -> a * (t' * t') + 2 * k * t' + c <> 0). { intros C K t' T' E. assert (0 < a * (t' * t')) by (apply Rmult_lt_0_compat; [lra|apply Rmult_lt_0_compat; lra]). assert (0 <= 2 * k * t') by nra. lra. }
  assert (INW : c <= 0 -> (c = 0 -> k < 0) -> first_hit (fun t => a * (t * t) + 2 * k * t + c = 0) (Some ((- k + sqrt (k * k - a * c)) / a))).
  { intros C K. destruct (quad_plus_first a k c A C K) as (X1 & X2 & X3). cbn [first_hit]. split; [exact X1|]. split; [exact X2|]. intros t' T'. specialize (X3 t' T'). lra. }
  assert (MAIN : (k < 0 -> c <= 0) /\ (0 <= k -> 0 <= c) -> first_hit (fun t => a * (t * t) + 2 * k * t + c = 0) (if Rleb 0 k then None else Some ((- k + sqrt (k * k - a * c)) / a))).
  { intros [K1 K2]. destruct (Rleb_spec 0 k) as [K|K]; [cbn [first_hit]; apply AWAY; auto|]. apply INW; [apply K1; lra|intros; lra]. }
  assert (OUT : REAL_FUZZ <= Rabs c -> first_hit (fun t => a * (t * t) + 2 * k * t + c = 0) (if Rltb c 0 then Some ((- k + sqrt (k * k - a * c)) / a) else if Rleb 0 ((- k - sqrt (k * k - a * c)) / a) then Some ((- k - sqrt (k * k - a * c)) / a) else None)).
  { intros F. destruct (Rltb_spec c 0) as [C|C]; [apply INW; [lra|intros; lra]|]. assert (C0 : 0 < c) by (rewrite Rabs_right in F by lra; lra).
    set (s := sqrt (k * k - a * c)). pose proof (sqrt_pos (k * k - a * c)) as S0. fold s in S0. assert (LE : (- k - s) / a <= (- k + s) / a). { apply Rmult_le_compat_r; [left; apply Rinv_0_lt_compat; exact A|lra]. }
    destruct (Rleb_spec 0 ((- k - s) / a)) as [T|T]; cbn [first_hit].
    - pose proof (root_minus a k c A D) as E. fold s in E. split; [|split; [exact E|]].
      + destruct T as [T|T]; [exact T|]. rewrite <- T in E. lra.
      + intros t' T' E'. destruct (roots a k c t' A E') as [_ [Ro|Ro]]; fold s in Ro; lra.
    - intros t' T' E'. destruct (roots a k c t' A E') as [_ [Ro|Ro]]; fold s in Ro; [|lra]. assert (s * s = k * k - a * c) by (apply sqrt_def; exact D).
      assert (X1 : - k - s < 0). { apply Rnot_le_lt. intro Q. apply T. apply Rmult_le_pos; [exact Q|left; apply Rinv_0_lt_compat; exact A]. }
      assert (X2 : 0 < - k + s). { replace (- k + s) with (t' * a) by (rewrite Ro; field; lra). apply Rmult_lt_0_compat; lra. } assert (0 < a * c) by (apply Rmult_lt_0_compat; lra). nra. }
  destruct H as [[-> F]|H].
  - cbn [orb]. rewrite Rltb_false by lra. apply OUT. exact F.
  - destruct coinc; cbn [orb]; [apply MAIN; exact H|]. destruct (Rltb_spec (Rabs c) REAL_FUZZ) as [F|F]; [apply MAIN; exact H|apply OUT; lra].
Qed.
Print Assumptions C95_circle.

(** ** The nearest surface of a pin *)
Definition before (r : option R) (t : R) : Prop := match r with Some v => t < v | None => True end.
Lemma closer_spec : forall d best, closer d best = true <-> exists v, d = Some v /\ before best v.
Proof.
  intros [a|] [b|]; cbn [closer before]; split; try discriminate.
  - destruct (Rltb_spec a b); [|discriminate]. intros _. exists a. auto.
  - intros [v [E H]]. injection E as <-. now apply Rltb_true.
  - intros _. exists a. auto.
  - reflexivity.
  - intros [v [E _]]. discriminate.
  - intros [v [E _]]. discriminate.
Qed.
Lemma scan_first : forall coinc ss hits best id hit0, Forall2 (fun s h => first_hit h (snd s (coinc =? fst s)%Z)) ss hits -> first_hit hit0 best ->
  first_hit (fun t => hit0 t \/ exists h, In h hits /\ h t) (fst (scan coinc ss best id)).
Proof.
  intros coinc ss. induction ss as [|s ss IH]; intros hits best id hit0 F H0; inversion F as [|? h ? hits' F1 F2]; subst; cbn [scan].
  - cbn [fst]. destruct best as [b|]; cbn [first_hit] in *.
    + destruct H0 as (A & B & C). split; [exact A|]. split; [left; exact B|]. intros t' T [Q|[h [[] _]]]. exact (C t' T Q).
    + intros t' T [Q|[h [[] _]]]. exact (H0 t' T Q).
  - cbv zeta. set (d := snd s (coinc =? fst s)%Z) in *.
    assert (G : forall best' id', first_hit (fun t => hit0 t \/ h t) best' -> first_hit (fun t => hit0 t \/ exists h0, In h0 (h :: hits') /\ h0 t) (fst (scan coinc ss best' id'))).
    { intros best' id' B. specialize (IH hits' best' id' (fun t => hit0 t \/ h t) F2 B).
      assert (W : forall t, (hit0 t \/ exists h0, In h0 (h :: hits') /\ h0 t) <-> ((hit0 t \/ h t) \/ exists h0, In h0 hits' /\ h0 t)).
      { intros t. split; [intros [Q|[h0 [[<-|I] Q]]]; eauto|intros [[Q|Q]|[h0 [I Q]]]; [left; exact Q|right; exists h; cbn; auto|right; exists h0; cbn; auto]]. }
      destruct (fst (scan coinc ss best' id')) as [v|]; cbn [first_hit] in *.
      - destruct IH as (A & B' & C). split; [exact A|]. split; [apply W; exact B'|]. intros t' T Q. apply (C t' T). apply W. exact Q.
      - intros t' T Q. apply (IH t' T). apply W. exact Q. }
    destruct (closer d best) eqn:E; apply G.
    + apply closer_spec in E. destruct E as [v [E B]]. rewrite E in *. cbn [first_hit] in *. destruct F1 as (A & B' & C). split; [exact A|]. split; [right; exact B'|]. intros t' T [Q|Q]; [|exact (C t' T Q)].
      destruct best as [b|]; cbn [first_hit before] in *; [destruct H0 as (_ & _ & C0); apply (C0 t'); [lra|exact Q]|apply (H0 t'); [lra|exact Q]].
    + destruct best as [b|]; cbn [first_hit] in *.
      * destruct H0 as (A & B' & C). split; [exact A|]. split; [left; exact B'|]. intros t' T [Q|Q]; [exact (C t' T Q)|]. destruct d as [v|]; cbn [first_hit closer] in *; [|apply (F1 t'); [lra|exact Q]]. destruct F1 as (_ & _ & C1). destruct (Rltb_spec v b); [discriminate|]. apply (C1 t'); [lra|exact Q].
      * destruct d as [v|]; [discriminate|]. cbn [first_hit] in F1. intros t' T [Q|Q]; [exact (H0 t' T Q)|exact (F1 t' T Q)].
Qed.
Lemma scan_id : forall coinc ss best id, scan coinc ss best id = (best, id) \/ exists s v, In s ss /\ scan coinc ss best id = (Some v, fst s) /\ snd s (coinc =? fst s)%Z = Some v.
Proof.
  intros coinc ss. induction ss as [|s ss IH]; intros best id; [left; reflexivity|]. cbn [scan]. cbv zeta. destruct (closer (snd s (coinc =? fst s)%Z) best) eqn:E.
  - apply closer_spec in E. destruct E as [v [E _]]. rewrite E. destruct (IH (Some v) (fst s)) as [Q|[s' [v' [I Q]]]]; right; [exists s, v; cbn; auto|exists s', v'; cbn; tauto].
  - destruct (IH best id) as [Q|[s' [v' [I Q]]]]; [left; exact Q|right; exists s', v'; cbn; tauto].
Qed.
Lemma number_in : forall (A : Type) (l : list A) base s, In s (number base l) -> exists i, nth_error l i = Some (snd s) /\ fst s = (base + Z.of_nat i)%Z.
Proof.
  induction l as [|x l IH]; intros base s I; [destruct I|]. destruct I as [<-|I]; [exists O; cbn; split; [reflexivity|lia]|]. destruct (IH _ _ I) as [i [E F]]. exists (S i). cbn [nth_error]. split; [exact E|lia].
Qed.
Lemma number_forall2 : forall (A B : Type) (P : Z * A -> B -> Prop) l hs base, length l = length hs -> (forall i x h, nth_error l i = Some x -> nth_error hs i = Some h -> P (base + Z.of_nat i, x)%Z h) -> Forall2 P (number base l) hs.
Proof.
  intros A B P l. induction l as [|x l IH]; intros [|h hs] base E H; try discriminate; constructor.
  - pose proof (H O x h eq_refl eq_refl) as Q. rewrite Z.add_0_r in Q. exact Q.
  - apply IH; [now injection E|]. intros i y g Ey Eg. pose proof (H (S i) y g Ey Eg) as Q. replace (base + 1 + Z.of_nat i)%Z with (base + Z.of_nat (S i))%Z by lia. exact Q.
Qed.

(** Every line of a pin is clear, given the identifier of the surface the particle sits on. *)
Definition lines_clear (ls : list Line) (base coinc : Z) (p : Point2) (d : Dir) : Prop :=
  forall i l, nth_error ls i = Some l -> clear_line (coinc =? base + Z.of_nat i)%Z l p d.
(** For a rectangular pin: the first crossing of any of its lines, and the identifier of a line crossed there. *)
Theorem C95_rect : forall pm base p d coinc, inside (rp_pitch pm) p -> lines_clear (rp_lines pm) base coinc p d ->
  exists r id, rect_dist pm base p d coinc = (r, false, id) /\ first_hit (fun t => exists l, In l (rp_lines pm) /\ on_line l (at_path p d t)) r /\
  match r with Some t => exists i l, nth_error (rp_lines pm) i = Some l /\ id = (base + Z.of_nat i)%Z /\ on_line l (at_path p d t) | None => id = coinc end.
Proof.
  intros pm base p d coinc [I1 I2] C. unfold rect_dist. rewrite !Rltb_false by lra. cbn [orb].
  destruct (scan coinc (rect_surfaces pm base p d) None coinc) as [r id] eqn:E. exists r, id. split; [reflexivity|].
  assert (F : Forall2 (fun s h => first_hit h (snd s (coinc =? fst s)%Z)) (rect_surfaces pm base p d) (map (fun l t => on_line l (at_path p d t)) (rp_lines pm))).
  { apply number_forall2; [now rewrite !map_length|]. intros i x h Ex Eh. cbn [fst snd]. rewrite nth_error_map in Ex, Eh. destruct (nth_error (rp_lines pm) i) as [l|] eqn:El; [|discriminate]. injection Ex as <-. injection Eh as <-. apply C95_line. exact (C i l El). }
  split.
  - pose proof (scan_first coinc _ _ None coinc (fun _ => False) F (fun t' _ Q => Q)) as S. rewrite E in S. cbn [fst] in S. assert (W : forall t, (exists l, In l (rp_lines pm) /\ on_line l (at_path p d t)) <-> (False \/ exists h, In h (map (fun l t => on_line l (at_path p d t)) (rp_lines pm)) /\ h t)).
    { intros t. split; [intros [l [I Q]]; right; exists (fun t => on_line l (at_path p d t)); split; [apply in_map_iff; eauto|exact Q]|]. intros [[]|[h [I Q]]]. apply in_map_iff in I. destruct I as [l [<- I]]. eauto. }
    destruct r as [v|]; cbn [first_hit] in *; [destruct S as (A & B & D); split; [exact A|]; split; [apply W; exact B|]; intros t' T Q; apply (D t' T), W, Q|intros t' T Q; apply (S t' T), W, Q].
  - destruct (scan_id coinc (rect_surfaces pm base p d) None coinc) as [Q|[s [v [I [Q V]]]]]; rewrite E in Q; injection Q as -> ->; [reflexivity|].
    apply number_in in I. destruct I as [i [N EQ]]. rewrite EQ in *. rewrite nth_error_map in N. destruct (nth_error (rp_lines pm) i) as [l|] eqn:El; [|discriminate]. exists i, l. split; [exact El|]. split; [reflexivity|].
    injection N as N. rewrite <- N in V. pose proof (C95_line l p d _ (C i l El)) as H. rewrite V in H. apply H.
Qed.
Print Assumptions C95_rect.

(** ** Regions along the flight *)
(** Between two times before the first crossing a linear quantity that vanishes only at crossings keeps its sign. *)
Lemma keeps_sign : forall (hit : R -> Prop) r u w t1 t2, first_hit hit r -> (forall t, u + t * w = 0 -> hit t) -> 0 < t1 -> 0 < t2 -> before r t1 -> before r t2 -> 0 < u + t1 * w -> 0 < u + t2 * w.
Proof.
  intros hit r u w t1 t2 F Z P1 P2 B1 B2 G. apply Rnot_le_lt. intro L. set (f := u + t1 * w) in *. set (g := u + t2 * w) in *.
  assert (W : (t2 - t1) * w = g - f) by (unfold f, g; ring). assert (FG : 0 < f - g) by lra. set (s := f / (f - g)).
  assert (S0 : 0 < s <= 1). { unfold s. split; [apply Rdiv_lt_0_compat; lra|]. apply (Rmult_le_reg_r (f - g)); [lra|]. replace (f / (f - g) * (f - g)) with f by (field; lra). lra. }
  set (t := t1 + s * (t2 - t1)). assert (H : hit t). { apply Z. replace (u + t * w) with (f + s * ((t2 - t1) * w)) by (unfold f, t; ring). rewrite W. unfold s. field. lra. }
  assert (T : 0 < t /\ (t <= t1 \/ t <= t2)) by (unfold t; split; [nra|destruct (Rle_dec t1 t2); [right|left]; nra]). destruct T as [T1 T2].
  destruct r as [v|]; cbn [first_hit before] in *; [apply (proj2 (proj2 F) t); [lra|exact H]|apply (F t T1 H)].
Qed.
Lemma keeps_sign_iff : forall (hit : R -> Prop) r u w t1 t2, first_hit hit r -> (forall t, u + t * w = 0 -> hit t) -> 0 < t1 -> 0 < t2 -> before r t1 -> before r t2 -> (0 < u + t1 * w <-> 0 < u + t2 * w).
Proof. intros. split; apply (keeps_sign hit r); assumption. Qed.

Definition strictly_inside (pitch : R) (p : Point2) : Prop := Rabs (ptx p) < pitch / 2 /\ Rabs (pty p) < pitch / 2.
Lemma axis_same : forall pitch n x y, 0 < pitch -> (0 < n)%nat -> Rabs x < pitch / 2 -> Rabs y < pitch / 2 -> (forall v, In v (interior (divisions pitch n)) -> (v < x <-> v < y)) ->
  lower_bound Rltb (divisions pitch n) x = lower_bound Rltb (divisions pitch n) y.
Proof.
  intros pitch n x y P N X Y H. apply lower_bound_same; [apply divisions_increasing; assumption|]. intros v I. apply Rabs_def2 in X. apply Rabs_def2 in Y. destruct (divisions_cases pitch n v N I) as [->|[->|J]]; [lra|lra|apply H; exact J].
Qed.
(** C95: along the path up to the reported distance, the particle stays in one region of a rectangular pin. *)
Theorem C95_rect_region : forall id pitch nx ny pm base p d coinc r cid, rect_ctor id pitch nx ny = PVal pm -> lines_clear (rp_lines pm) base coinc p d ->
  rect_dist pm base p d coinc = (r, false, cid) ->
  forall t1 t2, 0 < t1 -> 0 < t2 -> before r t1 -> before r t2 -> strictly_inside pitch (at_path p d t1) -> strictly_inside pitch (at_path p d t2) ->
  rect_find_reg pm (at_path p d t1) = rect_find_reg pm (at_path p d t2).
Proof.
  intros id pitch nx ny pm base p d coinc r cid C L E t1 t2 P1 P2 B1 B2 [X1 Y1] [X2 Y2]. destruct (rect_ctor_inv _ _ _ _ _ C) as (PP & N1 & N2 & Ep & Enx & Eny & Ehx & Ehy & El).
  assert (I : inside (rp_pitch pm) p). { unfold rect_dist in E. destruct (Rltb_spec (0.5 * rp_pitch pm) (Rabs (ptx p))); [discriminate|]. destruct (Rltb_spec (0.5 * rp_pitch pm) (Rabs (pty p))); [discriminate|]. split; lra. }
  destruct (C95_rect pm base p d coinc I L) as [r' [i' [E' [F _]]]]. rewrite E in E'. injection E' as <- <-.
  unfold rect_find_reg. rewrite Ep, Ehx, Ehy. rewrite !Rltb_false by lra.
  assert (HX : forall v, In v (interior (divisions pitch (Z.to_nat nx))) -> (v < ptx (at_path p d t1) <-> v < ptx (at_path p d t2))).
  { intros v J. cbn [at_path ptx]. pose proof (keeps_sign_iff _ r (ptx p - v) (ox d) t1 t2 F) as K.
    assert (K' : 0 < ptx p - v + t1 * ox d <-> 0 < ptx p - v + t2 * ox d). { apply K; try assumption. intros t Z. exists {| p1 := {| ptx := v; pty := - (0.5 * pitch) |}; p2 := {| ptx := v; pty := 0.5 * pitch |} |}. split.
      - rewrite El, Ehx. apply in_or_app. left. apply in_map_iff. exists v. split; [reflexivity|exact J].
      - unfold on_line, offset, at_path. cbn [p1 p2 ptx pty]. replace (ptx p + t * ox d - v) with 0 by lra. ring. }
    split; intro Q; [assert (0 < ptx p - v + t2 * ox d) by (apply K'; lra)|assert (0 < ptx p - v + t1 * ox d) by (apply K'; lra)]; lra. }
  assert (HY : forall v, In v (interior (divisions pitch (Z.to_nat ny))) -> (v < pty (at_path p d t1) <-> v < pty (at_path p d t2))).
  { intros v J. cbn [at_path pty]. pose proof (keeps_sign_iff _ r (pty p - v) (oy d) t1 t2 F) as K.
    assert (K' : 0 < pty p - v + t1 * oy d <-> 0 < pty p - v + t2 * oy d). { apply K; try assumption. intros t Z. exists {| p1 := {| ptx := - (0.5 * pitch); pty := v |}; p2 := {| ptx := 0.5 * pitch; pty := v |} |}. split.
      - rewrite El, Ehy. apply in_or_app. right. apply in_map_iff. exists v. split; [reflexivity|exact J].
      - unfold on_line, offset, at_path. cbn [p1 p2 ptx pty]. replace (pty p + t * oy d - v) with 0 by lra. ring. }
    split; intro Q; [assert (0 < pty p - v + t2 * oy d) by (apply K'; lra)|assert (0 < pty p - v + t1 * oy d) by (apply K'; lra)]; lra. }
  rewrite (axis_same pitch (Z.to_nat nx) (ptx (at_path p d t1)) (ptx (at_path p d t2)) PP ltac:(lia) X1 X2 HX). rewrite (axis_same pitch (Z.to_nat ny) (pty (at_path p d t1)) (pty (at_path p d t2)) PP ltac:(lia) Y1 Y2 HY). reflexivity.
Qed.
Print Assumptions C95_rect_region.

(** For a cylindrical pin: the first crossing of a circle or a line. *)
Definition on_ring (r : R) (p : Point2) : Prop := ptx p * ptx p + pty p * pty p = r * r.
Definition rings_clear (radii : list R) (base coinc : Z) (p : Point2) (d : Dir) : Prop :=
  forall i r, nth_error radii i = Some r -> clear_circle (coinc =? base + Z.of_nat i)%Z {| cc := origin; cr := r |} p d.
Definition surfaces_of (pm : CylPin) (p : Point2) (d : Dir) : list (R -> Prop) :=
  map (fun r t => on_ring r (at_path p d t)) (cp_radii pm) ++ map (fun l t => on_line l (at_path p d t)) (cp_lines pm).
Lemma circle_hit : forall r p d coinc, unit_dir d -> Rabs (oz d) < 1 -> clear_circle coinc {| cc := origin; cr := r |} p d -> first_hit (fun t => on_ring r (at_path p d t)) (circle_dist {| cc := origin; cr := r |} p d coinc).
Proof.
  intros r p d coinc U Z C. pose proof (C95_circle _ p d coinc U Z C) as H. assert (W : forall q, on_ring r q <-> power {| cc := origin; cr := r |} q = 0) by (intros q; unfold on_ring, power, origin; cbn [cc cr ptx pty]; lra).
  destruct (circle_dist {| cc := origin; cr := r |} p d coinc) as [t|]; cbn [first_hit] in *; [destruct H as (A & B & D); split; [exact A|]; split; [apply W; exact B|]; intros t' T Q; apply (D t' T), W, Q|intros t' T Q; apply (H t' T), W, Q].
Qed.
Theorem C95_cyl : forall pm base p d coinc, inside (cp_pitch pm) p -> unit_dir d -> Rabs (oz d) < 1 ->
  rings_clear (cp_radii pm) base coinc p d -> lines_clear (cp_lines pm) (base + Z.of_nat (length (cp_radii pm))) coinc p d ->
  exists r id, cyl_dist pm base p d coinc = (r, false, id) /\ first_hit (fun t => (exists q, In q (cp_radii pm) /\ on_ring q (at_path p d t)) \/ (exists l, In l (cp_lines pm) /\ on_line l (at_path p d t))) r /\
  match r with Some t => exists i h, nth_error (surfaces_of pm p d) i = Some h /\ id = (base + Z.of_nat i)%Z /\ h t | None => id = coinc end.
Proof.
  intros pm base p d coinc [I1 I2] U Z RC LC. unfold cyl_dist. rewrite !Rltb_false by lra. cbn [orb].
  destruct (scan coinc (cyl_surfaces pm base p d) None coinc) as [r id] eqn:E. exists r, id. split; [reflexivity|].
  set (dists := map (fun r => circle_dist {| cc := origin; cr := r |} p d) (cp_radii pm) ++ map (fun l => line_dist l p d) (cp_lines pm)).
  assert (PW : forall i x h, nth_error dists i = Some x -> nth_error (surfaces_of pm p d) i = Some h -> first_hit h (x (coinc =? base + Z.of_nat i)%Z)).
  { intros i x h Ex Eh. unfold dists, surfaces_of in *. destruct (Nat.lt_ge_cases i (length (cp_radii pm))) as [L|L].
    - rewrite nth_error_app1 in Ex, Eh by (rewrite map_length; exact L). rewrite nth_error_map in Ex, Eh. destruct (nth_error (cp_radii pm) i) as [q|] eqn:Q; [|discriminate]. injection Ex as <-. injection Eh as <-. apply circle_hit; [exact U|exact Z|exact (RC i q Q)].
    - rewrite nth_error_app2, map_length in Ex, Eh by (rewrite map_length; exact L). rewrite nth_error_map in Ex, Eh. destruct (nth_error (cp_lines pm) (i - length (cp_radii pm))) as [l|] eqn:Q; [|discriminate]. injection Ex as <-. injection Eh as <-. apply C95_line. pose proof (LC _ l Q) as W. replace (base + Z.of_nat (length (cp_radii pm)) + Z.of_nat (i - length (cp_radii pm)))%Z with (base + Z.of_nat i)%Z in W by lia. exact W. }
  assert (LEN : length dists = length (surfaces_of pm p d)) by (unfold dists, surfaces_of; rewrite !app_length, !map_length; reflexivity).
  assert (F : Forall2 (fun s h => first_hit h (snd s (coinc =? fst s)%Z)) (cyl_surfaces pm base p d) (surfaces_of pm p d)) by (apply number_forall2; [exact LEN|]; intros i x h Ex Eh; cbn [fst snd]; exact (PW i x h Ex Eh)).
  split.
  - pose proof (scan_first coinc _ _ None coinc (fun _ => False) F (fun t' _ Q => Q)) as S. rewrite E in S. cbn [fst] in S.
    assert (W : forall t, ((exists q, In q (cp_radii pm) /\ on_ring q (at_path p d t)) \/ (exists l, In l (cp_lines pm) /\ on_line l (at_path p d t))) <-> (False \/ exists h, In h (surfaces_of pm p d) /\ h t)).
    { intros t. unfold surfaces_of. split.
      - intros [[q [I Q]]|[l [I Q]]]; right; [exists (fun t => on_ring q (at_path p d t))|exists (fun t => on_line l (at_path p d t))]; (split; [apply in_or_app|exact Q]); [left|right]; apply in_map_iff; eauto.
      - intros [[]|[h [I Q]]]. apply in_app_or in I. destruct I as [I|I]; apply in_map_iff in I; destruct I as [y [<- I]]; [left|right]; eauto. }
    destruct r as [v|]; cbn [first_hit] in *; [destruct S as (A & B & D); split; [exact A|]; split; [apply W; exact B|]; intros t' T Q; apply (D t' T), W, Q|intros t' T Q; apply (S t' T), W, Q].
  - destruct (scan_id coinc (cyl_surfaces pm base p d) None coinc) as [Q|[s [v [I [Q V]]]]]; rewrite E in Q; injection Q as -> ->; [reflexivity|].
    apply number_in in I. destruct I as [i [N EQ]]. rewrite EQ in *. fold dists in N. destruct (nth_error (surfaces_of pm p d) i) as [h|] eqn:Eh; [|apply nth_error_None in Eh; rewrite <- LEN in Eh; apply nth_error_None in Eh; congruence].
    exists i, h. split; [exact Eh|]. split; [reflexivity|]. pose proof (PW i _ h N Eh) as H. rewrite V in H. apply H.
Qed.
Print Assumptions C95_cyl.

Lemma keeps_negative : forall (hit : R -> Prop) r a k c t1 t2, first_hit hit r -> (forall t, a * (t * t) + 2 * k * t + c = 0 -> hit t) -> 0 < t1 -> 0 < t2 -> before r t1 -> before r t2 ->
  a * (t1 * t1) + 2 * k * t1 + c < 0 -> a * (t2 * t2) + 2 * k * t2 + c < 0.
Proof.
  intros hit r a k c t1 t2 F Z P1 P2 B1 B2 G. apply Rnot_le_lt. intro L. set (f := fun t => a * (t * t) + 2 * k * t + c).
  assert (C : continuity f) by (unfold f; intro x; reg).
  assert (H : exists t, (t1 <= t <= t2 \/ t2 <= t <= t1) /\ f t = 0).
  { destruct (Rle_dec t1 t2) as [T|T].
    - destruct (IVT_cor f t1 t2 C T) as [z [Hz E]]; [change ((a * (t1 * t1) + 2 * k * t1 + c) * (a * (t2 * t2) + 2 * k * t2 + c) <= 0); nra|]. exists z. auto.
    - destruct (IVT_cor f t2 t1 C ltac:(lra)) as [z [Hz E]]; [change ((a * (t2 * t2) + 2 * k * t2 + c) * (a * (t1 * t1) + 2 * k * t1 + c) <= 0); nra|]. exists z. auto. }
  destruct H as [t [T E]]. specialize (Z t E). assert (T0 : 0 < t) by lra.
  destruct r as [v|]; cbn [first_hit before] in *; [apply (proj2 (proj2 F) t); [lra|exact Z]|apply (F t T0 Z)].
Qed.

(** The sector of a point off every boundary follows from the sides it is on. *)
Lemma sector_of_sides : forall n p q ia, (2 <= n)%Z -> (n mod 2 = 0)%Z -> (forall i, (i < Z.to_nat n)%nat -> side (cos (ray_dir n i)) (sin (ray_dir n i)) p <> 0) ->
  (forall i, (i < Z.to_nat n)%nat -> (0 < side (cos (ray_dir n i)) (sin (ray_dir n i)) p <-> 0 < side (cos (ray_dir n i)) (sin (ray_dir n i)) q)) ->
  pty q <> 0 -> (0 <= ia < n)%Z -> in_sector n ia (alpha p) -> in_sector n ia (alpha q).
Proof.
  intros n p q ia N2 Ev NZ SS Yq Hia Hs. pose proof PI_RGT_0 as PP. assert (N2' : 2 <= IZR n) by (apply IZR_le; exact N2).
  assert (D0 : cos (ray_dir n 0) = 1 /\ sin (ray_dir n 0) = 0) by (unfold ray_dir; cbn [INR]; replace (2 * PI * 0 / IZR n) with 0 by (field; lra); split; [apply cos_0|apply sin_0]).
  assert (Yp : pty p <> 0). { pose proof (NZ O ltac:(lia)) as Q. destruct D0 as [Q1 Q2]. rewrite Q1, Q2 in Q. unfold side in Q. lra. }
  destruct (C70_alpha p Yp) as [Pp _]. destruct (C70_alpha q Yq) as [Pq Aq0]. set (al := alpha p) in *. set (be := alpha q) in *.
  assert (Rp : 0 < rad p) by (apply sqrt_lt_R0; nra). assert (Rq : 0 < rad q) by (apply sqrt_lt_R0; nra).
  set (i := Z.to_nat ia). assert (Hi : (i < Z.to_nat n)%nat) by (unfold i; lia).
  assert (T1 : 2 * PI * IZR ia / IZR n = ray_dir n i) by (unfold ray_dir, i; rewrite INR_IZR_INZ, Z2Nat.id by lia; reflexivity).
  assert (T2 : 2 * PI * IZR (ia + 1) / IZR n = ray_dir n (S i)) by (unfold ray_dir, i; rewrite S_INR, INR_IZR_INZ, Z2Nat.id, plus_IZR by lia; reflexivity).
  unfold in_sector in *. rewrite T1, T2 in *. pose proof (NZ i Hi) as NZi. pose proof (SS i Hi) as SSi. set (t1 := ray_dir n i) in *. set (t2 := ray_dir n (S i)) in *.
  assert (W : 0 < t2 - t1 <= PI).
  { assert (E : t2 - t1 = 2 * PI / IZR n) by (unfold t2, t1, ray_dir; rewrite S_INR; field; lra). rewrite E. split; [apply Rdiv_lt_0_compat; lra|]. apply (Rmult_le_reg_r (IZR n)); [lra|]. replace (2 * PI / IZR n * IZR n) with (2 * PI) by (field; lra). nra. }
  assert (B1 : 0 <= t1) by (unfold t1, ray_dir; apply Rmult_le_pos; [pose proof (pos_INR i); nra|left; apply Rinv_0_lt_compat; lra]).
  assert (B2 : t2 <= 2 * PI).
  { unfold t2, ray_dir. apply (Rmult_le_reg_r (IZR n)); [lra|]. replace (2 * PI * INR (S i) / IZR n * IZR n) with (2 * PI * INR (S i)) by (field; lra). apply Rmult_le_compat_l; [lra|]. unfold i. rewrite S_INR, INR_IZR_INZ, Z2Nat.id by lia. rewrite <- (plus_IZR ia 1). apply IZR_le. lia. }
  destruct Hs as [H1 H2]. destruct Pp as [[Pa Pb] Pc]. destruct Pq as [[Qa Qb] Qc].
  assert (NE : al <> t1). { intros E. apply NZi. rewrite (side_polar p al t1 (conj (conj Pa Pb) Pc)), E. replace (t1 - t1) with 0 by ring. rewrite sin_0. ring. }
  assert (S1 : 0 < side (cos t1) (sin t1) p).
  { rewrite (side_polar p al t1 (conj (conj Pa Pb) Pc)). apply Rmult_lt_0_compat; [assumption|]. apply sin_gt_0; lra. }
  assert (S2 : 0 < side (cos (t2 + PI)) (sin (t2 + PI)) p).
  { rewrite (side_polar p al (t2 + PI) (conj (conj Pa Pb) Pc)). apply Rmult_lt_0_compat; [assumption|].
    replace (al - (t2 + PI)) with (- (t2 - al + PI)) by ring. rewrite sin_neg, neg_sin, Ropp_involutive. apply sin_gt_0; lra. }
  assert (Q1 : 0 < side (cos t1) (sin t1) q) by (apply SSi; exact S1).
  assert (Q2 : 0 < side (cos (t2 + PI)) (sin (t2 + PI)) q).
  { destruct (dir_half n N2 Ev (S i)) as [j [Hj [C1 C2]]]. rewrite neg_cos, neg_sin in *. fold t2 in C1, C2. rewrite <- C1, <- C2 in *. apply (SS j Hj). exact S2. }
  rewrite (side_polar q be t1 (conj (conj Qa Qb) Qc)) in Q1. rewrite (side_polar q be (t2 + PI) (conj (conj Qa Qb) Qc)) in Q2.
  assert (U1 : 0 < sin (be - t1)) by nra. assert (U2 : 0 < sin (t2 - be)).
  { replace (t2 - be) with (- (be - (t2 + PI)) - PI) by ring. rewrite sin_minus, sin_PI, cos_PI, sin_neg. nra. }
  destruct (Rle_dec t1 be) as [L|L].
  + split; [assumption|]. apply Rnot_le_lt. intro V.
    assert (be - t1 < PI).
    { apply Rnot_le_lt. intro V2. assert (sin (be - t1) <= 0) by (apply sin_le_0; lra). lra. }
    assert (sin (be - t2) >= 0) by (apply Rle_ge, sin_ge_0; lra). replace (t2 - be) with (- (be - t2)) in U2 by ring. rewrite sin_neg in U2. lra.
  + exfalso. assert (be - t1 < - PI).
    { apply Rnot_le_lt. intro V2. assert (0 <= sin (t1 - be)) by (apply sin_ge_0; lra). replace (be - t1) with (- (t1 - be)) in U1 by ring. rewrite sin_neg in U1. lra. }
    assert (sin (t2 - be) <= 0) by (apply sin_le_0; lra). lra.
Qed.
Lemma cyl_ctor_inv : forall id pitch xs azi sub pm, cyl_ctor id pitch xs azi sub = PVal pm -> growing 0 xs -> Forall (fun k => (1 <= k)%Z) sub -> (1 <= azi)%Z ->
  0 < pitch /\ cp_pitch pm = pitch /\ cp_azi pm = azi /\ cp_lines pm = azi_lines pitch azi /\ growing 0 (cp_radii pm).
Proof.
  intros id pitch xs azi sub pm H G K A. unfold cyl_ctor, base_ctor in H. destruct (Z.ltb_spec id 0); [discriminate|]. destruct (Rleb_spec pitch 0) as [P|P]; [discriminate|]. cbn [pbind] in H. destruct xs as [|x0 xs]; [discriminate|].
  set (xs' := x0 :: xs) in *. destruct (negb (ordered xs')); [discriminate|]. destruct (Rltb_spec (pitch * 0.5) (last xs' 0)); [discriminate|].
  destruct (negb (Z.rem azi 2 =? 0)%Z || (8 <? azi)%Z); [discriminate|]. destruct (Nat.eqb_spec (length sub) (length xs')) as [L|L]; [|discriminate]. cbn [negb] in H.
  destruct (mesh_radii xs' sub 0 0) as [radii| |] eqn:M; try discriminate. cbn [pbind] in H. destruct radii as [|q0 radii]; [discriminate|]. injection H as <-.
  destruct (mesh_radii_spec xs' sub 0 azi (Rle_refl 0) G L K A) as [rr [E [_ [E2 [E3 _]]]]]. rewrite M in E. injection E as <-. cbn [cp_pitch cp_azi cp_lines cp_radii]. split; [lra|]. split; [reflexivity|]. split; [reflexivity|]. split; [reflexivity|exact E3].
Qed.

(** C95: along the path up to the reported distance, the particle stays in one region of a cylindrical pin of two, four or six
    sectors. *)
Theorem C95_cyl_region : forall id pitch xs azi sub pm base p d coinc r cid, cyl_ctor id pitch xs azi sub = PVal pm ->
  growing 0 xs -> Forall (fun k => (1 <= k)%Z) sub -> In azi [2; 4; 6]%Z -> REAL_FUZZ < pitch / 2 -> pitch / 2 < 10 ^ 11 -> unit_dir d -> Rabs (oz d) < 1 ->
  rings_clear (cp_radii pm) base coinc p d -> lines_clear (cp_lines pm) (base + Z.of_nat (length (cp_radii pm))) coinc p d ->
  cyl_dist pm base p d coinc = (r, false, cid) ->
  forall t1 t2, 0 < t1 -> 0 < t2 -> before r t1 -> before r t2 -> inside pitch (at_path p d t1) -> inside pitch (at_path p d t2) ->
  cyl_find_reg pm (at_path p d t1) = cyl_find_reg pm (at_path p d t2).
Proof.
  intros id pitch xs azi sub pm base p d coinc r cid C G K A F1 F2 U Z RC LC E t1 t2 P1 P2 B1 B2 [X1 Y1] [X2 Y2].
  assert (A1 : (2 <= azi)%Z /\ (azi mod 2 = 0)%Z) by (cbn in A; destruct A as [<-|[<-|[<-|[]]]]; split; try reflexivity; lia). destruct A1 as [A1 A2].
  destruct (cyl_ctor_inv _ _ _ _ _ _ C G K ltac:(lia)) as (PP & Ep & Ea & El & Gr).
  assert (I : inside (cp_pitch pm) p). { unfold cyl_dist in E. destruct (Rltb_spec (0.5 * cp_pitch pm) (Rabs (ptx p))); [discriminate|]. destruct (Rltb_spec (0.5 * cp_pitch pm) (Rabs (pty p))); [discriminate|]. split; lra. }
  destruct (C95_cyl pm base p d coinc I U Z RC LC) as [r' [i' [E' [F _]]]]. rewrite E in E'. injection E' as <- <-.
  set (p1 := at_path p d t1) in *. set (p2 := at_path p d t2) in *.
  assert (LO : forall i, (i < Z.to_nat azi)%nat -> has_line (pitch / 2) (cp_lines pm) (cos (ray_dir azi i)) (sin (ray_dir azi i))) by (intros i Hi; rewrite El; apply C96_azimuthal; assumption).
  assert (SL : forall c s t, side c s (at_path p d t) = side c s p + t * (c * oy d - s * ox d)) by (intros c s t; unfold side, at_path; cbn [ptx pty]; ring).
  assert (HL : forall i, (i < Z.to_nat azi)%nat -> forall t, side (cos (ray_dir azi i)) (sin (ray_dir azi i)) (at_path p d t) = 0 -> (exists q, In q (cp_radii pm) /\ on_ring q (at_path p d t)) \/ (exists l, In l (cp_lines pm) /\ on_line l (at_path p d t))).
  { intros i Hi t Q. destruct (LO i Hi) as [m [M [IL _]]]. right. eexists. split; [exact IL|]. unfold on_line, offset, origin. cbn [p1 p2 GeomModel.p1 GeomModel.p2 ptx pty]. unfold side in Q. cbn [at_path ptx pty] in Q. rewrite !Rminus_0_r. 
    match goal with |- ?L = 0 => replace L with (m * (cos (ray_dir azi i) * (pty p + t * oy d) - sin (ray_dir azi i) * (ptx p + t * ox d))) by (cbn [at_path ptx pty]; ring) end. rewrite Q. ring. }
  assert (NZ : forall t, 0 < t -> before r t -> forall i, (i < Z.to_nat azi)%nat -> side (cos (ray_dir azi i)) (sin (ray_dir azi i)) (at_path p d t) <> 0).
  { intros t T B i Hi Q. pose proof (HL i Hi t Q) as H. destruct r as [v|]; cbn [first_hit before] in *; [apply (proj2 (proj2 F) t); [lra|exact H]|apply (F t T H)]. }
  assert (SS : forall i, (i < Z.to_nat azi)%nat -> (0 < side (cos (ray_dir azi i)) (sin (ray_dir azi i)) p1 <-> 0 < side (cos (ray_dir azi i)) (sin (ray_dir azi i)) p2)).
  { intros i Hi. unfold p1, p2. rewrite !SL. apply (keeps_sign_iff _ r _ _ t1 t2 F); try assumption. intros t Q. rewrite <- SL in Q. exact (HL i Hi t Q). }
  assert (D0 : cos (ray_dir azi 0) = 1 /\ sin (ray_dir azi 0) = 0) by (assert (2 <= IZR azi) by (apply IZR_le; exact A1); unfold ray_dir; cbn [INR]; replace (2 * PI * 0 / IZR azi) with 0 by (field; lra); split; [apply cos_0|apply sin_0]).
  assert (YN : forall t, 0 < t -> before r t -> pty (at_path p d t) <> 0). { intros t T B. pose proof (NZ t T B O ltac:(lia)) as Q. destruct D0 as [Q1 Q2]. rewrite Q1, Q2 in Q. unfold side in Q. lra. }
  pose proof (YN t1 P1 B1) as Yn1. pose proof (YN t2 P2 B2) as Yn2. fold p1 in Yn1. fold p2 in Yn2.
  unfold cyl_find_reg, cyl_n_reg. rewrite Ep, Ea. fold (rad p1) (rad p2). rewrite !Rltb_false by lra. cbn [orb].
  rewrite (ring_of_same (cp_radii pm) (rad p1) (rad p2)).
  - destruct (C70_alpha p1 Yn1) as [[Pp _] _]. destruct (C70_alpha p2 Yn2) as [[Pq _] _].
    destruct (C94_cyl_total [] 0 azi (alpha p1) Logic.I (Rle_refl 0) ltac:(lia) Pp) as [_ [ia Hs]].
    destruct (polar_sector azi ia (alpha p1) ltac:(lia) Pp Hs) as [Bia E1].
    pose proof (sector_of_sides azi p1 p2 ia A1 A2 (NZ t1 P1 B1) SS Yn2 Bia Hs) as Hq. destruct (polar_sector azi ia (alpha p2) ltac:(lia) Pq Hq) as [_ E2]. rewrite E1, E2. reflexivity.
  - intros q Iq. assert (Q0 : 0 <= q) by (pose proof (growing_last _ _ _ Gr Iq); lra). rewrite !rad_lt by exact Q0.
    assert (W : forall t, ptx (at_path p d t) * ptx (at_path p d t) + pty (at_path p d t) * pty (at_path p d t) - q * q = (1 - oz d * oz d) * (t * t) + 2 * (ptx p * ox d + pty p * oy d) * t + (ptx p * ptx p + pty p * pty p - q * q)).
    { intros t. unfold unit_dir in U. replace (1 - oz d * oz d) with (ox d * ox d + oy d * oy d) by lra. cbn [at_path ptx pty]. ring. }
    assert (HH : forall t, (1 - oz d * oz d) * (t * t) + 2 * (ptx p * ox d + pty p * oy d) * t + (ptx p * ptx p + pty p * pty p - q * q) = 0 -> (exists q, In q (cp_radii pm) /\ on_ring q (at_path p d t)) \/ (exists l, In l (cp_lines pm) /\ on_line l (at_path p d t))).
    { intros t Q. left. exists q. split; [exact Iq|]. rewrite <- W in Q. unfold on_ring. lra. }
    pose proof (W t1) as W1. pose proof (W t2) as W2. fold p1 in W1. fold p2 in W2.
    split; intro Q.
    + assert (H : (1 - oz d * oz d) * (t2 * t2) + 2 * (ptx p * ox d + pty p * oy d) * t2 + (ptx p * ptx p + pty p * pty p - q * q) < 0) by (apply (keeps_negative _ r _ _ _ t1 t2 F HH); try assumption; rewrite <- W1; lra). lra.
    + assert (H : (1 - oz d * oz d) * (t1 * t1) + 2 * (ptx p * ox d + pty p * oy d) * t1 + (ptx p * ptx p + pty p * pty p - q * q) < 0) by (apply (keeps_negative _ r _ _ _ t2 t1 F HH); try assumption; rewrite <- W2; lra). lra.
Qed.
Print Assumptions C95_cyl_region.

(** ** Refutation and instances *)
Definition east : Dir := mkDir 1 0 0 0 (PI / 2) 1.
Lemma line_val : forall l p d t, REAL_FUZZ < Rabs (offset l p) -> REAL_FUZZ <= Rabs (rate l d) -> 0 < t -> t * rate l d = - offset l p -> line_dist l p d false = Some t.
Proof.
  intros l p d t F G T E. pose proof (C95_line l p d false (or_intror (conj eq_refl (conj F G)))) as H. pose proof fuzz_pos as FP.
  assert (R0 : rate l d <> 0) by (intros Q; rewrite Q, Rabs_R0 in G; lra). assert (HT : on_line l (at_path p d t)) by (unfold on_line; rewrite offset_at; lra).
  destruct (line_dist l p d false) as [v|]; cbn [first_hit] in H; [|exfalso; exact (H t T HT)]. f_equal. destruct H as (A & B & _). unfold on_line in B, HT. rewrite offset_at in B, HT. apply (Rmult_eq_reg_r (rate l d)); lra.
Qed.
(** Within the tolerance of a line that lies ahead, the line is not seen: the particle passes into another region before the
    reported distance (here there is none). *)
Theorem C95_refuted : exists pm p t, rect_ctor 0 2 2 1 = PVal pm /\ inside 2 p /\ unit_dir east /\ 0 < t /\ rect_dist pm 0 p east (-1) = (None, false, -1)%Z /\
  strictly_inside 2 p /\ strictly_inside 2 (at_path p east t) /\ rect_find_reg pm p <> rect_find_reg pm (at_path p east t).
Proof.
  destruct rect21 as [pm [E El]]. pose proof fuzz_pos as FP. assert (FS : REAL_FUZZ < 1 / 1000) by (unfold REAL_FUZZ; assert (200000 < 2 ^ 52) by (cbn; lra); apply (Rmult_lt_reg_r (2 ^ 52)); [lra|]; replace (200 / 2 ^ 52 * 2 ^ 52) with 200 by (field; lra); lra).
  destruct (rect_ctor_inv _ _ _ _ _ E) as (_ & _ & _ & Ep & Enx & Eny & Ehx & Ehy & _).
  exists pm, {| ptx := - (REAL_FUZZ / 4); pty := 1 / 2 |}, (1 / 2). split; [exact E|]. assert (IN : inside 2 {| ptx := - (REAL_FUZZ / 4); pty := 1 / 2 |}) by (split; cbn [ptx pty]; apply Rabs_le; lra). split; [exact IN|].
  split; [unfold unit_dir, east; cbn; lra|]. split; [lra|]. split; [|split; [split; cbn [ptx pty]; apply Rabs_def1; lra|split; [split; cbn; apply Rabs_def1; lra|]]].
  - unfold rect_dist. rewrite Ep. destruct IN as [I1 I2]. rewrite !Rltb_false by lra. cbn [orb]. unfold rect_surfaces. rewrite El. cbn [map number scan fst snd]. change ((-1 =? 0)%Z) with false. cbv zeta.
    assert (Q : line_dist {| p1 := {| ptx := 0; pty := -1 |}; p2 := {| ptx := 0; pty := 1 |} |} {| ptx := - (REAL_FUZZ / 4); pty := 1 / 2 |} east false = None).
    { unfold line_dist, east. cbn [p1 p2 ptx pty ox oy]. match goal with |- (if ?b then _ else _) = _ => destruct b; [reflexivity|] end. rewrite (Rltb_false REAL_FUZZ); [rewrite andb_false_r; reflexivity|]. match goal with |- Rabs ?x <= _ => replace x with (REAL_FUZZ / 2) by lra end. rewrite Rabs_right by lra. lra. }
    rewrite Q. reflexivity.
  - assert (H1 : rect_find_reg pm {| ptx := - (REAL_FUZZ / 4); pty := 1 / 2 |} = RIdx 0).
    { destruct (C94_rect 0 2 2 1 pm {| ptx := - (REAL_FUZZ / 4); pty := 1 / 2 |} E) as [Q _]. apply (Q 0%nat 0%nat); [lia|lia| |]; unfold edge; change (Z.to_nat 2) with 2%nat; change (Z.to_nat 1) with 1%nat; cbn [INR ptx pty at_path east ox oy]; unfold Rdiv; split; lra. }
    assert (H2 : rect_find_reg pm (at_path {| ptx := - (REAL_FUZZ / 4); pty := 1 / 2 |} east (1 / 2)) = RIdx 1).
    { destruct (C94_rect 0 2 2 1 pm (at_path {| ptx := - (REAL_FUZZ / 4); pty := 1 / 2 |} east (1 / 2)) E) as [Q _]. apply (Q 1%nat 0%nat); [lia|lia| |]; unfold edge; change (Z.to_nat 2) with 2%nat; change (Z.to_nat 1) with 1%nat; cbn [INR ptx pty at_path east ox oy]; unfold Rdiv; split; lra. }
    rewrite H1, H2. discriminate.
Qed.
Print Assumptions C95_refuted.
Lemma fuzz_small : REAL_FUZZ < 1 / 1000.
Proof. unfold REAL_FUZZ. assert (200000 < 2 ^ 52) by (cbn; lra). apply (Rmult_lt_reg_r (2 ^ 52)); [lra|]. replace (200 / 2 ^ 52 * 2 ^ 52) with 200 by (field; lra). lra. Qed.
Example C95_instance : exists pm p, rect_ctor 0 2 2 1 = PVal pm /\ inside 2 p /\ lines_clear (rp_lines pm) 7 (-1) p east /\ rect_dist pm 7 p east (-1) = (Some (1 / 2), false, 7%Z).
Proof.
  destruct rect21 as [pm [E El]]. pose proof fuzz_pos as FP. pose proof fuzz_small as FS. destruct (rect_ctor_inv _ _ _ _ _ E) as (_ & _ & _ & Ep & _).
  set (p := {| ptx := - (1 / 2); pty := 1 / 2 |}). exists pm, p. split; [exact E|]. assert (IN : inside 2 p) by (split; cbn [p ptx pty]; apply Rabs_le; lra). split; [exact IN|].
  set (l := {| p1 := {| ptx := 0; pty := -1 |}; p2 := {| ptx := 0; pty := 1 |} |}) in *.
  assert (O : offset l p = 1) by (unfold offset, l, p; cbn [p1 p2 ptx pty]; field). assert (Ra : rate l east = - 2) by (unfold rate, l, east; cbn [p1 p2 ptx pty ox oy]; ring).
  assert (A1 : REAL_FUZZ < Rabs (offset l p)) by (rewrite O, Rabs_R1; lra). assert (A2 : REAL_FUZZ <= Rabs (rate l east)) by (rewrite Ra, Rabs_left by lra; lra). split.
  - intros i li Ei. rewrite El in Ei. destruct i as [|i]; [|destruct i; discriminate]. injection Ei as <-. right. split; [reflexivity|]. split; assumption.
  - unfold rect_dist. rewrite Ep. destruct IN as [I1 I2]. rewrite !Rltb_false by lra. cbn [orb]. unfold rect_surfaces. rewrite El. cbn [map number scan fst snd]. change ((-1 =? 7)%Z) with false. cbv zeta.
    rewrite (line_val l p east (1 / 2) A1 A2) by (rewrite ?O, ?Ra; lra). reflexivity.
Qed.
Lemma azi4 : forall l, In l (azi_lines 2 4) -> p1 l = origin /\ ((exists s, (s = 1 \/ s = -1) /\ p2 l = {| ptx := s; pty := 0 |}) \/ (exists s, (s = 1 \/ s = -1) /\ p2 l = {| ptx := 0; pty := s |})).
Proof.
  intros l I. pose proof fuzz_pos as FP. pose proof fuzz_small as FS. assert (B11 : 1 < 10 ^ 11) by (cbn; lra).
  assert (V : forall c s, c * c + s * s = 1 -> (s = 0 -> exists v, (v = 1 \/ v = -1) /\ box_intersect {| ptx := - (0.5 * 2); pty := - (0.5 * 2) |} {| ptx := 0.5 * 2; pty := 0.5 * 2 |} origin c s = Some {| ptx := v; pty := 0 |}) /\
                                          (c = 0 -> exists v, (v = 1 \/ v = -1) /\ box_intersect {| ptx := - (0.5 * 2); pty := - (0.5 * 2) |} {| ptx := 0.5 * 2; pty := 0.5 * 2 |} origin c s = Some {| ptx := 0; pty := v |})).
  { intros c s CS. replace (0.5 * 2) with 1 by lra. destruct (C96_centre 1 c s ltac:(lra) B11 CS) as (A & B & _).
    assert (SQ : forall w, w * w = 1 -> (w = 1 \/ w = -1) /\ Rabs w = 1) by (intros w W; assert (w = 1 \/ w = -1) by (assert ((w - 1) * (w + 1) = 0) by lra; apply Rmult_integral in H; lra); split; [assumption|]; destruct H as [->| ->]; [apply Rabs_R1|rewrite Rabs_left; lra]).
    split; intros ->.
    - destruct (SQ c ltac:(lra)) as [C1 C2]. rewrite A by (rewrite Rabs_R0, C2; lra). exists (- c). split; [lra|]. rewrite C2. f_equal. f_equal; field.
    - destruct (SQ s ltac:(lra)) as [C1 C2]. rewrite B by (rewrite Rabs_R0, C2; lra). exists (- s). split; [lra|]. rewrite C2. f_equal. f_equal; field. }
  unfold azi_lines in I. apply in_map_iff in I. destruct I as [i [<- I]]. apply in_seq in I. cbn [p1 p2]. split; [reflexivity|].
  set (a := INR i * (2 * PI / 4)). assert (CS : cos a * cos a + sin a * sin a = 1) by (pose proof (sin2_cos2 a) as Q; unfold Rsqr in Q; lra).
  assert (C : sin a = 0 \/ cos a = 0). { change (Z.to_nat 4) with 4%nat in I. assert (C : i = 0%nat \/ i = 1%nat \/ i = 2%nat \/ i = 3%nat) by lia. unfold a. destruct C as [->|[->|[->| ->]]]; cbn [INR].
    - left. replace (0 * (2 * PI / 4)) with 0 by ring. apply sin_0.
    - right. replace (1 * (2 * PI / 4)) with (PI / 2) by field. apply cos_PI2.
    - left. replace ((1 + 1) * (2 * PI / 4)) with PI by field. apply sin_PI.
    - right. replace ((1 + 1 + 1) * (2 * PI / 4)) with (3 * (PI / 2)) by field. apply cos_3PI2. }
  destruct C as [C|C]; [left; destruct (proj1 (V _ _ CS) C) as [v [V1 V2]]|right; destruct (proj2 (V _ _ CS) C) as [v [V1 V2]]]; exists v; (split; [exact V1|]); rewrite V2; reflexivity.
Qed.
Example C95_cyl_instance : exists pm p, cyl_ctor 0 2 [1/2] 4 [1%Z] = PVal pm /\ growing 0 [1/2] /\ inside 2 p /\ unit_dir east /\ Rabs (oz east) < 1 /\
  rings_clear (cp_radii pm) 3 (-1) p east /\ lines_clear (cp_lines pm) (3 + Z.of_nat (length (cp_radii pm))) (-1) p east.
Proof.
  assert (M : mesh_radii [1/2] [1%Z] 0 0 = PVal [1/2]). { cbn [mesh_radii]. change (Z.to_nat 1) with 1%nat. cbn [ring pbind]. rewrite Rltb_false by lra. replace ((1/2 * (1/2) - 0 * 0) / 1 + 0 * 0) with (1/2 * (1/2)) by field. rewrite sqrt_square by lra. reflexivity. }
  pose proof (cyl_ctor_eval 0 2 (1/2) [] 4 [1%Z] [1/2] ltac:(lia) ltac:(lra) eq_refl ltac:(cbn; lra) eq_refl ltac:(lia) eq_refl M ltac:(discriminate)) as E.
  pose proof fuzz_pos as FP. pose proof fuzz_small as FS. set (p := {| ptx := - (3 / 4); pty := 1 / 4 |}).
  eexists. exists p. split; [exact E|]. split; [cbn; lra|]. split; [split; cbn [p ptx pty]; apply Rabs_le; lra|]. split; [unfold unit_dir, east; cbn; lra|]. split; [cbn [east oz]; rewrite Rabs_R0; lra|]. cbn [cp_radii cp_lines]. split.
  - intros i r Ei. destruct i as [|i]; [|destruct i; discriminate]. injection Ei as <-. left. split; [reflexivity|]. unfold power, origin, p. cbn [cc cr ptx pty]. rewrite Rabs_right; lra.
  - intros i l Ei. apply nth_error_In in Ei. destruct (azi4 l Ei) as [P1 [[s [S P2]]|[s [S P2]]]].
    + left. unfold offset, rate. rewrite P1, P2. cbn [origin p east ptx pty ox oy]. split; [|left; intro Q]; destruct S as [->| ->]; lra.
    + destruct (Rle_dec 0 (offset l p * rate l east)) as [L|L].
      * left. split; [exact L|]. right. unfold rate. rewrite P1, P2. cbn [origin p east ptx pty ox oy]. destruct S as [->| ->]; lra.
      * right. split; [apply Z.eqb_neq; lia|]. unfold offset, rate. rewrite P1, P2. cbn [origin p east ptx pty ox oy].
        split; [match goal with |- _ < Rabs ?x => replace x with (s * (3 / 4)) by field end; rewrite Rabs_mult, (Rabs_right (3/4)) by lra|match goal with |- _ <= Rabs ?x => replace x with (- s) by ring end; rewrite Rabs_Ropp]; destruct S as [->| ->]; rewrite ?Rabs_R1; try lra; rewrite Rabs_left by lra; lra.
Qed.
