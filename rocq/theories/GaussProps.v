(** C130: the Gauss-Legendre polar angles. *)
From Coq Require Import ZArith List Lia Bool Reals Lra.
From Verif Require Import RUtil MeshModel AngModel AngProofs AqModel.
Import ListNotations.
Open Scope R_scope.

(** ** Legendre polynomials, by their three-term recursion *)
Definition legendre_family (P : nat -> R -> R) : Prop := (forall y, P 0%nat y = 1) /\ (forall y, P 1%nat y = y) /\
  forall k y, INR (k + 2) * P (k + 2)%nat y = INR (2 * k + 3) * y * P (k + 1)%nat y - INR (k + 1) * P k y.

Lemma legendre2_next : forall k y, legendre2 k y = (legendre k y, legendre (S k) y).
Proof. intros k y. unfold legendre. cbn [legendre2]. destruct (legendre2 k y). reflexivity. Qed.
Lemma INR_pos1 : forall k, 0 < INR k + 1.
Proof. intros k. pose proof (pos_INR k). lra. Qed.
Lemma legendre_rec : forall k y, legendre (S (S k)) y = ((2 * (INR k + 1) + 1) * y * legendre (S k) y - (INR k + 1) * legendre k y) / (INR k + 2).
Proof.
  intros k y. unfold legendre at 1. change (legendre2 (S (S k)) y) with (let '(a, b) := legendre2 (S k) y in (b, ((2 * INR (S (S k)) + 1) * y * b - INR (S (S k)) * a) / (INR (S (S k)) + 1))).
  rewrite (legendre2_next (S k)). cbn [fst]. unfold legendre at 1. change (legendre2 (S (S k)) y) with (let '(a, b) := legendre2 (S k) y in (b, ((2 * INR (S (S k)) + 1) * y * b - INR (S (S k)) * a) / (INR (S (S k)) + 1))). unfold legendre at 2. cbn [legendre2].
  unfold legendre. cbn [legendre2]. destruct (legendre2 k y) as [a b]. cbn [fst]. rewrite S_INR. replace (INR k + 1 + 1) with (INR k + 2) by ring. reflexivity.
Qed.
(** The recursion of the code computes them. *)
Lemma legendre_is : legendre_family legendre.
Proof.
  split; [reflexivity|]. split; [reflexivity|]. intros k y. rewrite !plus_INR, mult_INR. replace (k + 2)%nat with (S (S k)) by lia. replace (k + 1)%nat with (S k) by lia. rewrite legendre_rec.
  cbn [INR]. pose proof (pos_INR k). field. lra.
Qed.
Lemma legendre_unique : forall P, legendre_family P -> forall k y, P k y = legendre k y.
Proof.
  intros P (P0 & P1 & PR) k y. assert (G : P k y = legendre k y /\ P (S k) y = legendre (S k) y); [|apply G].
  induction k as [|k [IH1 IH2]]; [split; [apply P0|apply P1]|]. split; [exact IH2|]. pose proof (PR k y) as H. replace (k + 2)%nat with (S (S k)) in H by lia. replace (k + 1)%nat with (S k) in H by lia. rewrite IH1, IH2 in H.
  rewrite legendre_rec. pose proof (pos_INR k). rewrite !S_INR in H. replace (INR (2 * k + 3)) with (2 * (INR k + 1) + 1) in H by (rewrite plus_INR, mult_INR; cbn [INR]; ring).
  apply Rmult_eq_reg_l with (INR k + 2); [|lra]. replace (INR k + 2) with (INR k + 1 + 1) at 1 by ring. rewrite H. field. lra.
Qed.
Lemma legendre_parity : forall k y, legendre k (- y) = (-1) ^ k * legendre k y.
Proof.
  intros k y. assert (G : legendre k (- y) = (-1) ^ k * legendre k y /\ legendre (S k) (- y) = (-1) ^ S k * legendre (S k) y); [|apply G].
  induction k as [|k [IH1 IH2]]; [split; unfold legendre; cbn; ring|]. split; [exact IH2|]. rewrite !legendre_rec, IH1, IH2. cbn [pow]. pose proof (pos_INR k). field. lra.
Qed.
Lemma even_pow : forall n, (-1) ^ (2 * n) = 1.
Proof. intros n. rewrite pow_mult. replace ((-1) ^ 2) with 1 by (cbn; ring). apply pow1. Qed.
Lemma legendre_even : forall n y, legendre (2 * n) (- y) = legendre (2 * n) y.
Proof. intros n y. rewrite legendre_parity, even_pow. ring. Qed.
Lemma legendre_odd : forall n y, (1 <= n)%nat -> legendre (2 * n - 1) (- y) = - legendre (2 * n - 1) y.
Proof. intros n y H. rewrite legendre_parity. assert (E : (-1) ^ (2 * n) = -1 * (-1) ^ (2 * n - 1)) by (replace (2 * n)%nat with (S (2 * n - 1)) at 1 by lia; reflexivity). rewrite even_pow in E. replace ((-1) ^ (2 * n - 1)) with (-1) by lra. ring. Qed.

(** ** Symmetry of the iteration *)
Lemma slope_odd : forall n y, (1 <= n)%nat -> gauss_slope n (- y) = - gauss_slope n y.
Proof. intros n y H. unfold gauss_slope. cbn zeta. rewrite legendre_even, legendre_odd by exact H. replace (- y * - y) with (y * y) by ring. unfold Rdiv. ring. Qed.
Lemma step_odd : forall n y, (1 <= n)%nat -> gauss_step n (- y) = - gauss_step n y.
Proof.
  intros n y H. unfold gauss_step. rewrite legendre_even, slope_odd by exact H. unfold Rdiv. rewrite Rinv_opp. ring.
Qed.
Lemma weight_even : forall n y z, (1 <= n)%nat -> gauss_weight n (- y) (- z) = gauss_weight n y z.
Proof. intros n y z H. unfold gauss_weight. cbn zeta. rewrite slope_odd by exact H. replace ((1 - - y * - y) * - gauss_slope n z * - gauss_slope n z) with ((1 - y * y) * gauss_slope n z * gauss_slope n z) by ring. reflexivity. Qed.
Lemma start_odd : forall n i, (1 <= n)%nat -> (i < 2 * n)%nat -> gauss_start n (2 * n - 1 - i) = - gauss_start n i.
Proof.
  intros n i H I. unfold gauss_start. cbn zeta. set (m := INR (2 * n)). assert (M : 2 <= m) by (unfold m; change 2 with (INR 2); apply le_INR; lia).
  assert (J : INR (2 * n - 1 - i) = m - 1 - INR i) by (unfold m; rewrite minus_INR, minus_INR by lia; reflexivity). rewrite J.
  assert (X : -1 + (m - 1 - INR i) * (2 / (m - 1)) = - (-1 + INR i * (2 / (m - 1)))) by (field; lra). rewrite X.
  replace ((2 * (m - 1 - INR i) + 1) * PI / (2 * m)) with (- ((2 * INR i + 1) * PI / (2 * m)) + PI) by (field; lra). rewrite neg_cos, cos_neg.
  replace (PI * - (-1 + INR i * (2 / (m - 1))) * (m - 1) / (m + 1)) with (- (PI * (-1 + INR i * (2 / (m - 1))) * (m - 1) / (m + 1))) by (field; lra). rewrite sin_neg. ring.
Qed.
Lemma points_length : forall n k, length (gauss_points n k) = (2 * n)%nat.
Proof. intros n k. induction k as [|k IH]; cbn [gauss_points]; rewrite map_length; [apply seq_length|exact IH]. Qed.
Lemma points_odd : forall n k i y, (1 <= n)%nat -> nth_error (gauss_points n k) i = Some y -> nth_error (gauss_points n k) (2 * n - 1 - i) = Some (- y).
Proof.
  intros n k. induction k as [|k IH]; intros i y H E; cbn [gauss_points] in *.
  - assert (I : (i < 2 * n)%nat) by (assert (Q : nth_error (map (gauss_start n) (seq 0 (2 * n))) i <> None) by congruence; apply nth_error_Some in Q; rewrite map_length, seq_length in Q; exact Q).
    rewrite nth_error_map in E |- *.
    assert (S : forall j, (j < 2 * n)%nat -> nth_error (seq 0 (2 * n)) j = Some j). { intros j Hj. rewrite (nth_error_nth' _ 0%nat) by (rewrite seq_length; exact Hj). rewrite seq_nth by exact Hj. reflexivity. }
    rewrite S in E by exact I. rewrite S by lia. cbn [option_map] in *. injection E as <-. f_equal. apply start_odd; assumption.
  - rewrite nth_error_map in E |- *. destruct (nth_error (gauss_points n k) i) as [z|] eqn:Z; [|discriminate]. cbn [option_map] in E. injection E as <-. rewrite (IH i z H Z). cbn [option_map]. f_equal. apply step_odd. exact H.
Qed.

(** C130: for every number of polar angles and every number of passes of the iteration, the list has that many pairs,
    and each is the angle of one point of the iteration together with the weight computed at that same point: taking
    the second half of the weights for the reversed points pairs nothing wrongly. *)
Theorem C130_pairs : forall n k, (1 <= n)%nat -> length (gen_gauss n k) = n /\
  forall j t w, nth_error (gen_gauss n k) j = Some (t, w) -> exists y y0,
    nth_error (gauss_points n (S k)) (n - 1 - j) = Some y /\ nth_error (gauss_points n k) (n - 1 - j) = Some y0 /\ y = gauss_step n y0 /\ t = acos y /\ w = gauss_weight n y y0.
Proof.
  intros n k H. assert (LT : length (gauss_thetas n k) = (2 * n)%nat) by (unfold gauss_thetas; rewrite rev_length, map_length, points_length; reflexivity).
  assert (LW : length (gauss_weights n k) = (2 * n)%nat) by (unfold gauss_weights; rewrite map_length, combine_length, !points_length, Nat.min_id; reflexivity).
  split; [unfold gen_gauss; rewrite skipn_length, combine_length, LT, LW; lia|]. intros j t w E.
  assert (J : (j < n)%nat). { assert (Q : nth_error (gen_gauss n k) j <> None) by congruence. apply nth_error_Some in Q. unfold gen_gauss in Q. rewrite skipn_length, combine_length, LT, LW in Q. lia. }
  assert (NS : forall {A} (l : list A) m i, nth_error (skipn m l) i = nth_error l (m + i)). { intros A l m. revert l. induction m as [|m IH]; intros l i; [reflexivity|]. destruct l as [|a l]; [destruct i; reflexivity|]. cbn [skipn Nat.add nth_error]. apply IH. }
  assert (NC : forall {A B} (l : list A) (m : list B) i a b, nth_error (combine l m) i = Some (a, b) -> nth_error l i = Some a /\ nth_error m i = Some b).
  { intros A B l. induction l as [|x l IH]; intros m i a b Q; [destruct i; discriminate|]. destruct m as [|z m]; [destruct i; discriminate|]. destruct i as [|i]; cbn in Q |- *; [injection Q as <- <-; auto|apply IH; exact Q]. }
  unfold gen_gauss in E. rewrite NS in E. apply NC in E. destruct E as [ET EW].
  assert (P0 : exists y0, nth_error (gauss_points n k) (n - 1 - j) = Some y0). { destruct (nth_error (gauss_points n k) (n - 1 - j)) as [y0|] eqn:Q; [eauto|]. apply nth_error_None in Q. rewrite points_length in Q. lia. }
  destruct P0 as (y0 & P0). assert (P1 : nth_error (gauss_points n (S k)) (n - 1 - j) = Some (gauss_step n y0)) by (cbn [gauss_points]; rewrite nth_error_map, P0; reflexivity).
  exists (gauss_step n y0), y0. split; [exact P1|]. split; [exact P0|]. split; [reflexivity|]. split.
  - unfold gauss_thetas in ET. assert (RV : nth_error (rev (map acos (gauss_points n (S k)))) (n + j) = nth_error (map acos (gauss_points n (S k))) (n - 1 - j)).
    { set (m := map acos (gauss_points n (S k))). assert (Lm : length m = (2 * n)%nat) by (unfold m; rewrite map_length; apply points_length). clearbody m.
      rewrite (nth_error_nth' (rev m) 0) by (rewrite rev_length; lia). rewrite rev_nth by lia. rewrite (nth_error_nth' m 0) by lia. f_equal. f_equal. lia. }
    rewrite RV, nth_error_map, P1 in ET. cbn [option_map] in ET. congruence.
  - unfold gauss_weights in EW. rewrite nth_error_map in EW. destruct (nth_error (combine (gauss_points n (S k)) (gauss_points n k)) (n + j)) as [[y z]|] eqn:Q; [|discriminate]. cbn [option_map fst snd] in EW. injection EW as <-. apply NC in Q. destruct Q as [Q1 Q2].
    pose proof (points_odd n (S k) _ _ H P1) as O1. pose proof (points_odd n k _ _ H P0) as O0. replace (2 * n - 1 - (n - 1 - j))%nat with (n + j)%nat in O1, O0 by lia. rewrite Q1 in O1. rewrite Q2 in O0. injection O1 as ->. injection O0 as ->. apply weight_even. exact H.
Qed.
Print Assumptions C130_pairs.

(** ** The derivative of the polynomials *)
Lemma legendre_derivative : forall k y, y * y <> 1 ->
  derivable_pt_lim (legendre k) y ((INR k + 1) * (y * legendre k y - legendre (S k) y) / (1 - y * y)) /\
  derivable_pt_lim (legendre (S k)) y ((INR k + 1) * (legendre k y - y * legendre (S k) y) / (1 - y * y)).
Proof.
  intros k y Y. assert (N : 1 - y * y <> 0) by lra. induction k as [|k [IA IB]].
  - cbn [INR]. unfold legendre. cbn [legendre2 fst]. split.
    + replace ((0 + 1) * (y * 1 - y) / (1 - y * y)) with 0 by (field; exact N). apply derivable_pt_lim_const.
    + replace ((0 + 1) * (1 - y * y) / (1 - y * y)) with 1 by (field; exact N). apply derivable_pt_lim_id.
  - pose proof (pos_INR k) as K. split.
    + eapply eq_rect; [exact IB|]. rewrite legendre_rec, S_INR. field. split; lra.
    + assert (D : derivable_pt_lim (fun z => ((2 * (INR k + 1) + 1) * z * legendre (S k) z - (INR k + 1) * legendre k z) / (INR k + 2)) y
        (((2 * (INR k + 1) + 1) * (1 * legendre (S k) y + y * ((INR k + 1) * (legendre k y - y * legendre (S k) y) / (1 - y * y))) - (INR k + 1) * ((INR k + 1) * (y * legendre k y - legendre (S k) y) / (1 - y * y))) * / (INR k + 2))).
      { assert (D1 : derivable_pt_lim (fun z => z * legendre (S k) z) y (1 * legendre (S k) y + y * ((INR k + 1) * (legendre k y - y * legendre (S k) y) / (1 - y * y)))) by (apply (derivable_pt_lim_mult id (legendre (S k)) y 1 _ (derivable_pt_lim_id y) IB)).
        pose proof (derivable_pt_lim_scal _ (2 * (INR k + 1) + 1) _ _ D1) as D2. pose proof (derivable_pt_lim_scal _ (INR k + 1) _ _ IA) as D3. pose proof (derivable_pt_lim_minus _ _ _ _ _ D2 D3) as D4. pose proof (derivable_pt_lim_scal _ (/ (INR k + 2)) _ _ D4) as D5.
        intros e He. destruct (D5 e He) as (d & Hd). exists d. intros h Hh Hs. specialize (Hd h Hh Hs). unfold mult_real_fct, minus_fct in Hd.
        match type of Hd with Rabs (?u) < _ => match goal with |- Rabs ?v < _ => replace v with u; [exact Hd|] end end. field. split; lra. }
      intros e He. destruct (D e He) as (d & Hd). exists d. intros h Hh Hs. specialize (Hd h Hh Hs). rewrite <- !legendre_rec in Hd.
      match type of Hd with Rabs (?u - ?w) < _ => match goal with |- Rabs (?u' - ?v) < _ => replace v with w; [exact Hd|] end end.
      rewrite legendre_rec, S_INR. field. split; lra.
Qed.
(** C130: the slope used for the correction is the derivative of the Legendre polynomial of degree 2 n times
    (2 n + 1) / (2 n). *)
Theorem C130_slope : forall n y P, (1 <= n)%nat -> y * y <> 1 -> legendre_family P -> exists d, derivable_pt_lim (P (2 * n)%nat) y d /\ gauss_slope n y = (INR (2 * n) + 1) / INR (2 * n) * d.
Proof.
  intros n y P H Y PF. destruct (legendre_derivative (2 * n - 1) y Y) as [_ D]. replace (S (2 * n - 1)) with (2 * n)%nat in D by lia.
  assert (E : INR (2 * n - 1) + 1 = INR (2 * n)) by (rewrite minus_INR by lia; cbn [INR]; ring). rewrite E in D. eexists. split.
  - intros e He. destruct (D e He) as (d & Hd). exists d. intros h Hh Hs. rewrite !(legendre_unique P PF). apply Hd; assumption.
  - unfold gauss_slope. cbn zeta. assert (0 < INR (2 * n)) by (apply lt_0_INR; lia). field. split; lra.
Qed.
Print Assumptions C130_slope.
(** C130: a point stays where it is exactly when it is a root of the polynomial. *)
Theorem C130_fixed : forall n y P, legendre_family P -> gauss_slope n y <> 0 -> (gauss_step n y = y <-> P (2 * n)%nat y = 0).
Proof.
  intros n y P PF S. rewrite (legendre_unique P PF). unfold gauss_step. split; intros E.
  - assert (Q : legendre (2 * n) y / gauss_slope n y = 0) by lra. apply Rmult_integral in Q. destruct Q as [Q|Q]; [exact Q|]. exfalso. revert Q. apply Rinv_neq_0_compat. exact S.
  - rewrite E. unfold Rdiv. ring.
Qed.
Print Assumptions C130_fixed.
(** C130: at a root inside (-1, 1) the weight is half of the Gauss-Legendre weight 2 / ((1 - y^2) P'(y)^2), positive. *)
Theorem C130_weight : forall n y P d, (1 <= n)%nat -> -1 < y < 1 -> legendre_family P -> derivable_pt_lim (P (2 * n)%nat) y d -> d <> 0 ->
  gauss_weight n y y = (2 / ((1 - y * y) * (d * d))) / 2 /\ 0 < gauss_weight n y y.
Proof.
  intros n y P d H Y PF D Dn. destruct (C130_slope n y P H ltac:(nra) PF) as (d' & D' & S). assert (d' = d) by (eapply uniqueness_limite; eassumption). subst d'.
  assert (M : 0 < INR (2 * n)) by (apply lt_0_INR; lia). assert (Q : 0 < 1 - y * y) by nra. unfold gauss_weight. cbn zeta. rewrite S.
  assert (G : 1 / ((1 - y * y) * ((INR (2 * n) + 1) / INR (2 * n) * d) * ((INR (2 * n) + 1) / INR (2 * n) * d)) * (INR (2 * n) + 1) * (INR (2 * n) + 1) / (INR (2 * n) * INR (2 * n)) = 2 / ((1 - y * y) * (d * d)) / 2) by (field; repeat split; lra).
  rewrite G. split; [reflexivity|]. assert (0 < d * d) by (destruct (Rtotal_order d 0) as [|[|]]; nra). apply Rdiv_lt_0_compat; [|lra]. apply Rdiv_lt_0_compat; [lra|]. apply Rmult_lt_0_compat; assumption.
Qed.
Print Assumptions C130_weight.
(** One polar angle: the points are the two roots 1/sqrt 3 and -1/sqrt 3 of (3 y^2 - 1) / 2, with weight 1/2 each. *)
Example C130_instance : let y := 1 / sqrt 3 in legendre_family legendre /\ -1 < y < 1 /\ legendre (2 * 1) y = 0 /\ gauss_slope 1 y <> 0 /\ gauss_weight 1 y y = 1 / 2.
Proof.
  cbv zeta. assert (S3 : sqrt 3 * sqrt 3 = 3) by (apply sqrt_sqrt; lra). assert (P3 : 1 < sqrt 3) by (rewrite <- sqrt_1; apply sqrt_lt_1; lra). set (s := sqrt 3) in *. clearbody s.
  split; [exact legendre_is|]. assert (Y : 1 / s * (1 / s) = 1 / 3). { replace (1 / s * (1 / s)) with (1 / (s * s)) by (field; lra). rewrite S3. reflexivity. }
  assert (Y0 : 0 < 1 / s) by (apply Rdiv_lt_0_compat; lra). set (y := 1 / s) in *. clearbody y.
  assert (L2 : legendre 2 y = 0). { change 2%nat with (S (S 0)). rewrite legendre_rec. unfold legendre. cbn [legendre2 fst INR]. replace (((2 * (0 + 1) + 1) * y * y - (0 + 1) * 1) / (0 + 2)) with ((3 * (y * y) - 1) / 2) by field. rewrite Y. field. }
  assert (SL : gauss_slope 1 y = 9 / 2 * y). { unfold gauss_slope. change (2 * 1)%nat with 2%nat. change (2 - 1)%nat with 1%nat. cbv zeta. rewrite L2, Y. unfold legendre. cbn [legendre2 fst INR]. field. }
  split; [nra|]. split; [exact L2|]. rewrite SL. split; [lra|]. unfold gauss_weight. cbv zeta. rewrite SL. change (2 * 1)%nat with 2%nat. replace ((1 - y * y) * (9 / 2 * y) * (9 / 2 * y)) with ((1 - y * y) * (81 / 4) * (y * y)) by field. rewrite Y. cbn [INR]. field.
Qed.
