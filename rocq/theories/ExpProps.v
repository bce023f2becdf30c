(** C63: the tabulated exponential. *)
From Coq Require Import List Lia Bool Reals ZArith Lra Psatz.
From Verif Require Import RUtil McModel StdAlg MatModel CoreModel LatProps RayModel RayProofs ExpModel.
Import ListNotations.
Open Scope R_scope.

Lemma table_get : forall N lo hi i, (0 <= i <= Z.of_nat N)%Z -> table_at (exp_table N lo hi) i = Some (exp (lo + IZR i * exp_space N lo hi)).
Proof.
  intros N lo hi i H. unfold table_at, exp_table. destruct (Z.ltb_spec i 0); [lia|].
  rewrite nth_error_map, (nth_error_nth' _ 0%nat) by (rewrite seq_length; lia). rewrite seq_nth by lia. cbn [option_map].
  rewrite INR_IZR_INZ, Nat.add_0_l, Z2Nat.id by lia. reflexivity.
Qed.

Lemma exp_convex_le : forall x h s, 0 < h -> 0 <= s <= h -> exp (x + s) <= exp x + (exp (x + h) - exp x) * s * (1 / h).
Proof.
  intros x h s Hh Hs. rewrite !exp_plus. assert (E : exp s <= 1 + (exp h - 1) * (s / h)).
  { (* the chord of a convex function: use the tangent inequality at s *)
    set (t := s / h). assert (Et : s = t * h) by (unfold t; field; lra). assert (0 <= t <= 1).
    { unfold t. split; [apply Rmult_le_pos; [lra|apply Rlt_le, Rinv_0_lt_compat; lra]|]. apply (Rmult_le_reg_r h); [lra|]. unfold Rdiv. rewrite Rmult_assoc, Rinv_l by lra. lra. }
    assert (A : exp s * (1 + (h - s)) <= exp h). { replace h with (s + (h - s)) at 2 by ring. rewrite exp_plus. apply Rmult_le_compat_l; [apply Rlt_le, exp_pos|]. apply exp_ineq1_le. }
    assert (B : exp s * (1 - s) <= 1). { assert (Q : exp s * exp (- s) = 1) by (rewrite <- exp_plus, Rplus_opp_r; apply exp_0). rewrite <- Q. apply Rmult_le_compat_l; [apply Rlt_le, exp_pos|]. pose proof (exp_ineq1_le (- s)). lra. }
    assert (exp s * (t * (1 + (h - s)) + (1 - t) * (1 - s)) <= t * exp h + (1 - t)) by nra.
    replace (t * (1 + (h - s)) + (1 - t) * (1 - s)) with 1 in H0 by (rewrite Et; ring). lra. }
  pose proof (exp_pos x). replace (exp x + (exp x * exp h - exp x) * s * (1 / h)) with (exp x * (1 + (exp h - 1) * (s / h))) by (field; lra).
  apply Rmult_le_compat_l; lra.
Qed.

(** (1 + s (e^h - 1)/h) e^-s - 1 <= e^h - 1 - h for 0 <= s <= h. *)
Lemma exp_chord_err : forall x h s, 0 < h -> 0 <= s <= h -> exp x + (exp (x + h) - exp x) * s * (1 / h) - exp (x + s) <= (exp h - 1 - h) * exp (x + s).
Proof.
  intros x h s Hh Hs. rewrite !exp_plus. pose proof (exp_pos x). pose proof (exp_ineq1_le s). pose proof (exp_ineq1_le h).
  replace (exp x + (exp x * exp h - exp x) * s * (1 / h) - exp x * exp s) with (exp x * (1 + s + (exp h - 1 - h) * (s / h) - exp s)) by (field; lra).
  replace ((exp h - 1 - h) * (exp x * exp s)) with (exp x * ((exp h - 1 - h) * exp s)) by ring. apply Rmult_le_compat_l; [lra|].
  assert (s / h <= 1) by (apply (Rmult_le_reg_r h); [lra|]; unfold Rdiv; rewrite Rmult_assoc, Rinv_l by lra; lra).
  assert (0 <= s / h) by (apply Rmult_le_pos; [lra|apply Rlt_le, Rinv_0_lt_compat; lra]). nra.
Qed.

(** Where the interpolation looks. *)
Lemma interp_cell : forall N lo hi v, (1 <= N)%nat -> lo < hi -> lo <= v < hi -> exists i, (0 <= i < Z.of_nat N)%Z /\
  let s := exp_space N lo hi in 0 < s /\ trunc ((v - lo) * (1 / s)) = i /\ lo + IZR i * s <= v < lo + IZR (i + 1) * s /\
  exp_interp N lo hi v = Some (exp (lo + IZR i * s) + (exp (lo + IZR i * s + s) - exp (lo + IZR i * s)) * (v - (lo + IZR i * s)) * (1 / s)).
Proof.
  intros N lo hi v HN Hlh Hv. assert (Np : 1 <= INR N) by (apply (le_INR 1); lia).
  assert (Sp : 0 < exp_space N lo hi) by (unfold exp_space; apply Rdiv_lt_0_compat; lra).
  set (s := exp_space N lo hi) in *. assert (SN : INR N * s = hi - lo) by (unfold s, exp_space; field; lra).
  set (r := (v - lo) * (1 / s)). assert (Er : r * s = v - lo) by (unfold r; field; lra). assert (R0 : 0 <= r) by nra. assert (RN : r < INR N) by nra.
  exists (Int_part r). destruct (base_Int_part r) as [B1 B2].
  assert (I0 : (0 <= Int_part r)%Z). { assert (-1 < Int_part r)%Z by (apply lt_IZR; lra). lia. }
  assert (I1 : (Int_part r < Z.of_nat N)%Z). { apply lt_IZR. rewrite <- INR_IZR_INZ. lra. }
  split; [lia|]. cbn zeta. fold r. split; [auto|]. assert (Et : trunc r = Int_part r) by (unfold trunc; rewrite Rltb_false by lra; reflexivity).
  split; [exact Et|]. split; [rewrite plus_IZR; nra|].
  unfold exp_interp. fold s. fold r. rewrite Et, !table_get by lia. fold s. rewrite plus_IZR. f_equal.
  replace (lo + (IZR (Int_part r) + 1) * s) with (lo + IZR (Int_part r) * s + s) by ring. f_equal. f_equal. f_equal. ring.
Qed.

(** C63.  Below the upper end of the table every read is inside it and the result overestimates the exponential by a
    relative error of at most e^h - 1 - h, h being the table spacing; it never exceeds the last entry. *)
Theorem C63_error : forall N lo hi v, (1 <= N)%nat -> lo < hi -> v < hi -> exists r, exp_linear N lo hi v = Some r /\
  let h := (hi - lo) / INR N in 0 <= r - exp v <= (exp h - 1 - h) * exp v /\ 0 < r <= exp hi.
Proof.
  intros N lo hi v HN Hlh Hv. cbn zeta. fold (exp_space N lo hi). unfold exp_linear. rewrite (Rltb_false hi v) by lra. rewrite orb_false_r.
  pose proof (exp_pos v) as Ev. assert (Np : 1 <= INR N) by (apply (le_INR 1); lia).
  assert (Sp : 0 < exp_space N lo hi) by (unfold exp_space; apply Rdiv_lt_0_compat; lra).
  destruct (Rltb_spec v lo) as [L|L].
  { exists (exp v). split; [reflexivity|]. pose proof (exp_ineq1_le (exp_space N lo hi)). pose proof (exp_increasing v hi Hv). nra. }
  destruct (interp_cell N lo hi v HN Hlh ltac:(lra)) as (i & Hi & _ & _ & Ci & ->). set (s := exp_space N lo hi) in *. set (x := lo + IZR i * s) in *.
  eexists. split; [reflexivity|]. rewrite plus_IZR in Ci. assert (0 <= v - x <= s) by (unfold x in *; lra).
  pose proof (exp_convex_le x s (v - x) Sp ltac:(lra)) as A. pose proof (exp_chord_err x s (v - x) Sp ltac:(lra)) as B. replace (x + (v - x)) with v in * by ring.
  assert (SN : INR N * s = hi - lo) by (unfold s, exp_space; field; lra).
  assert (Xs : x + s <= hi). { assert (IZR (i + 1) <= INR N) by (rewrite INR_IZR_INZ; apply IZR_le; lia). rewrite plus_IZR in *. unfold x. nra. }
  assert (C : exp x <= exp (x + s)) by (apply Rlt_le, exp_increasing; lra).
  assert (D : exp (x + s) <= exp hi) by (destruct Xs as [Xs| ->]; [apply Rlt_le, exp_increasing; lra|lra]).
  assert (F : (v - x) * (1 / s) <= 1) by (apply (Rmult_le_reg_r s); [lra|]; replace ((v - x) * (1 / s) * s) with (v - x) by (field; lra); lra).
  split; [split; lra|]. split; [lra|]. replace ((exp (x + s) - exp x) * (v - x) * (1 / s)) with ((exp (x + s) - exp x) * ((v - x) * (1 / s))) by ring. nra.
Qed.
Print Assumptions C63_error.

(** C63.  The result lies between the two neighbouring table entries. *)
Theorem C63_between_neighbours : forall N lo hi v, (1 <= N)%nat -> lo < hi -> lo <= v < hi -> exists i r,
  let h := (hi - lo) / INR N in (0 <= i < Z.of_nat N)%Z /\ lo + IZR i * h <= v < lo + IZR (i + 1) * h /\
  exp_linear N lo hi v = Some r /\ exp (lo + IZR i * h) <= r <= exp (lo + IZR (i + 1) * h).
Proof.
  intros N lo hi v HN Hlh Hv. destruct (interp_cell N lo hi v HN Hlh Hv) as (i & Hi & Sp & _ & Ci & E). exists i. eexists. cbn zeta. fold (exp_space N lo hi). set (s := exp_space N lo hi) in *.
  split; [auto|]. split; [auto|]. unfold exp_linear. rewrite !Rltb_false by lra. cbn [orb]. split; [exact E|]. rewrite plus_IZR in *.
  set (x := lo + IZR i * s) in *. replace (lo + (IZR i + 1) * s) with (x + s) in * by (unfold x; ring).
  assert (C : exp x <= exp (x + s)) by (apply Rlt_le, exp_increasing; lra).
  assert (F : 0 <= (v - x) * (1 / s) <= 1).
  { split; [apply Rmult_le_pos; [lra|unfold Rdiv; rewrite Rmult_1_l; apply Rlt_le, Rinv_0_lt_compat; lra]|]. apply (Rmult_le_reg_r s); [lra|]. replace ((v - x) * (1 / s) * s) with (v - x) by (field; lra). lra. }
  replace ((exp (x + s) - exp x) * (v - x) * (1 / s)) with ((exp (x + s) - exp x) * ((v - x) * (1 / s))) by ring.
  set (D := exp (x + s) - exp x) in *. set (f := (v - x) * (1 / s)) in *. assert (0 <= D) by (unfold D; lra). assert (0 <= D * f <= D) by (split; nra). change (exp x <= exp x + D * (v - x) * (1 / s) <= exp (x + s)). rewrite Rmult_assoc. fold f. unfold D in *. lra.
Qed.
Print Assumptions C63_between_neighbours.

(** C63 as stated is refuted at the upper end of the table, which the range check lets through: the entry after the last
    one is read.  The sweeper gets there for every segment with zero cross section. *)
Theorem C63_upper_end_refuted : forall N lo hi, (1 <= N)%nat -> lo < hi -> exp_linear N lo hi hi = None.
Proof.
  intros N lo hi HN Hlh. unfold exp_linear. rewrite !Rltb_false by lra. cbn [orb]. unfold exp_interp. assert (Np : 1 <= INR N) by (apply (le_INR 1); lia).
  replace ((hi - lo) * (1 / exp_space N lo hi)) with (IZR (Z.of_nat N)) by (rewrite <- INR_IZR_INZ; unfold exp_space; field; lra).
  assert (trunc (IZR (Z.of_nat N)) = Z.of_nat N) as ->. { unfold trunc. rewrite Rltb_false by (rewrite <- INR_IZR_INZ; lra). apply Int_part_spec. lra. }
  rewrite table_get by lia. unfold table_at, exp_table. destruct (Z.ltb_spec (Z.of_nat N + 1) 0); [lia|].
  replace (nth_error _ (Z.to_nat (Z.of_nat N + 1))) with (@None R); [reflexivity|]. symmetry. apply nth_error_None. rewrite map_length, seq_length. lia.
Qed.
Print Assumptions C63_upper_end_refuted.

(** The sweeper's table: 10000 intervals on [-10, 0]. *)
Example C63_instance : exists r, exp_linear (100 * 100) (-10) 0 (-1 / 3) = Some r /\ 0 <= r - exp (-1 / 3).
Proof. destruct (C63_error (100 * 100) (-10) 0 (-1 / 3)) as (r & E & B & _); [lia|lra|lra|]. exists r. split; [exact E|apply B]. Qed.
