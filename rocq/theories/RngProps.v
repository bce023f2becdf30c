(* Property theorems for the random-number generator (C01-C05, C67). *)
From Coq Require Import ZArith List Lia QArith.
From Verif Require Import RngModel StdAlg RngSpec RngProofs.
Import ListNotations.
Open Scope Z_scope.

(* ---- C01: jump_ahead(n) equals n draws --------------------------------------------------------- *)
(* For every stored seed (any uint64) and every uint64 n, every later draw after the jump is the draw
   that would have been obtained without it. *)
Theorem C01_jump_ahead_is_n_draws : forall n s k, is_u64 n -> is_u64 s ->
  exists s', rng_jump n s = Some s' /\ draws (S k) s' = draws (S k) (draws (Z.to_nat n) s).
Proof. exact jump_next. Qed.
Print Assumptions C01_jump_ahead_is_n_draws.

(* The stored state itself is the same, for n > 0 or an already masked state. *)
Theorem C01_jump_ahead_state : forall n s, is_u64 n -> 0 < n \/ 0 <= s < 2^63 ->
  rng_jump n s = Some (draws (Z.to_nat n) s).
Proof. exact jump_draws. Qed.
Print Assumptions C01_jump_ahead_state.

Theorem C01_jump_ahead_additive : forall a b s, is_u64 a -> is_u64 b -> is_u64 (a + b) ->
  exists s1, rng_jump a s = Some s1 /\ rng_jump b s1 = rng_jump (a + b) s.
Proof. exact jump_add. Qed.
Print Assumptions C01_jump_ahead_additive.

Example C01_instance : is_u64 12345678901234567890 /\ is_u64 17 /\ 0 < 12345678901234567890 /\
  rng_jump 3 17 = Some (rng_step (rng_step (rng_step 17))).
Proof. unfold is_u64. repeat split; try lia. all: vm_compute; reflexivity. Qed.

(* ---- C02: range, injectivity, full period ------------------------------------------------------ *)
Theorem C02_draw_in_range : forall s, 0 <= rng_step s < 2^63.
Proof. exact step_range. Qed.
Print Assumptions C02_draw_in_range.

Theorem C02_draw_injective : forall s1 s2, 0 <= s1 < 2^63 -> 0 <= s2 < 2^63 ->
  rng_step s1 = rng_step s2 -> s1 = s2.
Proof. exact step_inj. Qed.
Print Assumptions C02_draw_injective.

(* The stream returns to its start after d draws exactly when 2^63 divides d: the period is exactly
   2^63 from every state. *)
Theorem C02_full_period : forall d s, 0 <= s < 2^63 -> (draws d s = s <-> (2^63 | Z.of_nat d)).
Proof. exact draws_eq_iff0. Qed.
Print Assumptions C02_full_period.

Theorem C02_every_value_visited : forall s y, 0 <= s < 2^63 -> 0 <= y < 2^63 ->
  exists n : nat, Z.of_nat n < 2^63 /\ draws n s = y.
Proof. exact draws_surj. Qed.
Print Assumptions C02_every_value_visited.

Example C02_instance : 0 <= 1 < 2^63 /\ rng_step 1 = 2806196910506780710 /\
  draws 2 1 = 6924308458965941631.
Proof. repeat split; try lia; vm_compute; reflexivity. Qed.

(* ---- C03: variates in [0,1), bounded integers below the bound ----------------------------------- *)
(* Exact characterisation: random() < 1 and random_int(n) < n hold precisely when the drawn state is
   below 2^63 - 512; otherwise random() = 1.0 and random_int(n) = n. *)
Theorem C03_random_below_one_iff : forall s,
  (0 <= rng_random_num s < 2^63 <-> rng_step s < 2^63 - 512) /\
  (rng_random_num s = 2^63 <-> 2^63 - 512 <= rng_step s).
Proof. exact random_num_iff. Qed.
Print Assumptions C03_random_below_one_iff.

Theorem C03_random_int_below_bound_iff : forall s ub, 0 < ub < 2^31 ->
  (0 <= rng_random_int s ub < ub <-> rng_step s < 2^63 - 512) /\
  (rng_random_int s ub = ub <-> 2^63 - 512 <= rng_step s).
Proof. exact random_int_iff. Qed.
Print Assumptions C03_random_int_below_bound_iff.

(* The documented range is violated: from every seed the stream contains a state whose variate is
   exactly 1.0 and for which random_int(n) = n for every n. *)
Theorem C03_random_range_refuted : forall seed, 0 <= seed < 2^63 ->
  exists n : nat, Z.of_nat n < 2^63 /\ rng_random_num (draws n seed) = 2^63 /\
    forall ub, 0 < ub < 2^31 -> rng_random_int (draws n seed) ub = ub.
Proof. exact random_one_reached. Qed.
Print Assumptions C03_random_range_refuted.

Example C03_instance : rng_step 1 < 2^63 - 512 /\ rng_random_int 1 10 = 3.
Proof. split; vm_compute; reflexivity. Qed.

(* ---- C04: histories use disjoint windows of the stream ------------------------------------------ *)
(* Full claim (all histories of a run) is false: see C04_history_streams_refuted.  Proved part:
   histories numbered (id + offset) up to 429496 have pairwise disjoint 10000-draw windows. *)
Theorem C04_history_windows_disjoint_partial : forall seed h1 h2 off1 off2 j1 j2,
  is_u64 seed -> 0 <= h1 -> 0 <= off1 -> 0 <= h2 -> 0 <= off2 ->
  h1 + off1 <= 429496 -> h2 + off2 <= 429496 -> h1 + off1 <> h2 + off2 ->
  (0 < j1)%nat -> Z.of_nat j1 <= 10000 -> (0 < j2)%nat -> Z.of_nat j2 <= 10000 ->
  exists s1 s2, history_start seed h1 off1 = Some s1 /\ history_start seed h2 off2 = Some s2 /\
    draws j1 s1 <> draws j2 s2.
Proof. exact history_windows. Qed.
Print Assumptions C04_history_windows_disjoint_partial.

Example C04_instance : is_u64 1 /\ 17 + 0 <= 429496 /\ 16 + 429480 <= 429496 /\ 17 + 0 <> 16 + 429480
  /\ exists s, history_start 1 17 0 = Some s.
Proof. repeat split; try (vm_compute; congruence); try lia. eexists. vm_compute. reflexivity. Qed.

(* The multiplication (id + offset) * 10000 is done in 32-bit arithmetic, so history 429497 starts
   2704 draws into the window of history 0 (their draws coincide from there on), and histories 2^28
   apart start at exactly the same place - for every seed. *)
Theorem C04_history_streams_refuted : forall seed, is_u64 seed ->
  (exists s0 s1, history_start seed 0 0 = Some s0 /\ history_start seed 429497 0 = Some s1 /\
     forall k, draws (S k) s1 = draws (S k) (draws (Z.to_nat 2704) s0)) /\
  (forall h off, history_start seed (h + 2^28) off = history_start seed h off).
Proof. exact history_overlap. Qed.
Print Assumptions C04_history_streams_refuted.

(* ---- C05: sample_cdf ----------------------------------------------------------------------------- *)
Theorem C05_sample_cdf_bin : forall s cdf, q_nondecreasing cdf ->
  exists i, rng_sample_cdf s cdf = Some i /\ (i <= length cdf)%nat /\
    (forall j x, (j < i)%nat -> nth_error cdf j = Some x -> (x < rng_random s)%Q) /\
    (forall j x, (i <= j)%nat -> nth_error cdf j = Some x -> (rng_random s <= x)%Q).
Proof. exact sample_cdf_spec. Qed.
Print Assumptions C05_sample_cdf_bin.

Theorem C05_sample_cdf_in_range : forall s cdf last, q_nondecreasing cdf ->
  nth_error cdf (length cdf - 1) = Some last -> (1 <= last)%Q ->
  exists i, rng_sample_cdf s cdf = Some i /\ (i < length cdf)%nat.
Proof. exact sample_cdf_in_range. Qed.
Print Assumptions C05_sample_cdf_in_range.

Example C05_instance : q_nondecreasing [1#4; 1#4; 1#2; 1%Q] /\
  rng_sample_cdf 1 [1#4; 1#4; 1#2; 1%Q] = Some 2%nat.
Proof.
  split; [|vm_compute; reflexivity].
  intros i j x y Hij Hi Hj.
  do 4 (destruct i as [|i]; [do 4 (destruct j as [|j];
    [try lia; injection Hi as <-; injection Hj as <-; unfold Qle; simpl; lia|]);
     simpl in Hj; destruct j; discriminate|]).
  destruct i; discriminate.
Qed.

(* ---- C67: the source-sampling stream and the history streams are disjoint ------------------------ *)
(* False: the solver's generator for source sampling and bank resizing is constructed with the same
   seed (monte_carlo_eigenvalue_solver.cpp:40-41,85), so its k-th draw is the k-th draw of history 0
   of the first cycle. *)
Theorem C67_source_stream_refuted : forall seed, is_u64 seed ->
  exists s0, history_start seed 0 0 = Some s0 /\ forall k, draws (S k) s0 = draws (S k) seed.
Proof. exact source_stream_overlap. Qed.
Print Assumptions C67_source_stream_refuted.
