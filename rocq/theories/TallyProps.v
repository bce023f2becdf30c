(** Property theorems for tallies and Shannon entropy: C23, C24. *)
From Coq Require Import ZArith List Lia Bool Permutation Reals Lra.
From Verif Require Import StdAlg RUtil MeshModel GeomModel McModel TallyModel TallyProofs.
Import ListNotations.
Open Scope R_scope.

(** C23, scalar tallies: the state after any operations depends only on their multiset. *)
Theorem C23_scalar_order_independent : forall ops1 ops2 t, Permutation ops1 ops2 ->
  fold_left ts_op ops1 t = fold_left ts_op ops2 t.
Proof. intros. apply fold_comm_perm; auto using ts_op_comm. Qed.
Print Assumptions C23_scalar_order_independent.

(** Scoring n >= 2 values with unit weight reports the average and the relative standard deviation of the
    mean, sqrt(s^2/n)/average with s^2 the unbiased sample variance. *)
Theorem C23_scalar_statistics : forall xs, (2 <= length xs)%nat ->
  ts_get (fold_left (fun t x => ts_weight (ts_score t x) 1) xs ts_new) =
  (average xs, sqrt (sample_variance xs / INR (length xs)) / average xs).
Proof. exact ts_get_stats. Qed.
Print Assumptions C23_scalar_statistics.

(** C23, spatial tallies: a realization depends only on the multiset of scores and weights in it. *)
Theorem C23_spatial_order_independent : forall ops1 ops2 t, Permutation ops1 ops2 ->
  tp_realization t ops1 = tp_realization t ops2.
Proof. intros. unfold tp_realization. now rewrite (fold_comm_perm tp_op tp_op_comm ops1 ops2). Qed.
Print Assumptions C23_spatial_order_independent.

(** After two or more realizations region i reports, for the per-realization values vs (score over weight),
    their average over the region's norm a, and sqrt(s^2/a) over that mean. *)
Theorem C23_spatial_statistics : forall norm rs i a, Forall (Forall (in_range (length norm))) rs ->
  nth_error norm i = Some a -> (2 <= length rs)%nat ->
  exists t, fold_left tp_realization rs (Some (tp_new norm)) = Some t /\
    let vs := map (value_in i) rs in
    nth_error (tp_get t) i = Some (average vs / a, sqrt (sample_variance vs / a) / (average vs / a)).
Proof. exact tp_get_stats. Qed.
Print Assumptions C23_spatial_statistics.

(** reset() forgets everything. *)
Theorem C23_spatial_reset : forall norm t, length (tp_data t) = length norm -> length (tp_buf t) = length norm ->
  tp_norm t = norm -> tp_reset t = tp_new norm.
Proof.
  intros norm t H1 H2 <-. unfold tp_reset, tp_new.
  assert (M : forall A B C (c : C) (l1 : list A) (l2 : list B), length l1 = length l2 ->
    map (fun _ => c) l1 = map (fun _ => c) l2).
  { induction l1; intros [|b l2] H; cbn in *; try discriminate; f_equal; auto. }
  f_equal; apply M; assumption.
Qed.
Print Assumptions C23_spatial_reset.

(** The claim that the reported relative deviation does not depend on the norm is false: it is multiplied by
    sqrt(norm), for every set of values with a positive mean and variance. *)
Theorem C23_relative_deviation_refuted : forall vs a, 0 < a -> average vs <> 0 -> 0 <= sample_variance vs ->
  sqrt (sample_variance vs / a) / (average vs / a) = sqrt a * (sqrt (sample_variance vs / 1) / (average vs / 1)).
Proof.
  intros vs a Ha M V. unfold Rdiv. rewrite Rinv_1, !Rmult_1_r.
  assert (A : 0 < sqrt a) by now apply sqrt_lt_R0.
  rewrite sqrt_mult_alt by auto. rewrite sqrt_inv.
  rewrite Rinv_mult, Rinv_inv.
  replace a with (sqrt a * sqrt a) at 2 by (apply sqrt_sqrt; lra). field. split; lra.
Qed.
Print Assumptions C23_relative_deviation_refuted.

Example C23_instance : (2 <= length [1; 3])%nat /\ average [1; 3] = 2 /\ sample_variance [1; 3] = 2 /\
  Forall (Forall (in_range (length [4; 9]))) [[PScore 1 6; PWeight 2]; [PWeight 1; PScore 1 2; PScore 0 1]] /\
  map (value_in 1) [[PScore 1 6; PWeight 2]; [PWeight 1; PScore 1 2; PScore 0 1]] = [3; 2].
Proof.
  unfold sample_variance, average, total, value_in, total. cbn. split; [lia|].
  split; [field|]. split; [field|]. split; [repeat constructor|]. repeat f_equal; field.
Qed.

(** C24: a site inside the domain is counted in the cell that contains it. *)
Theorem C24_site_counted_in_its_cell : forall g p i j k x0 x1 y0 y1 z0 z1,
  increasing (xv g) -> increasing (yv g) -> increasing (zv g) ->
  nth_error (xv g) i = Some x0 -> nth_error (xv g) (S i) = Some x1 -> x0 < p3x p <= x1 ->
  nth_error (yv g) j = Some y0 -> nth_error (yv g) (S j) = Some y1 -> y0 < p3y p <= y1 ->
  nth_error (zv g) k = Some z0 -> nth_error (zv g) (S k) = Some z1 -> z0 < p3z p <= z1 ->
  cell_of_point g p = Some (coarse_cell (dims g) {| px := Z.of_nat i; py := Z.of_nat j; pz := Z.of_nat k |}).
Proof. exact cell_located. Qed.
Print Assumptions C24_site_counted_in_its_cell.

(** The full claim (for every site that passes the check) is false, see below.  For sites inside the domain
    the computation neither throws nor leaves the population array. *)
Theorem C24_entropy_defined_partial : forall g sites,
  increasing (xv g) -> increasing (yv g) -> increasing (zv g) ->
  Forall (fun s => inside g (fst s)) sites -> exists h, shannon_entropy g sites = EOk h.
Proof.
  intros g sites Ix Iy Iz F. unfold shannon_entropy.
  destruct (populate_inside g sites (repeat 0 (Z.to_nat (n_pin (dims g)))) Ix Iy Iz F) as (p & ->).
  - apply repeat_length.
  - eexists; reflexivity.
Qed.
Print Assumptions C24_entropy_defined_partial.

(** Value bounds for any bank of unit-weight sites. *)
Theorem C24_entropy_bounds : forall g sites h, sites <> [] -> (0 < n_pin (dims g))%Z ->
  Forall (fun s => snd s = 1) sites -> shannon_entropy g sites = EOk h -> 0 <= h <= log2 (IZR (n_pin (dims g))).
Proof. exact shannon_bounds. Qed.
Print Assumptions C24_entropy_bounds.

(** The entropy does not depend on the order of the bank. *)
Theorem C24_entropy_order_independent : forall g s1 s2 h, Permutation s1 s2 ->
  shannon_entropy g s1 = EOk h -> shannon_entropy g s2 = EOk h.
Proof.
  intros g s1 s2 h P H. unfold shannon_entropy in *.
  destruct (populate g (repeat 0 (Z.to_nat (n_pin (dims g)))) s1) as [pops| |] eqn:E; try discriminate.
  rewrite (add_opt_comm_populate _ _ _ P _ _ E). now rewrite <- (Permutation_length P).
Qed.
Print Assumptions C24_entropy_order_independent.

Definition unit_mesh : GMesh := {| xv := [0; 1]; yv := [0; 1]; zv := [0; 1] |}.

(** A site just past the east boundary of the last cell passes the range check and writes past the array. *)
Theorem C24_entropy_index_refuted : exists g p, (0 < n_pin (dims g))%Z /\
  cell_of_point g p = Some (n_pin (dims g)) /\ shannon_entropy g [(p, 1)] = EUB.
Proof.
  exists unit_mesh, (mkP3 (3/2) (1/2) (1/2)). split; [vm_compute; reflexivity|].
  assert (E : cell_of_point unit_mesh (mkP3 (3/2) (1/2) (1/2)) = Some 1%Z).
  { unfold cell_of_point, lower_bound. cbn [unit_mesh xv yv zv p3x p3y p3z length lb_loop Nat.div2 nth_error plus].
    destruct (Rltb_spec 1 (3/2)); [|lra]. destruct (Rltb_spec 1 (1/2)); [lra|].
    cbn [lb_loop minus plus Nat.div2 nth_error]. destruct (Rltb_spec 0 (1/2)); [|lra]. reflexivity. }
  split; [exact E|]. unfold shannon_entropy. cbn [populate]. rewrite E. reflexivity.
Qed.
Print Assumptions C24_entropy_index_refuted.

Example C24_instance : increasing (xv unit_mesh) /\ inside unit_mesh (mkP3 (1/2) 1 (1/3)) /\
  (0 < n_pin (dims unit_mesh))%Z.
Proof.
  split; [|split].
  - intros [|[|i]] [|[|j]] x y H Hx Hy; cbn in Hx, Hy; try lia; try discriminate;
      try (injection Hx as <-; injection Hy as <-; lra); destruct j; discriminate.
  - exists 0%nat, 0%nat, 0%nat, 0, 1, 0, 1, 0, 1. cbn. repeat split; lra.
  - vm_compute; reflexivity.
Qed.
