(** Property theorems for the Monte Carlo driver: C21, C22, C25. *)
From Coq Require Import ZArith List Lia Bool Permutation Reals Lra.
From Verif Require Import StdAlg RngModel RngSpec RngProofs McModel McProofs.
Import ListNotations.
Open Scope Z_scope.

(** C21: after any number of cycles, the bank, the generator, and every recorded k estimate are the same
    for all assignments of histories to threads, all orders within a thread and all interleavings of the
    insertions.  [history] is an arbitrary function of the stream number and the site. *)
Theorem C21_schedule_independent : forall D (history : Z -> D -> list D * list R) ppc n a b c,
  NoDup (map sid (bank D a)) ->
  steps D history ppc n a b -> steps D history ppc n a c -> b = c.
Proof. exact steps_deterministic. Qed.
Print Assumptions C21_schedule_independent.

(** The raw bank handed to the sort does depend on the schedule; the sorted one lists the progeny of each
    history consecutively, in the order in which that history produced them. *)
Theorem C21_sorted_bank : forall D (history : Z -> D -> list D * list R) off bank bank' sc i,
  NoDup (map sid bank) -> simulate_bank D history off bank bank' sc ->
  filter (fun p => sid p =? i) (stable_sort site_ltb bank') =
    flat_map (progeny D history off) (filter (fun p => sid p =? i) bank).
Proof.
  intros D history off bk bk' sc i N (sched & P & M & _). rewrite sort_filter.
  now apply bank_by_parent with (sched := sched).
Qed.
Print Assumptions C21_sorted_bank.

(** Ids stay distinct from cycle to cycle (they are 0, 1, ... after renumbering). *)
Theorem C21_ids_distinct : forall D (history : Z -> D -> list D * list R) ppc n a b,
  NoDup (map sid (bank D a)) -> steps D history ppc n a b -> NoDup (map sid (bank D b)).
Proof. exact steps_nodup. Qed.
Print Assumptions C21_ids_distinct.

Definition hist0 (i d : Z) : list Z * list R := ([d + i; d - i], [1%R]).
Definition bank0 : list (Site Z) := [mkSite 0 10; mkSite 1 20].

(** Two schedules give different raw banks; the hypotheses of the theorems hold. *)
Example C21_instance : NoDup (map sid bank0) /\
  simulate_bank Z hist0 0 bank0 [mkSite 0 10; mkSite 0 10; mkSite 1 21; mkSite 1 19] [1%R; 1%R] /\
  simulate_bank Z hist0 0 bank0 [mkSite 1 21; mkSite 0 10; mkSite 1 19; mkSite 0 10] [1%R; 1%R] /\
  exists b, step Z hist0 3 (mkState Z bank0 1 0 [] []) b.
Proof.
  split; [|split; [|split]].
  - unfold bank0; cbn. repeat constructor; cbn; intuition discriminate.
  - exact (simulate_bank_sequential Z hist0 0 bank0).
  - exists [[mkSite 0 10]; [mkSite 1 20]]. split; [cbn; apply Permutation_refl|]. split.
    + change (map (flat_map (progeny Z hist0 0)) [[mkSite 0 10]; [mkSite 1 20]]) with
        [[mkSite 0 10; mkSite 0 10]; [mkSite 1 21; mkSite 1 19]].
      apply (merge_step [[mkSite 0 10; mkSite 0 10]] []). apply (merge_step [] [[mkSite 1 19]]).
      apply (merge_step [[mkSite 0 10]] []). apply (merge_step [] [[]]). constructor. repeat constructor.
    + change (map (flat_map (scores Z hist0 0)) [[mkSite 0 10]; [mkSite 1 20]]) with [[1%R]; [1%R]].
      apply (merge_step [] [[1%R]]). apply (merge_step [[]] []). constructor. repeat constructor.
  - destruct (resize_ok 3 1 (stable_sort site_ltb (flat_map (progeny Z hist0 0) bank0))) as (l & E & _).
    + vm_compute; discriminate.
    + vm_compute; reflexivity.
    + intros j Hj. vm_compute in Hj. assert (j = 0%nat) by lia. subst j. vm_compute. reflexivity.
    + eexists. do 4 eexists. split; [apply simulate_bank_sequential|]. split; [exact E|reflexivity].
Qed.

(** C22: full claim "for every generator state" is false, see below; this is the part that holds, for every
    run of draws that avoids the 512 values which [random_int] maps to its upper bound. *)
Theorem C22_resize_partial : forall A n s (sites : list A), sites <> [] -> Z.of_nat (length sites) < 2^31 ->
  (forall j, (j < n - length sites + (length sites - n))%nat -> rng_step (draws j s) < 2^63 - 512) ->
  exists l, resize n s sites = Some (l, draws (n - length sites + (length sites - n)) s) /\ length l = n /\
    ((length sites <= n)%nat -> firstn (length sites) l = sites /\ forall x, In x l -> In x sites) /\
    ((n <= length sites)%nat -> exists removed, Permutation sites (removed ++ l)).
Proof. exact @resize_ok. Qed.
Print Assumptions C22_resize_partial.

(** Resizing to the current size changes nothing, not even the generator. *)
Theorem C22_resize_same : forall A s (sites : list A), resize (length sites) s sites = Some (sites, s).
Proof. intros. unfold resize. now rewrite Nat.ltb_irrefl, Nat.ltb_irrefl. Qed.
Print Assumptions C22_resize_same.

(** Every stream reaches a state in which growing a one-site bank reads outside it, and an empty bank is
    always read outside (the check for it is a debug assert). *)
Theorem C22_resize_refuted : forall A (x : A),
  (forall seed, 0 <= seed < 2^63 -> exists k : nat, Z.of_nat k < 2^63 /\ resize 2 (draws k seed) [x] = None) /\
  (forall n s, (0 < n)%nat -> resize n s (@nil A) = None).
Proof. intros A x. split; [apply resize_undefined|apply resize_empty_undefined]. Qed.
Print Assumptions C22_resize_refuted.

Example C22_instance : exists l s, resize 5 1 [1; 2; 3] = Some (l, s) /\ length l = 5%nat /\
  (forall j, (j < 5 - 3)%nat -> rng_step (draws j 1) < 2^63 - 512) /\
  exists l2 s2, resize 2 1 [1; 2; 3; 4] = Some (l2, s2) /\ length l2 = 2%nat.
Proof.
  eexists; eexists; split; [vm_compute; reflexivity|]. split; [reflexivity|]. split.
  - intros j H. destruct j as [|[|j]]; [vm_compute; reflexivity|vm_compute; reflexivity|lia].
  - eexists; eexists; split; [vm_compute; reflexivity|reflexivity].
Qed.

(** C25: the claim "n_cycles steps, n_cycles - n_inactive active" is false: there is always one more active
    cycle, i.e. n_cycles + 1 steps. *)
Theorem C25_cycle_count_refuted : forall n_cycles n_inactive, 0 <= n_inactive <= n_cycles ->
  length (solve_calls n_cycles n_inactive) = Z.to_nat (n_cycles + 1) /\
  count_occ Bool.bool_dec (solve_calls n_cycles n_inactive) true = Z.to_nat (n_cycles - n_inactive + 1).
Proof. exact solve_calls_length. Qed.
Print Assumptions C25_cycle_count_refuted.

(** Inactive cycles all precede active ones and number exactly n_inactive. *)
Theorem C25_inactive_first : forall n_cycles n_inactive, 0 <= n_inactive ->
  firstn (Z.to_nat n_inactive) (solve_calls n_cycles n_inactive) = repeat false (Z.to_nat n_inactive) /\
  Forall (fun b => b = true) (skipn (Z.to_nat n_inactive) (solve_calls n_cycles n_inactive)).
Proof.
  intros nc ni H. unfold solve_calls.
  assert (L : length (repeat false (Z.to_nat ni)) = Z.to_nat ni) by apply repeat_length.
  rewrite firstn_app, skipn_app, L, Nat.sub_diag. cbn [firstn skipn]. rewrite app_nil_r. split.
  - rewrite <- L at 1. apply firstn_all.
  - rewrite <- L at 1. rewrite skipn_all. cbn. apply Forall_forall. intros b I. now apply repeat_spec in I.
Qed.
Print Assumptions C25_inactive_first.

Example C25_instance : solve_calls 5 2 = [false; false; true; true; true; true].
Proof. reflexivity. Qed.
