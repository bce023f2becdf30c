(** Model of the Monte Carlo eigenvalue driver: fission bank, cycle structure and thread scheduling.
    src/sweepers/mc/fission_bank.{hpp,cpp}, src/sweepers/mc/particle_pusher.cpp,
    src/solvers/monte_carlo_eigenvalue_solver.cpp. *)
From Coq Require Import ZArith List Lia Bool Permutation Reals.
From Verif Require Import StdAlg RngModel.
Import ListNotations.
Open Scope Z_scope.

(** ** Fission bank *)

(** sites_[i] = v, [None] when out of range.  See src/sweepers/mc/fission_bank.cpp:125-128. *)
Fixpoint set_nth {A} (l : list A) (i : nat) (v : A) : option (list A) :=
  match l, i with
  | [], _ => None
  | _ :: r, O => Some (v :: r)
  | a :: r, S i' => match set_nth r i' v with Some r' => Some (a :: r') | None => None end
  end.

(** Element read with a (possibly negative) C++ index.  See src/sweepers/mc/fission_bank.cpp:125-128. *)
Definition at_z {A} (l : list A) (i : Z) : option A :=
  if i <? 0 then None else nth_error l (Z.to_nat i).

(** src/sweepers/mc/fission_bank.cpp:125-128, the growing loop; [k] is the number of sites still
    missing.  [None] = out-of-range read. *)
Fixpoint grow {A} (k : nat) (n_orig : Z) (s : Z) (sites : list A) : option (list A * Z) :=
  match k with
  | O => Some (sites, s)
  | S k' =>
      match at_z sites (rng_random_int s n_orig) with
      | Some x => grow k' n_orig (rng_step s) (sites ++ [x])
      | None => None
      end
  end.

(** src/sweepers/mc/fission_bank.cpp:138-142, the shrinking loop: overwrite a random site with the
    last one and pop.  [None] = out-of-range access. *)
Fixpoint shrink {A} (k : nat) (s : Z) (sites : list A) : option (list A * Z) :=
  match k with
  | O => Some (sites, s)
  | S k' =>
      let i := rng_random_int s (Z.of_nat (length sites)) in
      match at_z sites (Z.of_nat (length sites) - 1) with
      | None => None
      | Some b =>
          if i <? 0 then None else
          match set_nth sites (Z.to_nat i) b with
          | Some l => shrink k' (rng_step s) (removelast l)
          | None => None
          end
      end
  end.

(** src/sweepers/mc/fission_bank.cpp:114-147 resize; [s] is the state of rng.  The assert on a
    non-empty bank (line 116) is a debug check: with an empty bank and n > 0 the first read is out of
    range.  Sizes are assumed to fit an [int]. *)
Definition resize {A} (n : nat) (s : Z) (sites : list A) : option (list A * Z) :=
  match (if (length sites <? n)%nat then grow (n - length sites) (Z.of_nat (length sites)) s sites
         else Some (sites, s)) with
  | None => None
  | Some (sites1, s1) =>
      if (n <? length sites1)%nat then shrink (length sites1 - n) s1 sites1 else Some (sites1, s1)
  end.

(** ** One cycle under an arbitrary thread schedule *)

(** src/sweepers/mc/particle.hpp struct Particle: the id (line 88) and everything else. *)
Record Site (D : Type) := mkSite { sid : Z; sdata : D }.
Arguments mkSite {D}. Arguments sid {D}. Arguments sdata {D}.

(** src/sweepers/mc/particle.hpp:120-123 operator<. *)
Definition site_ltb {D} (a b : Site D) : bool := sid a <? sid b.

(** Interleavings of the critical sections of several threads (fission_bank.hpp:93-97): each thread
    performs its own pushes in order; nothing else is known about the order. *)
Inductive merge {A} : list (list A) -> list A -> Prop :=
| merge_done : forall ls, Forall (fun l => l = []) ls -> merge ls []
| merge_step : forall l1 l2 x t r, merge (l1 ++ t :: l2) r -> merge (l1 ++ (x :: t) :: l2) (x :: r).

Section Cycle.
  Variable D : Type.
  (** What one history does (particle_pusher.cpp:166-353 with collide, 98-164), as a function of the
      32-bit random-stream number (line 171: RNG is reseeded from seed_ and (id + id_offset_), and is
      threadprivate, line 65) and of the particle itself: the progeny pushed onto the fission bank, in
      order (lines 147-153), and the scores made to k_tally_tl_ (line 241).  Its dependence on the mesh
      and cross sections is read-only.  Arbitrary here. *)
  Variable history : Z -> D -> list D * list R.

  (** particle_pusher.cpp:149-152: progeny carry the parent's id. *)
  Definition progeny (off : Z) (p : Site D) : list (Site D) :=
    map (mkSite (sid p)) (fst (history (w32 (sid p + off)) (sdata p))).

  (** particle_pusher.cpp:241: scores of one history. *)
  Definition scores (off : Z) (p : Site D) : list R := snd (history (w32 (sid p + off)) (sdata p)).

  (** particle_pusher.cpp:359-390 simulate(bank): [omp for] hands each history to exactly one thread;
      [sched] lists for every thread the histories it runs, in order.  The bank and the score sequence are
      any interleavings of what the threads do. *)
  Definition simulate_bank (off : Z) (bank : list (Site D)) (bank' : list (Site D)) (sc : list R) : Prop :=
    exists sched, Permutation (concat sched) bank /\
      merge (map (flat_map (progeny off)) sched) bank' /\
      merge (map (flat_map (scores off)) sched) sc.

  (** monte_carlo_eigenvalue_solver.cpp:185-188: renumber. *)
  Fixpoint renumber (i : Z) (l : list (Site D)) : list (Site D) :=
    match l with [] => [] | p :: r => mkSite i (sdata p) :: renumber (i + 1) r end.

  (** Solver state between cycles: source_bank_, rng_ state, pusher id_offset_, and the recorded
      k_history_tl_ and k_history_analog_ (most recent first). *)
  Record State := mkState { bank : list (Site D); rng : Z; id_offset : Z; k_tl : list R; k_an : list R }.

  (** monte_carlo_eigenvalue_solver.cpp:133-202 step, with tally_scalar.hpp:44-61,86 for the k estimate
      (sum of scores over total weight; every weight is 1, particle.hpp:62) and particle_pusher.cpp:381,388.
      Sums are over the reals.  [None] of resize is undefined behaviour and has no successor state. *)
  Definition step (ppc : nat) (a b : State) : Prop :=
    exists bank' sc l s,
      simulate_bank (id_offset a) (bank a) bank' sc /\
      resize ppc (rng a) (stable_sort site_ltb bank') = Some (l, s) /\
      b = mkState (renumber 0 l) s (w32 (id_offset a + Z.of_nat (length (bank a))))
            (fold_left Rplus sc 0%R / INR (length (bank a)) :: k_tl a)%R
            (INR (length bank') / INR (length (bank a)) :: k_an a)%R.

  (** n successive steps. *)
  Inductive steps (ppc : nat) : nat -> State -> State -> Prop :=
  | steps_O : forall a, steps ppc 0 a a
  | steps_S : forall n a b c, steps ppc n a b -> step ppc b c -> steps ppc (S n) a c.
End Cycle.

(** ** Cycle count *)

(** monte_carlo_eigenvalue_solver.cpp:95-124 solve: the sequence of calls to step(), [true] for a call
    made with active_cycle_ set.  Loops [for (int i = 0; i < n; i++)] with negative n do nothing. *)
Definition solve_calls (n_cycles n_inactive : Z) : list bool :=
  repeat false (Z.to_nat n_inactive) ++ repeat true (Z.to_nat (n_cycles - n_inactive + 1)).
