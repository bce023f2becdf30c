(* Models of the C++ standard library algorithms used by the code under study.  These follow the
   algorithms of the usual implementation rather than their specification, so that the facts the
   callers rely on are proved (StdAlgProofs.v) instead of assumed. *)
From Coq Require Import ZArith List Bool Arith.
Import ListNotations.

Section Bounds.
  Variable A : Type.
  Variable ltb : A -> A -> bool.

  (* std::lower_bound (used by src/util/rng_lcg.hpp:118-119, src/core/core_mesh.cpp, ...): binary
     search on [first, first+len).  Fuel is the initial length; [None] = read outside the table or
     fuel exhausted (neither happens: StdAlgProofs.lower_bound_spec). *)
  Fixpoint lb_loop (fuel : nat) (l : list A) (v : A) (first len : nat) : option nat :=
    match len with
    | O => Some first
    | S _ =>
        match fuel with
        | O => None
        | S fuel' =>
            let half := Nat.div2 len in
            match nth_error l (first + half) with
            | None => None
            | Some x =>
                if ltb x v then lb_loop fuel' l v (first + half + 1) (len - half - 1)
                else lb_loop fuel' l v first half
            end
        end
    end.
  Definition lower_bound (l : list A) (v : A) : option nat := lb_loop (length l) l v 0 (length l).

  (* std::upper_bound: the same search with the test "not (v < x)". *)
  Fixpoint ub_loop (fuel : nat) (l : list A) (v : A) (first len : nat) : option nat :=
    match len with
    | O => Some first
    | S _ =>
        match fuel with
        | O => None
        | S fuel' =>
            let half := Nat.div2 len in
            match nth_error l (first + half) with
            | None => None
            | Some x =>
                if ltb v x then ub_loop fuel' l v first half
                else ub_loop fuel' l v (first + half + 1) (len - half - 1)
            end
        end
    end.
  Definition upper_bound (l : list A) (v : A) : option nat := ub_loop (length l) l v 0 (length l).

  (* std::stable_sort: modelled as insertion sort from the right, inserting before the first element
     that is not smaller, which keeps equal elements in their original order. *)
  Fixpoint insert_stable (x : A) (l : list A) : list A :=
    match l with
    | [] => [x]
    | y :: r => if ltb y x then y :: insert_stable x r else x :: l
    end.
  Fixpoint stable_sort (l : list A) : list A :=
    match l with
    | [] => []
    | x :: r => insert_stable x (stable_sort r)
    end.
End Bounds.
Arguments lower_bound {A}. Arguments upper_bound {A}. Arguments lb_loop {A}. Arguments ub_loop {A}.
Arguments insert_stable {A}. Arguments stable_sort {A}.

(* a run of iterations of f *)
Definition iter_n {A} (n : nat) (f : A -> A) (x : A) : A := Nat.iter n f x.
