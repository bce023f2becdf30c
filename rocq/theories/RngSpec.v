(* Specification vocabulary for the random-number stream: what "n draws", "period" and "windows"
   mean, stated without reference to how the generator jumps. *)
From Coq Require Import ZArith.
From Verif Require Import RngModel StdAlg.
Open Scope Z_scope.

(* The generator state after n draws from state s. *)
Definition draws (n : nat) (s : Z) : Z := iter_n n rng_step s.

(* A value that a uint64_t can hold. *)
Definition is_u64 (x : Z) : Prop := 0 <= x < 2^64.
Definition is_u32 (x : Z) : Prop := 0 <= x < 2^32.
