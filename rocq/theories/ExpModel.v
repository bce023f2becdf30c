(** Model of the tabulated exponential.  src/core/exponential.hpp.  Doubles are exact reals. *)
From Coq Require Import List Lia Bool Reals ZArith Lra.
From Verif Require Import RUtil RayModel.
Import ListNotations.
Open Scope R_scope.

(** src/core/exponential.hpp:61. *)
Definition exp_space (N : nat) (lo hi : R) : R := (hi - lo) / INR N.
(** src/core/exponential.hpp:64-66: the table d_, of N + 1 entries (line 111). *)
Definition exp_table (N : nat) (lo hi : R) : list R := map (fun i => exp (lo + INR i * exp_space N lo hi)) (seq 0 (N + 1)).

(** Subscripting d_; [None] = outside the array (undefined behaviour).  See src/core/exponential.hpp:76-78. *)
Definition table_at (d : list R) (i : Z) : option R := if (i <? 0)%Z then None else nth_error d (Z.to_nat i).

(** src/core/exponential.hpp:76-78 (and 131-134, Exponential_UnsafeLinear): interpolation. *)
Definition exp_interp (N : nat) (lo hi v : R) : option R :=
  let s := exp_space N lo hi in
  let i := trunc ((v - lo) * (1 / s)) in
  let w := v - (s * IZR i + lo) in
  match table_at (exp_table N lo hi) i, table_at (exp_table N lo hi) (i + 1) with
  | Some a, Some b => Some (a + (b - a) * w * (1 / s))
  | _, _ => None
  end.

(** src/core/exponential.hpp:69-79 Exponential_Linear::exp. *)
Definition exp_linear (N : nat) (lo hi v : R) : option R :=
  if Rltb v lo || Rltb hi v then Some (exp v) else exp_interp N lo hi v.
