(** Model of src/util/rational_approximation.hpp and of RayData::modularize_angle.  Doubles are exact reals; [int] is 32 bits
    and its overflow is undefined behaviour. *)
From Coq Require Import List Lia Bool Reals ZArith Lra.
From Verif Require Import RUtil MatModel.
Import ListNotations.
Open Scope R_scope.

(** As above, src/util/rational_approximation.hpp:58-79. *)
Definition INT_MAX : Z := 2147483647.

(** src/util/rational_approximation.hpp:58-79.  Outer [None]: the fuel ran out before the loop ended. *)
Fixpoint rat_loop (fuel : nat) (t tol : R) (max_d a b c d : Z) : option (Out (Z * Z)) :=
  if negb ((b <=? max_d)%Z && (d <=? max_d)%Z) then Some (Got (if (max_d <? b)%Z then (c, d) else (a, b)))
  else match fuel with
  | O => None
  | S f =>
    if (INT_MAX <? a + c)%Z || (INT_MAX <? b + d)%Z then Some Undef
    else let mediant := IZR (a + c) / IZR (b + d) in
    if Rltb (Rabs (t - mediant)) tol then
      Some (Got (if (b + d <=? max_d)%Z then (a + c, b + d)%Z else if (b <? d)%Z then (c, d) else (a, b)))
    else if Rltb mediant t then rat_loop f t tol max_d (a + c) (b + d) c d
    else rat_loop f t tol max_d a b (a + c) (b + d)
  end.

(** src/util/rational_approximation.hpp:39-80. *)
Definition rational_approximation (fuel : nat) (t tol : R) (max_d0 : Z) : option (Out (Z * Z)) :=
  let max_d := if (max_d0 =? 0)%Z then INT_MAX else max_d0 in
  if Rltb (Rabs (0 / 1 - t)) tol then Some (Got (0, 1)%Z)
  else if Rltb (Rabs (1 / 1 - t)) tol then Some (Got (1, 1)%Z)
  else rat_loop fuel t tol max_d 0 1 1 1.

(** std::ceil followed by conversion to int; a value outside the range of int is undefined behaviour.  See src/sweepers/moc/ray_data.cpp:498-516. *)
Definition ceil (r : R) : Z := (- Int_part (- r))%Z.
(** As above, src/util/rational_approximation.hpp:39-80. *)
Definition to_int (z : Z) : Out Z := if ((- INT_MAX - 1 <=? z) && (z <=? INT_MAX))%Z then Got z else Undef.
(** int multiplication and addition.  See src/sweepers/moc/ray_data.cpp:498-516. *)
Definition imul (a b : Z) : Out Z := to_int (a * b).
(** As above, src/util/rational_approximation.hpp:39-80. *)
Definition bind {A B} (o : Out A) (f : A -> Out B) : Out B := match o with Got a => f a | Threw => Threw | Undef => Undef end.

(** src/sweepers/moc/ray_data.cpp:498-516, RATIONAL; [m] is the slope of lines 501-502.  With Nx = 0 line 509 converts
    inf * 0 = NaN to int, which is undefined. *)
Definition rational_counts (fuel : nat) (m hx hy spacing : R) (swap : bool) : option (Out (Z * Z)) :=
  option_map (fun o => bind o (fun '(Nx, Ny) =>
    if (Nx =? 0)%Z then Undef else
    let alpha := atan (IZR Nx * hy / (IZR Ny * hx)) in
    bind (to_int (ceil (hx / IZR Nx * Rabs (sin alpha) / spacing))) (fun scale =>
    bind (imul Nx scale) (fun nx => bind (imul Ny scale) (fun ny => Got (if swap then (ny, nx) else (nx, ny)))))))
  (rational_approximation fuel m (2 / 1000) 0).
(** As above, src/sweepers/moc/ray_data.cpp:498-516. *)
Definition modularize_rational (fuel : nat) (alpha hx hy spacing : R) : option (Out (Z * Z)) :=
  rational_counts fuel (if Rltb alpha (PI / 4) then tan alpha else tan (PI / 2 - alpha)) hx hy spacing (Rltb (PI / 4) alpha).

(** src/sweepers/moc/ray_data.cpp:517-523, TRIG. [Z.rem] is the C++ %. *)
Definition even_up (n : Z) : Out Z := to_int (n + Z.rem n 2).
(** As above, src/sweepers/moc/ray_data.cpp:517-523. *)
Definition modularize_trig (alpha hx hy spacing : R) : Out (Z * Z) :=
  bind (to_int (ceil (hx / spacing * Rabs (sin alpha)))) (fun nx =>
  bind (to_int (ceil (hy / spacing * Rabs (cos alpha)))) (fun ny =>
  bind (even_up nx) (fun nx => bind (even_up ny) (fun ny => Got (nx, ny))))).

(** src/sweepers/moc/ray_data.cpp:171-174: pin-modular rays are repeated across the pins of the core. *)
Definition scale_counts (nx ny : Z) (N : Z * Z) : Z * Z := (fst N * nx, snd N * ny)%Z.
