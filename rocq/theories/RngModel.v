(* Model of src/util/rng_lcg.hpp (class RNG_LCG) and of the stream positioning done by
   src/sweepers/mc/particle_pusher.cpp.  All uint64_t arithmetic is modelled in Z with an explicit
   reduction modulo 2^64 at every operation that the C++ type performs modulo 2^64. *)
From Coq Require Import ZArith List Bool.
Import ListNotations.
Open Scope Z_scope.

(* uint64_t arithmetic: reduction modulo 2^64 (C++ [basic.fundamental]).  See src/util/rng_lcg.hpp:64-160. *)
Definition w64 (x : Z) : Z := x mod 2^64.
(* unsigned (32-bit) arithmetic, used by particle_pusher.cpp:171. *)
Definition w32 (x : Z) : Z := x mod 2^32.

(* src/util/rng_lcg.hpp:159-160 *)
Definition rng_m : Z := 2806196910506780709.
(** As above, src/util/rng_lcg.hpp:159-160. *)
Definition rng_b : Z := 1.
(* src/util/rng_lcg.hpp:163: mask_ = ~(1 << 63) in uint64_t *)
Definition rng_mask : Z := w64 (Z.lnot (w64 (Z.shiftl 1 63))).

(* src/util/rng_lcg.hpp:53-57: RNG_LCG::operator()().  Returns the new current_seed_ (which is also
   the returned value). *)
Definition rng_step (s : Z) : Z := Z.land (w64 (w64 (s * rng_m) + rng_b)) rng_mask.

(* src/util/rng_lcg.hpp:140-151: the while loop of jump_ahead.  The loop state is (nskip, g, b, g_new,
   b_new).  [None] means the fuel ran out (never happens with fuel 65 for a 64-bit nskip: theorem
   jump_terminates).  Line 132 "while (nskip < 0l)" compares a uint64_t with a long; the long is
   converted to unsigned so the body is dead, and it is omitted. *)
Fixpoint jump_loop (fuel : nat) (nskip g b g_new b_new : Z) : option (Z * Z) :=
  if nskip >? 0 then
    match fuel with
    | O => None
    | S fuel' =>
        let take := Z.odd nskip in                                     (* line 141: nskip & 1 *)
        let g_new' := if take then Z.land (w64 (g_new * g)) rng_mask else g_new in      (* 142 *)
        let b_new' := if take then Z.land (w64 (w64 (b_new * g) + b)) rng_mask else b_new in (* 143 *)
        let b' := Z.land (w64 (w64 (g + 1) * b)) rng_mask in           (* 146 *)
        let g' := Z.land (w64 (g * g)) rng_mask in                     (* 147 *)
        jump_loop fuel' (Z.shiftr nskip 1) g' b' g_new' b_new'         (* 150 *)
    end
  else Some (g_new, b_new).

(* src/util/rng_lcg.hpp:128-155: RNG_LCG::jump_ahead(n), result is the new current_seed_.
   n is a uint64_t. *)
Definition rng_jump (n s : Z) : option Z :=
  match jump_loop 65 n rng_m rng_b 1 0 with
  | Some (g_new, b_new) => Some (Z.land (w64 (w64 (g_new * s) + b_new)) rng_mask)
  | None => None
  end.

(* Conversion uint64_t -> double (implicit at rng_lcg.hpp:64, 75) and multiplication of doubles
   (rng_lcg.hpp:97): round to nearest, ties to even, with a 53-bit significand, of a non-negative
   integer.  Multiplying by 2^-63 (float_scale_, rng_lcg.hpp:165) is exact, so a double in play is
   represented by its integer numerator over 2^63. *)
Definition rnd_exp (x : Z) : Z := Z.max 0 (Z.log2 x - 52).
(** As above, src/util/rng_lcg.hpp:64, 75. *)
Definition rnd53 (x : Z) : Z :=
  let e := rnd_exp x in
  let q := x / 2^e in
  let r := x mod 2^e in
  if (2 * r >? 2^e) || ((2 * r =? 2^e) && Z.odd q) then (q + 1) * 2^e else q * 2^e.

(* src/util/rng_lcg.hpp:62-65: random().  The result is the numerator of the returned double over
   2^63, for generator state s. *)
Definition rng_random_num (s : Z) : Z := rnd53 (rng_step s).

(* src/util/rng_lcg.hpp:95-100: random_int(ubound): (int)(random() * ubound).  The product of doubles
   rounds; truncation of a non-negative double is floor.  Stated for 0 < ubound < 2^31. *)
Definition rng_random_int (s ubound : Z) : Z := rnd53 (rng_random_num s * ubound) / 2^63.

(* src/sweepers/mc/particle_pusher.cpp:170-171: set_seed(seed_) followed by
   jump_ahead((p.id + id_offset_) * 10000).  p.id (particle.hpp:88) and id_offset_
   (particle_pusher.hpp:253) are "unsigned", so the sum and the product are 32-bit. *)
Definition history_jump (id off : Z) : Z := w32 (w32 (id + off) * 10000).
(** As above, src/sweepers/mc/particle_pusher.cpp:170-171. *)
Definition history_start (seed id off : Z) : option Z := rng_jump (history_jump id off) seed.

(* Doubles are exact rationals; comparison "a < b" of doubles (rng_lcg.hpp:119 via operator<). *)
Require Import QArith.
(** As above, src/util/rng_lcg.hpp:119. *)
Definition qltb (a b : Q) : bool := negb (Qle_bool b a).

(* src/util/rng_lcg.hpp:62-65: random() as a rational: the converted state over 2^63. *)
Definition rng_random (s : Z) : Q := rng_random_num s # (2^63)%positive.

From Verif Require Import StdAlg.
(* src/util/rng_lcg.hpp:114-120: sample_cdf: distance(begin, lower_bound(begin, end, random())).
   [None] would be a read outside the table.  The assert on cdf.back() (line 116) is a debug check
   and appears as a hypothesis of the theorems instead. *)
Definition rng_sample_cdf (s : Z) (cdf : list Q) : option nat :=
  lower_bound qltb cdf (rng_random s).
