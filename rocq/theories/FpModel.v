(** Model of the floating-point comparisons of src/util/fp_utils.hpp on 64-bit patterns. *)
From Coq Require Import ZArith Reals Bool.
From Verif Require Import RUtil CoreModel.
Local Open Scope Z_scope.

(** IEEE binary64: a pattern is an integer in [0, 2^64); the top bit is the sign, the rest the magnitude bits.  See src/util/fp_utils.hpp:53-70. *)
Definition two63 : Z := 9223372036854775808.
(** As above, src/util/fp_utils.hpp:53-70. *)
Definition mag_bits (b : Z) : Z := if b <? two63 then b else b - two63.
(** As above, src/util/fp_utils.hpp:53-70. *)
Definition sign_bit (b : Z) : bool := two63 <=? b.
(** Value of the magnitude bits: 11 bits of exponent, 52 of fraction; [finite] excludes infinities and NaN.  See src/util/fp_utils.hpp:53-70. *)
Definition two52 : Z := 4503599627370496.
(** As above, src/util/fp_utils.hpp:53-70. *)
Definition finite (b : Z) : Prop := 0 <= b < 2 * two63 /\ mag_bits b / two52 < 2047.
(** As above, src/util/fp_utils.hpp:53-70. *)
Definition mag (m : Z) : R :=
  let e := m / two52 in let f := m mod two52 in
  if e =? 0 then (IZR f * powerRZ 2 (-1074))%R else (IZR (two52 + f) * powerRZ 2 (e - 1075))%R.
(** As above, src/util/fp_utils.hpp:53-70. *)
Definition value (b : Z) : R := if sign_bit b then (- mag (mag_bits b))%R else mag (mag_bits b).

(** src/util/fp_utils.hpp:53-70: the int64_t of the union is negative when the sign bit is set. *)
Definition as_int64 (b : Z) : Z := if b <? two63 then b else b - 2 * two63.
(** Signed arithmetic outside int64_t is undefined: [None].  See src/util/fp_utils.hpp:57-59. *)
Definition in64 (v : Z) : option Z := if (- two63 <=? v) && (v <? two63) then Some v else None.
(** src/util/fp_utils.hpp:57-59: 0x80000000 is an unsigned int, 2^31, converted to int64_t before the subtraction. *)
Definition lex (i : Z) : option Z := if i <? 0 then in64 (2147483648 - i) else Some i.
(** src/util/fp_utils.hpp:24 and 53-70 fp_equiv_ulp; std::abs of the smallest integer is undefined too. *)
Definition ULP_FUZZ : Z := 200.
(** As above, src/util/fp_utils.hpp:24 and 53-70. *)
Definition fp_equiv_ulp (b1 b2 : Z) : option bool :=
  match lex (as_int64 b1), lex (as_int64 b2) with
  | Some i1, Some i2 => match in64 (i1 - i2) with
                        | Some d => match in64 (Z.abs d) with Some u => Some (u <? ULP_FUZZ) | None => None end
                        | None => None
                        end
  | _, _ => None
  end.
(** src/util/fp_utils.hpp:76-79 fp_equiv_abs, with an exact difference. *)
Definition equiv_abs (b1 b2 : Z) : bool := Rltb (Rabs (value b1 - value b2)) REAL_FUZZ.
(** src/util/fp_utils.hpp:88-100 fp_equiv. *)
Definition equiv (b1 b2 : Z) : option bool :=
  if equiv_abs b1 b2 then Some true
  else if negb (eqb (Rltb (value b1) 0) (Rltb (value b2) 0)) then Some false
  else fp_equiv_ulp b1 b2.
(** src/util/fp_utils.hpp:71-74 fp_equiv_rel; a zero first value gives a NaN or an infinity, both not below the bound. *)
Definition equiv_rel (b1 b2 : Z) : bool := if Reqb (value b1) 0 then false else Rltb (Rabs (value b1 - value b2) / Rabs (value b1)) REAL_FUZZ.
(** src/util/fp_utils.hpp:102-114 fp_equiv_saferel. *)
Definition equiv_saferel (b1 b2 : Z) : bool :=
  if equiv_abs b1 b2 then true else if negb (eqb (Rltb (value b1) 0) (Rltb (value b2) 0)) then false else equiv_rel b1 b2.
