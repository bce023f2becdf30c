(** Model of reading a material library from a file: the constructor of MaterialLib from an input element,
    src/core/material_lib.cpp:45-148, with what it uses: FileScrubber (StrModel), explode_string for real numbers
    (src/util/string_utils.cpp:61-91), stream extraction of unsigned integers and of doubles (libstdc++'s num_get in
    the C locale) and the regular expression of a material's heading.
    A double is the exact decimal number [m * 10^e] its text denotes: rounding to the nearest double is not modelled, but
    numbers which would round to infinity are, since their extraction fails.  Memory is unlimited. *)
From Coq Require Import Ascii String List Bool Arith ZArith Reals.
From Verif Require Import StrModel MatModel.
Import ListNotations.
Local Open Scope char_scope.
Local Open Scope nat_scope.
Local Open Scope list_scope.

(** A decimal number, [fst * 10^snd].  See src/util/string_utils.cpp:71-83. *)
Definition Dec : Type := (Z * Z)%type.
(** As above, src/util/string_utils.cpp:71-83. *)
Definition dval (d : Dec) : R := (IZR (fst d) * powerRZ 10 (snd d))%R.
(** Half way between the largest double and the next number of its kind, 2^1024 - 2^970: from here on a number becomes infinite and its
    extraction fails.  See src/util/string_utils.cpp:71-83. *)
Definition HUGE : Z := (2 ^ 1024 - 2 ^ 970)%Z.
(** As above, src/util/string_utils.cpp:71-83. *)
Definition overflows (d : Dec) : bool :=
  if (0 <=? snd d)%Z then (HUGE <=? Z.abs (fst d) * 10 ^ snd d)%Z else (HUGE * 10 ^ (- snd d) <=? Z.abs (fst d))%Z.

(** An optional sign; true for a minus.  See src/util/string_utils.cpp:71-83. *)
Definition sign (s : str) : bool * str := match s with "-" :: r => (true, r) | "+" :: r => (false, r) | _ => (false, s) end.
(** The end of an extraction: [mant] digits of which the last [k] follow the point, and the exponent.  See src/util/string_utils.cpp:71-83. *)
Definition finish (neg : bool) (mant : str) (k : nat) (e : Z) (r : str) : option (Dec * str) :=
  let d := ((if neg then - value mant else value mant)%Z, (e - Z.of_nat k)%Z) in
  if overflows d then None else Some (d, r).
(** inBuf >> x for a double x: blanks, an optional sign, digits with at most one point, and an exponent letter if there was a
    digit, followed by an optional sign and digits.  [None] = failbit: no digit, a letter without digits after it, or overflow.
    libstdc++ collects the characters in one loop with flags; the phases here collect the same.  See src/util/string_utils.cpp:71-83
    and src/core/material_lib.cpp:83-91. *)
Definition get_double (s : str) : option (Dec * str) :=
  let '(neg, s) := sign (ltrim s) in
  let '(ip, s) := digits s in
  let '(fp, s) := match s with "." :: r => digits r | _ => ([], s) end in
  match ip ++ fp with
  | [] => None
  | c :: m =>
      match s with
      | x :: r => if Ascii.eqb x "e" || Ascii.eqb x "E" then
                    let '(eneg, r) := sign r in
                    let '(d, r) := digits r in
                    match d with [] => None | _ => finish neg (c :: m) (List.length fp) (if eneg then - value d else value d)%Z r end
                  else finish neg (c :: m) (List.length fp) 0%Z s
      | [] => finish neg (c :: m) (List.length fp) 0%Z s
      end
  end.
(** src/util/string_utils.cpp:74-83, for doubles; eof is reached when the extraction has consumed the last character.  [fuel]: one round per character. *)
Fixpoint doubles (fuel : nat) (s : str) : SOut (list Dec) :=
  match fuel with
  | O => SMore
  | S n => match get_double s with
           | None => SExc
           | Some (v, []) => SVal [v]
           | Some (v, r) => sbind (doubles n r) (fun l => SVal (v :: l))
           end
  end.
(** explode_string<real_t>, src/util/string_utils.cpp:61-91. *)
Definition explode_doubles (data : str) : SOut (list Dec) :=
  sbind (sanitize data) (fun s => match s with [] => SVal [] | _ => doubles (List.length s) s end).

(** inBuf >> n for an unsigned int n: a minus is accepted and the value wraps; [None] = failbit.  See src/core/material_lib.cpp:70-78. *)
Definition get_unsigned (s : str) : option (Z * str) :=
  let '(neg, s) := sign (ltrim s) in
  let '(d, r) := digits s in
  match d with
  | [] => None
  | _ => if (2 ^ 32 <=? value d)%Z then None else Some (((if neg then - value d else value d) mod 2 ^ 32)%Z, r)
  end.
(** src/core/material_lib.cpp:84-91, the loop over the groups; what follows on the line is not looked at. *)
Fixpoint get_bounds (n : nat) (s : str) : SOut (list Dec) :=
  match n with
  | O => SVal []
  | S m => match get_double s with None => SExc | Some (v, r) => sbind (get_bounds m r) (fun l => SVal (v :: l)) end
  end.

(** The words of a line: its longest pieces without blanks.  See src/core/material_lib.cpp:97-102. *)
Definition keep (h : str) (t : list str) : list str := match h with [] => t | _ => h :: t end.
(** As above, src/core/material_lib.cpp:97-102. *)
Fixpoint words_from (s : str) : str * list str :=
  match s with
  | [] => ([], [])
  | c :: r => let '(h, t) := words_from r in if isspace c then ([], keep h t) else (c :: h, t)
  end.
(** As above, src/core/material_lib.cpp:97-102. *)
Definition words (s : str) : list str := let '(h, t) := words_from s in keep h t.
(** src/core/material_lib.cpp:97-102: a line matches the regular expression exactly when it has three words, the first being XSMACRO and the
    third consisting of digits.  Whether it matched is not looked at: without a match the first group is empty. *)
Definition heading (s : str) : str :=
  match words s with
  | [x; nm; d] => if list_eq_dec ascii_dec x (list_ascii_of_string "XSMACRO") then if forallb isdigit d then nm else [] else []
  | _ => []
  end.

Section Read.
(** How the next line is got (FileScrubber::getline), and what is made of the data of a material.  See src/core/material_lib.cpp:95-139. *)
Variable St A : Type.
Variable next : St -> option (str * St).
Variable build : list Dec -> list Dec -> list Dec -> list Dec -> list (list Dec) -> SOut A.

(** [None] stands for the rounds allowed being used up.  See src/util/file_scrubber.cpp:36-56. *)
Definition with_line {B} (st : St) (f : str -> St -> SOut B) : SOut B := match next st with None => SMore | Some (l, t) => f l t end.
(** src/core/material_lib.cpp:109-119 (with [k] = 4) and 123-130 (with [k] the number of groups): [n] lines of [k] numbers each. *)
Fixpoint get_rows (n k : nat) (st : St) : SOut (list (list Dec) * St) :=
  match n with
  | O => SVal ([], st)
  | S m => with_line st (fun l t =>
           sbind (explode_doubles l) (fun v =>
           if negb (List.length v =? k) then SExc
           else sbind (get_rows m k t) (fun p => SVal (v :: fst p, snd p))))
  end.
(** The values of one kind, by group.  See src/core/material_lib.cpp:115-118. *)
Definition column {V} (z : V) (i : nat) (rows : list (list V)) : list V := map (fun r => nth i r z) rows.
(** src/core/material_lib.cpp:95-140, the loop over the materials. *)
Fixpoint get_materials (ng n : nat) (st : St) : SOut (list (str * A)) :=
  match n with
  | O => SVal []
  | S m => with_line st (fun h t =>
           sbind (get_rows ng 4 t) (fun xs =>
           sbind (get_rows ng ng (snd xs)) (fun sc =>
           sbind (build (column (0, 0)%Z 0 (fst xs)) (column (0, 0)%Z 1 (fst xs)) (column (0, 0)%Z 2 (fst xs)) (column (0, 0)%Z 3 (fst xs)) (fst sc)) (fun a =>
           sbind (get_materials ng m (snd sc)) (fun l => SVal ((heading h, a) :: l))))))
  end.
(** src/core/material_lib.cpp:67-140: the numbers of groups and of materials, the group bounds and the materials. *)
Definition get_library (st : St) : SOut (Z * list Dec * list (str * A)) :=
  with_line st (fun _ st =>
  with_line st (fun cnt st =>
  match get_unsigned cnt with
  | None => SExc
  | Some (ng, r) =>
  match get_unsigned r with
  | None => SExc
  | Some (nm, _) =>
  with_line st (fun bnd st =>
  sbind (get_bounds (Z.to_nat ng) bnd) (fun bs =>
  sbind (get_materials (Z.to_nat ng) (Z.to_nat nm) st) (fun ms => SVal (ng, bs, ms))))
  end end)).
End Read.
Arguments with_line {St}. Arguments get_rows {St}. Arguments get_materials {St A}. Arguments get_library {St A}.

(** src/core/material_lib.cpp:54-61, 63-140 for a file with the given contents; comments start with an exclamation mark. *)
Definition read_library {A} (build : list Dec -> list Dec -> list Dec -> list Dec -> list (list Dec) -> SOut A) (text : str) : SOut (Z * list Dec * list (str * A)) :=
  get_library (scrub (S (List.length text)) ["!"]) build (mkStream text false).
(** src/core/material_lib.cpp:133 and src/core/material.cpp:22-62. *)
Definition build_material (ab nf f ch : list Dec) (sc : list (list Dec)) : SOut Material :=
  match make_material (map dval ab) (map dval nf) (map dval f) (map dval ch) (map (map dval) sc) with Got m => SVal m | Threw => SExc | Undef => SUB end.
(** src/core/material_lib.cpp:45-148: [None] = no element given, [Some None] = the file cannot be opened; [asg] the material elements in order.
    The result: the number of groups, the group bounds and the library. *)
Definition material_lib (input : option (option str)) (asg : list (Z * string)) : SOut (Z * list R * Lib Material) :=
  match input with
  | Some (Some text) =>
      sbind (read_library build_material text) (fun d =>
      match assign_all (make_lib (map (fun p => (string_of_list_ascii (fst p), snd p)) (snd d))) asg with
      | None => SExc
      | Some L => SVal (fst (fst d), map dval (snd (fst d)), L)
      end)
  | _ => SExc
  end.
