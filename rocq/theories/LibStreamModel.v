(** Model of making a material library from a file that is already open: the constructor of MaterialLib from a FileScrubber,
    src/core/material_lib.cpp:151-238.  It differs from the constructor from an input element (LibFileModel) in how it reads
    the rows: number by number, with little checking.  Numbers are those of LibFileModel; memory is unlimited. *)
From Coq Require Import Ascii String List Bool Arith ZArith Reals.
From Verif Require Import StrModel MatModel LibFileModel.
Import ListNotations.
Local Open Scope char_scope.
Local Open Scope nat_scope.
Local Open Scope list_scope.

(** The number at the start of a text, were there no largest number; [None] = not a number.  See src/core/material_lib.cpp:203-210, 223. *)
Definition any_number (s : str) : option Z :=
  let '(neg, s) := sign (ltrim s) in
  let '(ip, s) := digits s in
  let '(fp, s) := match s with "." :: r => digits r | _ => ([], s) end in
  let m := if neg then (- value (ip ++ fp))%Z else value (ip ++ fp) in
  match ip ++ fp with
  | [] => None
  | _ => match s with
         | x :: r => if Ascii.eqb x "e" || Ascii.eqb x "E" then let '(_, r) := sign r in match fst (digits r) with [] => None | _ => Some m end else Some m
         | [] => Some m
         end
  end.
(** What a failed extraction that found something leaves in val: zero, or the largest double with the sign of the number if it
    was too large (libstdc++'s num_get, since C++11).  See src/core/material_lib.cpp:203-210, 223. *)
Definition left_value (s : str) : Dec :=
  match any_number s with None => (0, 0)%Z | Some m => ((if (m <? 0)%Z then - (2 ^ 1024 - 2 ^ 971) else 2 ^ 1024 - 2 ^ 971)%Z, 0%Z) end.
(** src/core/material_lib.cpp:199-214, one group.  val is declared without a value: if there is nothing on the line the first
    extraction leaves it so and abs.push_back(val) is undefined.  Otherwise every later value is that of an earlier extraction,
    and a failure is noticed after the fourth. *)
Definition stream_four (s : str) : SOut (list Dec) := match ltrim s with [] => SUB | _ => get_bounds 4 s end.
(** src/core/material_lib.cpp:219-226, one row of [k] numbers.  Here val is declared without a value for each number and the stream is
    never asked whether it failed: an extraction that finds nothing, or comes after one that failed, leaves val without a value, so that
    scatRow.push_back(val) is undefined. *)
Fixpoint stream_row (k : nat) (s : str) : SOut (list Dec) :=
  match k with
  | O => SVal []
  | S m => match get_double s with
           | Some (v, r) => sbind (stream_row m r) (fun l => SVal (v :: l))
           | None => match ltrim s with [] => SUB | _ => if m =? 0 then SVal [left_value s] else SUB end
           end
  end.

Section Read.
(** How the next line is got, and what is made of the data of a material.  See src/core/material_lib.cpp:187, 230. *)
Variable St A : Type.
Variable next : St -> option (str * St).
Variable build : list Dec -> list Dec -> list Dec -> list Dec -> list (list Dec) -> SOut A.

(** [n] lines read by [f].  See src/core/material_lib.cpp:199-214, 218-227. *)
Fixpoint stream_rows (f : str -> SOut (list Dec)) (n : nat) (st : St) : SOut (list (list Dec) * St) :=
  match n with
  | O => SVal ([], st)
  | S m => with_line next _ st (fun l t => sbind (f l) (fun v => sbind (stream_rows f m t) (fun p => SVal (v :: fst p, snd p))))
  end.
(** src/core/material_lib.cpp:185-237, the loop over the materials. *)
Fixpoint stream_materials (ng n : nat) (st : St) : SOut (list (str * A)) :=
  match n with
  | O => SVal []
  | S m => with_line next _ st (fun h t =>
           sbind (stream_rows stream_four ng t) (fun xs =>
           sbind (stream_rows (stream_row ng) ng (snd xs)) (fun sc =>
           sbind (build (column (0, 0)%Z 0 (fst xs)) (column (0, 0)%Z 1 (fst xs)) (column (0, 0)%Z 2 (fst xs)) (column (0, 0)%Z 3 (fst xs)) (fst sc)) (fun a =>
           sbind (stream_materials ng m (snd sc)) (fun l => SVal ((heading h, a) :: l))))))
  end.
(** src/core/material_lib.cpp:153-237. *)
Definition stream_library (st : St) : SOut (Z * list Dec * list (str * A)) :=
  with_line next _ st (fun _ st =>
  with_line next _ st (fun cnt st =>
  match get_unsigned cnt with
  | None => SExc
  | Some (ng, r) =>
  match get_unsigned r with
  | None => SExc
  | Some (nm, _) =>
  with_line next _ st (fun bnd st =>
  sbind (get_bounds (Z.to_nat ng) bnd) (fun bs =>
  sbind (stream_materials (Z.to_nat ng) (Z.to_nat nm) st) (fun ms => SVal (ng, bs, ms))))
  end end)).
End Read.
Arguments stream_rows {St}. Arguments stream_materials {St A}. Arguments stream_library {St A}.

(** src/core/material_lib.cpp:151-238 for a file with the given contents of which nothing was read yet, comments starting with an exclamation mark. *)
Definition read_stream {A} (build : list Dec -> list Dec -> list Dec -> list Dec -> list (list Dec) -> SOut A) (text : str) : SOut (Z * list Dec * list (str * A)) :=
  stream_library (scrub (S (List.length text)) ["!"]) build (mkStream text false).
(** As above, src/core/material_lib.cpp:151-238: the number of groups, the group bounds and the library, in which no identifier is assigned. *)
Definition stream_lib (text : str) : SOut (Z * list R * Lib Material) :=
  sbind (read_stream build_material text) (fun d =>
  SVal (fst (fst d), map dval (snd (fst d)), make_lib (map (fun p => (string_of_list_ascii (fst p), snd p)) (snd d)))).
