(** Model of the string utilities: src/util/string_utils.hpp, src/util/string_utils.cpp and src/util/file_scrubber.cpp.
    Strings are lists of bytes ([ascii]); sizes stay below 2^64.  The classification functions are those of the C locale.
    explode_string is modelled for integers; a stream extraction reads like libstdc++'s num_get in base ten. *)
From Coq Require Import List Bool Arith ZArith Ascii Decimal DecimalString String.
Import ListNotations.
Local Open Scope char_scope.
Local Open Scope nat_scope.
Local Open Scope list_scope.
Notation str := (list ascii).

(** Outcomes: a value, an exception, undefined behaviour, or no result within the number of rounds allowed.  See src/util/string_utils.hpp:26-44. *)
Inductive SOut (A : Type) := SVal (a : A) | SExc | SUB | SMore.
Arguments SVal {A}. Arguments SExc {A}. Arguments SUB {A}. Arguments SMore {A}.
(** As above, src/util/string_utils.hpp:26-44. *)
Definition sbind {A B} (o : SOut A) (f : A -> SOut B) : SOut B := match o with SVal a => f a | SExc => SExc | SUB => SUB | SMore => SMore end.

(** isspace, isdigit, and the bytes for which they and tolower are undefined (a plain char is signed).  See src/util/string_utils.hpp:26-44. *)
Definition isspace (c : ascii) : bool := let n := nat_of_ascii c in (n =? 32) || ((9 <=? n) && (n <=? 13)).
(** As above, src/util/string_utils.hpp:26-44. *)
Definition isdigit (c : ascii) : bool := let n := nat_of_ascii c in (48 <=? n) && (n <=? 57).
(** As above, src/util/string_utils.hpp:26-44. *)
Definition high (c : ascii) : bool := 128 <=? nat_of_ascii c.
(** ::tolower.  See src/util/string_utils.hpp:26-44. *)
Definition tolower (c : ascii) : ascii := let n := nat_of_ascii c in if (65 <=? n) && (n <=? 90) then ascii_of_nat (n + 32) else c.

(** src/util/string_utils.hpp:26-44 ltrim, rtrim, trim; the trimmed set is that of isspace. *)
Fixpoint ltrim (s : str) : str := match s with [] => [] | c :: r => if isspace c then ltrim r else s end.
(** As above, src/util/string_utils.hpp:26-44. *)
Definition rtrim (s : str) : str := List.rev (ltrim (List.rev s)).
(** As above, src/util/string_utils.hpp:26-44. *)
Definition trim (s : str) : str := ltrim (rtrim s).
(** src/util/string_utils.hpp:69-74 sanitize. *)
Definition sanitize (s : str) : SOut str := if existsb high s then SUB else SVal (trim (map tolower s)).

(** ** print_range, src/util/string_utils.cpp:27-59 *)
(** Lines 33-45: the loop; [i] is the index, [left] and [lb] are left and left_bound, [n] the size. *)
Fixpoint ranges_loop (l : list bool) (i : nat) (n : nat) (left : bool) (lb : nat) (acc : list (nat * nat)) : list (nat * nat) :=
  match l with
  | [] => acc
  | v :: r =>
      let lb := if v && negb left then i else lb in
      let left := if v && negb left then true else left in
      let acc := if left && negb v then acc ++ [(lb, i - 1)] else acc in
      let left := if left && negb v then false else left in
      let acc := if left && v && (i =? n - 1) then acc ++ [(lb, i)] else acc in
      ranges_loop r (S i) n left lb acc
  end.
(** As above, src/util/string_utils.cpp:33-45. *)
Definition ranges (l : list bool) : list (nat * nat) := ranges_loop l 0 (List.length l) false 0 [].
(** operator<< of a non-negative int.  See src/util/string_utils.cpp:47-57. *)
Definition show (n : nat) : str := list_ascii_of_string (NilEmpty.string_of_uint (Nat.to_uint n)).
(** As above, src/util/string_utils.cpp:33-45. *)
Definition show_range (r : nat * nat) : str := if fst r =? snd r then show (fst r) else (show (fst r) ++ "-" :: show (snd r))%list.
(** As above, src/util/string_utils.cpp:33-45. *)
Definition pair_eqb (a b : nat * nat) : bool := (fst a =? fst b) && (snd a =? snd b).
(** Lines 47-57: the separator follows every range that differs from the last one. *)
Fixpoint show_ranges (l : list (nat * nat)) (back : nat * nat) : str :=
  match l with [] => [] | r :: t => (show_range r ++ (if negb (pair_eqb r back) then [","; " "] else []) ++ show_ranges t back)%list end.
(** As above, src/util/string_utils.cpp:47-57. *)
Definition print_range (l : list bool) : str := show_ranges (ranges l) (last (ranges l) (0, 0)).

(** ** explode_string<int>, src/util/string_utils.cpp:61-91 *)
Definition INT_LIM : Z := 2147483647%Z.
(** A decimal digit and the value of a run of digits.  See src/util/string_utils.cpp:74-83. *)
Definition dig (c : ascii) : Z := (Z.of_nat (nat_of_ascii c) - 48)%Z.
(** As above, src/util/string_utils.cpp:61-91. *)
Definition value (d : str) : Z := fold_left (fun v c => 10 * v + dig c)%Z d 0%Z.
(** As above, src/util/string_utils.cpp:61-91. *)
Fixpoint digits (s : str) : str * str := match s with [] => ([], []) | c :: r => if isdigit c then let '(a, b) := digits r in (c :: a, b) else ([], s) end.
(** inBuf >> i: blanks, an optional sign, digits; [None] = failbit (no digits or out of the range of int).  See src/util/string_utils.cpp:74-83. *)
Definition extract (s : str) : option (Z * str) :=
  let s := ltrim s in
  let '(neg, s) := match s with "-" :: r => (true, r) | "+" :: r => (false, r) | _ => (false, s) end in
  let '(d, r) := digits s in
  if match d with [] => true | _ => false end then None
  else let v := if neg then (- value d)%Z else value d in
       if (v <? - INT_LIM - 1)%Z || (INT_LIM <? v)%Z then None else Some (v, r).
(** Lines 74-83; eof is reached when the extraction has consumed the last character.  [fuel]: at most one round per character. *)
Fixpoint extract_all (fuel : nat) (s : str) : SOut (list Z) :=
  match fuel with
  | O => SMore
  | S n => match extract s with
           | None => SExc
           | Some (v, []) => SVal [v]
           | Some (v, r) => sbind (extract_all n r) (fun l => SVal (v :: l))
           end
  end.
(** As above, src/util/string_utils.cpp:74-83. *)
Definition explode_ints (data : str) : SOut (list Z) :=
  sbind (sanitize data) (fun s => match s with [] => SVal [] | _ => extract_all (List.length s) s end).

(** ** explode_braces, src/util/string_utils.cpp:107-169 *)
(** Lines 109-118: std::find_if looks at the characters in order. *)
Definition invalid_char (c : ascii) : bool := negb (isspace c || isdigit c || Ascii.eqb c "{" || Ascii.eqb c "}").
(** As above, src/util/string_utils.cpp:109-118. *)
Fixpoint check_chars (s : str) : SOut unit := match s with [] => SVal tt | c :: r => if high c then SUB else if invalid_char c then SExc else check_chars r end.
(** Lines 120-137: the final brace_depth; the loop is left when the depth exceeds one. *)
Fixpoint brace_depth (s : str) (d : Z) : Z :=
  match s with
  | [] => d
  | c :: r => if Ascii.eqb c "{" then (if (1 <? d + 1)%Z then (d + 1)%Z else brace_depth r (d + 1)%Z)
              else if Ascii.eqb c "}" then brace_depth r (d - 1)%Z else brace_depth r d
  end.
(** std::string::find of a character from a position; [None] = npos.  See src/util/string_utils.cpp:144-166. *)
Fixpoint index_of (c : ascii) (s : str) : option nat := match s with [] => None | x :: r => if Ascii.eqb x c then Some 0 else option_map S (index_of c r) end.
(** As above, src/util/string_utils.cpp:120-137. *)
Definition find (c : ascii) (s : str) (pos : nat) : option nat := option_map (Nat.add pos) (index_of c (skipn pos s)).
(** std::string::substr; a start past the end throws, the count is cut at the end; [None] = a count of npos or nearly so.  See src/util/string_utils.cpp:144-166. *)
Definition substr (s : str) (pos : nat) (cnt : option nat) : SOut str :=
  if List.length s <? pos then SExc else SVal (match cnt with Some k => firstn k (skipn pos s) | None => skipn pos s end).
(** Lines 144-166, the loop from position [pos].  With no closing brace pos_stp + 1 wraps to zero. *)
Fixpoint braces_loop (fuel : nat) (data : str) (pos : nat) (out : list (list Z)) : SOut (list (list Z)) :=
  match fuel with
  | O => SMore
  | S n =>
      let stt := find "{" data pos in
      let naked := match stt with
                   | Some t => if pos <? t then sbind (substr data pos (Some (t - pos - 1))) explode_ints else SVal []
                   | None => sbind (substr data pos None) explode_ints
                   end in
      sbind naked (fun ns =>
      let out := (out ++ map (fun v => [v]) ns)%list in
      match stt with
      | None => SVal out
      | Some t =>
          let stp := find "}" data t in
          sbind (sbind (substr data (t + 1) (option_map (fun p => p - t - 1) stp)) explode_ints) (fun g =>
          match g with [] => SExc | _ => braces_loop n data (match stp with Some p => p + 1 | None => 0 end) (out ++ [g])%list end)
      end)
  end.
(** As above, src/util/string_utils.cpp:144-166. *)
Definition explode_braces (fuel : nat) (data : str) : SOut (list (list Z)) :=
  sbind (check_chars data) (fun _ =>
  if negb (brace_depth data 0 =? 0)%Z then SExc
  else braces_loop fuel data 0 []).

(** ** FileScrubber, src/util/file_scrubber.cpp:36-56 *)
(** A stream: the characters not read yet and its eof flag.  See src/util/file_scrubber.cpp:41-48. *)
Record Stream := mkStream { st_rest : str; st_eof : bool }.
(** std::getline: up to a newline, which is discarded, or to the end, which sets eof. *)
Fixpoint get_line (s : str) : str * Stream :=
  match s with
  | [] => ([], mkStream [] true)
  | c :: r => if Ascii.eqb c "010" then ([], mkStream r false) else let '(l, t) := get_line r in (c :: l, t)
  end.
(** std::string::find of a string.  See src/util/file_scrubber.cpp:41-48. *)
Fixpoint starts_with (f s : str) : bool := match f, s with [], _ => true | a :: f', b :: s' => Ascii.eqb a b && starts_with f' s' | _, [] => false end.
(** As above, src/util/file_scrubber.cpp:36-56. *)
Fixpoint find_str (f s : str) : option nat := if starts_with f s then Some 0 else match s with [] => None | _ :: r => option_map S (find_str f r) end.
(** Lines 41-48: comments and blanks removed. *)
Definition clean (flag line : str) : str := trim (match find_str flag line with Some k => firstn k line | None => line end).
(** FileScrubber::getline; [fuel]: one round per line. *)
Fixpoint scrub (fuel : nat) (flag : str) (s : Stream) : option (str * Stream) :=
  if st_eof s then Some ([], s)
  else match fuel with
       | O => None
       | S n => let '(l, t) := get_line (st_rest s) in
                match clean flag l with [] => scrub n flag t | c :: r => Some (c :: r, t) end
       end.
