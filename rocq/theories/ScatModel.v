(** Model of the compressed scattering matrix.  src/core/scattering_matrix.{hpp,cpp}.  Doubles are exact reals. *)
From Coq Require Import List Lia Bool Reals.
From Verif Require Import RUtil McModel.
Import ListNotations.
Open Scope nat_scope.

(** src/core/scattering_matrix.hpp:25-73 ScatteringRow; [rpos] is the offset of [from] in scat_. *)
Record Row := mkRow { min_g : nat; max_g : nat; rpos : nat }.

(** src/core/scattering_matrix.hpp:266-272. *)
Record SM := mkSM { ng : nat; scat : list R; out : list R; rows : list Row }.

(** src/core/scattering_matrix.cpp:74-79: index of the first positive entry, else the last index examined. *)
Fixpoint first_bound (f : nat -> R) (from cnt cur : nat) : nat :=
  match cnt with
  | O => cur
  | S c => if Rltb 0 (f from) then from else first_bound f (S from) c from
  end.

(** src/core/scattering_matrix.cpp:80-85: scanning downwards from cnt-1. *)
Fixpoint last_bound (f : nat -> R) (cnt cur : nat) : nat :=
  match cnt with
  | O => cur
  | S c => if Rltb 0 (f c) then c else last_bound f c c
  end.

(** src/core/scattering_matrix.cpp:73-105: the band kept for row [to]. *)
Definition band (n : nat) (f : nat -> R) (to : nat) : nat * nat :=
  let first := first_bound f 0 n 0 in
  let second := last_bound f n 0 in
  let '(first, second) := if (first =? n - 1) && (second =? 0) then (to, to) else (first, second) in
  (if to <? first then to else first, if second <? to then to else second).

(** src/core/scattering_matrix.cpp:113-117: push one row; [None] = out_ indexed out of range. *)
Fixpoint pack_row (f : nat -> R) (from cnt : nat) (sc o : list R) : option (list R * list R) :=
  match cnt with
  | O => Some (sc, o)
  | S c =>
      match nth_error o from with
      | Some v => match set_nth o from (v + f from)%R with
                  | Some o' => pack_row f (S from) c (sc ++ [f from]) o'
                  | None => None
                  end
      | None => None
      end
  end.

(** src/core/scattering_matrix.cpp:110-122: the loop over the saved bounds. *)
Fixpoint pack (m : nat -> nat -> R) (bounds : list (nat * nat)) (to pos : nat) (sc o : list R) (rs : list Row)
  : option (list R * list R * list Row) :=
  match bounds with
  | [] => Some (sc, o, rs)
  | (lo, hi) :: r =>
      match pack_row (m to) lo (hi + 1 - lo) sc o with
      | Some (sc', o') => pack m r (S to) (pos + (hi + 1 - lo)) sc' o' (rs ++ [mkRow lo hi pos])
      | None => None
      end
  end.

(** src/core/scattering_matrix.cpp:57-123 ScatteringMatrix(ArrayB2): [m to from], n groups. *)
Definition compress (n : nat) (m : nat -> nat -> R) : option SM :=
  match pack m (map (fun to => band n (m to) to) (seq 0 n)) 0 0 [] (repeat 0%R n) [] with
  | Some (sc, o, rs) => Some (mkSM n sc o rs)
  | None => None
  end.

(** src/core/scattering_matrix.cpp:25-47 convert_vvec; [None] = throws. *)
Definition convert_vvec (v : list (list R)) : option (nat -> nat -> R) :=
  if forallb (fun r => length r =? length v) v
  then Some (fun to from => nth from (nth to v []) 0%R) else None.

(** src/core/scattering_matrix.hpp:37-42 ScatteringRow::operator[]; [None] = outside the row. *)
Definition row_get (s : SM) (r : Row) (g : nat) : option R :=
  if (min_g r <=? g) && (g <=? max_g r) then nth_error (scat s) (rpos r + (g - min_g r)) else None.

(** src/core/scattering_matrix.hpp:157-160 self_scat. *)
Definition self_scat (s : SM) (g : nat) : option R :=
  match nth_error (rows s) g with Some r => row_get s r g | None => None end.

(** src/core/scattering_matrix.hpp:232-234: inner loop of as_vector. *)
Fixpoint vec_row (s : SM) (r : Row) (ig igg cnt : nat) (v : list R) : option (list R) :=
  match cnt with
  | O => Some v
  | S c => match row_get s r igg with
           | Some x => match set_nth v (ng s * ig + igg) x with
                       | Some v' => vec_row s r ig (S igg) c v'
                       | None => None
                       end
           | None => None
           end
  end.

(** src/core/scattering_matrix.hpp:227-238 as_vector. *)
Fixpoint vec_rows (s : SM) (rs : list Row) (ig : nat) (v : list R) : option (list R) :=
  match rs with
  | [] => Some v
  | r :: rest => match vec_row s r ig (min_g r) (max_g r + 1 - min_g r) v with
                 | Some v' => vec_rows s rest (S ig) v'
                 | None => None
                 end
  end.
(** As above, src/core/scattering_matrix.hpp:227-238. *)
Definition as_vector (s : SM) : option (list R) := vec_rows s (rows s) 0 (repeat 0%R (ng s * ng s)).

(** src/core/scattering_matrix.hpp:187-203 out_cdf; [None] = out of range, or division by a zero out-scattering
    (a NaN or infinity in the program). *)
Fixpoint cdf_loop (s : SM) (ig : nat) (scale prev : R) (rs : list Row) : option (list R) :=
  match rs with
  | [] => Some []
  | r :: rest =>
      match (if (min_g r <=? ig) && (ig <=? max_g r) then row_get s r ig else Some 0%R) with
      | Some x => match cdf_loop s ig scale (prev + x * scale)%R rest with
                  | Some c => Some ((prev + x * scale)%R :: c)
                  | None => None
                  end
      | None => None
      end
  end.
(** As above, src/core/scattering_matrix.hpp:187-203. *)
Definition out_cdf (s : SM) (ig : nat) : option (list R) :=
  match nth_error (out s) ig with
  | Some o => if Reqb o 0 then None else cdf_loop s ig (1 / o)%R 0%R (rows s)
  | None => None
  end.

(** src/core/scattering_matrix.hpp:114-145: copy construction and assignment recompute the row positions. *)
Fixpoint copy_rows (rs : list Row) (pos : nat) : list Row :=
  match rs with
  | [] => []
  | r :: rest => mkRow (min_g r) (max_g r) pos :: copy_rows rest (pos + (max_g r + 1 - min_g r))
  end.
(** As above, src/core/scattering_matrix.hpp:114-145. *)
Definition copy (s : SM) : SM := mkSM (ng s) (scat s) (out s) (copy_rows (rows s) 0).

(** src/core/scattering_matrix.hpp:240-255 operator==. *)
Fixpoint vec_eqb (a b : list R) : bool :=
  match a, b with
  | [], [] => true
  | x :: a', y :: b' => Reqb x y && vec_eqb a' b'
  | _, _ => false
  end.
(** As above, src/core/scattering_matrix.hpp:240-255. *)
Definition sm_eqb (a b : SM) : bool := (ng a =? ng b) && vec_eqb (scat a) (scat b) && vec_eqb (out a) (out b).
