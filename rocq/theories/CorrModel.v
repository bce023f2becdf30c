(** Model of reading and writing the correction factors of the 2D/3D sweeper: src/sweepers/cmdo/correction_data.cpp and
    correction_data.hpp, and of the parts of src/util/h5file.{hpp,cpp} they use.  Factors are stored per set (alpha in x, alpha in y,
    beta), group and angle, as one list over all macroplanes; paths in a file are the same triples.  HDF5 itself is taken to
    return what was written. *)
From Coq Require Import List Bool Reals Arith ZArith.
From Verif Require Import RUtil ListUtil McModel MatModel.
Import ListNotations.
Open Scope nat_scope.

(** The data sets of a group and angle, in the order in which they are read (lines 94-143). *)
Inductive Fac := AX | AY | BETA.
(** As above, src/sweepers/cmdo/correction_data.cpp:94-143. *)
Definition fac_eqb (a b : Fac) : bool := match a, b with AX, AX | AY, AY | BETA, BETA => true | _, _ => false end.
(** alpha_ and beta_ (correction_data.hpp:53-54, 158-159): group, angle, cell. *)
Definition Store : Type := Fac -> nat -> nat -> list R.
(** As above, src/sweepers/cmdo/correction_data.hpp:53-54, 158-159. *)
Definition put (s : Store) (f : Fac) (g a : nat) (v : list R) : Store :=
  fun f' g' a' => if fac_eqb f f' && (g =? g') && (a =? a') then v else s f' g' a'.
(** A file: extents and values of each data set; [None] = no such set.  See src/sweepers/cmdo/correction_data.cpp:67-148. *)
Definition File : Type := Fac -> nat -> nat -> option (list nat * list R).
(** A <data> tag: its bottom_plane and top_plane attributes if present, and the file named, if any.  [dt_file] = [None] when the
    attribute is missing; a name that cannot be opened is a file without data sets.  See src/sweepers/cmdo/correction_data.cpp:67-148. *)
Record Tag := mkTag { dt_bot : option Z; dt_top : option Z; dt_file : option File }.
(** Extents of the object (correction_data.hpp:45-54): nz is the number of macroplanes. *)
Record Shape := mkShape { sh_nx : nat; sh_ny : nat; sh_nz : nat; sh_ng : nat; sh_na : nat }.
(** As above, src/sweepers/cmdo/correction_data.hpp:45-54. *)
Definition per (h : Shape) : nat := sh_nx h * sh_ny h.

(** src/util/h5file.hpp:267-338 read into a one-dimensional array of [n] > 0 elements. *)
Definition h5_read (F : File) (f : Fac) (g a n : nat) : Out (list R) :=
  match F f g a with
  | None => Threw
  | Some (_, v) => if length v =? n then Got v else Threw
  end.
(** correction_data.cpp:104-109, 121-126, 138-142: the same values to each macroplane bottom .. top; src/core/mesh.hpp:356-367 give
    the cells of a plane.  [None] = cells outside the array. *)
Definition put_plane (n : nat) (v l : list R) (ip : Z) : option (list R) :=
  let stt := n * Z.to_nat ip in
  if (ip <? 0)%Z || (length l <? stt + n) || negb (length v =? n) then None else Some (firstn stt l ++ v ++ skipn (stt + n) l).
(** As above, src/sweepers/cmdo/correction_data.cpp:104-109, 121-126, 138-142. *)
Fixpoint put_planes (n : nat) (v : list R) (k : nat) (ip : Z) (l : list R) : option (list R) :=
  match k with O => Some l | S k' => match put_plane n v l ip with Some l' => put_planes n v k' (ip + 1) l' | None => None end end.
(** One data set of one group and angle.  See src/sweepers/cmdo/correction_data.cpp:94-143. *)
Definition read_set (h : Shape) (F : File) (bot top : Z) (fga : Fac * nat * nat) (s : Store) : Out Store :=
  let '(f, g, a) := fga in
  match h5_read F f g a (per h) with
  | Got v => match put_planes (per h) v (Z.to_nat (top + 1 - bot)) bot (s f g a) with Some l => Got (put s f g a l) | None => Undef end
  | Threw => Threw
  | Undef => Undef
  end.
(** As above, src/sweepers/cmdo/correction_data.cpp:94-143. *)
Definition all_sets (h : Shape) : list (Fac * nat * nat) :=
  flat_map (fun g => flat_map (fun a => [(AX, g, a); (AY, g, a); (BETA, g, a)]) (seq 0 (sh_na h))) (seq 0 (sh_ng h)).
(** As above, src/sweepers/cmdo/correction_data.cpp:94-143. *)
Fixpoint read_sets (h : Shape) (F : File) (bot top : Z) (l : list (Fac * nat * nat)) (s : Store) : Out Store :=
  match l with
  | [] => Got s
  | x :: r => match read_set h F bot top x s with Got s' => read_sets h F bot top r s' | Threw => Threw | Undef => Undef end
  end.
(** correction_data.cpp:67-148 read_data_single. *)
Definition read_single (h : Shape) (t : Tag) (bot top : Z) (s : Store) : Out Store :=
  let b := match dt_bot t with Some v => v | None => 0%Z end in
  let u := match dt_top t with Some v => v | None => (Z.of_nat (sh_nz h) - 1)%Z end in
  if negb (b =? bot)%Z || negb (u =? top)%Z then Threw
  else match dt_file t with
       | None => Threw
       | Some F => read_sets h F bot top (all_sets h) s
       end.

(** correction_data.cpp:179-186: mark the planes of a tag. *)
Fixpoint mark (k : nat) (ip : Z) (d : list bool) : Out (list bool) :=
  match k with
  | O => Got d
  | S k' => match nth_error d (Z.to_nat ip) with
            | Some false => match set_nth d (Z.to_nat ip) true with Some d' => mark k' (ip + 1) d' | None => Undef end
            | Some true => Threw
            | None => Undef
            end
  end.
(** correction_data.cpp:157-187: the checks. *)
Fixpoint check_tags (np : Z) (ts : list Tag) (d : list bool) : Out (list bool) :=
  match ts with
  | [] => Got d
  | t :: r =>
      let top := match dt_top t with Some v => v | None => (np - 1)%Z end in
      let bot := match dt_bot t with Some v => v | None => 0%Z end in
      if (bot <? 0)%Z || (np <=? bot)%Z then Threw
      else if (top <? 0)%Z || (np <=? top)%Z then Threw
      else match dt_file t with
           | None => Threw
           | Some _ => match mark (Z.to_nat (top + 1 - bot)) bot d with Got d' => check_tags np r d' | Threw => Threw | Undef => Undef end
           end
  end.
(** correction_data.cpp:196-208: the tags one after another; both ends are 0 here unless given. *)
Fixpoint read_tags (h : Shape) (ts : list Tag) (s : Store) : Out Store :=
  match ts with
  | [] => Got s
  | t :: r =>
      match read_single h t (match dt_bot t with Some v => v | None => 0%Z end) (match dt_top t with Some v => v | None => 0%Z end) s with
      | Got s' => read_tags h r s'
      | Threw => Threw
      | Undef => Undef
      end
  end.
(** correction_data.cpp:150-210 read_data_multi. *)
Definition read_multi (h : Shape) (ts : list Tag) (s : Store) : Out Store :=
  match check_tags (Z.of_nat (sh_nz h)) ts (repeat false (sh_nz h)) with
  | Got _ => read_tags h ts s
  | Threw => Threw
  | Undef => Undef
  end.
(** correction_data.cpp:25-65 from_data; lines 51-53 index the extents without looking how many there are. *)
Definition from_data (h : Shape) (ts : list Tag) (s : Store) : Out Store :=
  match ts with
  | [] => Got s
  | [t] =>
      match dt_file t with
      | None => Threw
      | Some F =>
          match F AX 0 0 with
          | None => Threw
          | Some (d0 :: d1 :: d2 :: _, _) =>
              if (d2 =? sh_nx h) && (d1 =? sh_ny h) && (d0 =? sh_nz h) then read_single h t 0 (Z.of_nat (sh_nz h) - 1) s else read_multi h ts s
          | Some _ => Undef
          end
      end
  | _ => read_multi h ts s
  end.
(** correction_data.cpp:212-264 output; the extents are those of the object. *)
Definition output (h : Shape) (s : Store) : File :=
  fun f g a => if (g <? sh_ng h) && (a <? sh_na h) then Some ([sh_nz h; sh_ny h; sh_nx h], s f g a) else None.
(** correction_data.hpp:62-63: the values a new object holds. *)
Definition fresh (h : Shape) : Store := fun f _ _ => repeat (match f with BETA => 1 | _ => 0.5 end)%R (per h * sh_nz h).
