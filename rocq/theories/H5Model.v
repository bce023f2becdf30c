(** Model of the HDF5 wrapper: src/util/h5file.hpp and src/util/h5file.cpp.  The HDF5 library itself is not modelled beyond its
    documented contract: a file is a tree of groups and data sets; a data set is created where its group exists and the name is free;
    reading copies all values in order.  Only data sets of doubles are modelled; values are of any type with a zero; counts are
    numbers without overflow (below 2^31 in the code). *)
From Coq Require Import List Bool Arith Ascii.
From Verif Require Import StrModel.
Import ListNotations.

Section WithValues.
Context {V : Type} (zero : V).

(** The content of a file: data sets with dimensions and values, groups of named objects.  See src/util/h5file.cpp:24-252. *)
Inductive HNode := HData (dims : list nat) (vals : list V) | HGroup (kids : list (str * HNode)).
(** Outcome of a call: a result, the program's own exception, an exception of the library that nothing catches, a failed assertion (debug
    builds), or undefined behaviour.  See src/util/h5file.cpp:24-252. *)
Inductive HOut (A : Type) := HOk (a : A) | HThrow | HUncaught | HAbort | HUB.
Global Arguments HOk {A} a. Global Arguments HThrow {A}. Global Arguments HUncaught {A}. Global Arguments HAbort {A}. Global Arguments HUB {A}.

(** As above, src/util/h5file.cpp:24-252. *)
Definition hsame (a b : str) : bool := if list_eq_dec ascii_dec a b then true else false.
(** As above, src/util/h5file.cpp:24-252. *)
Fixpoint kid (s : str) (l : list (str * HNode)) : option HNode := match l with [] => None | (n, x) :: r => if hsame n s then Some x else kid s r end.
(** What is at a path of names.  See src/util/h5file.cpp:24-252. *)
Fixpoint look (x : HNode) (p : list str) : option HNode :=
  match p with [] => Some x | s :: r => match x with HGroup l => match kid s l with Some y => look y r | None => None end | HData _ _ => None end end.
(** The library's creation of an object at a path: [None] if it fails.  See src/util/h5file.cpp:24-252. *)
Fixpoint in_kid (s : str) (f : HNode -> option HNode) (l : list (str * HNode)) : option (list (str * HNode)) :=
  match l with
  | [] => None
  | (n, x) :: r => if hsame n s then match f x with Some y => Some ((n, y) :: r) | None => None end
                   else match in_kid s f r with Some r' => Some ((n, x) :: r') | None => None end
  end.
(** As above, src/util/h5file.cpp:24-252. *)
Fixpoint create (p : list str) (new : HNode) (x : HNode) : option HNode :=
  match p, x with
  | [], _ => None
  | _, HData _ _ => None
  | [s], HGroup l => match kid s l with Some _ => None | None => Some (HGroup (l ++ [(s, new)])) end
  | s :: r, HGroup l => match in_kid s (create r new) l with Some l' => Some (HGroup l') | None => None end
  end.

(** A path: absolute (with a leading slash) or relative to the node it is used on.  See src/util/h5file.cpp:24-252. *)
Record HPath := mkHP { hp_abs : bool; hp_names : list str }.
(** src/util/h5file.hpp:34-47 H5Access; an H5Node (h5file.hpp:63-): where it points and how it was opened. *)
Inductive HAccess := H_READ | H_WRITE | H_APPEND.
(** As above, src/util/h5file.hpp:34-47. *)
Record H5Node := mkHN { hn_at : list str; hn_access : HAccess }.
(** As above, src/util/h5file.hpp:114-118. *)
Definition resolve (h : H5Node) (p : HPath) : list str := if hp_abs p then hp_names p else hn_at h ++ hp_names p.

(** src/util/h5file.cpp:24-43: opening a file, [disk] = what is there before.  The library refuses to open a missing file; its exception is
    not converted. *)
Definition h5_open (disk : option HNode) (a : HAccess) : HOut (H5Node * HNode) :=
  match a with
  | H_WRITE => HOk (mkHN [] a, HGroup [])
  | _ => match disk with Some (HGroup l) => HOk (mkHN [] a, HGroup l) | _ => HUncaught end
  end.
(** src/util/h5file.hpp:114-118 operator[]: nothing converts the library's exception. *)
Definition h5_at (f : HNode) (h : H5Node) (p : HPath) : HOut H5Node :=
  match look f (resolve h p) with Some (HGroup _) => HOk (mkHN (resolve h p) (hn_access h)) | _ => HUncaught end.
(** src/util/h5file.cpp:51-68 create_group. *)
Definition create_group (f : HNode) (h : H5Node) (p : HPath) : HOut (H5Node * HNode) :=
  match hn_access h with
  | H_READ => HThrow
  | _ => match create (resolve h p) (HGroup []) f with Some f' => HOk (mkHN (resolve h p) (hn_access h), f') | None => HThrow end
  end.
(** src/util/h5file.cpp:88-103 dimensions. *)
Definition h5_dimensions (f : HNode) (h : H5Node) (p : HPath) : HOut (list nat) :=
  match look f (resolve h p) with Some (HData d _) => HOk d | _ => HThrow end.

(** As above, src/util/h5file.cpp:105-150. *)
Definition prod (l : list nat) : nat := fold_right Nat.mul 1 l.
(** Creation of a data set of [dims] and its filling from memory holding [mem] (createDataSet and write of the library): a read past the end
    of [mem] is undefined; on a file opened for reading the library refuses.  See src/util/h5file.cpp:105-124. *)
Definition put_data (f : HNode) (h : H5Node) (p : HPath) (dims : list nat) (mem : list V) : HOut HNode :=
  match hn_access h with
  | H_READ => HThrow
  | _ => match create (resolve h p) (HData dims (firstn (prod dims) mem)) f with
         | None => HThrow
         | Some f' => if length mem <? prod dims then HUB else HOk f'
         end
  end.
(** src/util/h5file.cpp:105-124 write of a vector. *)
Definition write_vec (f : HNode) (h : H5Node) (p : HPath) (data : list V) : HOut HNode := put_data f h p [length data] data.
(** src/util/h5file.cpp:126-150 write of a vector with dimensions; the assertion is there in debug builds only. *)
Definition write_vec_dims (debug : bool) (f : HNode) (h : H5Node) (p : HPath) (data : list V) (dims : list nat) : HOut HNode :=
  if debug && negb (prod dims =? length data) then HAbort else put_data f h p dims data.
(** An array: extents and values in memory order, contiguous or not.  See src/util/h5file.cpp:152-175. *)
Record Arr := mkArr { a_shape : list nat; a_vals : list V; a_contig : bool }.
(** As above, src/util/h5file.cpp:126-150. *)
Definition a_size (a : Arr) : nat := prod (a_shape a).
(** src/util/h5file.cpp:152-175 write of a one-dimensional array with dimensions: no check of the sizes. *)
Definition write_arr_dims (f : HNode) (h : H5Node) (p : HPath) (a : Arr) (dims : list nat) : HOut HNode :=
  if negb (a_contig a) then HThrow else put_data f h p dims (a_vals a).
(** src/util/h5file.hpp:157-192 write of an array of any rank (the check that extents and size agree holds by construction). *)
Definition write_arr (f : HNode) (h : H5Node) (p : HPath) (a : Arr) : HOut HNode :=
  if negb (a_contig a) then HThrow else put_data f h p (a_shape a) (a_vals a).
(** src/util/h5file.hpp:376-402 write through iterators: a vector of as many zeros as the dimensions say, overwritten from the range; the
    assertion compares the vector with its own size. *)
Definition write_range (f : HNode) (h : H5Node) (p : HPath) (data : list V) (dims : list nat) : HOut HNode :=
  if prod dims <? length data then HUB
  else put_data f h p dims (data ++ repeat zero (prod dims - length data)).

(** The library's read into memory holding [mem].  See src/util/h5file.hpp:320-325. *)
Definition fill (vals mem : list V) : HOut (list V) := if length mem <? length vals then HUB else HOk (vals ++ skipn (length vals) mem).
(** src/util/h5file.hpp:320-325, the check of the extents: the data set's rank bounds the loop, [shape] is indexed without check. *)
Fixpoint same_extents (shape dims : list nat) : HOut unit :=
  match dims with
  | [] => HOk tt
  | d :: ds => match shape with [] => HUB | s :: ss => if s =? d then same_extents ss ds else HThrow end
  end.
(** src/util/h5file.hpp:267-337 read into an array. *)
Definition read_arr (f : HNode) (h : H5Node) (p : HPath) (a : Arr) : HOut Arr :=
  if (0 <? a_size a) && negb (a_contig a) then HThrow
  else match look f (resolve h p) with
       | Some (HData dims vals) =>
           if a_size a =? 0 then
             if length (a_shape a) =? 1 then HOk (mkArr [prod dims] vals true)
             else if length (a_shape a) =? length dims then HOk (mkArr dims vals true) else HThrow
           else
             match (if length (a_shape a) =? 1 then (if a_size a =? prod dims then HOk tt else HThrow) else same_extents (a_shape a) dims) with
             | HOk _ => match fill vals (a_vals a) with HOk m => HOk (mkArr (a_shape a) m (a_contig a)) | HUB => HUB | _ => HThrow end
             | HUB => HUB
             | _ => HThrow
             end
       | _ => HThrow
       end.
(** src/util/h5file.cpp:213-252 read into a vector. *)
Definition read_vec (f : HNode) (h : H5Node) (p : HPath) (data : list V) : HOut (list V) :=
  match look f (resolve h p) with
  | Some (HData dims vals) =>
      if negb (length dims =? 1) then HThrow
      else if length data =? 0 then HOk vals
      else if length data =? prod dims then HOk vals else HThrow
  | _ => HThrow
  end.
(** src/util/h5file.cpp:177-211 read_1d: into a one-dimensional array, whatever the rank of the data set; contiguity is not checked. *)
Definition read_1d (f : HNode) (h : H5Node) (p : HPath) (a : Arr) : HOut Arr :=
  match look f (resolve h p) with
  | Some (HData dims vals) =>
      if a_size a =? 0 then HOk (mkArr [prod dims] vals true)
      else if a_size a =? prod dims then match fill vals (a_vals a) with HOk m => HOk (mkArr (a_shape a) m (a_contig a)) | HUB => HUB | _ => HThrow end
      else HThrow
  | _ => HThrow
  end.
End WithValues.
