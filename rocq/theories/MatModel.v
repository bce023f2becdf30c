(** Model of materials and the material library.  src/core/material.{hpp,cpp}, src/core/material_lib.{hpp,cpp}.
    Doubles are exact reals; the library is given as a list of named materials; reading it from a file is modelled in LibFileModel. *)
From Coq Require Import List Lia Bool Reals ZArith String.
From Verif Require Import RUtil McModel ScatModel.
Import ListNotations.
Open Scope nat_scope.

(** Outcome of a constructor: thrown exception and undefined behaviour are distinct.  See src/core/material.hpp:93-100. *)
Inductive Out (A : Type) := Got (a : A) | Threw | Undef.
Arguments Got {A}. Arguments Threw {A}. Arguments Undef {A}.

(** src/core/material.hpp:93-100. *)
Record Material := mkMat { xsab : list R; xstr : list R; xsnf : list R; xsf : list R; xsch : list R; xssc : SM }.

(** src/core/material.cpp:48-51 running sum. *)
Definition vsum (l : list R) : R := fold_left Rplus l 0%R.

(** src/core/material.cpp:46-55.  [None] = division by a zero sum. *)
Definition normalize_chi (l : list R) : option (list R) :=
  if existsb (fun v => Rltb 0 v) l
  then if Reqb (vsum l) 0 then None else Some (map (fun c => (c / vsum l)%R) l)
  else Some l.

(** src/core/material.cpp:57-61.  [None] = out_ read out of range. *)
Fixpoint transport (ab : list R) (o : list R) : option (list R) :=
  match ab, o with
  | [], _ => Some []
  | a :: ab', x :: o' => match transport ab' o' with Some r => Some ((a + x)%R :: r) | None => None end
  | _ :: _, [] => None
  end.

(** src/core/material.cpp:22-62 Material::Material.  The size checks of lines 31-33 are assertions; reading past the
    end of a shorter vector (lines 36-39) is undefined. *)
Definition make_material (ab nf f ch : list R) (sc : list (list R)) : Out Material :=
  match convert_vvec sc with
  | None => Threw
  | Some m =>
      match compress (List.length sc) m with
      | None => Undef
      | Some s =>
          let n := List.length ab in
          if (List.length nf <? n) || (List.length f <? n) || (List.length ch <? n) then Undef
          else match normalize_chi (firstn n ch), transport ab (out s) with
               | Some c, Some tr => Got (mkMat ab tr (firstn n nf) (firstn n f) c s)
               | _, _ => Undef
               end
      end
  end.

(** src/core/material.hpp:86-91 is_fissile. *)
Definition is_fissile (m : Material) : bool := existsb (fun v => Rltb 0 v) (xsnf m).

(** std::map as an association list: operator[]= and at.  See src/core/material_lib.hpp:127-160. *)
Fixpoint map_at {K V} (eqb : K -> K -> bool) (l : list (K * V)) (k : K) : option V :=
  match l with
  | [] => None
  | (k', v) :: r => if eqb k k' then Some v else map_at eqb r k
  end.
(** As above, src/core/material.hpp:86-91. *)
Fixpoint map_set {K V} (eqb : K -> K -> bool) (l : list (K * V)) (k : K) (v : V) : list (K * V) :=
  match l with
  | [] => [(k, v)]
  | (k', v') :: r => if eqb k k' then (k', v) :: r else (k', v') :: map_set eqb r k v
  end.

(** src/core/material_lib.hpp:127-160.  [A] is the type of materials. *)
Record Lib (A : Type) := mkLib {
  lib_materials : list A;
  assigned : list A;
  names : list (string * nat);
  ids : list (Z * nat);
  dense : list (Z * nat);
  n_material : nat
}.
Arguments mkLib {A}. Arguments lib_materials {A}. Arguments assigned {A}. Arguments names {A}. Arguments ids {A}.
Arguments dense {A}. Arguments n_material {A}.

(** src/core/material_lib.cpp:95-140 (and 185-237): store the named materials of the file in order. *)
Fixpoint load {A} (l : list (string * A)) (i : nat) (nm : list (string * nat)) : list (string * nat) :=
  match l with
  | [] => nm
  | (s, _) :: r => load r (S i) (map_set String.eqb nm s i)
  end.
(** As above, src/core/material_lib.cpp:95-140. *)
Definition make_lib {A} (l : list (string * A)) : Lib A := mkLib (map snd l) [] (load l 0 []) [] [] 0.

(** src/core/material_lib.cpp:240-255 assignID; [None] = throws. *)
Definition assignID {A} (L : Lib A) (id : Z) (name : string) : option (Lib A) :=
  match map_at String.eqb (names L) name with
  | None => None
  | Some k =>
      match nth_error (lib_materials L) k with
      | None => None
      | Some m => Some (mkLib (lib_materials L) (assigned L ++ [m]) (names L) (map_set Z.eqb (ids L) id k)
                              (map_set Z.eqb (dense L) id (n_material L)) (S (n_material L)))
      end
  end.

(** src/core/material_lib.cpp:143-147: the assignments of the input file in order. *)
Fixpoint assign_all {A} (L : Lib A) (l : list (Z * string)) : option (Lib A) :=
  match l with
  | [] => Some L
  | (i, s) :: r => match assignID L i s with Some L' => assign_all L' r | None => None end
  end.

(** src/core/material_lib.hpp:80-83 get_material_by_id; [None] = map::at throws. *)
Definition get_material_by_id {A} (L : Lib A) (id : Z) : option A :=
  match map_at Z.eqb (ids L) id with Some k => nth_error (lib_materials L) k | None => None end.
(** src/core/material_lib.hpp:72-75 get_index_by_id. *)
Definition get_index_by_id {A} (L : Lib A) (id : Z) : option nat := map_at Z.eqb (dense L) id.
(** src/core/material_lib.hpp:122-125 has. *)
Definition has {A} (L : Lib A) (id : Z) : bool := match map_at Z.eqb (ids L) id with Some _ => true | None => false end.
