(** Model of what CMFD writes to the results file: src/core/cmfd.cpp:668-698 output.
    The HDF5 library is not modelled here (C138-C140 treat the wrapper): the outcome is the list of data sets written, in order. *)
From Coq Require Import String Ascii.
From Coq Require Import List Bool Reals ZArith.
From Verif Require Import MeshModel.
Import ListNotations.
Open Scope Z_scope.

(** src/core/constants.cpp:28-57, the name of a face. *)
Definition face_name (s : Surface) : string :=
  match s with EAST => "east" | WEST => "west" | NORTH => "north" | SOUTH => "south" | TOP => "top" | BOTTOM => "bottom" end%string.
(** A data set current/<group>/<face>: src/core/cmfd.cpp:681-694.  The group is numbered from one (line 683). *)
Record CurSet := mkCur { cu_group : nat; cu_face : string; cu_dims : list Z; cu_vals : list R }.
(** src/core/cmfd.cpp:689-692 for one cell: the surface is numbered on the CMFD mesh [cm], the array has the surfaces of the transport mesh [fm];
    [None] is a read outside of a table or array. *)
Definition cell_current (fm cm : Mesh) (cur : Z -> R) (s : Surface) (i : Z) : option R :=
  match coarse_surf cm i s with Some k => if (0 <=? k) && (k <? n_surf fm) then Some (cur k) else None | None => None end.
(** src/core/cmfd.cpp:689-692, all cells. *)
Fixpoint cell_currents (fm cm : Mesh) (cur : Z -> R) (s : Surface) (l : list Z) : option (list R) :=
  match l with
  | [] => Some []
  | i :: r => match cell_current fm cm cur s i, cell_currents fm cm cur s r with Some v, Some q => Some (v :: q) | _, _ => None end
  end.
(** src/core/cmfd.cpp:685-694, the faces of a group; the dimensions are those of lines 674-675. *)
Fixpoint face_sets (fm cm : Mesh) (cur : Z -> R) (g : nat) (l : list Surface) : option (list CurSet) :=
  match l with
  | [] => Some []
  | s :: r => match cell_currents fm cm cur s (zrange (n_pin cm)), face_sets fm cm cur g r with
              | Some v, Some q => Some (mkCur (g + 1) (face_name s) [nz cm; ny cm; nx cm] v :: q) | _, _ => None end
  end.
(** src/core/cmfd.cpp:681-695, the groups from [g] on, [n] of them; [cur g] are the currents of group [g]. *)
Fixpoint group_sets (fm cm : Mesh) (cur : nat -> Z -> R) (g n : nat) : option (list CurSet) :=
  match n with
  | O => Some []
  | S n' => match face_sets fm cm (cur g) g AllSurfaces, group_sets fm cm cur (S g) n' with Some a, Some b => Some (a ++ b) | _, _ => None end
  end.
(** src/core/cmfd.cpp:668-698 output: nothing without dump_current, else the name of what made the currents and the data sets. *)
Definition cmfd_output (dump : bool) (fm cm : Mesh) (ng : nat) (src : string) (cur : nat -> Z -> R) : option (option (string * list CurSet)) :=
  if negb dump then Some None else match group_sets fm cm cur 0 ng with Some l => Some (Some (src, l)) | None => None end.
