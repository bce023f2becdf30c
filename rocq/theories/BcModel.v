(** Model of the boundary-condition container.  src/core/boundary_condition.{hpp,cpp}. *)
From Coq Require Import ZArith List Lia Bool Reals.
From Verif Require Import RUtil MeshModel AngModel.
Import ListNotations.
Open Scope nat_scope.

(** src/core/constants.hpp enum class Boundary.  See src/core/constants.hpp:69. *)
Inductive Boundary := REFLECT | PERIODIC | PARALLEL | VACUUM | PRESCRIBED | INVALID.

(** src/core/boundary_condition.hpp:28 BC_Size_t: conditions on the X-, Y- and Z-normal faces. *)
Record BcSize := mkSize { sx : nat; sy : nat; sz : nat }.
(** As above, src/core/boundary_condition.hpp:28. *)
Definition face_size (s : BcSize) (n : Normal) : nat := match n with X_NORM => sx s | Y_NORM => sy s | Z_NORM => sz s end.

(** src/core/boundary_condition.cpp:57-59: one angle's contribution to bc_per_group_. *)
Definition size_total (s : BcSize) : nat := sx s + sy s + sz s.

(** src/core/boundary_condition.cpp:56-59 bc_per_group_. *)
Definition bc_per_group (l : list BcSize) : nat := fold_left (fun t s => t + size_total s) l 0.

(** src/core/boundary_condition.cpp:66-76: offset_, one row per angle. *)
Fixpoint offsets (off : nat) (l : list BcSize) : list BcSize :=
  match l with
  | [] => []
  | s :: r => mkSize off (off + sx s) (off + sx s + sy s) :: offsets (off + sx s + sy s + sz s) r
  end.

(** src/core/boundary_condition.hpp:200-230, the container.  [data] is indexed like data_. *)
Record BC := mkBC {
  n_group : nat;
  sizes : list BcSize;
  types : Surface -> Boundary;
  n_oct : nat;               (* ang_quad_.ndir_oct() *)
  quad : list Angle;         (* ang_quad_ *)
  data : list R
}.

(** src/core/boundary_condition.hpp:111-128 get_face: (number of values, position in data_); [None] = angle out
    of range. *)
Definition get_face (b : BC) (group angle : nat) (n : Normal) : option (nat * nat) :=
  match nth_error (sizes b) angle, nth_error (offsets 0 (sizes b)) angle with
  | Some s, Some o => Some (face_size s n, bc_per_group (sizes b) * group + face_size o n)
  | _, _ => None
  end.

(** src/core/boundary_condition.hpp:144-164 get_boundary. *)
Definition get_boundary (b : BC) (group angle : nat) : option (nat * nat) :=
  match nth_error (sizes b) angle, nth_error (offsets 0 (sizes b)) angle with
  | Some s, Some o => Some (size_total s, bc_per_group (sizes b) * group + sx o)
  | _, _ => None
  end.

(** data_(Range(off, off+n-1)) read; [None] = outside the storage.  See src/core/boundary_condition.cpp:173-188. *)
Definition read_range (l : list R) (off n : nat) : option (list R) :=
  if off + n <=? length l then Some (firstn n (skipn off l)) else None.

(** data_(Range(off, off+n-1)) = vals.  See src/core/boundary_condition.cpp:173-188. *)
Definition write_range (l : list R) (off : nat) (vals : list R) : option (list R) :=
  if off + length vals <=? length l
  then Some (firstn off l ++ vals ++ skipn (off + length vals) l) else None.

(** Outcome of an update.  See src/core/boundary_condition.cpp:173-188. *)
Inductive Res (A : Type) := Ok (a : A) | Throw | UB.
Arguments Ok {A}. Arguments Throw {A}. Arguments UB {A}.

(** src/core/boundary_condition.cpp:173-188, the switch for one face. *)
Definition apply_face (t : Boundary) (d out : list R) (off_in off_out size : nat) : Res (list R) :=
  match t with
  | VACUUM => match write_range d off_in (repeat 0%R size) with Some d' => Ok d' | None => UB end
  | REFLECT =>
      match read_range out off_out size with
      | Some v => match write_range d off_in v with Some d' => Ok d' | None => UB end
      | None => UB
      end
  | PRESCRIBED => Ok d
  | _ => Throw
  end.

(** src/core/boundary_condition.cpp:160-189, the loop over the remaining normals; the loop is left at the first
    face without conditions (line 163-165).  [out] has one group. *)
Fixpoint update_faces (b out : BC) (group angle : nat) (norms : list Normal) (d : list R) : Res (list R) :=
  match norms with
  | [] => Ok d
  | n :: rest =>
      match nth_error (sizes b) angle, reflect (Z.of_nat (n_oct b)) (Z.of_nat angle) n with
      | Some s, Some iang_in =>
          let size := face_size s n in
          let ain := Z.to_nat iang_in in
          if size =? 0 then Ok d
          else
            match nth_error (quad b) ain, nth_error (offsets 0 (sizes b)) ain,
                  nth_error (offsets 0 (sizes out)) angle with
            | Some a_in, Some o_in, Some o_out =>
                match apply_face (types b (upwind_surface (adir a_in) n)) d (data out)
                        (bc_per_group (sizes b) * group + face_size o_in n) (face_size o_out n) size with
                | Ok d' => update_faces b out group angle rest d'
                | Throw => Throw
                | UB => UB
                end
            | _, _, _ => UB
            end
      | _, _ => UB
      end
  end.

(** src/core/constants.hpp AllNormals.  See src/core/constants.hpp:66. *)
Definition all_normals : list Normal := [X_NORM; Y_NORM; Z_NORM].

(** src/core/boundary_condition.cpp:155-191 update(group, angle, out). *)
Definition update_angle (b out : BC) (group angle : nat) (d : list R) : Res (list R) :=
  update_faces b out group angle all_normals d.

(** src/core/boundary_condition.cpp:145-153 update(group, out). *)
Fixpoint update_angles (b out : BC) (group : nat) (angles : list nat) (d : list R) : Res (list R) :=
  match angles with
  | [] => Ok d
  | a :: r => match update_angle b out group a d with
              | Ok d' => update_angles b out group r d'
              | Throw => Throw
              | UB => UB
              end
  end.
(** As above, src/core/boundary_condition.cpp:145-153. *)
Definition update_group (b out : BC) (group : nat) (d : list R) : Res (list R) :=
  update_angles b out group (seq 0 (length (sizes b))) d.

(** src/core/boundary_condition.cpp:133-143 initialize_spectrum: one value per group, all faces. *)
Definition initialize_spectrum (b : BC) (spectrum : list R) : list R :=
  flat_map (fun v => repeat v (bc_per_group (sizes b))) spectrum.

(** src/core/boundary_condition.cpp:98-127, the value written to one incoming face; [None] = face left alone.
    [presc] is 1/FPI*factor_. *)
Definition init_value (t : Boundary) (val presc : R) : option R :=
  match t with
  | VACUUM | INVALID => None
  | PRESCRIBED => Some presc
  | PARALLEL | REFLECT | PERIODIC => Some val
  end.

(** src/core/boundary_condition.cpp:91-130, the loop over (group, angle, normal). *)
Fixpoint init_faces (b : BC) (val presc : R) (keys : list (nat * nat * Normal)) (d : list R) : Res (list R) :=
  match keys with
  | [] => Ok d
  | (g, a, n) :: r =>
      match nth_error (quad b) a, get_face b g a n with
      | Some ang, Some (size, off) =>
          match init_value (types b (upwind_surface (adir ang) n)) val presc with
          | None => init_faces b val presc r d
          | Some v => match write_range d off (repeat v size) with
                      | Some d' => init_faces b val presc r d'
                      | None => UB
                      end
          end
      | _, _ => UB
      end
  end.
(** As above, src/core/boundary_condition.cpp:91-130. *)
Definition all_keys (b : BC) : list (nat * nat * Normal) :=
  flat_map (fun g => flat_map (fun a => map (fun n => (g, a, n)) all_normals) (seq 0 (length (sizes b)))) (seq 0 (n_group b)).

(** src/core/boundary_condition.cpp:87-131 initialize_scalar. *)
Definition initialize_scalar (b : BC) (val presc : R) : Res (list R) :=
  init_faces b val presc (all_keys b) (repeat 0%R (length (data b))).
