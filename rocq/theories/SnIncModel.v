(** Model of the update of the incoming flux of the Sn sweeper from CMFD partial currents:
    src/sweepers/sn/sn_sweeper.hpp:231-303 update_incoming_generic and src/sweepers/sn/sn_sweeper.cpp:134-174
    update_incoming_flux. *)
From Coq Require Import List Bool Reals Arith ZArith.
From Verif Require Import RUtil ListUtil McModel MeshModel AngModel BcModel PflModel.
Import ListNotations.
Open Scope nat_scope.

(** The lambdas: old value, surface, group, sense; [None] = a read outside the arrays of partial currents.  See src/sweepers/sn/sn_sweeper.cpp:148-161. *)
Definition Upd : Type := R -> Z -> nat -> nat -> option R.
(** src/sweepers/sn/sn_sweeper.cpp:148-161; [pc], [pco] = partial_current and partial_current_old (surface, group). *)
Definition inc_ratio (pc pco : Z -> nat -> option (R * R)) : Upd := fun x is g _ =>
  match pc is g, pco is g with
  | Some (p0, p1), Some (q0, q1) => let part := (2 * (p0 + p1))%R in let part_old := (2 * (q0 + q1))%R in Some (if Rltb 0 part_old then x * (part / part_old) else x)%R
  | _, _ => None
  end.
(** src/sweepers/sn/sn_sweeper.cpp:167-170; RFPI is 1/(4 pi), src/core/constants.hpp:26-27. *)
Definition inc_first (pc : Z -> nat -> option (R * R)) : Upd := fun _ is g i =>
  match pc is g with
  | Some (p0, p1) => let p := match i with O => p0 | _ => p1 end in Some (2 * (1 / (4 * PI)) * (p + p))%R
  | None => None
  end.

(** src/sweepers/sn/sn_sweeper.hpp:240-243, 261-264, 282-285: side the angle enters through, and sense. *)
Definition inc_side (d : Dir) (n : Normal) : Surface :=
  match n with
  | X_NORM => if Rltb 0 (ox d) then WEST else EAST
  | Y_NORM => if Rltb 0 (oy d) then SOUTH else NORTH
  | Z_NORM => if Rltb 0 (oz d) then BOTTOM else TOP
  end.
(** As above, src/sweepers/sn/sn_sweeper.hpp:240-243, 261-264, 282-285. *)
Definition inc_sense (s : Surface) : nat := match s with WEST | SOUTH | BOTTOM => 1 | _ => 0 end.
(** Lines 245-247, 266-268, 287-289: the cells visited, in order. *)
Definition inc_cells (m : Mesh) (d : Dir) (n : Normal) : list Position :=
  match n with
  | X_NORM => let ixx := if Rltb 0 (ox d) then 0%Z else (nx m - 1)%Z in flat_map (fun iz => map (fun iy => {| px := ixx; py := iy; pz := iz |}) (zrange (ny m))) (zrange (nz m))
  | Y_NORM => let iyy := if Rltb 0 (oy d) then 0%Z else (ny m - 1)%Z in flat_map (fun iz => map (fun ix => {| px := ix; py := iyy; pz := iz |}) (zrange (nx m))) (zrange (nz m))
  | Z_NORM => let izz := if Rltb 0 (oz d) then 0%Z else (nz m - 1)%Z in flat_map (fun iy => map (fun ix => {| px := ix; py := iy; pz := izz |}) (zrange (nx m))) (zrange (ny m))
  end.
(** Lines 246-255: [at_] is the position of face[i] in the data. *)
Fixpoint inc_loop (m : Mesh) (f : Upd) (g sense : nat) (s : Surface) (cs : list Position) (at_ : nat) (d : list R) : option (list R) :=
  match cs with
  | [] => Some d
  | c :: r =>
      match coarse_surf m (coarse_cell m c) s with
      | Some is => match modify (fun x => f x is g sense) at_ d with Some d' => inc_loop m f g sense s r (S at_) d' | None => None end
      | None => None
      end
  end.
(** Lines 237-256, 258-277, 279-298: one face. *)
Definition inc_face (m : Mesh) (b : BC) (f : Upd) (g iang : nat) (ang : Angle) (n : Normal) (d : list R) : option (list R) :=
  match get_face b g iang n with
  | Some (_, off) => let s := inc_side (adir ang) n in inc_loop m f g (inc_sense s) s (inc_cells m (adir ang) n) off d
  | None => None
  end.
(** Lines 233-302: the loops over groups (all of them, src/core/transport_sweeper.cpp:79), angles and normals. *)
Definition inc_calls (ng : nat) (quad : list Angle) : list (nat * nat * Angle * Normal) :=
  flat_map (fun g => flat_map (fun ia => map (fun n => (g, fst ia, snd ia, n)) all_normals) (combine (seq 0 (length quad)) quad)) (seq 0 ng).
(** As above, src/sweepers/sn/sn_sweeper.hpp:233-302. *)
Fixpoint inc_all (m : Mesh) (b : BC) (f : Upd) (calls : list (nat * nat * Angle * Normal)) (d : list R) : option (list R) :=
  match calls with
  | [] => Some d
  | (g, iang, ang, n) :: r => match inc_face m b f g iang ang n d with Some d' => inc_all m b f r d' | None => None end
  end.
(** src/sweepers/sn/sn_sweeper.cpp:134-174. *)
Definition sn_update_incoming (enabled has_old : bool) (pc pco : Z -> nat -> option (R * R)) (m : Mesh) (b : BC) (ng : nat) (quad : list Angle) (d : list R) : option (list R) :=
  if enabled then inc_all m b (if has_old then inc_ratio pc pco else inc_first pc) (inc_calls ng quad) d else Some d.
