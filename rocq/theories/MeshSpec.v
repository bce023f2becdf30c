(** Geometric vocabulary for the structured mesh, independent of any numbering. *)
From Coq Require Import ZArith List Lia.
From Verif Require Import MeshModel.
Open Scope Z_scope.

(** A mesh with at least one cell in each direction. *)
Definition mesh_ok (m : Mesh) : Prop := 0 < nx m /\ 0 < ny m /\ 0 < nz m.

Definition in_mesh (m : Mesh) (p : Position) : Prop :=
  0 <= px p < nx m /\ 0 <= py p < ny m /\ 0 <= pz p < nz m.

(** The adjacent lattice position in a direction. *)
Definition move (p : Position) (s : Surface) : Position :=
  match s with
  | EAST => {| px := px p + 1; py := py p; pz := pz p |}
  | WEST => {| px := px p - 1; py := py p; pz := pz p |}
  | NORTH => {| px := px p; py := py p + 1; pz := pz p |}
  | SOUTH => {| px := px p; py := py p - 1; pz := pz p |}
  | TOP => {| px := px p; py := py p; pz := pz p + 1 |}
  | BOTTOM => {| px := px p; py := py p; pz := pz p - 1 |}
  end.

Definition opposite (s : Surface) : Surface :=
  match s with EAST => WEST | WEST => EAST | NORTH => SOUTH | SOUTH => NORTH
             | TOP => BOTTOM | BOTTOM => TOP end.

(** A geometric face: its normal and the position of the cell on its high side (which may lie just
    outside the mesh).  Two cells share a face iff these coincide. *)
Definition face_of (p : Position) (s : Surface) : Normal * Position :=
  match s with
  | EAST | NORTH | TOP => (surface_to_normal s, move p s)
  | WEST | SOUTH | BOTTOM => (surface_to_normal s, p)
  end.

(** Faces of the mesh: faces of at least one cell. *)
Definition mesh_face (m : Mesh) (f : Normal * Position) : Prop :=
  exists p s, in_mesh m p /\ f = face_of p s.
