(** Model of Mesh::coarse_surf_point, which gives the surfaces met at a point of the plane: src/core/mesh.cpp:138-313.
    [eqv] stands for fp_equiv, as in RayCmModel.v.  Doubles are exact reals. *)
From Coq Require Import List Bool Reals ZArith.
From Verif Require Import RUtil GeomModel MeshModel CoreModel RayCmModel.
Import ListNotations.
Open Scope Z_scope.

(** The surfaces given (the value returned is their number), a failed assertion, a read outside the table of surfaces.
    See src/core/mesh.cpp:138-313. *)
Inductive SOut := SSurf (l : list Z) | SAssert | SRead.
(** The reads of coarse_surf at src/core/mesh.cpp:248-308. *)
Fixpoint reads (l : list (option Z)) : SOut :=
  match l with
  | [] => SSurf []
  | None :: _ => SRead
  | Some k :: r => match reads r with SSurf q => SSurf (k :: q) | o => o end
  end.
(** src/core/mesh.cpp:199-310: the point is on line [ix] in x and [iy] in y.  The assertions at 223-224 and in the default cases
    are the outcome [SAssert]. *)
Definition corner_surfs (m : Mesh) (ix iy cell : Z) : SOut :=
  let c := coarse_position m cell in
  let corner_x := if ix =? px c then Some WEST else if ix =? px c + 1 then Some EAST else None in
  let corner_y := if iy =? py c then Some SOUTH else if iy =? py c + 1 then Some NORTH else None in
  match corner_x, corner_y with
  | Some cx, Some cy =>
      let west := match cx with WEST => true | _ => false end in
      let north := match cy with NORTH => true | _ => false end in
      let neighbor := coarse_neighbor m cell in
      if ix =? 0 then
        if west then if north then reads [coarse_surf m cell cx] else reads [coarse_surf m (neighbor cy) cx; coarse_surf m cell cy]
        else SAssert
      else if ix =? nx m then
        if west then SAssert
        else if north then reads [coarse_surf m cell cx] else reads [coarse_surf m (neighbor cy) cx; coarse_surf m cell cy]
      else if iy =? 0 then
        if north then SAssert
        else if west then reads [coarse_surf m (neighbor cx) cy; coarse_surf m cell cx] else reads [coarse_surf m cell cy]
      else if iy =? ny m then
        if north then if west then reads [coarse_surf m cell NORTH] else reads [coarse_surf m (neighbor EAST) NORTH; coarse_surf m cell EAST]
        else SAssert
      else reads [coarse_surf m cell cx; coarse_surf m (neighbor cx) cy]
  | _, _ => SAssert
  end.
(** src/core/mesh.cpp:138-313 Mesh::coarse_surf_point; of the two assignments at 174-175 and 184-185 the second counts. *)
Definition surf_point (eqv : R -> R -> bool) (m : Mesh) (xs ys : list R) (p : Point2) (cell : Z) : SOut :=
  let '(ix, on_x) := line_index eqv (ptx p) xs 0 in let '(iy, on_y) := line_index eqv (pty p) ys 0 in
  if on_x && negb on_y then SSurf [nx m * ny m + (nx m + 1) * iy + ix]
  else if on_y && negb on_x then SSurf [nx m * ny m + (nx m + 1) * ny m + (ny m + 1) * ix + iy]
  else if on_x && on_y then corner_surfs m ix iy cell
  else SSurf [].
