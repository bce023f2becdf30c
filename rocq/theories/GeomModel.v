(** Model of mesh geometry in exact real arithmetic: areas, volumes and mesh lines of src/core/mesh.*,
    and the intersection routines of src/core/geometry/geom.hpp.  Rounding is not modelled. *)
From Coq Require Import Reals List ZArith Lra Lia Bool.
From Verif Require Import RUtil MeshModel.
Import ListNotations.
Open Scope R_scope.

(** Loops of src/core/mesh.cpp:62-70: dx_vec_[i-1] = x_vec_[i] - x_vec_[i-1]. *)
Fixpoint diffs (l : list R) : list R :=
  match l with
  | a :: (b :: _) as t => (b - a) :: diffs t
  | _ => []
  end.

(** src/core/mesh.cpp:22-86: constructor arguments hx, hy, hz (pin boundaries in each direction). *)
Record GMesh := { xv : list R; yv : list R; zv : list R }.

(** src/core/mesh.cpp:24-29: nx_ = hx.size()-1 etc. *)
Definition dims (g : GMesh) : Mesh :=
  {| nx := Z.of_nat (length (xv g)) - 1; ny := Z.of_nat (length (yv g)) - 1;
     nz := Z.of_nat (length (zv g)) - 1 |}.

(** src/core/mesh.cpp:33-35,62-70: dx_vec_, dy_vec_, dz_vec_. *)
Definition dxv (g : GMesh) := diffs (xv g).
(** As above, src/core/mesh.cpp:33-35,62-70. *)
Definition dyv (g : GMesh) := diffs (yv g).
(** As above, src/core/mesh.cpp:33-35,62-70. *)
Definition dzv (g : GMesh) := diffs (zv g).

(** Vector element access; [None] is an out-of-range read.  See src/core/mesh.hpp:299-318. *)
Definition rd (l : list R) (i : Z) : option R :=
  if (i <? 0)%Z then None else nth_error l (Z.to_nat i).

(** As above, src/core/mesh.cpp:33-35,62-70. *)
Definition omul (a b : option R) : option R :=
  match a, b with Some x, Some y => Some (x * y) | _, _ => None end.

(** src/core/mesh.hpp:299-318 cell_thickness. *)
Definition cell_thickness (g : GMesh) (cell : Z) (n : Normal) : option R :=
  let pos := coarse_position (dims g) cell in
  match n with
  | X_NORM => rd (dxv g) (px pos)
  | Y_NORM => rd (dyv g) (py pos)
  | Z_NORM => rd (dzv g) (pz pos)
  end.

(** src/core/mesh.hpp:703-731 coarse_area(cell, surf). *)
Definition coarse_area_cell (g : GMesh) (cell : Z) (s : Surface) : option R :=
  let pos := coarse_position (dims g) cell in
  match s with
  | EAST => omul (rd (dyv g) (py pos)) (rd (dzv g) (pz pos))
  | WEST => omul (rd (dyv g) (py pos)) (rd (dzv g) (pz pos))
  | NORTH => omul (rd (dxv g) (px pos)) (rd (dzv g) (pz pos))
  | SOUTH => omul (rd (dxv g) (px pos)) (rd (dzv g) (pz pos))
  | TOP => omul (rd (dxv g) (px pos)) (rd (dyv g) (py pos))
  | BOTTOM => omul (rd (dxv g) (px pos)) (rd (dyv g) (py pos))
  end.

(** src/core/mesh.hpp:736-771 coarse_area(surf). *)
Definition coarse_area_surf (g : GMesh) (surf : Z) : option R :=
  let m := dims g in
  let iz := (surf / n_surf_plane m)%Z in
  let s1 := (surf - iz * n_surf_plane m)%Z in
  match surface_normal m surf with
  | X_NORM =>
      let iy := ((s1 - nx m * ny m) / (nx m + 1))%Z in
      omul (rd (dyv g) iy) (rd (dzv g) iz)
  | Y_NORM =>
      let s2 := (s1 - (nx m * ny m + (nx m + 1) * ny m))%Z in
      let ix := (s2 / (ny m + 1))%Z in
      omul (rd (dxv g) ix) (rd (dzv g) iz)
  | Z_NORM =>
      let iy := (s1 / nx m)%Z in
      let ix := (s1 mod nx m)%Z in
      omul (rd (dxv g) ix) (rd (dyv g) iy)
  end.

(** src/core/mesh.cpp:72-75: the entry written into coarse_vol_[i]. *)
Definition cell_volume (g : GMesh) (i : Z) : option R :=
  let pos := coarse_position (dims g) i in
  omul (omul (rd (dxv g) (px pos)) (rd (dyv g) (py pos))) (rd (dzv g) (pz pos)).

(** src/core/mesh.cpp:72-75: the whole vector coarse_vol_ ([None] entries would be out-of-range reads). *)
Definition coarse_volume (g : GMesh) : list (option R) :=
  map (cell_volume g) (zrange (n_pin (dims g))).

(** src/core/geometry/points.hpp struct Point2 (the [ok] flag is represented by option results).  See src/core/geometry/points.hpp:24. *)
Record Point2 := { ptx : R; pty : R }.
(** src/core/geometry/line.hpp struct Line. *)
Record Line := { p1 : Point2; p2 : Point2 }.

(** [cbegin()+1 .. cend()-1]: the interior boundaries.  See src/core/mesh.cpp:47-55. *)
Definition interior (l : list R) : list R := removelast (tl l).

(** src/core/mesh.cpp:47-55 (and src/core/core_mesh.cpp:124-129): lines_, given the domain extents.  The
    vertical lines end at y = hx. *)
Definition mesh_lines (xs ys : list R) (hx : R) : list Line :=
  map (fun xi => {| p1 := {| ptx := xi; pty := 0 |}; p2 := {| ptx := xi; pty := hx |} |}) (interior xs) ++
  map (fun yi => {| p1 := {| ptx := 0; pty := yi |}; p2 := {| ptx := hx; pty := yi |} |}) (interior ys).

(** src/core/mesh.cpp:47-55 for a constructed mesh: hx_ = x_vec_.back(). *)
Definition lines (g : GMesh) : list Line := mesh_lines (xv g) (yv g) (last (xv g) 0).

(** src/core/geometry/geom.hpp:111-147 Intersect(Line, Line, Point2&).  [fabs(d) < 0.0] is never true, so
    parallel lines reach the division; IEEE division by zero gives infinities or NaN, for which the range
    test fails, hence [None] (return value 0) when d = 0. *)
Definition intersect_ll (l1 l2 : Line) : option Point2 :=
  let u1 := ptx (p2 l1) - ptx (p1 l1) in
  let u2 := pty (p2 l1) - pty (p1 l1) in
  let v1 := ptx (p2 l2) - ptx (p1 l2) in
  let v2 := pty (p2 l2) - pty (p1 l2) in
  let w1 := ptx (p1 l1) - ptx (p1 l2) in
  let w2 := pty (p1 l1) - pty (p1 l2) in
  let d := u1 * v2 - u2 * v1 in
  let s := v1 * w2 - v2 * w1 in
  let t := u1 * w2 - u2 * w1 in
  if Reqb d 0 then None
  else
    let s := s / d in
    let t := t / d in
    if Rleb 0 s && Rleb s 1 && Rleb 0 t && Rleb t 1 then
      Some {| ptx := ptx (p1 l1) + s * u1; pty := pty (p1 l1) + s * u2 |}
    else None.

(** src/core/mesh.cpp:322-347 Mesh::trace, the intersection points gathered before sorting. *)
Definition trace_points (ls : list Line) (l : Line) : list Point2 :=
  flat_map (fun li => match intersect_ll li l with Some p => [p] | None => [] end) ls.

(** src/core/geometry/circle.hpp struct Circle.  See src/core/geometry/circle.hpp:25. *)
Record Circle := { cc : Point2; cr : R }.

(** src/core/geometry/geom.hpp:43-109 Intersect(Line, Circle, p1, p2): the points returned.  The
    [assert(false)] branch (only the far root lies on the segment, lines 87-93) is the outcome [CAssert]
    (with NDEBUG it returns that single point).  [fp_equiv_rel(discriminant, 0.0)] computes
    |d|/|d| < REAL_FUZZ, which is false for every d (NaN for d = 0), so the tangent branch is dead.
    A degenerate segment (a = 0) divides by zero: [CUndef]. *)
Inductive circ_hits := CNone | COne (p : Point2) | CTwo (p q : Point2) | CAssert (p : Point2) | CUndef.

(** src/core/geometry/geom.hpp:43-109. *)
Definition intersect_lc (l : Line) (c0 : Circle) : circ_hits :=
  let u1 := ptx (p2 l) - ptx (p1 l) in
  let u2 := pty (p2 l) - pty (p1 l) in
  let w1 := ptx (p1 l) - ptx (cc c0) in
  let w2 := pty (p1 l) - pty (cc c0) in
  let b := w1 * u1 + w2 * u2 in
  let c := w1 * w1 + w2 * w2 - cr c0 * cr c0 in
  if Rltb 0 c && Rltb 0 b then CNone else
  let a := u1 * u1 + u2 * u2 in
  let disc := b * b - a * c in
  if Rltb disc 0 then CNone else
  if Reqb a 0 then CUndef else
  let t1 := (- b - sqrt disc) * (1 / a) in
  let t2 := (- b + sqrt disc) * (1 / a) in
  let pt t := {| ptx := ptx (p1 l) + u1 * t; pty := pty (p1 l) + u2 * t |} in
  match Rltb 0 t1 && Rltb t1 1, Rltb 0 t2 && Rltb t2 1 with
  | true, true => CTwo (pt t1) (pt t2)
  | true, false => COne (pt t1)
  | false, true => CAssert (pt t2)
  | false, false => CNone
  end.
