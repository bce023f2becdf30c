(** Model of ray layout for the method of characteristics.  src/core/geometry/box.{hpp,cpp},
    src/sweepers/moc/ray_data.cpp, src/util/rational_approximation.hpp.  Doubles are exact reals; [ulp] stands for the
    bit-level comparison used by fp_equiv. *)
From Coq Require Import List Lia Bool Reals ZArith Lra.
From Verif Require Import RUtil MeshModel GeomModel AngModel McModel StdAlg MatModel CoreModel.
Import ListNotations.
Open Scope R_scope.

(** src/core/geometry/box.cpp:53-71: one x-normal plane at [x]; the state is (d_min, p_out). *)
Definition try_x (hy x px py ox oy : R) (st : R * Point2) : R * Point2 :=
  let d := (x - px) / ox in let y := py + oy * d in
  if Rltb REAL_FUZZ (Rabs d) && Rltb d (fst st) && Rltb 0 y && Rltb y hy then (Rabs d, {| ptx := x; pty := y |}) else st.
(** src/core/geometry/box.cpp:74-92: one y-normal plane at [y]. *)
Definition try_y (hx y px py ox oy : R) (st : R * Point2) : R * Point2 :=
  let d := (y - py) / oy in let x := px + ox * d in
  if Rltb REAL_FUZZ (Rabs d) && Rltb d (fst st) && Rltb 0 x && Rltb x hx then (Rabs d, {| ptx := x; pty := y |}) else st.

(** src/core/geometry/box.cpp:39-95 Box::intersect, for the box (0,0)-(hx,hy).  Without a hit the default point (0,0) of
    src/core/geometry/points.hpp is returned. *)
Definition box_intersect (hx hy : R) (p : Point2) (alpha : R) : Point2 :=
  let ox := cos alpha in let oy := sin alpha in let px := ptx p in let py := pty p in
  snd (try_y hx hy px py ox oy (try_y hx 0 px py ox oy (try_x hy hx px py ox oy (try_x hy 0 px py ox oy (10 ^ 12, {| ptx := 0; pty := 0 |}))))).

(** Conversion of a double to int: truncation towards zero (values beyond the range of int are not considered).  See src/sweepers/moc/ray_data.cpp:254-267 and 284-297. *)
Definition trunc (r : R) : Z := if Rltb r 0 then (- Int_part (- r))%Z else Int_part r.

(** src/sweepers/moc/ray_data.cpp:254-267 and 284-297: the boundary slot at the end of a ray; [None] = throws. *)
Definition exit_slot (ulp : R -> R -> bool) (hx hy space_x space_y : R) (Ny : Z) (p2 : Point2) : option Z :=
  if fp_equiv ulp (ptx p2) hx then Some (trunc (pty p2 / space_y))
  else if fp_equiv ulp (pty p2) hy then Some (trunc (ptx p2 / space_x + IZR Ny))
  else if fp_equiv ulp (ptx p2) 0 then Some (trunc (pty p2 / space_y))
  else None.

(** src/sweepers/moc/ray.hpp: end points and boundary slots of a ray.  See src/sweepers/moc/ray.hpp:210-215. *)
Record RayEnds := mkRE { re_p1 : Point2; re_p2 : Point2; re_in : Z; re_out : Z }.

(** src/sweepers/moc/ray_data.cpp:224-225. *)
Definition space_x (space alpha : R) : R := Rabs (space / sin alpha).
(** As above, src/sweepers/moc/ray_data.cpp:224-225. *)
Definition space_y (space alpha : R) : R := Rabs (space / cos alpha).

(** src/sweepers/moc/ray_data.cpp:233-275, ray [iray] entering through an x-normal face. *)
Definition ray_x (ulp : R -> R -> bool) (hx hy : R) (Ny : Z) (space : R) (d : Dir) (iray : Z) : option RayEnds :=
  let a := alpha d in
  let p1 := {| ptx := if Rltb 0 (ox d) then 0 else hx; pty := (0.5 + IZR iray) * space_y space a |} in
  let p2 := box_intersect hx hy p1 a in
  option_map (mkRE p1 p2 iray) (exit_slot ulp hx hy (space_x space a) (space_y space a) Ny p2).
(** src/sweepers/moc/ray_data.cpp:278-304, ray [iray] entering through the south face. *)
Definition ray_y (ulp : R -> R -> bool) (hx hy : R) (Ny : Z) (space : R) (d : Dir) (iray : Z) : option RayEnds :=
  let a := alpha d in
  let p1 := {| ptx := (0.5 + IZR iray) * space_x space a; pty := 0 |} in
  let p2 := box_intersect hx hy p1 a in
  option_map (mkRE p1 p2 (iray + Ny)%Z) (exit_slot ulp hx hy (space_x space a) (space_y space a) Ny p2).

(** src/sweepers/moc/ray_data.cpp:230-304: the rays of one angle, in order; [None] = throws. *)
Definition angle_rays (ulp : R -> R -> bool) (hx hy : R) (Nx Ny : Z) (space : R) (d : Dir) : option (list RayEnds) :=
  all_some (map (ray_x ulp hx hy Ny space d) (zrange Ny) ++ map (ray_y ulp hx hy Ny space d) (zrange Nx)).

(** src/sweepers/moc/ray_data.cpp:183-188: the modified azimuthal angle and ray spacing. *)
Definition mod_alpha (hx hy : R) (Nx Ny : Z) : R := atan (hy * IZR Nx / (hx * IZR Ny)).
(** As above, src/sweepers/moc/ray_data.cpp:183-188. *)
Definition mod_space (hx hy : R) (Nx Ny : Z) : R := cos (mod_alpha hx hy Nx Ny) * hy / IZR Ny.
(** src/core/geometry/direction.hpp:86-90 modify_alpha, and octant 2 by src/core/angular_quadrature.cpp:190-197. *)
Definition mod_dir (hx hy : R) (Nx Ny : Z) (theta : R) : Dir := dir_angles (mod_alpha hx hy Nx Ny) theta.
