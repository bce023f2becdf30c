(** Model of how a MoC ray is cut into segments: src/sweepers/moc/ray.cpp:52-87, src/core/mesh.cpp:315-341 Mesh::trace and
    src/core/core_mesh.cpp:213-227 CoreMesh::get_pinmesh.  The pin meshes, their tracing and the lookup of a pin are those of
    PmModel.v and CoreModel.v; [srt] stands for std::sort by Point2::operator<, [eqp] for Point2::operator==. *)
From Coq Require Import List Bool Reals Arith ZArith.
From Verif Require Import RUtil GeomModel MatModel CoreModel PmModel.
Import ListNotations.
Open Scope R_scope.

(** The pin meshes of src/core/pin_mesh.cpp:31-53. *)
Inductive Geo := GRect (pm : RectPin) | GCyl (pm : CylPin).
(** The points a pin mesh gathers before sorting (src/core/pin_mesh_rect.cpp:110-124, src/core/pin_mesh_cyl.cpp:180-206). *)
Definition pin_points (g : Geo) (a b : Point2) : option (list Point2) :=
  match g with GRect pm => Some (rect_points pm a b) | GCyl pm => cyl_points pm a b end.
(** As above, src/core/pin_mesh_rect.cpp:110-124. *)
Definition pin_find (g : Geo) : Point2 -> Reg := match g with GRect pm => rect_find_reg pm | GCyl pm => cyl_find_reg pm end.
(** reg + first_reg (src/core/pin_mesh_rect.cpp:134, src/core/pin_mesh_cyl.cpp:214). *)
Definition shift (first : nat) (r : Reg) : Reg := match r with RIdx i => RIdx (Z.of_nat first + i) | RAssert => RAssert end.
(** PinMesh::trace (src/core/pin_mesh_rect.cpp:105-137, src/core/pin_mesh_cyl.cpp:177-219). *)
Definition pin_trace (srt : list Point2 -> list Point2) (eqp : Point2 -> Point2 -> bool) (g : Geo) (a b : Point2) (first : nat) : option (list (R * Reg)) :=
  match pin_points g a b with
  | None => None
  | Some pts => Some (map (fun sr => (fst sr, shift first (snd sr))) (trace_result eqp (pin_find g) (srt pts)))
  end.
(** src/core/mesh.cpp:315-341 Mesh::trace. *)
Definition mesh_trace (srt : list Point2 -> list Point2) (eqp : Point2 -> Point2 -> bool) (ls : list Line) (p q : Point2) : list Point2 :=
  unique eqp (srt (p :: q :: trace_points ls {| p1 := p; p2 := q |})).
(** As above, src/core/mesh.cpp:315-341. *)
Definition minus (p c : Point2) : Point2 := {| ptx := ptx p - ptx c; pty := pty p - pty c |}.
(** src/core/core_mesh.cpp:213-227; the direction defaults to one with positive components (src/core/geometry/direction.hpp:46-52).
    The position it also computes is not used by the ray. *)
Definition get_pin (ulp : R -> R -> bool) (P : Plane) (m : Point2) : option (PinMesh * Point2 * nat) :=
  match pl_get_pinmesh ulp P (ptx m) (pty m) 0 true true with Some (pm, cx, cy, first) => Some (pm, {| ptx := cx; pty := cy |}, first) | None => None end.
(** src/sweepers/moc/ray.cpp:66-87: the segments pin by pin; their numbers are cm_nseg. *)
Fixpoint ray_pins (ulp : R -> R -> bool) (P : Plane) (geo : PinMesh -> Geo) (srt : list Point2 -> list Point2) (eqp : Point2 -> Point2 -> bool) (prev : Point2) (ps : list Point2) : option (list (list (R * Reg))) :=
  match ps with
  | [] => Some []
  | p :: r =>
      match get_pin ulp P (midpoint p prev) with
      | None => None
      | Some (pm, c, first) =>
          match pin_trace srt eqp (geo pm) (minus prev c) (minus p c) first with
          | None => None
          | Some s => match ray_pins ulp P geo srt eqp p r with Some t => Some (s :: t) | None => None end
          end
      end
  end.
(** src/sweepers/moc/ray.cpp:56-87: seg_len_ and seg_index_, by pin. *)
Definition ray_segs (ulp : R -> R -> bool) (P : Plane) (geo : PinMesh -> Geo) (srt : list Point2 -> list Point2) (eqp : Point2 -> Point2 -> bool) (cuts : list Point2) : option (list (list (R * Reg))) :=
  match cuts with [] => None | p :: r => ray_pins ulp P geo srt eqp p r end.
