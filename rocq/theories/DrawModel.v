(** Model of the drawing of the geometry: src/auxiliary/geometry_output.cpp:29-119 and the draw functions of the pin meshes.
    The script written is the list of the drawing commands it executes.  [num] is a number after it has been printed and read back
    (the stream keeps six digits).  Fixed text, the drawing of rays (switched off in the script) and the transformation to the page
    are left out; doubles are exact reals. *)
From Coq Require Import List Bool Reals ZArith.
From Verif Require Import RUtil GeomModel PmModel CoreModel AsmModel RayTrModel.
Import ListNotations.
Open Scope R_scope.

(** The drawing commands of the script (src/auxiliary/geometry_output.cpp:84-106). *)
Inductive Cmd := Translate (x y : R) | MoveTo (x y : R) | LineTo (x y : R) | Arc (x y r : R) | ClosePath | Stroke.
(** The script; an exception; undefined behaviour (src/auxiliary/geometry_output.cpp:31-119). *)
Inductive DOut := DScript (file : nat) (l : list Cmd) | DThrow | DUndef.

Section Draw.
Variable num : R -> R.
(** src/auxiliary/geometry_output.cpp:77-88: the lines of the mesh, printed into a list the script goes through. *)
Definition draw_lines (l : list Line) : list Cmd := flat_map (fun a => [MoveTo (num (ptx (p1 a))) (num (pty (p1 a))); LineTo (num (ptx (p2 a))) (num (pty (p2 a)))]) l.
(** src/core/pin_mesh_cyl.cpp:376-380 and src/core/pin_mesh_rect.cpp:215-219. *)
Definition pin_lines (l : list Line) : list Cmd := flat_map (fun a => [MoveTo (num (ptx (p1 a))) (num (pty (p1 a))); LineTo (num (ptx (p2 a))) (num (pty (p2 a))); ClosePath]) l.
(** src/core/pin_mesh_cyl.cpp:365-383 and src/core/pin_mesh_rect.cpp:211-223; the circles are about the origin
    (src/core/pin_mesh_cyl.cpp:130-134). *)
Definition draw_pin (g : Geo) : list Cmd :=
  match g with
  | GCyl pm => MoveTo 0 0 :: map (fun r => Arc (num 0) (num 0) (num r)) (cp_radii pm) ++ pin_lines (cp_lines pm) ++ [Stroke]
  | GRect pm => pin_lines (rp_lines pm) ++ [Stroke]
  end.
(** src/auxiliary/geometry_output.cpp:93-107: the pins of the plane from number [ipin] on. *)
Fixpoint draw_pins (geo : PinMesh -> Geo) (M : CoreMesh) (pins : list Pin) (ipin : nat) : option (list Cmd) :=
  match pins with
  | [] => Some []
  | p :: r =>
      match cm_pin_origin M ipin, draw_pins geo M r (S ipin) with
      | Some (x, y), Some l => Some (Translate (num x) (num y) :: draw_pin (geo (pin_mesh p)) ++ Translate (num (- x)) (num (- y)) :: l)
      | _, _ => None
      end
  end.
(** src/core/core_mesh.hpp:230-242: the pins of a plane; [None] = the iterators leave the array. *)
Definition plane_pins (M : CoreMesh) (plane : nat) : option (list Pin) :=
  let per := (cm_nx M * cm_ny M)%nat in
  if (per * (plane + 1) <=? length (sc_pins (cm_scan M)))%nat then Some (firstn per (skipn (per * plane) (sc_pins (cm_scan M)))) else None.
(** src/auxiliary/geometry_output.cpp:29-119 output_geometry.  [file] and [plane] are the attributes if they are there; files are named by
    numbers, [geom_py] being the default. *)
Definition output_geometry (geom_py : nat) (geo : PinMesh -> Geo) (M : CoreMesh) (node : bool) (file : option nat) (plane : option Z) : DOut :=
  if negb node then DThrow
  else
    let f := match file with Some f => f | None => geom_py end in
    let p := match plane with Some p => p | None => 0%Z end in
    if ((p <? 0) || (Z.of_nat (cm_nz M) <=? p))%Z then DThrow
    else match plane_pins M (Z.to_nat p) with
         | None => DUndef
         | Some pins =>
             match draw_pins geo M pins 0 with
             | None => DUndef
             | Some l => DScript f (draw_lines (mesh_lines (cm_xv M) (cm_yv M) (cm_hx M)) ++ l)
             end
         end.
End Draw.
