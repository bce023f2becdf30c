(** Model of src/core/core_mesh.hpp:311-337 CoreMesh::region_at_point. *)
From Coq Require Import Reals ZArith List Bool.
From Verif Require Import RUtil GeomModel MatModel CoreModel AsmModel PmModel RayTrModel HistModel.
Import ListNotations.
Local Open Scope R_scope.

(** Outcomes: a region index, "Ambiguous plane index", a failed assertion, a read out of range.  See src/core/core_mesh.hpp:320-336. *)
Inductive RegPt := RpVal (i : Z) | RpThrow | RpAssert | RpUB.
(** src/core/core_mesh.hpp:320-336 CoreMesh::region_at_point; [geo] gives the shapes of the pin meshes.  The plane is looked up
    without a direction (src/core/mesh.hpp:837), the pin with the default direction, whose components are positive
    (src/core/geometry/direction.hpp:46-52).  Plane::get_pinmesh (src/core/plane.cpp) takes the point by reference and leaves
    the centre of the pin in it; find_reg is called with that. *)
Definition region_at_point (ulp : R -> R -> bool) (geo : PinMesh -> Geo) (M : CoreMesh) (x y z : R) : RegPt :=
  match plane_index (fp_equiv ulp) (cm_zv M) (cm_nz M) z 0 with
  | PlThrow => RpThrow
  | PlUB => RpUB
  | PlIx iz =>
      match zat (sc_uid (cm_scan M)) iz, zat (sc_freg (cm_scan M)) iz with
      | Some u, Some f =>
          match nth_error (sc_planes (cm_scan M)) u with
          | None => RpUB
          | Some P =>
              match pl_get_pinmesh ulp P x y f true true with
              | None => RpUB
              | Some (pm, mx, my, first) =>
                  match shift first (pin_find (geo pm) {| ptx := mx; pty := my |}) with RIdx i => RpVal i | RAssert => RpAssert end
              end
          end
      | _, _ => RpUB
      end
  end.
