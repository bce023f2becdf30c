(** Model of the transverse leakage of the 2D/3D sweeper: src/sweepers/cmdo/plane_sweeper_2d3d.cpp:241-280 add_tl. *)
From Coq Require Import List Bool Reals Arith ZArith.
From Verif Require Import RUtil ListUtil McModel MeshModel.
Import ListNotations.
Open Scope nat_scope.

(** src/core/plane.hpp:214-260 MacroPlane: the axial planes it spans, its height, and the number of regions of each pin. *)
Record TPl := mkTP { tp_min : nat; tp_max : nat; tp_h : R; tp_pins : list nat }.
(** As above, src/core/plane.hpp:214-260. *)
Definition cell_at (x y z : nat) : Position := {| px := Z.of_nat x; py := Z.of_nat y; pz := Z.of_nat z |}.
(** Lines 254-268: the leakage of one pin of macroplane [iplane] at (x, y); [J] is the current of the group by surface.  The new
    array and the value.  [None] = a read or write out of range or division by a zero height. *)
Definition tl_pin (m : Mesh) (J : Z -> option R) (relax : R) (p : TPl) (iplane x y : nat) (tl : list R) : option (list R * R) :=
  match coarse_surf m (coarse_cell m (cell_at x y (tp_min p))) BOTTOM, coarse_surf m (coarse_cell m (cell_at x y (tp_max p))) TOP with
  | Some down, Some up =>
      match J up, J down, nth_error tl (Z.to_nat (coarse_cell m (cell_at x y iplane))) with
      | Some j_up, Some j_down, Some t =>
          if Reqb (tp_h p) 0 then None
          else let v := (t * (1 - relax) + relax * (j_down - j_up) / tp_h p)%R in
               match set_nth tl (Z.to_nat (coarse_cell m (cell_at x y iplane))) v with Some tl' => Some (tl', v) | None => None end
      | _, _, _ => None
      end
  | _, _ => None
  end.
(** Lines 253-274: the pins of a macroplane.  [pos] is CoreMesh::pin_position in x and y (src/core/core_mesh.cpp:229-234);
    [fsr] the leading elements of tl_fsr set so far (lines 269-272). *)
Fixpoint tl_pins (m : Mesh) (pos : nat -> option (nat * nat)) (J : Z -> option R) (relax : R) (p : TPl) (iplane ipin : nat) (pins : list nat) (tl fsr : list R) : option (list R * list R) :=
  match pins with
  | [] => Some (tl, fsr)
  | n :: r => match pos ipin with
              | None => None
              | Some (x, y) => match tl_pin m J relax p iplane x y tl with
                               | Some (tl', v) => tl_pins m pos J relax p iplane (S ipin) r tl' (fsr ++ repeat v n)
                               | None => None
                               end
              end
  end.
(** Lines 248-276: the macroplanes; the pin index runs on. *)
Fixpoint tl_planes (m : Mesh) (pos : nat -> option (nat * nat)) (J : Z -> option R) (relax : R) (iplane ipin : nat) (ps : list TPl) (tl fsr : list R) : option (list R * list R) :=
  match ps with
  | [] => Some (tl, fsr)
  | p :: r => match tl_pins m pos J relax p iplane ipin (tp_pins p) tl fsr with
              | Some (tl', fsr') => tl_planes m pos J relax (S iplane) (ipin + length (tp_pins p)) r tl' fsr'
              | None => None
              end
  end.
(** Lines 241-280: tl_ of the group and what apply_transverse_leakage is given.  An array of [nreg] regions not filled
    exactly is [None]. *)
Definition add_tl (m : Mesh) (pos : nat -> option (nat * nat)) (J : Z -> option R) (relax : R) (nreg : nat) (ps : list TPl) (tl : list R) : option (list R * list R) :=
  match tl_planes m pos J relax 0 0 ps tl [] with
  | Some (tl', fsr) => if length fsr =? nreg then Some (tl', fsr) else None
  | None => None
  end.
