(** Model of the coarse mesh data a ray records: src/core/mesh.cpp:390-672 and src/sweepers/moc/ray.cpp:22-28, 88-171.
    [eqv] stands for fp_equiv; the cuts are those of RayTrModel.v.  Doubles are exact reals. *)
From Coq Require Import List Bool Reals ZArith.
From Verif Require Import RUtil GeomModel MeshModel CoreModel MocModel CurModel.
Import ListNotations.
Open Scope Z_scope.

(** The octants passed (src/sweepers/moc/ray.cpp:27, 117). *)
Inductive Oct := O1 | O2 | O3 | O4.
(** src/sweepers/moc/ray.cpp:24-28; p2 is above p1. *)
Definition get_octant (p1 p2 : Point2) : Oct := if Rltb (ptx p1) (ptx p2) then O1 else O2.

(** The loops of src/core/mesh.cpp:397-423 and 579-605: the index of the line the value is on, or of the cell it is in. *)
Fixpoint line_index (eqv : R -> R -> bool) (v : R) (vs : list R) (i : Z) : Z * bool :=
  match vs with
  | [] => (i, false)
  | e :: r => if eqv v e then (i, true) else if Rltb v e then (i - 1, false) else line_index eqv v r (i + 1)
  end.
(** src/core/mesh.cpp:425-569: the surfaces crossed, given the results of the loops. *)
Definition norm_of (nx ny : Z) (lx ly : Z * bool) (o : Oct) : list Surface :=
  let '(ix, on_x) := lx in let '(iy, on_y) := ly in
  let west := match o with O1 | O4 => true | _ => false end in   (* comes from the west *)
  let south := match o with O1 | O2 => true | _ => false end in
  if negb on_x && negb on_y then []
  else if xorb on_x on_y then
    if on_x && (ix =? 0) && west then [WEST]
    else if on_x && (ix =? nx) && negb west then [EAST]
    else if on_y && (iy =? 0) && south then [SOUTH]
    else if on_y && (iy =? ny) && negb south then [NORTH]
    else if on_x then [if west then EAST else WEST] else [if south then NORTH else SOUTH]
  else if (0 <? ix) && (ix <? nx) && (0 <? iy) && (iy <? ny) then
    match o with O1 => [EAST; NORTH] | O2 => [WEST; NORTH] | O3 => [WEST; SOUTH] | O4 => [EAST; SOUTH] end
  else if ix =? 0 then match o with O1 => [WEST] | O2 => [NORTH; WEST] | O3 => [SOUTH; WEST] | O4 => [WEST] end
  else if ix =? nx then match o with O1 => [NORTH; EAST] | O2 => [EAST] | O3 => [EAST] | O4 => [SOUTH; EAST] end
  else if iy =? 0 then match o with O1 => [SOUTH] | O2 => [SOUTH] | O3 => [WEST; SOUTH] | O4 => [EAST; SOUTH] end
  else if iy =? ny then match o with O1 => [EAST; NORTH] | O2 => [WEST; NORTH] | O3 => [NORTH] | O4 => [NORTH] end
  else [].
(** src/core/mesh.cpp:390-570 Mesh::coarse_norm_point. *)
Definition norm_point (eqv : R -> R -> bool) (m : Mesh) (xs ys : list R) (p : Point2) (o : Oct) : list Surface :=
  norm_of (nx m) (ny m) (line_index eqv (ptx p) xs 0) (line_index eqv (pty p) ys 0) o.

(** A cell, a failed assertion, an exception.  See src/core/mesh.cpp:572-672. *)
Inductive BOut := BCell (c : Z) | BAssert | BThrow.
(** src/core/mesh.cpp:572-672 Mesh::coarse_boundary_cell; hx_ and hy_ are the last lines. *)
Definition boundary_cell (eqv : R -> R -> bool) (m : Mesh) (xs ys : list R) (p : Point2) (o : Oct) : BOut :=
  let '(ix, on_x) := line_index eqv (ptx p) xs 0 in let '(iy, on_y) := line_index eqv (pty p) ys 0 in
  let down (b : bool) (i : Z) := if b then i - 1 else i in
  if (nx m <? ix) || (ny m <? iy) then BAssert
  else
    let at_ (ix iy : Z) :=
      let cell := coarse_cell m {| px := ix; py := iy; pz := 0 |} in
      if (cell <? 0) || (n_pin m <=? cell) then BThrow else BCell cell in
    if fp_equiv_abs (ptx p) 0 then match o with O1 => at_ ix iy | O4 => at_ ix (down on_y iy) | _ => BAssert end
    else if eqv (ptx p) (last xs 0%R) then match o with O2 => at_ (ix - 1) iy | O3 => at_ (ix - 1) (down on_y iy) | _ => BAssert end
    else if fp_equiv_abs (pty p) 0 then match o with O1 => at_ ix iy | O2 => at_ (down on_x ix) iy | _ => BAssert end
    else if eqv (pty p) (last ys 0%R) then match o with O3 => at_ (down on_x ix) (iy - 1) | O4 => at_ ix (iy - 1) | _ => BAssert end
    else BAssert.

(** One direction (src/sweepers/moc/ray.cpp:93-113 and 118-138): the first cell and surface, and the crossings with the number
    of segments before each.  [None] = an assertion fails, an exception is thrown, or a surface is not found. *)
Definition one_way (eqv : R -> R -> bool) (m : Mesh) (xs ys : list R) (cuts : list Point2) (nsegs : list Z) (o : Oct) : option (Z * Z * list (Z * list Surface)) :=
  match cuts with
  | [] => None
  | p :: r =>
      match boundary_cell eqv m xs ys p o, norm_point eqv m xs ys p o with
      | BCell c, [s] => match coarse_surf m c s with Some k => Some (c, k, combine nsegs (map (fun q => norm_point eqv m xs ys q o) r)) | None => None end
      | _, _ => None
      end
  end.
(** src/sweepers/moc/ray.cpp:88-171. *)
Definition coarse_data (eqv : R -> R -> bool) (m : Mesh) (xs ys : list R) (p1 p2 : Point2) (cuts : list Point2) (nsegs : list Z) : option CRay :=
  let o := get_octant p1 p2 in
  match one_way eqv m xs ys cuts nsegs o, one_way eqv m xs ys (rev cuts) (rev nsegs) (match o with O1 => O3 | _ => O4 end) with
  | Some (cf, sf, fw), Some (cb, sb, bw) =>
      match coarse_records fw bw with
      | Some recs => Some (mkCRay cf cb sf sb (fold_right Z.add 0 nsegs) recs)
      | None => None
      end
  | _, _ => None
  end.
