(** Model of homogenised cross-section meshes that share their data: src/core/xs_mesh_homogenized.{hpp,cpp} with
    src/core/xs_mesh_region.hpp and the mesh CMFD keeps (src/core/cmfd.cpp:70).  Doubles are exact reals. *)
From Coq Require Import List Bool Reals ZArith Arith.
From Verif Require Import RUtil ListUtil McModel ScatModel MatModel XsModel.
Import ListNotations.
Open Scope nat_scope.

(** src/core/xs_mesh.hpp:151-155: a row of each of the arrays.  Copies of a mesh refer to the same rows: the copy constructor of
    blitz::Array makes a reference, and the regions hold pointers (xs_mesh_region.hpp:231-235). *)
Record XRow := mkRw { rw_tr : list R; rw_nf : list R; rw_f : list R; rw_ch : list R; rw_rm : list R }.
(** What a mesh owns itself: the lists of regions and the scattering matrices (xs_mesh_region.hpp:225, 238, members of the
    copied vector regions_), the state (xs_mesh.hpp:166) and whether a flux is associated (xs_mesh_homogenized.hpp:100). *)
Record View := mkVw { vw_regs : list (list nat); vw_sc : list SM; vw_state : Z; vw_flux : bool }.

(** xs_mesh_region.hpp:153-165 update for a homogenised set: the shared row and the region's own matrix.  [None] = read out of
    range.  convert_vvec (scattering_matrix.cpp:25-47) accepts the square table of homogenize_region_flux. *)
Definition new_row (n : nat) (h : HXS) : option (XRow * SM) :=
  match compress n (x_sc h) with
  | Some s =>
      let l f := map f (seq 0 n) in
      match removal (l (x_tr h)) s 0 n with
      | Some rm => Some (mkRw (l (x_tr h)) (l (x_nf h)) (l (x_f h)) (l (x_ch h)) rm, s)
      | None => None
      end
  | None => None
  end.
(** xs_mesh_homogenized.cpp:185-194: every pin in turn; [pins] are the pins of all macroplanes with their regions' areas,
    fluxes and materials.  A pin without flux divides by zero: [None]. *)
Fixpoint new_rows (n : nat) (pins : list (list HReg)) : option (list (XRow * SM)) :=
  match pins with
  | [] => Some []
  | l :: r =>
      match homogenize_flux n l with
      | Some h => match new_row n h, new_rows n r with Some x, Some xs => Some (x :: xs) | _, _ => None end
      | None => None
      end
  end.
(** xs_mesh_homogenized.cpp:176-197 XSMeshHomogenized::update. *)
Definition update_mesh (n : nat) (pins : list (list HReg)) (s : list XRow * View) : option (list XRow * View) :=
  let '(rows, v) := s in
  if vw_flux v then
    match new_rows n pins with
    | Some xs => Some (map fst xs, mkVw (vw_regs v) (map snd xs) (vw_state v + 1) true)
    | None => None
    end
  else Some s.
(** xs_mesh_homogenized.cpp:139-171: a copy in which region [ixsreg] is cell ipin of plane iz of the macroplane mesh (Mesh::coarse_cell of
    pin_position(ipin) at iz), [np] macroplanes of [nxy] pins.  Lines 161-166 write the same cells again. *)
Definition copy_mesh (cell : nat -> nat) (nxy np : nat) (v : View) : View :=
  mkVw (flat_map (fun iz => map (fun ipin => [cell ipin + nxy * iz]) (seq 0 nxy)) (seq 0 np)) (map copy (vw_sc v)) (vw_state v) (vw_flux v).

(** Two meshes on the same rows: the one given and the copy.  See src/core/xs_mesh_homogenized.cpp:176-197. *)
Record Two := mkTwo { w_rows : list XRow; w_a : View; w_b : View }.
(** One of them is updated with the flux of the moment.  See src/core/xs_mesh_homogenized.cpp:176-197. *)
Definition step (n : nat) (o : bool * list (list HReg)) (w : Two) : option Two :=
  let '(first, pins) := o in
  if first then match update_mesh n pins (w_rows w, w_a w) with Some (r, v) => Some (mkTwo r v (w_b w)) | None => None end
  else match update_mesh n pins (w_rows w, w_b w) with Some (r, v) => Some (mkTwo r (w_a w) v) | None => None end.
(** As above, src/core/xs_mesh_homogenized.cpp:176-197. *)
Fixpoint steps (n : nat) (os : list (bool * list (list HReg))) (w : Two) : option Two :=
  match os with [] => Some w | o :: r => match step n o w with Some w' => steps n r w' | None => None end end.
(** What an ExpandedXS made for a mesh sees (xs_mesh.hpp:215-221, 268-273): its regions with the rows' transport cross sections, and its state. *)
Definition as_expanded (rows : list XRow) (v : View) (arr : list R) (g seen : Z) : XState :=
  mkXS (combine (vw_regs v) (map (fun r g => nth g (rw_tr r) 0%R) rows)) (vw_state v) arr g seen.
