(** Model of the CMFD solver: src/core/cmfd.cpp, src/core/mesh.hpp (areas, thicknesses, volumes).
    Real arithmetic is exact.  Arrays are total maps from index to value; every index used is a cell, surface or plane of
    the mesh (C06, C07, C12) unless it comes out of [coarse_surf], whose failure is kept.  One energy group at a time. *)
From Coq Require Import List Bool Reals ZArith.
From Verif Require Import RUtil MeshModel BcModel ExpModel SnModel.
Import ListNotations.
Open Scope Z_scope.

(** Outcomes: a value, an exception, a read outside an array, or a value that is not a finite number.  See src/core/cmfd.cpp:344-354. *)
Inductive COut (A : Type) := CVal (a : A) | CExc | COob | CNaN.
Arguments CVal {A}. Arguments CExc {A}. Arguments COob {A}. Arguments CNaN {A}.
(** As above, src/core/cmfd.cpp:344-354. *)
Definition cbind {A B} (o : COut A) (f : A -> COut B) : COut B := match o with CVal a => f a | CExc => CExc | COob => COob | CNaN => CNaN end.
(** As above, src/core/cmfd.cpp:344-354. *)
Definition cfin {A} (o : option A) : COut A := match o with Some a => CVal a | None => CNaN end.
(** As above, src/core/cmfd.cpp:344-354. *)
Definition cidx {A} (o : option A) : COut A := match o with Some a => CVal a | None => COob end.

(** What setup_solve reads for one group.  [cm_tr], [cm_rm]: transport and removal cross sections by cell (cmfd.cpp:344-354);
    [cm_cur], [cm_sf]: current_1g_ and surface_flux by surface; [cm_bc]: bc_ of the mesh by side; [cm_rad], [cm_ax]:
    has_radial_data and has_axial_data. *)
Record CmEnv := mkCM { cm_m : Mesh; cm_dx : Z -> R; cm_dy : Z -> R; cm_dz : Z -> R; cm_tr : Z -> R; cm_rm : Z -> R; cm_flux : Z -> R;
  cm_cur : Z -> R; cm_sf : Z -> R; cm_bc : Surface -> Boundary; cm_rad : bool; cm_ax : bool }.

(** src/core/mesh.hpp:299-320 cell_thickness. *)
Definition cell_thickness (e : CmEnv) (cell : Z) (n : Normal) : R :=
  let p := coarse_position (cm_m e) cell in
  match n with X_NORM => cm_dx e (px p) | Y_NORM => cm_dy e (py p) | Z_NORM => cm_dz e (pz p) end.
(** src/core/mesh.cpp:66-69 coarse_vol_. *)
Definition coarse_volume (e : CmEnv) (cell : Z) : R :=
  let p := coarse_position (cm_m e) cell in (cm_dx e (px p) * cm_dy e (py p) * cm_dz e (pz p))%R.
(** src/core/mesh.hpp:703-731 coarse_area(cell, surf). *)
Definition coarse_area (e : CmEnv) (cell : Z) (s : Surface) : R :=
  let p := coarse_position (cm_m e) cell in
  match s with
  | EAST | WEST => (cm_dy e (py p) * cm_dz e (pz p))%R
  | NORTH | SOUTH => (cm_dx e (px p) * cm_dz e (pz p))%R
  | TOP | BOTTOM => (cm_dx e (px p) * cm_dy e (py p))%R
  end.
(** src/core/mesh.hpp:159-171 boundary_array: sides 0 (low) and 1 (high) by normal. *)
Definition side_low (n : Normal) : Surface := match n with X_NORM => WEST | Y_NORM => SOUTH | Z_NORM => BOTTOM end.
(** As above, src/core/mesh.hpp:159-171. *)
Definition side_high (n : Normal) : Surface := match n with X_NORM => EAST | Y_NORM => NORTH | Z_NORM => TOP end.

(** cmfd.cpp:348: diffusion coefficient. *)
Definition d_coeff (e : CmEnv) (cell : Z) : option R := rdiv 1 (3 * cm_tr e cell)%R.
(** cmfd.cpp:423-455: diffusivity on one side of a surface; [side] gives the boundary condition if there is no cell. *)
Definition diffusivity (e : CmEnv) (n : Normal) (cell : Z) (side : Surface) : COut R :=
  if -1 <? cell then cbind (cfin (d_coeff e cell)) (fun d => cfin (rdiv d (cell_thickness e cell n)))
  else match cm_bc e side with
       | REFLECT => CVal 0%R
       | VACUUM => CVal (1 / 4)%R
       | _ => CExc
       end.
(** The four coefficients of a surface; s_hat may fail to be finite without further effect on the matrix.  See src/core/cmfd.cpp:480-485, 576-579. *)
Record Coef := mkCoef { c_dt : R; c_st : R; c_dh : R; c_sh : option R }.
(** cmfd.cpp:480-485, 576-579: fluxes left and right of a surface. *)
Definition flux_at (f : Z -> R) (cell : Z) : R := if 0 <=? cell then f cell else 0%R.
(** cmfd.cpp:419-500, the body of the loop over surfaces. *)
Definition surf_coef (e : CmEnv) (is : Z) : COut Coef :=
  let '(c1, c2) := coarse_neigh_cells (cm_m e) is in
  let n := surface_normal (cm_m e) is in
  cbind (diffusivity e n c1 (side_low n)) (fun d1 =>
  cbind (diffusivity e n c2 (side_high n)) (fun d2 =>
  cbind (cfin (rdiv (2 * d1 * d2) (d1 + d2))) (fun dt =>
  cbind (cfin (if Rltb 0 d1 then rdiv d1 (d1 + d2) else rdiv d2 (d1 + d2))) (fun st =>
  let have := match n with Z_NORM => cm_ax e | _ => cm_rad e end in
  let fl := flux_at (cm_flux e) c1 in
  let fr := flux_at (cm_flux e) c2 in
  CVal (if have then
    mkCoef dt st (match rdiv (cm_cur e is + dt * (fr - fl)) (fl + fr) with Some v => v | None => 0 end)
      (if 0 <=? c1 then rdiv (cm_sf e is - st * fl - (1 - st) * fr) (fl + fr) else rdiv (cm_sf e is - st * fr) fr)
  else mkCoef dt st 0 (Some 0%R)))%R))).

(** cmfd.cpp:518-522, 534-538: d_hat with its sign for a side of a cell. *)
Definition signed (s : Surface) (d : R) : R := match s with WEST | SOUTH | BOTTOM => (- d)%R | _ => d end.
(** cmfd.cpp:510-526: the diagonal element; [dt], [dh] are the arrays of the group. *)
Fixpoint diag_sum (e : CmEnv) (dt dh : Z -> R) (i : Z) (l : list Surface) (v : R) : COut R :=
  match l with
  | [] => CVal v
  | s :: r => cbind (cidx (coarse_surf (cm_m e) i s)) (fun k => diag_sum e dt dh i r (v + coarse_area e i s * (dt k + signed s (dh k)))%R)
  end.
(** As above, src/core/cmfd.cpp:510-526. *)
Definition diag (e : CmEnv) (dt dh : Z -> R) (i : Z) : COut R := diag_sum e dt dh i AllSurfaces (coarse_volume e i * cm_rm e i)%R.
(** cmfd.cpp:527-542: an off-diagonal element. *)
Definition off_diag (e : CmEnv) (dt dh : Z -> R) (i j : Z) : COut R :=
  match coarse_interface (cm_m e) i j with
  | Found k s => CVal (coarse_area e i s * (signed s (dh k) - dt k))%R
  | NotNeighbors => CExc
  | IfaceUB => COob
  end.
(** cmfd.cpp:98-110: positions (i, j) that the matrix stores. *)
Definition in_struct (m : Mesh) (i j : Z) : bool :=
  (i =? j) || existsb (fun d => coarse_neighbor m i d =? j) AllSurfaces || existsb (fun d => coarse_neighbor m j d =? i) AllSurfaces.
(** As above, src/core/cmfd.cpp:98-110. *)
Definition entry (e : CmEnv) (dt dh : Z -> R) (i j : Z) : COut R := if i =? j then diag e dt dh i else off_diag e dt dh i j.
(** cmfd.cpp:663 (m_[group] * x_) for row i: the stored elements of the row times the vector. *)
Fixpoint row_apply (e : CmEnv) (dt dh : Z -> R) (i : Z) (x : Z -> R) (cols : list Z) : COut R :=
  match cols with
  | [] => CVal 0%R
  | j :: r => cbind (if in_struct (cm_m e) i j then cbind (entry e dt dh i j) (fun v => CVal (v * x j)%R) else CVal 0%R) (fun a =>
              cbind (row_apply e dt dh i x r) (fun b => CVal (a + b)%R))
  end.
(** As above, src/core/cmfd.cpp:663. *)
Definition mat_row (e : CmEnv) (dt dh : Z -> R) (x : Z -> R) (i : Z) : COut R := row_apply e dt dh i x (zrange (n_pin (cm_m e))).

(** cmfd.cpp:575-584: the current store_currents computes at a surface from the fluxes [x]. *)
Definition cm_current (m : Mesh) (dt dh x : Z -> R) (is : Z) : R :=
  let '(c1, c2) := coarse_neigh_cells m is in
  let fl := flux_at x c1 in let fr := flux_at x c2 in
  (- dt is * (fr - fl) + dh is * (fr + fl))%R.
(** cmfd.cpp:588-596: the surface flux. *)
Definition cm_surface_flux (m : Mesh) (st sh x : Z -> R) (is : Z) : R :=
  let '(c1, c2) := coarse_neigh_cells m is in
  let fl := flux_at x c1 in let fr := flux_at x c2 in
  if 0 <=? c1 then (st is * fl + (1 - st is) * fr + sh is * (fl + fr))%R else (st is * fr + sh is * (fl + fr))%R.
(** cmfd.cpp:598-599: partial currents. *)
Definition cm_partial (sflux current : R) : R * R := ((1 / 4) * sflux + (1 / 2) * current, (1 / 4) * sflux - (1 / 2) * current)%R.

(** ** Projection between the fine axial mesh [fm] and the CMFD mesh [cm] (cmfd.cpp:366-415 and 602-635). *)
(** Range assignments of arrays.  See src/core/cmfd.cpp:366-412. *)
Definition in_range (a n k : Z) : bool := (a <=? k) && (k <? a + n).
(** As above, src/core/cmfd.cpp:366-415 and 602-635. *)
Definition add_range (dst : Z -> R) (d n : Z) (c : R) (s : Z) (src : Z -> R) : Z -> R := fun k => if in_range d n k then (dst k + c * src (s + (k - d))%Z)%R else dst k.
(** As above, src/core/cmfd.cpp:366-415 and 602-635. *)
Definition div_range (dst : Z -> R) (d n : Z) (c : R) : Z -> R := fun k => if in_range d n k then (dst k / c)%R else dst k.
(** As above, src/core/cmfd.cpp:366-415 and 602-635. *)
Definition set_range (dst : Z -> R) (d n s : Z) (src : Z -> R) : Z -> R := fun k => if in_range d n k then src (s + (k - d)) else dst k.
(** Lengths of the ranges plane_surf_xy_begin .. plane_surf_end and plane_surf_begin .. plane_surf_xy_begin.  See src/core/mesh.hpp:404-412. *)
Definition n_xy (m : Mesh) : Z := n_surf_plane m - nx m * ny m.
(** As above, src/core/mesh.hpp:404-412. *)
Definition n_zs (m : Mesh) : Z := nx m * ny m.
(** cmfd.cpp:366-412 (n_macroplanes != nz): [mp] is macroplane_index, [dzf], [dzc] the plane heights of the two meshes. *)
Definition homog_radial (fm cm : Mesh) (mp : Z -> Z) (dzf : Z -> R) (cur : Z -> R) (planes : list Z) (a : Z -> R) : Z -> R :=
  fold_left (fun a iz => add_range a (plane_surf_xy_begin cm (mp iz)) (n_xy cm) (dzf iz) (plane_surf_xy_begin fm iz) cur) planes a.
(** As above, src/core/cmfd.cpp:366-412. *)
Definition homog_norm (cm : Mesh) (dzc : Z -> R) (planes : list Z) (a : Z -> R) : Z -> R :=
  fold_left (fun a iz => div_range a (plane_surf_xy_begin cm iz) (n_xy cm) (dzc iz)) planes a.
(** As above, src/core/cmfd.cpp:366-412. *)
Fixpoint homog_axial (fm cm : Mesh) (mp : Z -> Z) (cur : Z -> R) (planes : list Z) (cm_now : Z) (a : Z -> R) : Z -> R :=
  match planes with
  | [] => a
  | iz :: r => if negb (cm_now =? mp iz) then homog_axial fm cm mp cur r (mp iz) (set_range a (plane_surf_begin cm (mp iz)) (n_zs cm) (plane_surf_begin fm iz) cur)
               else homog_axial fm cm mp cur r cm_now a
  end.
(** As above, src/core/cmfd.cpp:366-412. *)
Definition homogenize (fm cm : Mesh) (mp : Z -> Z) (dzf dzc : Z -> R) (cur : Z -> R) : Z -> R :=
  let a1 := homog_radial fm cm mp dzf cur (zrange (nz fm)) (fun _ => 0%R) in
  let a2 := homog_norm cm dzc (zrange (nz cm)) a1 in
  let a3 := homog_axial fm cm mp cur (zrange (nz fm)) (-1) a2 in
  set_range a3 (plane_surf_begin cm (nz cm)) (n_zs cm) (plane_surf_begin fm (nz fm)) cur.
(** cmfd.cpp:366-415: current_1g_. *)
Definition current_1g (fm cm : Mesh) (mp : Z -> Z) (dzf dzc : Z -> R) (cur : Z -> R) : Z -> R :=
  if negb (nz cm =? nz fm) then homogenize fm cm mp dzf dzc cur else cur.
(** cmfd.cpp:607-635: the currents put back; the variable current_mplane of line 619 is never updated, and the surfaces above
    the last plane are not written after line 608 has zeroed them. *)
Definition project (fm cm : Mesh) (mp : Z -> Z) (c1g : Z -> R) : Z -> R :=
  if negb (nz cm =? nz fm) then
    let a1 := fold_left (fun a iz => set_range a (plane_surf_xy_begin fm iz) (n_xy cm) (plane_surf_xy_begin cm (mp iz)) c1g) (zrange (nz fm)) (fun _ => 0%R) in
    fold_left (fun a iz => if negb (-1 =? mp iz) then set_range a (plane_surf_begin fm iz) (n_zs cm) (plane_surf_begin cm (mp iz)) c1g else a) (zrange (nz fm)) a1
  else c1g.

(** ** The iteration, cmfd.cpp:171-279 solve.  The linear solver, sources and residuals are parameters of the state: [fis k s]
    computes fs_, [inner fs s] the group loop of lines 223-231 with the sum of its residuals, [tf s] total_fission. *)
Record CmOps (S F : Type) := mkOps { op_fis : R -> S -> option F; op_inner : F -> S -> S * R; op_tf : S -> R; op_diff : F -> F -> R }.
Arguments op_fis {S F}. Arguments op_inner {S F}. Arguments op_tf {S F}. Arguments op_diff {S F}.
(** As above, src/core/cmfd.cpp:171-279. *)
Record CmLoop (S F : Type) := mkLoop { l_s : S; l_k : R; l_fs : F; l_tf : R; l_iter : Z }.
Arguments l_s {S F}. Arguments l_k {S F}. Arguments l_fs {S F}. Arguments l_tf {S F}. Arguments l_iter {S F}. Arguments mkLoop {S F}.
(** Lines 215-250, one pass; true = the convergence test holds.  [r0] is the initial residual, [scale] n_cell * n_group. *)
Definition cm_pass {S F} (o : CmOps S F) (ktol ptol rred r0 scale : R) (max_iter : Z) (l : CmLoop S F) : option (CmLoop S F * bool) :=
  let iter := l_iter l + 1 in
  match op_fis o (l_k l) (l_s l) with
  | None => None
  | Some fs =>
      let '(s', ri2) := op_inner o fs (l_s l) in
      let tfis := op_tf o s' in
      match rdiv (l_k l * tfis) (l_tf l), rdiv (sqrt ri2) scale with
      | Some k', Some ri =>
          Some (mkLoop s' k' fs tfis iter,
              (Rltb (Rabs (k' - l_k l)) ktol && Rltb (op_diff o fs (l_fs l)) ptol && match rdiv ri r0 with Some q => Rltb q rred | None => false end) || (max_iter <? iter))
      | _, _ => None
      end
  end.
(** The while loop; [fuel] bounds the passes and is never exhausted (C44_terminates).  See src/core/cmfd.cpp:215-254. *)
Fixpoint cm_loop {S F} (fuel : nat) (o : CmOps S F) (ktol ptol rred r0 scale : R) (max_iter : Z) (l : CmLoop S F) : option (CmLoop S F) :=
  match fuel with
  | O => None
  | Datatypes.S n => match cm_pass o ktol ptol rred r0 scale max_iter l with
           | Some (l', true) => Some l'
           | Some (l', false) => cm_loop n o ktol ptol rred r0 scale max_iter l'
           | None => None
           end
  end.
(** Lines 176-184: fluxes before the solve with negative_fixup. *)
Definition zero_fixup (f : list R) : list R := map (fun v => Rmax v 0) f.
(** Lines 257-265: fluxes after the solve. *)
Definition fix_negative (f : list R) : list R := map (fun v => if Rltb v 0 then (- v)%R else v) f.
(** Lines 92, 144-150: max_iter as accepted from the input. *)
Definition read_max_iter (given : option Z) : COut Z := match given with None => CVal 100 | Some n => if n <? 0 then CExc else CVal n end.
