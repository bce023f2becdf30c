(** Model of the Sn sweepers: the cell equations of src/sweepers/sn/sn_sweeper_dd.hpp and
    src/sweepers/cmdo/sn_sweeper_cdd.hpp, sn_sweeper_cdd_mb.hpp, the sweep of src/sweepers/sn/sn_sweeper_variant.hpp with its
    current worker (sn_current_worker.hpp), and the pin flux interface of sn_sweeper.hpp.  Doubles are exact reals; a division
    by zero is undefined here.  Mesh indices are those of MeshModel. *)
From Coq Require Import List Bool Reals ZArith Arith.
From Verif Require Import RUtil ListUtil McModel MeshModel AngModel BcModel StdAlg CoreModel ExpModel MocModel CurModel.
Import ListNotations.
Open Scope R_scope.

(** Division with the zero divisor made explicit.  See src/sweepers/sn/sn_sweeper_dd.hpp:40-55. *)
Definition rdiv (a b : R) : option R := if Reqb b 0 then None else Some (a / b).
(** Result of a cell equation: cell flux and the downwind fluxes written back through the references.  See src/sweepers/sn/sn_sweeper_dd.hpp:40-55. *)
Definition CellOut : Type := (R * R * R * R)%type.

(** src/sweepers/sn/sn_sweeper_dd.hpp:40-55 SnSweeper_DD::evaluate; [tx] is ox / dx(ix). *)
Definition eval_dd (tx ty tz fx fy fz q xstr : R) : option CellOut :=
  match rdiv (2 * (tx * fx + ty * fy + tz * fz) + q) (2 * (tx + ty + tz) + xstr) with
  | Some psi => Some (psi, 2 * psi - fx, 2 * psi - fy, 2 * psi - fz)
  | None => None
  end.
(** src/sweepers/sn/sn_sweeper_dd.hpp:57-70 and 86-98 evaluate_2d; the axial flux is not touched. *)
Definition eval_dd_2d (tx ty tz fx fy fz q xstr : R) : option CellOut :=
  match rdiv (2 * (tx * fx + ty * fy) + q) (2 * (tx + ty) + xstr) with
  | Some psi => Some (psi, 2 * psi - fx, 2 * psi - fy, fz)
  | None => None
  end.
(** src/sweepers/sn/sn_sweeper_dd.hpp:106-107: tau and rho. *)
Definition sc_rho (tz xstr : R) : option R :=
  match rdiv xstr tz with
  | Some tau => match rdiv 1 tau, rdiv 1 (exp tau - 1) with Some a, Some b => Some (a - b) | _, _ => None end
  | None => None
  end.
(** src/sweepers/sn/sn_sweeper_dd.hpp:100-119 SnSweeper_DD_SC::evaluate. *)
Definition eval_dd_sc (tx ty tz fx fy fz q xstr : R) : option CellOut :=
  match sc_rho tz xstr with
  | Some rho =>
      match rdiv rho (1 - rho), rdiv tz (1 - rho) with
      | Some rhofac, Some tzr =>
          match rdiv (2 * (tx * fx + ty * fy) + tz * (rhofac + 1) * fz + q) (2 * (tx + ty) + tzr + xstr) with
          | Some psi => Some (psi, 2 * psi - fx, 2 * psi - fy, (psi - rho * fz) / (1 - rho))
          | None => None
          end
      | _, _ => None
      end
  | None => None
  end.

(** src/sweepers/cmdo/sn_sweeper_cdd.hpp:77-100 SnSweeper_CDD::evaluate_2d; gx = ax * b, gy = ay * b. *)
Definition eval_cdd_2d (ax ay b tx ty tz fx fy fz q xstr : R) : option CellOut :=
  let gx := ax * b in
  let gy := ay * b in
  match rdiv tx gx, rdiv ty gy with
  | Some dx, Some dy =>
      match rdiv (q + 2 * (tx * fx + ty * fy)) (dx + dy + xstr) with
      | Some psi => Some (psi, (psi - gx * fx) / gx, (psi - gy * fy) / gy, fz)
      | None => None
      end
  | _, _ => None
  end.
(** src/sweepers/cmdo/sn_sweeper_cdd.hpp:151-176 SnSweeper_CDD_DD::evaluate. *)
Definition eval_cdd_dd (ax ay b tx ty tz fx fy fz q xstr : R) : option CellOut :=
  let gx := ax * b in
  let gy := ay * b in
  match rdiv tx gx, rdiv ty gy with
  | Some dx, Some dy =>
      match rdiv (q + 2 * (tx * fx + ty * fy + tz * fz)) (dx + dy + 2 * tz + xstr) with
      | Some psi => Some (psi, psi / gx - fx, psi / gy - fy, 2 * psi - fz)
      | None => None
      end
  | _, _ => None
  end.
(** src/sweepers/cmdo/sn_sweeper_cdd.hpp:198-234 SnSweeper_CDD_DD_FF::evaluate, with the fix-up of lines 220-228. *)
Definition eval_cdd_ff (ax ay b tx ty tz fx fy fz q xstr : R) : option CellOut :=
  let gx := ax * b in
  let gy := ay * b in
  match rdiv tx gx, rdiv ty gy with
  | Some dx, Some dy =>
      match rdiv (q + 2 * (tx * fx + ty * fy + tz * fz)) (dx + dy + 2 * tz + xstr) with
      | Some psi =>
          if Rltb (2 * psi - fz) 0 then
            match rdiv (q + 2 * (tx * fx + ty * fy) + tz * fz) (dx + dy + xstr) with
            | Some psi' => Some (psi', psi' / gx - fx, psi' / gy - fy, 0)
            | None => None
            end
          else Some (psi, psi / gx - fx, psi / gy - fy, 2 * psi - fz)
      | None => None
      end
  | _, _ => None
  end.
(** src/sweepers/cmdo/sn_sweeper_cdd.hpp:249-274 SnSweeper_CDD_FW::evaluate. *)
Definition eval_cdd_fw (ax ay b tx ty tz fx fy fz q xstr : R) : option CellOut :=
  let gx := ax * b in
  let gy := ay * b in
  match rdiv tx gx, rdiv ty gy with
  | Some dx, Some dy =>
      match rdiv (q + 2 * (tx * fx + ty * fy) + tz * fz) (dx + dy + tz + xstr) with
      | Some psi => Some (psi, (psi - gx * fx) / gx, (psi - gy * fy) / gy, psi)
      | None => None
      end
  | _, _ => None
  end.
(** src/sweepers/cmdo/sn_sweeper_cdd.hpp:289-318 SnSweeper_CDD_SC::evaluate; Exponential::exp is std::exp
    (src/core/exponential.hpp:39-42). *)
Definition eval_cdd_sc (ax ay b tx ty tz fx fy fz q xstr : R) : option CellOut :=
  let gx := ax * b in
  let gy := ay * b in
  match sc_rho tz xstr with
  | Some rho =>
      match rdiv rho (1 - rho), rdiv tz (1 - rho), rdiv tx gx, rdiv ty gy with
      | Some rhofac, Some tzr, Some dx, Some dy =>
          match rdiv (q + 2 * (tx * fx + ty * fy) + tz * (rhofac + 1) * fz) (dx + dy + tzr + xstr) with
          | Some psi => Some (psi, (psi - gx * fx) / gx, (psi - gy * fy) / gy, (psi - rho * fz) / (1 - rho))
          | None => None
          end
      | _, _, _, _ => None
      end
  | None => None
  end.
(** src/sweepers/cmdo/sn_sweeper_cdd_mb.hpp:41-70 SnSweeper_CDD_PMB::evaluate; [oz] is t_state.oz, [dz] what is read at line 46
    (at index (i % nx) * ny, see [pmb_plane]). *)
Definition eval_cdd_pmb (oz dz tx ty tz fx fy fz q xstr : R) : option CellOut :=
  let gx := 1 / 2 in
  let gy := 1 / 2 in
  match rdiv (dz * oz * q) (2 * tz + xstr), rdiv (oz * oz) (tz + (1 / 2) * xstr) with
  | Some a, Some c =>
      match rdiv (q - a + 2 * (tx * fx + ty * fy) + tz * fz) (tx / gx + ty / gy + c + xstr) with
      | Some psi => Some (psi, psi / gx - fx, psi / gy - fy, (2 * psi * tz + q) / (2 * tz + xstr))
      | None => None
      end
  | _, _ => None
  end.
(** src/sweepers/cmdo/sn_sweeper_cdd_mb.hpp:45: the plane whose height is read. *)
Definition pmb_plane (nx ny i : nat) : nat := ((i mod nx) * ny)%nat.

Open Scope nat_scope.
(** What a one-group sweep reads.  [sn_eq] is the cell equation with the transport factors and corrections of angle iang and
    cell (ix, iy, iz) built in; [sn_d3] selects sweep_1g or sweep_1g_2d; [sn_cw] the Current or NoCurrent worker.  See src/sweepers/sn/sn_sweeper_variant.hpp:166-297. *)
Record SnEnv := mkSN { sn_m : Mesh; sn_in : BC; sn_out : BC; sn_group : nat; sn_quad : list Angle; sn_xstr : list R; sn_q : nat -> list R;
  sn_gs : bool; sn_d3 : bool; sn_cw : bool; sn_eq : nat -> nat -> nat -> nat -> R -> R -> R -> R -> R -> option CellOut }.
(** As above, src/core/mesh.hpp:109-125. *)
Definition Nx (e : SnEnv) : nat := Z.to_nat (nx (sn_m e)).
(** As above, src/core/mesh.hpp:109-125. *)
Definition Ny (e : SnEnv) : nat := Z.to_nat (ny (sn_m e)).
(** As above, src/core/mesh.hpp:109-125. *)
Definition Nz (e : SnEnv) : nat := Z.to_nat (nz (sn_m e)).
(** As above, src/core/mesh.hpp:109-125. *)
Definition Cell : Type := (nat * nat * nat)%type.
(** src/core/mesh.hpp:437-440 coarse_cell(Position(ix, iy, iz)). *)
Definition cell_ix (e : SnEnv) (c : Cell) : nat := let '(ix, iy, iz) := c in iz * Nx e * Ny e + iy * Nx e + ix.

(** src/sweepers/sn/sn_sweeper_variant.hpp:204-216: the values taken by a loop that runs forwards, or backwards for a negative
    direction cosine. *)
Definition dir_range (n : nat) (neg : bool) : list nat := if neg then map (fun k => n - 1 - k) (seq 0 n) else seq 0 n.
(** src/sweepers/sn/sn_sweeper_variant.hpp:249-254: the cells in the order of the nested loops. *)
Definition sweep_order (nx ny nz : nat) (xneg yneg zneg : bool) : list Cell :=
  flat_map (fun iz => flat_map (fun iy => map (fun ix => (ix, iy, iz)) (dir_range nx xneg)) (dir_range ny yneg)) (dir_range nz zneg).

(** The per-angle working arrays (the faces of bc_out_ and the thread's t_flux) and the coarse data of the group.  The three
    faces are disjoint parts of one array in the code (BcModel); here they are arrays of their own.  See src/sweepers/sn/sn_sweeper_variant.hpp:188-282. *)
Record AngSt := mkAS { as_x : list R; as_y : list R; as_z : list R; as_t : list R; as_cur : list R; as_sf : list R }.
(** src/sweepers/sn/sn_sweeper_variant.hpp:199 and 341. *)
Definition sn_wgt (e : SnEnv) (a : Angle) : R := if sn_d3 e then (weight a * (PI / 2))%R else (weight a * PI)%R.

(** src/sweepers/sn/sn_current_worker.hpp:266-276 set_octant. *)
Definition down_x (d : Dir) : Surface := if Rltb 0 (ox d) then EAST else WEST.
(** As above, src/sweepers/sn/sn_current_worker.hpp:266-276. *)
Definition up_x (d : Dir) : Surface := if Rltb 0 (ox d) then WEST else EAST.
(** As above, src/sweepers/sn/sn_current_worker.hpp:266-276. *)
Definition down_y (d : Dir) : Surface := if Rltb 0 (oy d) then NORTH else SOUTH.
(** As above, src/sweepers/sn/sn_current_worker.hpp:266-276. *)
Definition up_y (d : Dir) : Surface := if Rltb 0 (oy d) then SOUTH else NORTH.
(** As above, src/sweepers/sn/sn_current_worker.hpp:266-276. *)
Definition down_z (d : Dir) : Surface := if Rltb 0 (oz d) then TOP else BOTTOM.
(** As above, src/sweepers/sn/sn_current_worker.hpp:266-276. *)
Definition up_z (d : Dir) : Surface := if Rltb 0 (oz d) then BOTTOM else TOP.
(** One tally: current += weight * psi and surface_flux += psi at a face of a cell.  See src/sweepers/sn/sn_current_worker.hpp:183-224 and 230-260. *)
Definition cw_add (e : SnEnv) (w psi : R) (c : Cell) (s : Surface) (st : list R * list R) : option (list R * list R) :=
  match coarse_surf (sn_m e) (Z.of_nat (cell_ix e c)) s with
  | Some k => match add_z (fst st) k (psi * w)%R, add_z (snd st) k psi with Some a, Some b => Some (a, b) | _, _ => None end
  | None => None
  end.
(** src/sweepers/sn/sn_current_worker.hpp:183-224 and 230-260 current_work. *)
Definition current_work (e : SnEnv) (a : Angle) (fx fy fz : R) (c : Cell) (st : list R * list R) : option (list R * list R) :=
  if sn_cw e then
    let w := sn_wgt e a in
    match cw_add e (ox (adir a) * w)%R fx c (down_x (adir a)) st with
    | Some s1 =>
        match cw_add e (oy (adir a) * w)%R fy c (down_y (adir a)) s1 with
        | Some s2 => if sn_d3 e then cw_add e (oz (adir a) * w)%R fz c (down_z (adir a)) s2 else Some s2
        | None => None
        end
    | None => None
    end
  else Some st.
(** The loops of upwind_work: tallies at the given cells with the values of a face.  See src/sweepers/sn/sn_current_worker.hpp:83-94, 96-107, 109-120. *)
Fixpoint up_face (e : SnEnv) (w : R) (s : Surface) (face : list R) (cs : list (Cell * nat)) (st : list R * list R) : option (list R * list R) :=
  match cs with
  | [] => Some st
  | (c, k) :: r => match nth_error face k with Some v => match cw_add e w v c s st with Some st' => up_face e w s face r st' | None => None end | None => None end
  end.
(** Lines 83-94, 96-107, 109-120 (and 154-174 in two dimensions): the cells on the upwind side with their face index. *)
Definition up_cells_x (nx ny nz : nat) (neg : bool) : list (Cell * nat) := flat_map (fun iz => map (fun iy => ((if neg then nx - 1 else 0, iy, iz), ny * iz + iy)) (seq 0 ny)) (seq 0 nz).
(** As above, src/sweepers/sn/sn_current_worker.hpp:83-94, 96-107, 109-120. *)
Definition up_cells_y (nx ny nz : nat) (neg : bool) : list (Cell * nat) := flat_map (fun iz => map (fun ix => ((ix, if neg then ny - 1 else 0, iz), nx * iz + ix)) (seq 0 nx)) (seq 0 nz).
(** As above, src/sweepers/sn/sn_current_worker.hpp:83-94, 96-107, 109-120. *)
Definition up_cells_z (nx ny nz : nat) (neg : bool) : list (Cell * nat) := flat_map (fun iy => map (fun ix => ((ix, iy, if neg then nz - 1 else 0), nx * iy + ix)) (seq 0 nx)) (seq 0 ny).
(** src/sweepers/sn/sn_current_worker.hpp:49-123 and 129-177 upwind_work. *)
Definition upwind_work (e : SnEnv) (a : Angle) (x y z : list R) (st : list R * list R) : option (list R * list R) :=
  if sn_cw e then
    let w := sn_wgt e a in
    let d := adir a in
    let n3 := if sn_d3 e then Nz e else 1 in
    match up_face e (ox d * w)%R (up_x d) x (up_cells_x (Nx e) (Ny e) n3 (Rltb (ox d) 0)) st with
    | Some s1 =>
        match up_face e (oy d * w)%R (up_y d) y (up_cells_y (Nx e) (Ny e) n3 (Rltb (oy d) 0)) s1 with
        | Some s2 => if sn_d3 e then up_face e (oz d * w)%R (up_z d) z (up_cells_z (Nx e) (Ny e) (Nz e) (Rltb (oz d) 0)) s2 else Some s2
        | None => None
        end
    | None => None
    end
  else Some st.

(** Face index of a cell: lines 256-258 (383-384 in two dimensions, where iz = 0). *)
Definition key_x (e : SnEnv) (c : Cell) : nat := let '(ix, iy, iz) := c in Ny e * iz + iy.
(** As above, src/sweepers/sn/sn_sweeper_variant.hpp:256-258. *)
Definition key_y (e : SnEnv) (c : Cell) : nat := let '(ix, iy, iz) := c in Nx e * iz + ix.
(** As above, src/sweepers/sn/sn_sweeper_variant.hpp:256-258. *)
Definition key_z (e : SnEnv) (c : Cell) : nat := let '(ix, iy, iz) := c in Nx e * iy + ix.
(** src/sweepers/sn/sn_sweeper_variant.hpp:255-274 and 382-397, the body of the innermost loop.  In two dimensions the axial
    array is neither read nor written. *)
Definition cell_step (e : SnEnv) (iang : nat) (a : Angle) (c : Cell) (s : AngSt) : option AngSt :=
  let '(ix, iy, iz) := c in
  let i := cell_ix e c in
  match nth_error (as_x s) (key_x e c), nth_error (as_y s) (key_y e c), (if sn_d3 e then nth_error (as_z s) (key_z e c) else Some 0%R) with
  | Some fx, Some fy, Some fz =>
      match nth_error (sn_q e iang) i, nth_error (sn_xstr e) i with
      | Some q, Some xs =>
          match sn_eq e iang ix iy iz fx fy fz q xs with
          | Some (psi, gx, gy, gz) =>
              match set_nth (as_x s) (key_x e c) gx, set_nth (as_y s) (key_y e c) gy, (if sn_d3 e then set_nth (as_z s) (key_z e c) gz else Some (as_z s)) with
              | Some x', Some y', Some z' =>
                  match add_at (as_t s) i (psi * sn_wgt e a)%R, current_work e a gx gy gz c (as_cur s, as_sf s) with
                  | Some t', Some (cu, sf) => Some (mkAS x' y' z' t' cu sf)
                  | _, _ => None
                  end
              | _, _, _ => None
              end
          | None => None
          end
      | _, _ => None
      end
  | _, _, _ => None
  end.
(** As above, src/sweepers/sn/sn_sweeper_variant.hpp:255-274 and 382-397. *)
Fixpoint cell_steps (e : SnEnv) (iang : nat) (a : Angle) (cs : list Cell) (s : AngSt) : option AngSt :=
  match cs with [] => Some s | c :: r => match cell_step e iang a c s with Some s' => cell_steps e iang a r s' | None => None end end.
(** As above, src/sweepers/sn/sn_sweeper_variant.hpp:204-254. *)
Definition order_of (e : SnEnv) (a : Angle) : list Cell :=
  sweep_order (Nx e) (Ny e) (if sn_d3 e then Nz e else 1) (Rltb (ox (adir a)) 0) (Rltb (oy (adir a)) 0) (if sn_d3 e then Rltb (oz (adir a)) 0 else false).

(** Boundary data, the flux arrays of the threads and the coarse data of the group.  See src/sweepers/sn/sn_sweeper_variant.hpp:166-297. *)
Record SnSt := mkSS { ss_in : list R; ss_out : list R; ss_t : list (list R); ss_cur : list R; ss_sf : list R }.
(** src/core/boundary_condition.hpp:133-138 copy_face: the values copied. *)
Definition face_of_bc (b : BC) (d : list R) (g iang : nat) (n : Normal) : option (list R) :=
  match get_face b g iang n with Some (k, off) => read_range d off k | None => None end.
(** As above, src/core/boundary_condition.hpp:133-138. *)
Definition put_face (b : BC) (d : list R) (iang : nat) (n : Normal) (v : list R) : option (list R) :=
  match get_face b 0 iang n with Some (k, off) => if length v =? k then write_range d off v else None | None => None end.
(** src/sweepers/sn/sn_sweeper_variant.hpp:188-282, one angle on thread [tid]. *)
Definition sn_angle (e : SnEnv) (tid iang : nat) (s : SnSt) : Res SnSt :=
  rbind (of_opt (nth_error (sn_quad e) iang)) (fun a =>
  rbind (of_opt (nth_error (ss_t s) tid)) (fun t =>
  rbind (of_opt (face_of_bc (sn_in e) (ss_in s) (sn_group e) iang X_NORM)) (fun x =>
  rbind (of_opt (face_of_bc (sn_in e) (ss_in s) (sn_group e) iang Y_NORM)) (fun y =>
  rbind (of_opt (if sn_d3 e then face_of_bc (sn_in e) (ss_in s) (sn_group e) iang Z_NORM else Some [])) (fun z =>
  rbind (of_opt (upwind_work e a x y z (ss_cur s, ss_sf s))) (fun '(cu, sf) =>
  rbind (of_opt (cell_steps e iang a (order_of e a) (mkAS x y z t cu sf))) (fun r =>
  rbind (of_opt (put_face (sn_out e) (ss_out s) iang X_NORM (as_x r))) (fun o1 =>
  rbind (of_opt (put_face (sn_out e) o1 iang Y_NORM (as_y r))) (fun o2 =>
  rbind (of_opt (if sn_d3 e then put_face (sn_out e) o2 iang Z_NORM (as_z r) else Some o2)) (fun o3 =>
  rbind (of_opt (set_nth (ss_t s) tid (as_t r))) (fun ts =>
  rbind (if sn_gs e then update_angle (sn_in e) (with_data (sn_out e) o3) (sn_group e) iang (ss_in s) else Ok (ss_in s)) (fun d =>
  Ok (mkSS d o3 ts (as_cur r) (as_sf r)))))))))))))).
(** The angles as the threads get to them, each with its thread.  See src/sweepers/sn/sn_sweeper_variant.hpp:166-297 and 308-419. *)
Fixpoint sn_angles (e : SnEnv) (sched : list (nat * nat)) (s : SnSt) : Res SnSt :=
  match sched with [] => Ok s | (tid, iang) :: r => rbind (sn_angle e tid iang s) (fun s' => sn_angles e r s') end.
(** src/sweepers/sn/sn_sweeper_variant.hpp:166-297 and 308-419 sweep_1g: the flux of the group, the boundary data and the
    coarse data.  The reduction over threads is the one of MocModel. *)
Definition sn_sweep1g (e : SnEnv) (nt : nat) (sched : list (nat * nat)) (n_reg : nat) (din dout cur sf : list R) : Res (list R * SnSt) :=
  rbind (sn_angles e sched (mkSS din dout (repeat (repeat 0%R n_reg) nt) cur sf)) (fun s =>
  rbind (if sn_gs e then Ok (ss_in s) else update_group (sn_in e) (with_data (sn_out e) (ss_out s)) (sn_group e) (ss_in s)) (fun d =>
  Ok (sum_threads n_reg (ss_t s), mkSS d (ss_out s) (ss_t s) (ss_cur s) (ss_sf s)))).

(** src/sweepers/sn/sn_sweeper_variant.hpp:139-146: negative fluxes are set to zero after the inner iterations. *)
Definition clean_up (f : list R) : list R := map (fun v => if Rltb v 0 then 0%R else v) f.

(** ** Pin flux interface, src/sweepers/sn/sn_sweeper.hpp. *)
(** Lines 52-55: treatment PIN. *)
Fixpoint get_col (g : nat) (fl : list (list R)) : option (list R) :=
  match fl with [] => Some [] | row :: r => match nth_error row g, get_col g r with Some v, Some l => Some (v :: l) | _, _ => None end end.
(** Lines 110-118: [None] = an element outside the flux array; row 1 is read for every residual. *)
Fixpoint set_pin_loop (g i : nat) (pf : list R) (fl : list (list R)) (resid : R) : option (list (list R) * R) :=
  match pf with
  | [] => Some (fl, resid)
  | v :: r =>
      match nth_error fl 1, nth_error fl i with
      | Some row1, Some row =>
          match nth_error row1 g, set_nth row g v with
          | Some f1, Some row' =>
              match set_nth fl i row' with
              | Some fl' => set_pin_loop g (S i) r fl' (resid + (f1 - v) * (f1 - v))%R
              | None => None
              end
          | _, _ => None
          end
      | _, _ => None
      end
  end.
(** Lines 100-150 with treatment PIN. *)
Definition set_pin_flux (g : nat) (pf : list R) (fl : list (list R)) : option (list (list R) * R) :=
  match set_pin_loop g 0 pf fl 0%R with Some (fl', r) => Some (fl', sqrt r) | None => None end.
