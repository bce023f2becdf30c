(** Model of the worker that turns the MoC solution into correction factors for the Sn sweeper: CurrentCorrections in
    src/sweepers/cmdo/correction_worker.hpp and correction_worker.cpp.  Doubles are exact reals; a division by zero is
    undefined here.  The buffers surf_sum_, vol_sum_ and sigt_sum_ hold the entries of the two directions alternately (2 i and
    2 i + 1); here each is two lists.  surf_norm_ is written and never read, and left out.  Rays are treated one at a time
    (omp critical). *)
From Coq Require Import List Bool Reals ZArith.
From Verif Require Import RUtil ListUtil McModel MeshModel AngModel BcModel CoreModel MocModel CurModel SnModel.
Import ListNotations.
Open Scope Z_scope.

(** What post_ray reads besides the fluxes (correction_worker.hpp:109-111, 252-263): segments (region, length) and first
    region, cross sections as swept and unaltered, transport source, attenuations, 1/sin(theta). *)
Record RayD := mkRD { rd_segs : list (nat * R); rd_first : nat; rd_split : list R; rd_true : list R; rd_q : list R; rd_etau : list R; rd_rst : R }.
(** Buffers of one angle (correction_worker.hpp:271-274), forward and backward, and the group's coarse currents and surface
    fluxes. *)
Record CB := mkCB { cb_sf : list R; cb_sb : list R; cb_vf : list R; cb_vb : list R; cb_n : list R; cb_tf : list R; cb_tb : list R; cb_cur : list R; cb_flx : list R }.

(** correction_worker.hpp:151-157: flux times length, length and unaltered cross section of segment [i], forward. *)
Definition seg_fw (d : RayD) (psi : list R) (i : Z) : option (R * R * R) :=
  if i <? 0 then None
  else match nth_error (rd_segs d) (Z.to_nat i) with
       | Some (r, len) =>
           match nth_error (rd_split d) (r + rd_first d), nth_error (rd_true d) (r + rd_first d), nth_error (rd_q d) (r + rd_first d), psi_at psi i, psi_at psi (i + 1) with
           | Some x, Some xt, Some q, Some a, Some b => match rdiv (a - b) x with Some e => Some ((rd_rst d * len * q + e)%R, (rd_rst d * len)%R, xt) | None => None end
           | _, _, _, _, _ => None
           end
       | None => None
       end.
(** correction_worker.hpp:178-185, backward. *)
Definition seg_bw (d : RayD) (psi : list R) (i : Z) : option (R * R * R) :=
  if i <? 0 then None
  else match nth_error (rd_segs d) (Z.to_nat i) with
       | Some (r, len) =>
           match nth_error (rd_split d) (r + rd_first d), nth_error (rd_true d) (r + rd_first d), nth_error (rd_q d) (r + rd_first d), nth_error (rd_etau d) (Z.to_nat i), psi_at psi (i + 1) with
           | Some x, Some xt, Some q, Some e, Some b => match rdiv (e * (b - q)) x with Some u => Some ((rd_rst d * len * q + u)%R, (rd_rst d * len)%R, xt) | None => None end
           | _, _, _, _, _ => None
           end
       | None => None
       end.
(** correction_worker.hpp:150-162: the segments in a cell, forward. *)
Fixpoint fw_vol (d : RayD) (psi : list R) (cell : Z) (n : nat) (i : Z) (v nrm t : list R) : option (Z * list R * list R * list R) :=
  match n with
  | O => Some (i, v, nrm, t)
  | S k =>
      match seg_fw d psi i with
      | Some (f, l, x) =>
          match add_z v cell f, add_z nrm cell l, add_z t cell (x * f)%R with Some v', Some nrm', Some t' => fw_vol d psi cell k (i + 1) v' nrm' t' | _, _, _ => None end
      | None => None
      end
  end.
(** correction_worker.hpp:176-188: the segments in a cell, backward; lengths are not summed. *)
Fixpoint bw_vol (d : RayD) (psi : list R) (cell : Z) (n : nat) (i : Z) (v t : list R) : option (Z * list R * list R) :=
  match n with
  | O => Some (i, v, t)
  | S k =>
      match seg_bw d psi (i - 1) with
      | Some (f, _, x) => match add_z v cell f, add_z t cell (x * f)%R with Some v', Some t' => bw_vol d psi cell k (i - 1) v' t' | _, _ => None end
      | None => None
      end
  end.
(** Current and flux weights by normal (moc_current_worker.hpp:192-197). *)
Record Wts := mkW { w_cx : R; w_cy : R; w_fx : R; w_fy : R }.
(** correction_worker.hpp:130, 134, 139 and 166-170: what a forward flux adds at a surface; [so] is surf_offset_. *)
Definition put_fw (w : Wts) (psi : list R) (so i k : Z) (nm : Normal) (b : CB) : option CB :=
  match tally (w_cx w) (w_cy w) 1 psi i nm (k + so) (cb_cur b), tally (w_fx w) (w_fy w) 1 psi i nm (k + so) (cb_flx b), psi_at psi i with
  | Some c, Some f, Some p =>
      match add_z (cb_sf b) k p with Some s => Some (mkCB s (cb_sb b) (cb_vf b) (cb_vb b) (cb_n b) (cb_tf b) (cb_tb b) c f) | None => None end
  | _, _, _ => None
  end.
(** correction_worker.hpp:132, 136, 140 and 192-196: what a backward flux adds; it is subtracted from the surface flux too. *)
Definition put_bw (w : Wts) (psi : list R) (so i k : Z) (nm : Normal) (b : CB) : option CB :=
  match tally (w_cx w) (w_cy w) (-1) psi i nm (k + so) (cb_cur b), tally (w_fx w) (w_fy w) (-1) psi i nm (k + so) (cb_flx b), psi_at psi i with
  | Some c, Some f, Some p =>
      match add_z (cb_sb b) k p with Some s => Some (mkCB (cb_sf b) s (cb_vf b) (cb_vb b) (cb_n b) (cb_tf b) (cb_tb b) c f) | None => None end
  | _, _, _ => None
  end.
(** correction_worker.hpp:148-172: the forward half of a record. *)
Definition rec_fw (m : Mesh) (w : Wts) (d : RayD) (psi : list R) (so cell i : Z) (s : option Surface) (n : Z) (b : CB) : option (Z * CB) :=
  match s with
  | None => Some (i, b)
  | Some t =>
      match fw_vol d psi cell (Z.to_nat n) i (cb_vf b) (cb_n b) (cb_tf b), coarse_surf m cell t with
      | Some (i', v, nrm, ts), Some k =>
          match put_fw w psi so i' k (surface_to_normal t) (mkCB (cb_sf b) (cb_sb b) v (cb_vb b) nrm ts (cb_tb b) (cb_cur b) (cb_flx b)) with Some b' => Some (i', b') | None => None end
      | _, _ => None
      end
  end.
(** correction_worker.hpp:174-198: the backward half. *)
Definition rec_bw (m : Mesh) (w : Wts) (d : RayD) (psi : list R) (so cell i : Z) (s : option Surface) (n : Z) (b : CB) : option (Z * CB) :=
  match s with
  | None => Some (i, b)
  | Some t =>
      match bw_vol d psi cell (Z.to_nat n) i (cb_vb b) (cb_tb b), coarse_surf m cell t with
      | Some (i', v, ts), Some k =>
          match put_bw w psi so i' k (surface_to_normal t) (mkCB (cb_sf b) (cb_sb b) (cb_vf b) v (cb_n b) (cb_tf b) ts (cb_cur b) (cb_flx b)) with Some b' => Some (i', b') | None => None end
      | _, _ => None
      end
  end.
(** correction_worker.hpp:144-202. *)
Fixpoint cc_walk (m : Mesh) (w : Wts) (d : RayD) (psi1 psi2 : list R) (so : Z) (recs : list RC) (cf cb jf jb : Z) (b : CB) : option CB :=
  match recs with
  | [] => Some b
  | r :: rest =>
      match rec_fw m w d psi1 so cf jf (rc_fw r) (rc_nfw r) b with
      | Some (jf', b1) =>
          match rec_bw m w d psi2 so cb jb (rc_bw r) (rc_nbw r) b1 with
          | Some (jb', b2) => cc_walk m w d psi1 psi2 so rest (next_cell m cf (rc_fw r)) (next_cell m cb (rc_bw r)) jf' jb' b2
          | None => None
          end
      | None => None
      end
  end.
(** correction_worker.hpp:109-205 post_ray in plane [plane]. *)
Definition cc_post_ray (m : Mesh) (plane : Z) (w : Wts) (d : RayD) (psi1 psi2 : list R) (ray : CRay) (b : CB) : option CB :=
  let so := n_surf_plane m * plane in
  match put_fw w psi1 so 0 (cr_surf_fw ray) (surface_normal m (cr_surf_fw ray)) b with
  | Some b1 =>
      match put_bw w psi2 so (cr_nseg ray) (cr_surf_bw ray) (surface_normal m (cr_surf_bw ray)) b1 with
      | Some b2 => cc_walk m w d psi1 psi2 so (cr_recs ray) (cr_cell_fw ray) (cr_cell_bw ray) 0 (cr_nseg ray) b2
      | None => None
      end
  | None => None
  end.
(** A ray as swept: data, fluxes, coarse records.  See src/sweepers/cmdo/correction_worker.hpp:109-205. *)
Definition Swept : Type := (RayD * list R * list R * CRay)%type.
(** All rays of an angle, in the order in which they enter the critical section.  See src/sweepers/cmdo/correction_worker.hpp:109-205. *)
Fixpoint cc_rays (m : Mesh) (plane : Z) (w : Wts) (rays : list Swept) (b : CB) : option CB :=
  match rays with
  | [] => Some b
  | (d, p1, p2, ray) :: r => match cc_post_ray m plane w d p1 p2 ray b with Some b' => cc_rays m plane w r b' | None => None end
  end.
(** correction_worker.hpp:207-217 set_angle: buffers zeroed; currents go on. *)
Definition cc_zero (m : Mesh) (cur flx : list R) : CB :=
  let s := repeat 0%R (Z.to_nat (n_surf_plane m)) in
  let v := repeat 0%R (Z.to_nat (nx m * ny m)) in
  mkCB s s v v v v v cur flx.

(** correction_worker.hpp:232-237 for one cell and direction: flux-weighted cross section, then mean flux. *)
Definition cc_means (t v n : R) : option (R * R) := match rdiv t v, rdiv v n with Some s, Some f => Some (s, f) | _, _ => None end.
(** Faces through which a direction enters and leaves in x and y (correction_worker.cpp:45-63). *)
Record Sides := mkSd { xl : Surface; xr : Surface; yl : Surface; yr : Surface }.
(** As above, src/sweepers/cmdo/correction_worker.cpp:45-63. *)
Definition sides_fw (ox : R) : Sides := if Rltb 0 ox then mkSd WEST EAST SOUTH NORTH else mkSd EAST WEST SOUTH NORTH.
(** As above, src/sweepers/cmdo/correction_worker.cpp:45-63. *)
Definition sides_bw (ox : R) : Sides := if Rltb 0 ox then mkSd EAST WEST NORTH SOUTH else mkSd WEST EAST NORTH SOUTH.
(** surf_sum_(mesh_->coarse_surf(ic, s) * 2 + direction).  See src/sweepers/cmdo/correction_worker.cpp:88-106 and 121-139. *)
Definition sum_at (m : Mesh) (sums : list R) (ic : Z) (s : Surface) : option R :=
  match coarse_surf m ic s with Some k => if k <? 0 then None else nth_error sums (Z.to_nat k) | None => None end.
(** correction_worker.cpp:88-106 and 121-139: the three factors of a cell in one direction. *)
Definition cell_factors (m : Mesh) (sums : list R) (sd : Sides) (ax ay f s xstr : R) (ic : Z) : option (R * R * R) :=
  match sum_at m sums ic (xl sd), sum_at m sums ic (xr sd), sum_at m sums ic (yl sd), sum_at m sums ic (yr sd) with
  | Some a, Some b, Some c, Some e =>
      match rdiv f (a * ax + b * ax), rdiv f (c * ay + e * ay), rdiv s xstr with Some fx, Some fy, Some be => Some (fx, fy, be) | _, _, _ => None end
  | _, _, _, _ => None
  end.
(** What calculate_corrections reads: ray spacing, the angle and its reverse, pin widths, Sn cross sections (expanded to the
    group) and the offsets into the factors and the cross sections.  See src/sweepers/cmdo/correction_worker.cpp:88-139. *)
Record CcEnv := mkCE { ce_sp : R; ce_ang : Angle; ce_i1 : nat; ce_i2 : nat; ce_dx : list R; ce_dy : list R; ce_xs : list R; ce_off : nat; ce_offx : nat }.
(** The factors of a group by angle and cell (alpha in x and y, beta), and residual_.  See src/sweepers/cmdo/correction_worker.cpp:88-139. *)
Definition Fac : Type := (R * R * R)%type.
(** As above, src/sweepers/cmdo/correction_worker.cpp:88-139. *)
Definition put_fac (st : list (list Fac)) (ia ic : nat) (f : Fac) : option (list (list Fac) * Fac) :=
  match nth_error st ia with
  | Some row => match nth_error row ic, set_nth row ic f with Some old, Some row' => match set_nth st ia row' with Some st' => Some (st', old) | None => None end | _, _ => None end
  | None => None
  end.
(** As above, src/sweepers/cmdo/correction_worker.cpp:88-139. *)
Definition add_res (r f old : Fac) : Fac :=
  let '(a, b, c) := r in let '(x, y, z) := f in let '(x', y', z') := old in
  (a + (x - x') * (x - x'), b + (y - y') * (y - y'), c + (z - z') * (z - z'))%R.
(** correction_worker.hpp:232-237 and correction_worker.cpp:75-106, 121-139: both directions' factors of one cell. *)
Definition cc_pair (m : Mesh) (e : CcEnv) (b : CB) (ic : nat) : option (Fac * Fac) :=
  let p := coarse_position m (Z.of_nat ic) in
  let al := alpha (adir (ce_ang e)) in
  match nth_error (cb_tf b) ic, nth_error (cb_vf b) ic, nth_error (cb_tb b) ic, nth_error (cb_vb b) ic, nth_error (cb_n b) ic with
  | Some tf, Some vf, Some tb, Some vb, Some n =>
      match cc_means tf vf n, cc_means tb vb n, nth_error (ce_dx e) (Z.to_nat (px p)), nth_error (ce_dy e) (Z.to_nat (py p)), nth_error (ce_xs e) (ic + ce_offx e), rdiv (ce_sp e) (cos al), rdiv (ce_sp e) (sin al) with
      | Some (s1, f1), Some (s2, f2), Some dx, Some dy, Some xs, Some c, Some sn =>
          match rdiv (Rabs c) dx, rdiv (Rabs sn) dy with
          | Some ax, Some ay =>
              match cell_factors m (cb_sf b) (sides_fw (ox (adir (ce_ang e)))) ax ay f1 s1 xs (Z.of_nat ic), cell_factors m (cb_sb b) (sides_bw (ox (adir (ce_ang e)))) ax ay f2 s2 xs (Z.of_nat ic) with
              | Some fw, Some bw => Some (fw, bw)
              | _, _ => None
              end
          | _, _ => None
          end
      | _, _, _, _, _, _, _ => None
      end
  | _, _, _, _, _ => None
  end.
(** correction_worker.cpp:108-118 and 142-153: stored, and the squared changes added to residual_. *)
Definition cc_cell (m : Mesh) (e : CcEnv) (b : CB) (ic : nat) (s : list (list Fac) * Fac) : option (list (list Fac) * Fac) :=
  match cc_pair m e b ic with
  | Some (fw, bw) =>
      match put_fac (fst s) (ce_i1 e) (ic + ce_off e) fw with
      | Some (st1, o1) =>
          match put_fac st1 (ce_i2 e) (ic + ce_off e) bw with
          | Some (st2, o2) => Some (st2, add_res (add_res (snd s) fw o1) bw o2)
          | None => None
          end
      | None => None
      end
  | None => None
  end.
(** correction_worker.cpp:75. *)
Fixpoint cc_cells (m : Mesh) (e : CcEnv) (b : CB) (ic cnt : nat) (s : list (list Fac) * Fac) : option (list (list Fac) * Fac) :=
  match cnt with O => Some s | S c => match cc_cell m e b ic s with Some s' => cc_cells m e b (S ic) c s' | None => None end end.
(** correction_worker.hpp:223-246 post_angle with calculate_corrections (correction_worker.cpp:32-158). *)
Definition post_angle (m : Mesh) (e : CcEnv) (b : CB) (s : list (list Fac) * Fac) : option (list (list Fac) * Fac) :=
  cc_cells m e b 0 (Z.to_nat (nx m * ny m)) s.
(** correction_worker.hpp:86-93 residual(). *)
Definition cc_residual (r : Fac) : Fac := let '(a, b, c) := r in (sqrt a, sqrt b, sqrt c).

(** moc_current_worker.hpp:202-261 Current::post_ray, surface fluxes of one group: both directions are added. *)
Fixpoint plain_walk (m : Mesh) (fx fy : R) (psi1 psi2 : list R) (recs : list RC) (cf cb jf jb : Z) (flx : list R) : option (list R) :=
  match recs with
  | [] => Some flx
  | r :: rest =>
      match cross m fx fy 1 psi1 1 cf jf (rc_fw r) (rc_nfw r) flx with
      | Some (jf', f1) =>
          match cross m fx fy 1 psi2 (-1) cb jb (rc_bw r) (rc_nbw r) f1 with
          | Some (jb', f2) => plain_walk m fx fy psi1 psi2 rest (next_cell m cf (rc_fw r)) (next_cell m cb (rc_bw r)) jf' jb' f2
          | None => None
          end
      | None => None
      end
  end.
(** moc_current_worker.hpp:225-233 and 237-261. *)
Definition plain_flux (m : Mesh) (plane : Z) (fx fy : R) (psi1 psi2 : list R) (ray : CRay) (flx : list R) : option (list R) :=
  let co := nx m * ny m * plane in
  let so := n_surf_plane m * plane in
  let sf := cr_surf_fw ray + so in
  let sb := cr_surf_bw ray + so in
  match tally fx fy 1 psi1 0 (surface_normal m sf) sf flx with
  | Some c1 =>
      match tally fx fy 1 psi2 (cr_nseg ray) (surface_normal m sb) sb c1 with
      | Some c2 => plain_walk m fx fy psi1 psi2 (cr_recs ray) (cr_cell_fw ray + co) (cr_cell_bw ray + co) 0 (cr_nseg ray) c2
      | None => None
      end
  | None => None
  end.
