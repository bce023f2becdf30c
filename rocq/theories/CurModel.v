(** Model of the coarse ray records and of the MoC current worker.  src/sweepers/moc/ray.hpp, ray.cpp and
    moc_current_worker.hpp.  Doubles are exact reals. *)
From Coq Require Import List Lia Bool Reals ZArith.
From Verif Require Import RUtil ListUtil McModel MeshModel StdAlg AngModel MocModel.
Import ListNotations.
Open Scope Z_scope.

(** src/sweepers/moc/ray.hpp:42-47 RayCoarseData; [None] stands for Surface::INVALID.  The counts are 8-bit fields. *)
Record RC := mkRC { rc_fw : option Surface; rc_bw : option Surface; rc_nfw : Z; rc_nbw : Z }.
(** As above, src/sweepers/moc/ray.hpp:42-47. *)
Definition bits8 (n : Z) : Z := n mod 256.

(** src/sweepers/moc/ray.cpp:101-112 and 126-137: the crossings of one direction, each with its number of segments and the
    surfaces crossed there; every surface is pushed, and a zero count when there are two of them. *)
Definition crossing_surfs (cs : list (Z * list Surface)) : list Surface := flat_map snd cs.
(** As above, src/sweepers/moc/ray.cpp:101-112 and 126-137. *)
Definition crossing_nsegs (cs : list (Z * list Surface)) : list Z :=
  flat_map (fun c => fst c :: (if (1 <? length (snd c))%nat then [0] else [])) cs.

(** ray.cpp:140-149: records up to the shorter direction; [None] = a surface is read past its vector. *)
Fixpoint pair_records (nf nb : list Z) (sf sb : list Surface) : option (list RC) :=
  match nf, nb with
  | f :: nf', b :: nb' =>
      match sf, sb with
      | s :: sf', t :: sb' =>
          match pair_records nf' nb' sf' sb' with Some r => Some (mkRC (Some s) (Some t) (bits8 f) (bits8 b) :: r) | None => None end
      | _, _ => None
      end
  | _, _ => Some []
  end.
(** ray.cpp:140-171: the records, and one more when one direction has more entries. *)
Definition coarse_records (fw bw : list (Z * list Surface)) : option (list RC) :=
  let nf := crossing_nsegs fw in
  let nb := crossing_nsegs bw in
  let sf := crossing_surfs fw in
  let sb := crossing_surfs bw in
  match pair_records nf nb sf sb with
  | Some r =>
      if (length nb <? length nf)%nat then
        match rev sf with s :: _ => Some (r ++ [mkRC (Some s) None 0 0]) | [] => None end
      else if (length nf <? length nb)%nat then
        match rev sb with s :: _ => Some (r ++ [mkRC None (Some s) 0 0]) | [] => None end
      else Some r
  | None => None
  end.

(** moc_current_worker.hpp:182-198 set_angle: current weights for x- and y-normal surfaces; [dz] is mesh_->dz(plane_). *)
Definition current_weight_x (a : Angle) (spacing dz : R) : R :=
  (weight a * PI * ox (adir a) * spacing / Rabs (cos (alpha (adir a))) * dz)%R.
(** As above, src/sweepers/moc/moc_current_worker.hpp:182-198. *)
Definition current_weight_y (a : Angle) (spacing dz : R) : R :=
  (weight a * PI * oy (adir a) * spacing / Rabs (sin (alpha (adir a))) * dz)%R.

(** Array accesses with an int index; [None] = out of range.  psi1[iseg]; current(surf) += v.  See src/sweepers/moc/moc_current_worker.hpp:230-247. *)
Definition psi_at (psi : list R) (i : Z) : option R := if i <? 0 then None else nth_error psi (Z.to_nat i).
(** As above, src/sweepers/moc/moc_current_worker.hpp:230-247. *)
Definition add_z (cur : list R) (k : Z) (v : R) : option (list R) := if k <? 0 then None else add_at cur (Z.to_nat k) v.
(** current_weights_[norm]: two entries.  See src/sweepers/moc/moc_current_worker.hpp:230-247. *)
Definition weight_at (wx wy : R) (n : Normal) : option R := match n with X_NORM => Some wx | Y_NORM => Some wy | Z_NORM => None end.

(** moc_current_worker.hpp:230-231 (entry) and 240-247 (crossings): current(surf) += sgn * psi[iseg] * weight[norm]. *)
Definition tally (wx wy sgn : R) (psi : list R) (iseg : Z) (n : Normal) (surf : Z) (cur : list R) : option (list R) :=
  match psi_at psi iseg, weight_at wx wy n with
  | Some p, Some w => add_z cur surf (sgn * (p * w))%R
  | _, _ => None
  end.

(** moc_current_worker.hpp:239-247 and 249-257, one direction of one record: the new segment index and currents. *)
Definition cross (m : Mesh) (wx wy sgn : R) (psi : list R) (dir : Z) (cell iseg : Z) (s : option Surface) (n : Z) (cur : list R) : option (Z * list R) :=
  match s with
  | None => Some (iseg, cur)
  | Some t =>
      match coarse_surf m cell t with
      | Some k => match tally wx wy sgn psi (iseg + dir * n) (surface_to_normal t) k cur with Some c => Some (iseg + dir * n, c) | None => None end
      | None => None
      end
  end.
(** moc_current_worker.hpp:259-260 coarse_neighbor; its default case (mesh.hpp:819) returns -5.  A cell outside the mesh
    stays outside: the code computes a meaningless cell then, which the model makes undefined as soon as it is used. *)
Definition next_cell (m : Mesh) (cell : Z) (s : option Surface) : Z :=
  match s with None => -5 | Some t => if cell <? 0 then -1 else coarse_neighbor m cell t end.
(** moc_current_worker.hpp:237-261. *)
Fixpoint walk (m : Mesh) (wx wy : R) (psi1 psi2 : list R) (recs : list RC) (cf cb jf jb : Z) (cur : list R) : option (list R) :=
  match recs with
  | [] => Some cur
  | r :: rest =>
      match cross m wx wy 1 psi1 1 cf jf (rc_fw r) (rc_nfw r) cur with
      | Some (jf', cur1) =>
          match cross m wx wy (-1) psi2 (-1) cb jb (rc_bw r) (rc_nbw r) cur1 with
          | Some (jb', cur2) => walk m wx wy psi1 psi2 rest (next_cell m cf (rc_fw r)) (next_cell m cb (rc_bw r)) jf' jb' cur2
          | None => None
          end
      | None => None
      end
  end.

(** src/sweepers/moc/ray.hpp: coarse data of a ray: first cells and surfaces, segment count, records.  See src/sweepers/moc/ray.hpp:193-207. *)
Record CRay := mkCRay { cr_cell_fw : Z; cr_cell_bw : Z; cr_surf_fw : Z; cr_surf_bw : Z; cr_nseg : Z; cr_recs : list RC }.

(** moc_current_worker.hpp:202-261 post_ray, currents of one group in plane [plane] (surface fluxes are tallied alike with
    other weights and signs and are not modelled here). *)
Definition post_ray (m : Mesh) (plane : Z) (wx wy : R) (psi1 psi2 : list R) (ray : CRay) (cur : list R) : option (list R) :=
  let co := nx m * ny m * plane in
  let so := n_surf_plane m * plane in
  let sf := cr_surf_fw ray + so in
  let sb := cr_surf_bw ray + so in
  match tally wx wy 1 psi1 0 (surface_normal m sf) sf cur with
  | Some c1 =>
      match tally wx wy (-1) psi2 (cr_nseg ray) (surface_normal m sb) sb c1 with
      | Some c2 => walk m wx wy psi1 psi2 (cr_recs ray) (cr_cell_fw ray + co) (cr_cell_bw ray + co) 0 (cr_nseg ray) c2
      | None => None
      end
  | None => None
  end.

(** moc_current_worker.hpp:295-298: current(Range(out, ...)) = current(Range(in, ...)), [n] elements, in order.
    [None] = out of range. *)
Fixpoint copy_range (dst src n : nat) (cur : list R) : option (list R) :=
  match n with
  | O => Some cur
  | S k => match nth_error cur src with
           | Some v => match set_nth cur dst v with Some c => copy_range (S dst) (S src) k c | None => None end
           | None => None
           end
  end.
(** moc_current_worker.hpp:285-301: from the top plane down.  blitz::Range includes its last index, so a range from
    plane_surf_xy_begin to plane_surf_end has one element more than the plane has x- and y-normal surfaces.
    [rmi] is macroplane_index reversed. *)
Fixpoint expand_planes (m : Mesh) (rmi : list Z) (iz : Z) (cur : list R) : option (list R) :=
  match rmi with
  | [] => Some cur
  | ip :: rest =>
      match copy_range (Z.to_nat (plane_surf_xy_begin m iz)) (Z.to_nat (plane_surf_xy_begin m ip))
              (Z.to_nat (plane_surf_end m iz - plane_surf_xy_begin m iz + 1)) cur with
      | Some c => expand_planes m rest (iz - 1) c
      | None => None
      end
  end.
(** moc_current_worker.hpp:277-302: skipped when the last macroplane index is nz - 1. *)
Definition expand_currents (m : Mesh) (mi : list Z) (cur : list R) : option (list R) :=
  if nz m - 1 =? last mi 0 then Some cur else expand_planes m (rev mi) (nz m - 1) cur.
