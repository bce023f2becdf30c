(** Model of what the MoC current worker does to the surface fluxes of a group after a sweep.
    src/sweepers/moc/moc_current_worker.hpp.  Doubles are exact reals; [None] = a division by zero or an access out of range. *)
From Coq Require Import List Bool Reals ZArith.
From Verif Require Import RUtil ListUtil McModel MeshModel StdAlg AngModel MocModel CurModel SnModel CorwModel.
Import ListNotations.
Open Scope Z_scope.

(** moc_current_worker.hpp:309-314: value(surf) /= area, surface by surface; [area] is mesh_->coarse_area. *)
Fixpoint norm_surfs (area : Z -> R) (surfs : list Z) (l : list R) : option (list R) :=
  match surfs with
  | [] => Some l
  | s :: r =>
      if s <? 0 then None
      else match nth_error l (Z.to_nat s) with
           | Some v => match rdiv v (area s) with
                       | Some q => match set_nth l (Z.to_nat s) q with Some l' => norm_surfs area r l' | None => None end
                       | None => None
                       end
           | None => None
           end
  end.
(** moc_current_worker.hpp:274-318 Current::post_sweep: currents are spread over the planes of each macroplane, then currents and
    surface fluxes of all x- and y-normal surfaces (the same surfaces as in coarse_data.cpp:76-77) are divided by their areas. *)
Definition post_sweep (m : Mesh) (mi : list Z) (area : Z -> R) (cur flx : list R) : option (list R * list R) :=
  match expand_currents m mi cur with
  | Some c =>
      match norm_surfs area (radial_surfs m) c, norm_surfs area (radial_surfs m) flx with
      | Some c', Some f' => Some (c', f')
      | _, _ => None
      end
  | None => None
  end.
(** moc_current_worker.hpp:190-197 set_angle: weights of the surface fluxes. *)
Definition flux_weight_x (a : Angle) (spacing dz : R) : R := (weight a * PI * spacing / Rabs (cos (alpha (adir a))) * dz)%R.
(** As above, src/sweepers/moc/moc_current_worker.hpp:190-197. *)
Definition flux_weight_y (a : Angle) (spacing dz : R) : R := (weight a * PI * spacing / Rabs (sin (alpha (adir a))) * dz)%R.
(** All rays of an angle in one plane, in the order in which they enter the critical section.  See src/sweepers/moc/moc_current_worker.hpp:202-261. *)
Fixpoint plain_rays (m : Mesh) (plane : Z) (fx fy : R) (rays : list (list R * list R * CRay)) (flx : list R) : option (list R) :=
  match rays with
  | [] => Some flx
  | (p1, p2, ray) :: r => match plain_flux m plane fx fy p1 p2 ray flx with Some f => plain_rays m plane fx fy r f | None => None end
  end.
