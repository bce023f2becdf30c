(** Model of the volume correction of ray lengths.  src/sweepers/moc/ray_data.cpp.  Doubles are exact reals. *)
From Coq Require Import List Lia Bool Reals.
From Verif Require Import RUtil ListUtil StdAlg CoreModel MocModel.
Import ListNotations.
Open Scope R_scope.

(** Segments of a ray: region index, length (src/sweepers/moc/ray.hpp).  See src/sweepers/moc/ray.hpp:201-204. *)
Definition Segs := list (nat * R).

(** ray_data.cpp:371-376 and 439-444: fsr_vol[ireg] += seg_len * space [* wgt], over rays and segments; [f] is space or
    space * wgt.  [None] = index out of range. *)
Fixpoint vol_ray (f : R) (segs : Segs) (acc : list R) : option (list R) :=
  match segs with
  | [] => Some acc
  | (i, l) :: r => match add_at acc i (l * f) with Some acc' => vol_ray f r acc' | None => None end
  end.
(** As above, src/sweepers/moc/ray_data.cpp:371-376 and 439-444. *)
Fixpoint vol_rays (f : R) (rays : list Segs) (acc : list R) : option (list R) :=
  match rays with
  | [] => Some acc
  | r :: rest => match vol_ray f r acc with Some acc' => vol_rays f rest acc' | None => None end
  end.

(** ray_data.cpp:378-380 and 448-450: true_vol / fsr_vol; [Some None] where the division is by zero. *)
Fixpoint factors (tv acc : list R) : option (list (option R)) :=
  match acc, tv with
  | [], _ => Some []
  | a :: ar, t :: tr => match factors tr ar with Some r => Some ((if Reqb a 0 then None else Some (t / a)) :: r) | None => None end
  | _ :: _, [] => None
  end.

(** ray_data.cpp:392-397 and 463-468: seg_len *= factor.  [None] = out of range or infinite factor. *)
Definition scale_seg (cf : list (option R)) (sg : nat * R) : option (nat * R) :=
  match nth_error cf (fst sg) with Some (Some f) => Some (fst sg, snd sg * f) | _ => None end.
(** As above, src/sweepers/moc/ray_data.cpp:392-397 and 463-468. *)
Definition scale_rays (cf : list (option R)) (rays : list Segs) : option (list Segs) :=
  all_some (map (fun r => all_some (map (scale_seg cf) r)) rays).

(** ray_data.cpp:367-397, FLAT, one angle: [space] the ray spacing, [tv] the exact areas. *)
Definition correct_flat (space : R) (nreg : nat) (tv : list R) (rays : list Segs) : option (list Segs) :=
  match vol_rays space rays (repeat 0 nreg) with
  | Some acc => match factors tv acc with Some cf => scale_rays cf rays | None => None end
  | None => None
  end.

(** ray_data.cpp:431-470, ANGLE, all angles of a plane: (spacing, weight, rays) each. *)
Fixpoint vol_angles (angs : list (R * R * list Segs)) (acc : list R) : option (list R) :=
  match angs with
  | [] => Some acc
  | (space, w, rays) :: rest => match vol_rays (space * (w * (1 / 2))) rays acc with Some acc' => vol_angles rest acc' | None => None end
  end.
(** As above, src/sweepers/moc/ray_data.cpp:431-470. *)
Definition correct_angle (nreg : nat) (tv : list R) (angs : list (R * R * list Segs)) : option (list (R * R * list Segs)) :=
  match vol_angles angs (repeat 0 nreg) with
  | Some acc =>
      match factors tv acc with
      | Some cf => all_some (map (fun a => match scale_rays cf (snd a) with Some r => Some (fst a, r) | None => None end) angs)
      | None => None
      end
  | None => None
  end.
