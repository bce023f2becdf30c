(** Model of how the MoC sweeper is set up: src/sweepers/moc/ray_data.cpp:67-334 RayData(xml, quadrature, mesh), and the part of
    src/sweepers/moc/moc_sweeper.cpp:38-190 that turns the rays into boundary sizes and planes.  The angles, ray ends, cutting of
    rays and volume corrections are those of AngModel.v, AqModel.v, RatModel.v, RayModel.v, RayTrModel.v and VolModel.v; logging
    is left out.  Doubles are exact reals, [ulp] stands for fp_equiv_ulp. *)
From Coq Require Import ZArith List Bool Ascii String Reals.
From Verif Require Import RUtil MeshModel AngModel AqModel AqxModel StrModel BcModel StdAlg MatModel GeomModel CoreModel PmModel RatModel RayModel RayTrModel MocModel VolModel XsModel SrcModel MgModel.
Import ListNotations.
Open Scope R_scope.

(** ** Options *)

(** src/sweepers/moc/ray_data.hpp enums VolumeCorrection and Modularization, read in src/sweepers/moc/ray_data.cpp:84-141. *)
Inductive VolCorr := CorrFlat | CorrAngle | CorrNone.
(** As above, src/sweepers/moc/ray_data.cpp:130-141. *)
Inductive ModMethod := ModRational | ModTrig.
(** The attributes of a <rays> tag that are read in src/sweepers/moc/ray_data.cpp:79-141; [None] = not given. *)
Record RayTag := mkRayTag { rt_there : bool; rt_spacing : option R; rt_volume : option (list ascii); rt_modularity : option (list ascii); rt_method : option (list ascii) }.
(** The options, src/sweepers/moc/ray_data.cpp:79-141. *)
Record RayOpts := mkRayOpts { op_spacing : R; op_corr : VolCorr; op_core : bool; op_method : ModMethod }.
(** One text option: src/sweepers/moc/ray_data.cpp:85-97, 105-121 and 131-140.  A byte beyond 127 is undefined behaviour of tolower. *)
Definition text_option {A} (dflt : A) (o : option (list ascii)) (choose : list ascii -> Out A) : Out A :=
  match o with None => Got dflt | Some s => match sanitize s with SVal t => choose t | _ => Undef end end.
(** src/sweepers/moc/ray_data.cpp:75-141; [pin] is mesh.is_pin_modular().  The spacing is read as a float, which is exact here. *)
Definition ray_options (pin : bool) (t : RayTag) : Out RayOpts :=
  if negb (rt_there t) then Threw else
  let s := match rt_spacing t with Some v => v | None => -1 end in
  if Rleb s 0 then Threw else
  bind (text_option CorrFlat (rt_volume t) (fun v => if is_type v "flat" then Got CorrFlat else if is_type v "angle" then Got CorrAngle else if is_type v "none" then Got CorrNone else Threw)) (fun corr =>
  bind (text_option true (rt_modularity t) (fun v => if is_type v "pin" then (if pin then Got false else Threw) else if is_type v "core" then Got true else Threw)) (fun core =>
  bind (text_option ModRational (rt_method t) (fun v => if is_type v "trig" then Got ModTrig else if is_type v "rational_fraction" then Got ModRational else Threw)) (fun meth =>
  Got (mkRayOpts s corr core meth)))).
(** src/core/core_mesh.hpp:197-206 is_pin_modular; the default 0 stands for dx_vec_[0] of an empty vector, which is never compared. *)
Definition is_pin_modular (ulp : R -> R -> bool) (dx dy : list R) : bool :=
  forallb (fun v => ulp v (hd 0 dx)) dx && forallb (fun v => ulp v (hd 0 dy)) dy.

(** ** Angles *)

(** What is asked of the core mesh: its size, the pitches of its first pin and its number of pins (src/sweepers/moc/ray_data.cpp:147-154 and 171-174). *)
Record CoreDims := mkDims { cd_hx : R; cd_hy : R; cd_px : R; cd_py : R; cd_nx : Z; cd_ny : Z }.
(** src/sweepers/moc/ray_data.cpp:491-526 modularize_angle.  The search of the rational approximation ends within 502 steps for a
    slope between 0 and 1 (MocSetProofs.enough_steps); beyond it goes on until the integers overflow. *)
Definition angle_counts (o : RayOpts) (d : CoreDims) (a : R) : Out (Z * Z) :=
  let hx := if op_core o then cd_hx d else cd_px d in let hy := if op_core o then cd_hy d else cd_py d in
  bind (match op_method o with
        | ModRational => match modularize_rational 502 a hx hy (op_spacing o) with Some r => r | None => Undef end
        | ModTrig => modularize_trig a hx hy (op_spacing o)
        end) (fun N =>
  if op_core o then Got N else bind (imul (fst N) (cd_nx d)) (fun nx => bind (imul (snd N) (cd_ny d)) (fun ny => Got (nx, ny)))).
(** src/sweepers/moc/ray_data.cpp:160-191: the angles of the first octant, one after the other; the result is the numbers of rays and the
    quadrature.  Without rays on one kind of face the new angle or the spacing is no number: [Undef].  An index out of range: [Undef]. *)
Fixpoint lay_angles (o : RayOpts) (d : CoreDims) (n : nat) (is : list nat) (l : list Angle) : Out (list (Z * Z) * list Angle) :=
  match is with
  | [] => Got ([], l)
  | i :: r =>
      match nth_error l i with
      | None => Undef
      | Some a =>
          bind (angle_counts o d (AngModel.alpha (adir a))) (fun N =>
          if ((fst N <? 1) || (snd N <? 1))%Z then Undef else
          match modify_angle n i (mkAngle (dir_angles (mod_alpha (cd_hx d) (cd_hy d) (fst N) (snd N)) (theta (adir a))) (weight a)) l with
          | None => Undef
          | Some l' => bind (lay_angles o d n r l') (fun res => Got (N :: fst res, snd res))
          end)
      end
  end.
(** src/sweepers/moc/ray_data.cpp:186-191: spacing_, from the angle as it is after the change. *)
Definition spacing_of (d : CoreDims) (N : Z * Z) : R := mod_space (cd_hx d) (cd_hy d) (fst N) (snd N).
(** src/sweepers/moc/ray_data.cpp:196-203: push_back of the elements 0, 1, ... of the growing vector; [None] = out of range. *)
Fixpoint push_again {A} (is : list nat) (l : list A) : option (list A) :=
  match is with [] => Some l | i :: r => match nth_error l i with Some x => push_again r (l ++ [x]) | None => None end end.
(** src/sweepers/moc/ray_data.cpp:157-203: Nx_, Ny_, spacing_ (as a function of the counts) and the updated quadrature. *)
Definition lay_quad (same : R -> R -> bool) (gauss yamamoto : option (list (R * R))) (o : RayOpts) (d : CoreDims) (q : Quad) : Out (list (Z * Z) * Quad) :=
  bind (lay_angles o d (q_ndir q) (seq 0 (q_ndir q)) (q_angles q)) (fun res =>
  match update_weights same gauss yamamoto (mkQuad (q_type q) (q_ndir q) (snd res) (q_npol q) (q_nazi q)) with
  | UThrow => Threw
  | UUB => Undef
  | UOk q' => match push_again (seq 0 (3 * q_ndir q')) (fst res) with Some counts => Got (counts, q') | None => Undef end
  end).

(** ** Rays *)

(** A geometrically unique plane: the areas of its regions and what tracing a ray between two points gives (RayTrModel.v);
    src/core/core_mesh.hpp unique_plane, used in src/sweepers/moc/ray_data.cpp:214-304. *)
Record UPlane := mkUPlane { up_areas : list R; up_trace : Point2 -> Point2 -> option (list (nat * R)) }.
(** A segment's region number, which is used as an index (src/sweepers/moc/ray.hpp seg_index_, src/sweepers/moc/ray_data.cpp:307-311). *)
Definition seg_of (s : R * Reg) : option (nat * R) := match snd s with RIdx i => if (i <? 0)%Z then None else Some (Z.to_nat i, fst s) | RAssert => None end.
(** src/sweepers/moc/ray.cpp:52-87 Ray(p1, p2, bc, iplane, mesh): the segments of all pins. *)
Definition trace_ray (ulp : R -> R -> bool) (P : Plane) (geo : PinMesh -> Geo) (srt : list Point2 -> list Point2) (eqp : Point2 -> Point2 -> bool) (ls : list Line) (p1 p2 : Point2) : option (list (nat * R)) :=
  match RayTrModel.ray_segs ulp P geo srt eqp (mesh_trace srt eqp ls p1 p2) with Some s => all_some (map seg_of (List.concat s)) | None => None end.
(** src/sweepers/moc/ray_data.cpp:268-274 and 298-303: assertions on the boundary slots, then the ray. *)
Definition make_ray (u : UPlane) (n : Z) (e : RayEnds) : option Ray :=
  if ((re_in e <? 0) || (n <=? re_in e) || (re_out e <? 0) || (n <=? re_out e))%Z then None else
  match up_trace u (re_p1 e) (re_p2 e) with Some s => Some (mkRay (Z.to_nat (re_in e)) (Z.to_nat (re_out e)) s) | None => None end.
(** src/sweepers/moc/ray_data.cpp:307-311: nrayfsr[i]++ over the segments of the rays; [None] = out of range. *)
Fixpoint bump (l : list nat) (i : nat) : option (list nat) :=
  match l, i with
  | [], _ => None
  | x :: r, O => Some (S x :: r)
  | x :: r, S k => match bump r k with Some r' => Some (x :: r') | None => None end
  end.
(** As above, src/sweepers/moc/ray_data.cpp:307-311. *)
Fixpoint bump_all (is : list nat) (l : list nat) : option (list nat) :=
  match is with [] => Some l | i :: r => match bump l i with Some l' => bump_all r l' | None => None end end.
(** src/sweepers/moc/ray_data.cpp:315-325: whether the warning is given. *)
Definition unseen (counts : list nat) : bool := existsb (fun c => Nat.eqb c 0) counts.
(** src/sweepers/moc/ray_data.cpp:218-329, the angles of a plane from number [iang] on: the rays of each and whether each gave a warning.
    The counts [nf] go on from angle to angle.  An exception of the ray ends: [Threw]. *)
Fixpoint plane_rays (ulp : R -> R -> bool) (d : CoreDims) (u : UPlane) (counts : list (Z * Z)) (iang : nat) (angs : list Angle) (nf : list nat) : Out (list (list Ray) * list bool) :=
  match angs with
  | [] => Got ([], [])
  | a :: rest =>
      match nth_error counts iang with
      | None => Undef
      | Some N =>
          match angle_rays ulp (cd_hx d) (cd_hy d) (fst N) (snd N) (spacing_of d N) (adir a) with
          | None => Threw
          | Some ends =>
              match all_some (map (make_ray u (fst N + snd N)) ends) with
              | None => Undef
              | Some rays =>
                  match bump_all (map fst (flat_map ray_segs rays)) nf with
                  | None => Undef
                  | Some nf' => bind (plane_rays ulp d u counts (S iang) rest nf') (fun res => Got (rays :: fst res, unseen nf' :: snd res))
                  end
              end
          end
      end
  end.
(** The rays with the segments replaced, src/sweepers/moc/ray_data.cpp:392-397 and 463-468. *)
Definition with_segs (rays : list Ray) (segs : list Segs) : list Ray := map (fun rs => mkRay (ray_bc1 (fst rs)) (ray_bc2 (fst rs)) (snd rs)) (combine rays segs).
(** src/sweepers/moc/ray_data.cpp:342-489 correct_volume for one plane; spacings and weights by angle.  [None] = a region out of range, or a
    segment of a region that has a volume of zero so far. *)
Definition correct_plane (corr : VolCorr) (u : UPlane) (sw : list (R * R)) (rays : list (list Ray)) : option (list (list Ray)) :=
  match corr with
  | CorrNone => Some rays
  | CorrFlat => all_some (map (fun x => match correct_flat (fst (fst x)) (List.length (up_areas u)) (up_areas u) (map ray_segs (snd x)) with Some s => Some (with_segs (snd x) s) | None => None end) (combine sw rays))
  | CorrAngle =>
      match correct_angle (List.length (up_areas u)) (up_areas u) (map (fun x => (fst x, map ray_segs (snd x))) (combine sw rays)) with
      | Some angs => Some (map (fun x => with_segs (fst x) (snd (snd x))) (combine rays angs))
      | None => None
      end
  end.
(** One plane: src/sweepers/moc/ray_data.cpp:209-331 and 342-489. *)
Definition plane_data (ulp : R -> R -> bool) (o : RayOpts) (d : CoreDims) (counts : list (Z * Z)) (q : Quad) (u : UPlane) : Out (list (list Ray) * list bool) :=
  let angs := firstn (2 * q_ndir q) (q_angles q) in
  bind (plane_rays ulp d u counts 0 angs (repeat 0%nat (List.length (up_areas u)))) (fun res =>
  match correct_plane (op_corr o) u (combine (map (spacing_of d) counts) (map weight angs)) (fst res) with Some rays => Got (rays, snd res) | None => Undef end).
(** The planes one after the other. *)
(** As above, src/sweepers/moc/ray_data.cpp:209-331. *)
Fixpoint all_out {A B} (f : A -> Out B) (l : list A) : Out (list B) :=
  match l with [] => Got [] | a :: r => bind (f a) (fun b => bind (all_out f r) (fun bs => Got (b :: bs))) end.
(** What RayData holds afterwards: the numbers of rays, the quadrature and the rays by plane and angle (with the warnings given). *)
(** See src/sweepers/moc/ray_data.cpp:67-334. *)
Record RayData := mkRayData { rd_counts : list (Z * Z); rd_quad : Quad; rd_rays : list (list (list Ray) * list bool) }.
(** src/sweepers/moc/ray_data.cpp:67-334 RayData(xml, quadrature, mesh). *)
Definition ray_data (ulp same : R -> R -> bool) (gauss yamamoto : option (list (R * R))) (pin : bool) (t : RayTag) (d : CoreDims) (q : Quad) (planes : list UPlane) : Out (RayOpts * RayData) :=
  bind (ray_options pin t) (fun o =>
  bind (lay_quad same gauss yamamoto o d q) (fun cq =>
  bind (all_out (plane_data ulp o d (fst cq) (snd cq)) planes) (fun rs => Got (o, mkRayData (fst cq) (snd cq) rs)))).

(** ** The sweeper *)

(** src/sweepers/moc/moc_sweeper.cpp:38-52 bc_size_helper, angle by angle; [None] = out of range. *)
Fixpoint bc_sizes (n : nat) (counts : list (Z * Z)) (is : list nat) (l : list BcSize) : option (list BcSize) :=
  match is with
  | [] => Some l
  | i :: r =>
      match nth_error counts i with
      | None => None
      | Some N =>
          let s := mkSize (Z.to_nat (snd N)) (Z.to_nat (fst N)) 0 in
          match upd l i s with
          | None => None
          | Some l1 => match upd l1 (rev_ang n i) s with Some l2 => bc_sizes n counts r l2 | None => None end
          end
      end
  end.
(** As above, src/sweepers/moc/moc_sweeper.cpp:38-52; the angles are those of the first plane's rays. *)
Definition bc_size_helper (r : RayData) : option (list BcSize) :=
  match rd_rays r with
  | [] => None
  | p :: _ => bc_sizes (q_ndir (rd_quad r)) (rd_counts r) (seq 0 (List.length (fst p))) (repeat (mkSize 0 0 0) (4 * q_ndir (rd_quad r)))
  end.
(** src/sweepers/moc/moc_sweeper.cpp:157-178: the planes that are swept: first region, height, unique plane; [macro] holds the unique
    plane and the height of each macroplane (src/core/core_mesh.cpp:164-188).  [None] = out of range. *)
Fixpoint sweep_list {A} (planes : list UPlane) (rays : list A) (first : nat) (macro : list (nat * R)) : option (list (nat * R * A)) :=
  match macro with
  | [] => Some []
  | (id, h) :: r =>
      match nth_error planes id, nth_error rays id, sweep_list planes rays (first + match nth_error planes id with Some u => List.length (up_areas u) | None => 0 end)%nat r with
      | Some _, Some a, Some l => Some ((first, h, a) :: l)
      | _, _, _ => None
      end
  end.
(** src/core/core_mesh.hpp:340-375 volumes(PLANE): the areas of each macroplane's regions times its height (proved of the core in CvolProps.v). *)
Fixpoint macro_volumes (planes : list UPlane) (macro : list (nat * R)) : option (list R) :=
  match macro with
  | [] => Some []
  | (id, h) :: r => match nth_error planes id, macro_volumes planes r with Some u, Some v => Some (map (fun a => a * h) (up_areas u) ++ v) | _, _ => None end
  end.
