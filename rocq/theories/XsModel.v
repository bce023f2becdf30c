(** Model of the cross-section meshes (src/core/xs_mesh.{hpp,cpp}, xs_mesh_region.{hpp,cpp}, xs_mesh_homogenized.{hpp,cpp}).
    Doubles are exact reals. *)
From Coq Require Import List Bool Reals ZArith Arith.
From Verif Require Import RUtil ListUtil McModel ScatModel MatModel.
Import ListNotations.
Open Scope nat_scope.

(** src/core/xs_mesh_region.hpp:223-238.  The group constants are pointers into the rows of the mesh's arrays, one row
    per region (xs_mesh.cpp:109-111); each region owns its row here. *)
Record XReg := mkXR { xr_reg : list nat; xr_fissile : bool; xr_tr : list R; xr_nf : list R; xr_f : list R; xr_ch : list R; xr_rm : list R; xr_sc : SM }.

(** src/core/xs_mesh_region.hpp:175-181, xs_mesh_region.cpp:35: transport minus self-scattering for each group of the
    scattering matrix.  [None] = read out of range. *)
Fixpoint removal (tr : list R) (s : SM) (ig cnt : nat) : option (list R) :=
  match cnt with
  | O => Some []
  | S c => match nth_error tr ig, self_scat s ig, removal tr s (S ig) c with
           | Some t, Some x, Some r => Some ((t - x)%R :: r)
           | _, _, _ => None
           end
  end.
(** src/core/xs_mesh_region.cpp:22-41 XSMeshRegion::XSMeshRegion. *)
Definition make_region (regs : list nat) (tr nf f ch : list R) (s : SM) : option XReg :=
  match removal tr s 0 (ng s) with
  | Some rm => if length nf <? ng s then None
               else Some (mkXR regs (existsb (fun v => Rltb 0 v) (firstn (ng s) nf)) tr nf f ch rm s)
  | None => None
  end.

(** src/core/xs_mesh.cpp:44, 54, 68: fsr_map[mat_id].push_back(ireg); the map is ordered by id. *)
Fixpoint map_push (l : list (Z * list nat)) (id : Z) (r : nat) : list (Z * list nat) :=
  match l with
  | [] => [(id, [r])]
  | (k, v) :: rest => if (id <? k)%Z then (id, [r]) :: l else if (id =? k)%Z then (k, v ++ [r]) :: rest else (k, v) :: map_push rest id r
  end.
(** src/core/xs_mesh.cpp:53-56, 66-70: the regions of one material of a pin. *)
Fixpoint push_regs (id : Z) (n ireg : nat) (l : list (Z * list nat)) : list (Z * list nat) :=
  match n with O => l | S k => push_regs id k (S ireg) (map_push l id ireg) end.
(** src/core/xs_mesh.cpp:47-58 (TRUE) and 61-74 (PLANE): the pins in order; a pin is its list of material ids, each with
    PinMesh::n_fsrs of that material region. *)
Fixpoint push_pin (p : list (Z * nat)) (ireg : nat) (l : list (Z * list nat)) : nat * list (Z * list nat) :=
  match p with
  | [] => (ireg, l)
  | (id, n) :: r => push_pin r (ireg + n) (push_regs id n ireg l)
  end.
(** As above, src/core/xs_mesh.cpp:47-58. *)
Fixpoint push_pins (pins : list (list (Z * nat))) (ireg : nat) (l : list (Z * list nat)) : nat * list (Z * list nat) :=
  match pins with
  | [] => (ireg, l)
  | p :: r => let '(i, l') := push_pin p ireg l in push_pins r i l'
  end.
(** src/core/xs_mesh.cpp:91-113: one region per material.  An id missing from the library makes map::at throw. *)
Fixpoint regions_of (L : Lib Material) (l : list (Z * list nat)) : Out (list XReg) :=
  match l with
  | [] => Got []
  | (id, regs) :: r =>
      match get_material_by_id L id with
      | None => Threw
      | Some m =>
          match make_region regs (xstr m) (xsnf m) (xsf m) (xsch m) (xssc m) with
          | None => Undef
          | Some x => match regions_of L r with Got xs => Got (x :: xs) | o => o end
          end
      end
  end.
(** src/core/xs_mesh.cpp:27-118 XSMesh::XSMesh: regions and n_reg_expanded_. *)
Definition make_xs_mesh (L : Lib Material) (pins : list (list (Z * nat))) : Out (list XReg * nat) :=
  let l := snd (push_pins pins 0 []) in
  match regions_of L l with
  | Got xs => Got (xs, list_sum (map (fun p => length (snd p)) l))
  | Threw => Threw
  | Undef => Undef
  end.

(** src/core/xs_mesh_region.hpp:183-214 operator==, for two distinct objects; [ulp] stands for fp_equiv_ulp.  [None] = a
    group constant read out of range. *)
Fixpoint groups_eqb (ulp : R -> R -> bool) (a b : XReg) (ig cnt : nat) : option bool :=
  match cnt with
  | O => Some true
  | S c =>
      match nth_error (xr_tr a) ig, nth_error (xr_tr b) ig, nth_error (xr_nf a) ig, nth_error (xr_nf b) ig with
      | Some t, Some t', Some n, Some n' =>
          match nth_error (xr_f a) ig, nth_error (xr_f b) ig, nth_error (xr_rm a) ig, nth_error (xr_rm b) ig with
          | Some f, Some f', Some r, Some r' =>
              if ulp t t' && ulp n n' && ulp f f' && ulp r r' && sm_eqb (xr_sc a) (xr_sc b) then groups_eqb ulp a b (S ig) c else Some false
          | _, _, _, _ => None
          end
      | _, _, _, _ => None
      end
  end.
(** As above, src/core/xs_mesh_region.hpp:183-214. *)
Definition xsr_eqb (ulp : R -> R -> bool) (a b : XReg) : option bool :=
  if ng (xr_sc a) =? ng (xr_sc b) then groups_eqb ulp a b 0 (ng (xr_sc a)) else Some false.

(** src/core/xs_mesh_region.hpp:103-115 reaction_cdf (scatter, fission, capture); [None] = out of range or division by
    zero. *)
Definition reaction_cdf (x : XReg) (ig : nat) : option (list R) :=
  match nth_error (xr_tr x) ig, nth_error (out (xr_sc x)) ig, nth_error (xr_f x) ig with
  | Some t, Some o, Some f => if Reqb t 0 then None else let s := (1 / t)%R in Some [(o * s)%R; (o * s + f * s)%R; 1%R]
  | _, _, _ => None
  end.
(** src/core/xs_mesh_region.hpp:125-139 chi_cdf: running sums over the groups of the scattering matrix. *)
Fixpoint chi_sums (ch : list R) (ig cnt : nat) (sum : R) : option (list R) :=
  match cnt with
  | O => Some []
  | S c => match nth_error ch ig with
           | Some v => match chi_sums ch (S ig) c (sum + v)%R with Some l => Some ((sum + v)%R :: l) | None => None end
           | None => None
           end
  end.
(** As above, src/core/xs_mesh_region.hpp:125-139. *)
Definition chi_cdf (x : XReg) : option (list R) := chi_sums (xr_ch x) 0 (ng (xr_sc x)) 0.

(** ** Expanded cross sections *)
(** src/core/xs_mesh.hpp:316-323 with the XSMesh it refers to: the regions' lists and transport cross sections by group,
    the mesh's state counter, the array and the recorded (group, state).  Instances sharing data share all of this. *)
Record XState := mkXS { xm_regs : list (list nat * (nat -> R)); xm_state : Z; xe_arr : list R; xe_group : Z; xe_seen : Z }.
(** src/core/xs_mesh.hpp:215-221: the constructor. *)
Definition new_expanded (regs : list (list nat * (nat -> R))) (st : Z) (arr : list R) : XState := mkXS regs st arr (-1) (-1).
(** src/core/xs_mesh.hpp:268-273, 288-293: write xs + add(ireg) to the regions. *)
Fixpoint write_regs (l : list nat) (v : nat -> R) (arr : list R) : option (list R) :=
  match l with
  | [] => Some arr
  | r :: rest => match set_nth arr r (v r) with Some a => write_regs rest v a | None => None end
  end.
(** As above, src/core/xs_mesh.hpp:268-273, 288-293. *)
Fixpoint write_all (regs : list (list nat * (nat -> R))) (g : nat) (add : nat -> R) (arr : list R) : option (list R) :=
  match regs with
  | [] => Some arr
  | (l, xs) :: rest => match write_regs l (fun r => (xs g + add r)%R) arr with Some a => write_all rest g add a | None => None end
  end.
(** src/core/xs_mesh.hpp:261-276 expand(group). *)
Definition expand (g : nat) (s : XState) : option XState :=
  if negb (Z.of_nat g =? xe_group s)%Z || negb (xm_state s =? xe_seen s)%Z then
    match write_all (xm_regs s) g (fun _ => 0%R) (xe_arr s) with
    | Some a => Some (mkXS (xm_regs s) (xm_state s) a (Z.of_nat g) (xm_state s))
    | None => None
    end
  else Some s.
(** src/core/xs_mesh.hpp:282-298 expand(group, split).  Reading past the end of [split] is undefined. *)
Definition expand_split (g : nat) (split : list R) (s : XState) : option XState :=
  match split with
  | [] => expand g s
  | _ => if forallb (fun p => forallb (fun r => r <? length split) (fst p)) (xm_regs s) then
           match write_all (xm_regs s) g (fun r => nth r split 0%R) (xe_arr s) with
           | Some a => Some (mkXS (xm_regs s) (xm_state s) a (xe_group s) (xe_seen s))
           | None => None
           end
         else None
  end.
(** src/core/xs_mesh_homogenized.cpp:176-197: new cross sections, same regions, state_++. *)
Definition update_xs (f : list (nat -> R)) (s : XState) : XState :=
  mkXS (combine (map fst (xm_regs s)) f) (xm_state s + 1) (xe_arr s) (xe_group s) (xe_seen s).

(** ** Homogenization *)
(** What is read of a material.  See src/core/xs_mesh_homogenized.cpp:218-240, 292-301, 316-342. *)
Record XMat := mkXM { m_tr : nat -> R; m_nf : nat -> R; m_f : nat -> R; m_ch : nat -> R; m_min : nat -> nat; m_max : nat -> nat; m_sc : nat -> nat -> R }.
(** A region of the pin: area, flux by group, material.  The loops over material ids and n_fsrs
    (xs_mesh_homogenized.cpp:218-240, 292-301, 316-342) visit the regions in this order with ireg counting along. *)
Record HReg := mkHR { h_v : R; h_fl : nat -> R; h_m : XMat }.
(** Accumulation over the regions.  See src/core/xs_mesh_homogenized.cpp:224-226, 288. *)
Definition acc (f : HReg -> R) (l : list HReg) : R := fold_left (fun s r => (s + f r)%R) l 0%R.
(** xs_mesh_homogenized.cpp:224-226, 288: sum over all groups. *)
Definition gsum (f : nat -> R) (n : nat) : R := fold_left (fun s g => (s + f g)%R) (seq 0 n) 0%R.
(** xs_mesh_homogenized.cpp:234, 333: inside the row's band. *)
Definition in_band (m : XMat) (ig igg : nat) : bool := (m_min m ig <=? igg) && (igg <=? m_max m ig).
(** Homogenized group constants; [None] = division by zero.  See src/core/xs_mesh_homogenized.cpp:199-259. *)
Record HXS := mkHX { x_tr : nat -> R; x_nf : nat -> R; x_f : nat -> R; x_ch : nat -> R; x_sc : nat -> nat -> R }.

(** xs_mesh_homogenized.cpp:199-259 homogenize_region; [parea] is pin.area(). *)
Definition homogenize (ng : nat) (parea : R) (l : list HReg) : option HXS :=
  if Reqb parea 0 then None
  else
    let fsrc r := gsum (m_nf (h_m r)) ng in
    let farea := acc (fun r => h_v r * fsrc r)%R l in
    Some (mkHX (fun g => acc (fun r => h_v r * m_tr (h_m r) g) l / parea)%R
               (fun g => acc (fun r => h_v r * m_nf (h_m r) g) l / parea)%R
               (fun g => acc (fun r => h_v r * m_f (h_m r) g) l / parea)%R
               (fun g => let c := acc (fun r => h_v r * fsrc r * m_ch (h_m r) g)%R l in if Rltb 0 farea then (c / farea)%R else c)
               (fun g gg => acc (fun r => if in_band (h_m r) g gg then m_sc (h_m r) g gg * h_v r else 0) l / parea)%R).

(** xs_mesh_homogenized.cpp:286-303: fission source of a region. *)
Definition fis (ng : nat) (r : HReg) : R := gsum (fun g => (m_nf (h_m r) g * h_fl r g * h_v r)%R) ng.
(** xs_mesh_homogenized.cpp:261-363 homogenize_region_flux. *)
Definition homogenize_flux (ng : nat) (l : list HReg) : option HXS :=
  let fs_sum := acc (fis ng) l in
  let fv g := acc (fun r => (h_v r * h_fl r g)%R) l in
  if existsb (fun g => Reqb (fv g) 0) (seq 0 ng) then None
  else
    Some (mkHX (fun g => acc (fun r => h_v r * h_fl r g * m_tr (h_m r) g) l / fv g)%R
               (fun g => acc (fun r => h_v r * h_fl r g * m_nf (h_m r) g) l / fv g)%R
               (fun g => acc (fun r => h_v r * h_fl r g * m_f (h_m r) g) l / fv g)%R
               (fun g => let c := acc (fun r => fis ng r * m_ch (h_m r) g)%R l in if Rltb 0 fs_sum then (c / fs_sum)%R else c)
               (fun g gg => let s := acc (fun r => if in_band (h_m r) g gg then m_sc (h_m r) g gg * h_v r * h_fl r gg else 0)%R l in
                            if Rltb 0 s then (s / acc (fun r => h_fl r gg * h_v r) l)%R else s)).

(** src/core/xs_mesh_region.hpp:153-165 XSMeshRegion::update: the fissile flag is left alone. *)
Definition update_region (x : XReg) (tr nf ch f : list R) (s : SM) : option XReg :=
  match removal tr s 0 (ng s) with
  | Some rm => Some (mkXR (xr_reg x) (xr_fissile x) tr nf f ch rm s)
  | None => None
  end.
(** xs_mesh_homogenized.cpp:63-65, 77: a homogenized region starts from an empty scattering matrix, then is updated. *)
Definition homogenized_region (regs : list nat) (tr nf ch f : list R) (s : SM) : option XReg :=
  match make_region regs [] [] [] [] (mkSM 0 [] [] []) with
  | Some x => update_region x tr nf ch f s
  | None => None
  end.

(** ** Regions of the homogenized mesh, output and input *)
(** xs_mesh_homogenized.cpp:54-71: for macroplane (lo, hi) and pin [ipin], the cells cell(ipin) + nxy iz
    (Mesh::coarse_cell of pin_position(ipin) at plane iz). *)
Definition hom_region (cell : nat -> nat) (nxy : nat) (lo hi ipin : nat) : list nat := map (fun iz => cell ipin + nxy * iz) (seq lo (hi + 1 - lo)).
(** As above, src/core/xs_mesh_homogenized.cpp:54-71. *)
Definition hom_regions (cell : nat -> nat) (nxy : nat) (planes : list (nat * nat)) : list (list nat) :=
  flat_map (fun p => map (hom_region cell nxy (fst p) (snd p)) (seq 0 nxy)) planes.
(** xs_mesh_homogenized.cpp:434-448, 641-651: index in the data set of region [i]; CoreMesh::pin_position
    (src/core/core_mesh.cpp:229-234) reduces the pin number modulo nxy. *)
Definition data_cell (cell : nat -> nat) (nxy i : nat) : nat := cell (i mod nxy) + nxy * (i / nxy).
(** xs_mesh_homogenized.cpp:637-651: the data set of one reaction and group. *)
Fixpoint write_data (cell : nat -> nat) (nxy i : nat) (vals : list R) (buf : list R) : option (list R) :=
  match vals with
  | [] => Some buf
  | v :: r => match set_nth buf (data_cell cell nxy i) v with Some b => write_data cell nxy (S i) r b | None => None end
  end.
(** As above, src/core/xs_mesh_homogenized.cpp:637-651. *)
Definition output_data (cell : nat -> nat) (nxy : nat) (vals : list R) : option (list R) := write_data cell nxy 0 vals (repeat 0%R (length vals)).
(** xs_mesh_homogenized.cpp:434-448 read_data_single. *)
Fixpoint read_data (cell : nat -> nat) (nxy i cnt : nat) (buf : list R) : option (list R) :=
  match cnt with
  | O => Some []
  | S c => match nth_error buf (data_cell cell nxy i), read_data cell nxy (S i) c buf with Some v, Some l => Some (v :: l) | _, _ => None end
  end.
(** xs_mesh_homogenized.cpp:582-594 read_data_multi: the values of one plane copied to macroplanes bot..top. *)
Fixpoint multi_plane (cell : nat -> nat) (nxy ip ipin cnt : nat) (buf xs : list R) : option (list R) :=
  match cnt with
  | O => Some xs
  | S c => match nth_error buf (cell ipin) with
           | Some v => match set_nth xs (nxy * ip + ipin) v with Some x => multi_plane cell nxy ip (S ipin) c buf x | None => None end
           | None => None
           end
  end.
(** As above, src/core/xs_mesh_homogenized.cpp:582-594. *)
Fixpoint multi_planes (cell : nat -> nat) (nxy : nat) (ips : list nat) (buf xs : list R) : option (list R) :=
  match ips with
  | [] => Some xs
  | ip :: r => match multi_plane cell nxy ip 0 nxy buf xs with Some x => multi_planes cell nxy r buf x | None => None end
  end.
(** xs_mesh_homogenized.cpp:480-528: plane coverage check; [None] = throws. *)
Definition mark_planes (np : nat) (d : nat * nat) (seen : list bool) : option (list bool) :=
  if (np <=? fst d) || (np <=? snd d) then None
  else fold_left (fun o ip => match o with
         | Some s => match nth_error s ip with Some false => set_nth s ip true | _ => None end
         | None => None end) (seq (fst d) (snd d + 1 - fst d)) (Some seen).
(** As above, src/core/xs_mesh_homogenized.cpp:480-528. *)
Fixpoint check_planes (np : nat) (ds : list (nat * nat)) (seen : list bool) : option (list bool) :=
  match ds with
  | [] => Some seen
  | d :: r => match mark_planes np d seen with Some s => check_planes np r s | None => None end
  end.
(** xs_mesh_homogenized.cpp:473-618, one reaction and group: check, then apply each data set. *)
Fixpoint apply_multi (cell : nat -> nat) (nxy : nat) (ds : list ((nat * nat) * list R)) (xs : list R) : option (list R) :=
  match ds with
  | [] => Some xs
  | (d, buf) :: r => match multi_planes cell nxy (seq (fst d) (snd d + 1 - fst d)) buf xs with Some x => apply_multi cell nxy r x | None => None end
  end.
(** As above, src/core/xs_mesh_homogenized.cpp:473-618. *)
Definition read_multi (cell : nat -> nat) (nxy np : nat) (ds : list ((nat * nat) * list R)) (xs : list R) : Out (list R) :=
  match check_planes np (map fst ds) (repeat false np) with
  | None => Threw
  | Some _ => match apply_multi cell nxy ds xs with Some x => Got x | None => Undef end
  end.
