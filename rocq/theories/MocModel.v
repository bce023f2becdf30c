(** Model of the method-of-characteristics sweep.  src/sweepers/moc/moc_sweeper_kernel.inc.hpp.  Doubles are exact reals. *)
From Coq Require Import List Lia Bool Reals ZArith Lra.
From Verif Require Import RUtil ListUtil McModel MeshModel AngModel BcModel StdAlg CoreModel ExpModel.
Import ListNotations.
Open Scope nat_scope.

(** src/sweepers/moc/ray.hpp: boundary slots and segments (region index in the plane, length) of a ray.  See src/sweepers/moc/ray.hpp:201-210. *)
Record Ray := mkRay { ray_bc1 : nat; ray_bc2 : nat; ray_segs : list (nat * R) }.

(** src/sweepers/moc/moc_sweeper.hpp:177: 10000 intervals on [-10, 0]. *)
Definition table_size : nat := Z.to_nat 10000.
(** As above, src/sweepers/moc/moc_sweeper.hpp:177. *)
Definition moc_exp (v : R) : option R := exp_linear table_size (-10) 0 v.

(** moc_sweeper_kernel.inc.hpp:94-99: region and attenuation e_tau of one segment; [None] = undefined behaviour. *)
Definition seg_etau (xstr : list R) (first : nat) (rst : R) (sg : nat * R) : option (nat * R) :=
  let ireg := fst sg + first in
  match nth_error xstr ireg with
  | Some x => match moc_exp (- x * snd sg * rst)%R with Some e => Some (ireg, (1 - e)%R) | None => None end
  | None => None
  end.

(** moc_sweeper_kernel.inc.hpp:106-112 (and 121-127 for the segments in reverse): the changes psi_diff with their regions,
    and the angular flux at every segment boundary. *)
Fixpoint track (q : list R) (es : list (nat * R)) (psi : R) : option (list (nat * R) * list R) :=
  match es with
  | [] => Some ([], [psi])
  | (ireg, e) :: r =>
      match nth_error q ireg with
      | Some qb =>
          let diff := ((psi - qb) * e)%R in
          match track q r (psi - diff)%R with Some (ds, ps) => Some ((ireg, diff) :: ds, psi :: ps) | None => None end
      | None => None
      end
  end.

(** What one ray leaves behind: changes in both directions, and the fluxes psi1 and psi2 along the ray.  See src/sweepers/moc/moc_sweeper_kernel.inc.hpp:93-129. *)
Record RayOut := mkRO { ro_fw : list (nat * R); ro_bw : list (nat * R); ro_psi1 : list R; ro_psi2 : list R }.

(** moc_sweeper_kernel.inc.hpp:93-129 for one ray with incoming fluxes [in1] and [in2]. *)
Definition sweep_ray (xstr q : list R) (first : nat) (rst in1 in2 : R) (ray : Ray) : option RayOut :=
  match all_some (map (seg_etau xstr first rst) (ray_segs ray)) with
  | Some es =>
      match track q es in1, track q (rev es) in2 with
      | Some (d1, p1), Some (d2, p2) => Some (mkRO d1 d2 p1 (rev p2))
      | _, _ => None
      end
  | None => None
  end.

(** t_flux(ireg) += v, lines 111 and 126. *)
Fixpoint add_at (l : list R) (i : nat) (v : R) : option (list R) :=
  match l, i with
  | [], _ => None
  | x :: r, O => Some ((x + v)%R :: r)
  | x :: r, S k => match add_at r k v with Some r' => Some (x :: r') | None => None end
  end.
(** As above, src/sweepers/moc/moc_sweeper_kernel.inc.hpp:111 and 126. *)
Fixpoint deposit (wt : R) (ds : list (nat * R)) (t : list R) : option (list R) :=
  match ds with
  | [] => Some t
  | (i, d) :: r => match add_at t i (d * wt)%R with Some t' => deposit wt r t' | None => None end
  end.

(** What is fixed while the rays of one angle are swept: weight wt_v_st (lines 80-82), 1/sin(theta), and the positions in
    the boundary storages of the two directions (lines 68-73). *)
Record AngCtx := mkAC { ac_wt : R; ac_rst : R; ac_in1 : nat; ac_in2 : nat; ac_out1 : nat; ac_out2 : nat }.

(** Storage written while sweeping rays: outgoing boundary flux and one t_flux per thread (lines 47-48). *)
Record Store := mkSt { st_out : list R; st_t : list (list R) }.

(** Lines 85-133: thread [tid] sweeps one ray.  Rays are atomic steps here: concurrently swept rays share only the incoming
    boundary flux, which is read, and different elements of the outgoing one.  [None] = undefined behaviour. *)
Definition ray_step (xstr q : list R) (first : nat) (c : AngCtx) (bin : list R) (tr : nat * Ray) (s : Store) : option Store :=
  let '(tid, ray) := tr in
  match nth_error bin (ac_in1 c + ray_bc1 ray), nth_error bin (ac_in2 c + ray_bc2 ray), nth_error (st_t s) tid with
  | Some in1, Some in2, Some t =>
      match sweep_ray xstr q first (ac_rst c) in1 in2 ray with
      | Some o =>
          match deposit (ac_wt c) (ro_fw o ++ ro_bw o) t, set_nth (st_out s) (ac_out1 c + ray_bc2 ray) (last (ro_psi1 o) 0%R) with
          | Some t', Some b1 =>
              match set_nth b1 (ac_out2 c + ray_bc1 ray) (hd 0%R (ro_psi2 o)), set_nth (st_t s) tid t' with
              | Some b2, Some ts => Some (mkSt b2 ts)
              | _, _ => None
              end
          | _, _ => None
          end
      | None => None
      end
  | _, _, _ => None
  end.
(** As above, src/sweepers/moc/moc_sweeper_kernel.inc.hpp:85-133. *)
Fixpoint sweep_rays (xstr q : list R) (first : nat) (c : AngCtx) (bin : list R) (rays : list (nat * Ray)) (s : Store) : option Store :=
  match rays with
  | [] => Some s
  | r :: rest => match ray_step xstr q first c bin r s with Some s' => sweep_rays xstr q first c bin rest s' | None => None end
  end.

(** As above, src/sweepers/moc/moc_sweeper_kernel.inc.hpp:85-133. *)
Definition rbind {A B} (r : Res A) (f : A -> Res B) : Res B := match r with Ok a => f a | Throw => Throw | UB => UB end.
(** As above, src/sweepers/moc/moc_sweeper_kernel.inc.hpp:85-133. *)
Definition of_opt {A} (o : option A) : Res A := match o with Some a => Ok a | None => UB end.

(** Everything the sweep of one group reads: boundary containers (their [data] is carried separately), group, cross
    sections, transport source per angle, quadrature and ray spacings.  See src/core/angular_quadrature.hpp:158-167. *)
Record MocEnv := mkME { me_in : BC; me_out : BC; me_group : nat; me_xstr : list R; me_vol : list R; me_q : nat -> list R;
  me_quad : list Angle; me_space : list R; me_gs : bool }.

(** src/core/angular_quadrature.hpp:158-167 reverse(iang) with the default of two dimensions. *)
Definition rev_ang (n iang : nat) : nat := Z.to_nat (reverse2 (Z.of_nat n) (Z.of_nat iang)).

(** moc_sweeper_kernel.inc.hpp:63-82. *)
Definition ang_ctx (e : MocEnv) (height : R) (iang : nat) : option AngCtx :=
  let i2 := rev_ang (n_oct (me_in e)) iang in
  match nth_error (me_quad e) iang, nth_error (me_space e) iang, get_boundary (me_in e) (me_group e) iang,
        get_boundary (me_in e) (me_group e) i2, get_boundary (me_out e) 0 iang, get_boundary (me_out e) 0 i2 with
  | Some a, Some sp, Some (_, oi1), Some (_, oi2), Some (_, oo1), Some (_, oo2) =>
      Some (mkAC (weight a * sp * height * sin (theta (adir a)) * PI)%R (rsintheta (adir a)) oi1 oi2 oo1 oo2)
  | _, _, _, _, _, _ => None
  end.

(** [b] with its data replaced.  See src/sweepers/moc/moc_sweeper_kernel.inc.hpp:60-145. *)
Definition with_data (b : BC) (d : list R) : BC := mkBC (n_group b) (sizes b) (types b) (n_oct b) (quad b) d.

(** moc_sweeper_kernel.inc.hpp:60-145, one angle: rays, then the boundary update of lines 137-142. *)
Definition sweep_angle (e : MocEnv) (first : nat) (height : R) (iang : nat) (rays : list (nat * Ray)) (din : list R) (s : Store) : Res (list R * Store) :=
  rbind (of_opt (ang_ctx e height iang)) (fun c =>
  rbind (of_opt (sweep_rays (me_xstr e) (me_q e iang) first c din rays s)) (fun s' =>
  if me_gs e then
    rbind (update_angle (me_in e) (with_data (me_out e) (st_out s')) (me_group e) iang din) (fun d1 =>
    rbind (update_angle (me_in e) (with_data (me_out e) (st_out s')) (me_group e) (rev_ang (n_oct (me_in e)) iang) d1) (fun d2 => Ok (d2, s')))
  else Ok (din, s'))).
(** moc_sweeper_kernel.inc.hpp:57-145, the angles of a plane from [iang] on. *)
Fixpoint sweep_angles (e : MocEnv) (first : nat) (height : R) (iang : nat) (angs : list (list (nat * Ray))) (din : list R) (s : Store) : Res (list R * Store) :=
  match angs with
  | [] => Ok (din, s)
  | rays :: rest => rbind (sweep_angle e first height iang rays din s) (fun '(din', s') => sweep_angles e first height (S iang) rest din' s')
  end.

(** One macroplane: first region, height, rays by angle in the order in which threads get to them, boundary fluxes.  See src/sweepers/moc/moc_sweeper_kernel.inc.hpp:51-153. *)
Record PlaneIn := mkPI { pi_first : nat; pi_height : R; pi_rays : list (list (nat * Ray)); pi_in : list R; pi_out : list R }.
(** moc_sweeper_kernel.inc.hpp:51-153: the planes; the result is the boundary data of every plane and the t_flux of every
    thread. *)
Fixpoint sweep_planes (e : MocEnv) (ps : list PlaneIn) (ts : list (list R)) : Res (list (list R * list R) * list (list R)) :=
  match ps with
  | [] => Ok ([], ts)
  | p :: rest =>
      rbind (sweep_angles e (pi_first p) (pi_height p) 0 (pi_rays p) (pi_in p) (mkSt (pi_out p) ts)) (fun '(din, s) =>
      rbind (if me_gs e then Ok din else update_group (me_in e) (with_data (me_out e) (st_out s)) (me_group e) din) (fun din' =>
      rbind (sweep_planes e rest (st_t s)) (fun '(bs, ts') => Ok ((din', st_out s) :: bs, ts'))))
  end.

(** Lines 156-162: flux_1g_(i) += t_flux(i), thread after thread. *)
Fixpoint add_lists (a b : list R) : list R := match a, b with x :: a', y :: b' => (x + y)%R :: add_lists a' b' | _, _ => [] end.
(** As above, src/sweepers/moc/moc_sweeper_kernel.inc.hpp:156-162. *)
Definition sum_threads (n : nat) (ts : list (list R)) : list R := fold_left add_lists ts (repeat 0%R n).

(** src/core/constants.hpp FPI = 4 PI.  See src/core/constants.hpp:26. *)
Definition FPI : R := (4 * PI)%R.
(** Lines 165-173: division by the optical volume and addition of the source; [None] = division by zero. *)
Fixpoint finish (acc xstr vol q : list R) : option (list R) :=
  match acc, xstr, vol, q with
  | [], _, _, _ => Some []
  | a :: ar, x :: xr, v :: vr, b :: qr =>
      if Reqb (x * v)%R 0 then None else match finish ar xr vr qr with Some r => Some ((a / (x * v) + b * FPI)%R :: r) | None => None end
  | _, _, _, _ => None
  end.

(** moc_sweeper_kernel.inc.hpp:36-180 sweep1g with [nt] threads and [n_reg] regions: the scalar flux and the boundary data. *)
Definition sweep1g (e : MocEnv) (nt n_reg : nat) (ps : list PlaneIn) : Res (list R * list (list R * list R)) :=
  rbind (sweep_planes e ps (repeat (repeat 0%R n_reg) nt)) (fun '(bs, ts) =>
  rbind (of_opt (finish (sum_threads n_reg ts) (me_xstr e) (me_vol e) (me_q e 0))) (fun f => Ok (f, bs))).
