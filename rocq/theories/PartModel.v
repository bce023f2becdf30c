(** Model of particle tracking and collisions in the Monte Carlo solver: src/core/geometry/line.cpp, circle.cpp,
    direction.hpp (Isotropic), the pin meshes' distance_to_surface and find_reg with a direction
    (src/core/pin_mesh_rect.cpp, src/core/pin_mesh_cyl.cpp), src/sweepers/mc/particle.hpp and the parts of
    src/sweepers/mc/particle_pusher.cpp named below.  Real arithmetic is exact.  The largest double, which stands for "no
    surface", is [None]; every distance computed is taken to be below it. *)
From Coq Require Import Reals ZArith List Bool.
From Verif Require Import RUtil StdAlg GeomModel MeshModel CoreModel AngModel PmModel ScatModel XsModel.
Import ListNotations.
Local Open Scope R_scope.

(** src/core/geometry/direction.hpp:131-136 Direction::Isotropic. *)
Definition isotropic (r1 r2 : R) : Dir := dir_angles (r1 * (2 * PI)) (acos (r2 * 2 - 1)).

(** ** Distances *)
(** src/core/geometry/line.cpp:22-55 Line::distance_to_surface. *)
Definition line_dist (l : Line) (p : Point2) (d : Dir) (coincident : bool) : option R :=
  if coincident then None
  else
    let a := pty (p1 l) - pty (p2 l) in
    let b := ptx (p2 l) - ptx (p1 l) in
    let c := ptx (p1 l) * pty (p2 l) - ptx (p2 l) * pty (p1 l) in
    let f := a * ptx p + b * pty p + c in
    let proj := ox d * a + oy d * b in
    if Rltb (Rabs proj) REAL_FUZZ then None
    else let t := - f / proj in if Rltb 0 t && Rltb REAL_FUZZ (Rabs f) then Some t else None.

(** src/core/geometry/circle.cpp:24-66 Circle::distance_to_surface. *)
Definition circle_dist (ci : Circle) (p : Point2) (d : Dir) (coincident : bool) : option R :=
  let a := 1 - oz d * oz d in
  if Reqb a 0 then None
  else
    let x := ptx p - ptx (cc ci) in
    let y := pty p - pty (cc ci) in
    let k := x * ox d + y * oy d in
    let c := x * x + y * y - cr ci * cr ci in
    let det := k * k - a * c in
    if Rltb det 0 then None
    else if coincident || Rltb (Rabs c) REAL_FUZZ then (if Rleb 0 k then None else Some ((- k + sqrt det) / a))
    else if Rltb c 0 then Some ((- k + sqrt det) / a)
    else let t := (- k - sqrt det) / a in if Rleb 0 t then Some t else None.

(** src/core/pin_mesh_rect.cpp:95, src/core/pin_mesh_cyl.cpp:332: d < dist. *)
Definition closer (d best : option R) : bool :=
  match d, best with Some a, Some b => Rltb a b | Some _, None => true | None, _ => false end.
(** src/core/pin_mesh_rect.cpp:93-99, src/core/pin_mesh_cyl.cpp:330-344: the loops over surfaces, each given by its
    identifier and its distance as a function of the flag. *)
Fixpoint scan (coinc : Z) (ss : list (Z * (bool -> option R))) (best : option R) (id : Z) : option R * Z :=
  match ss with
  | [] => (best, id)
  | s :: r => let d := snd s (coinc =? fst s)%Z in if closer d best then scan coinc r d (fst s) else scan coinc r best id
  end.
(** src/core/geometry/geom_surface.hpp:25-36: identifiers are drawn from a global counter when a surface is made, and kept
    by copies; those of a pin are consecutive from [base]. *)
Fixpoint number {A} (base : Z) (l : list A) : list (Z * A) := match l with [] => [] | x :: r => (base, x) :: number (base + 1) r end.
(** src/core/pin_mesh_rect.cpp:78-103 PinMesh_Rect::distance_to_surface: distance, whether the point is outside the pin, and
    the identifier stored back. *)
Definition rect_surfaces (pm : RectPin) (base : Z) (p : Point2) (d : Dir) : list (Z * (bool -> option R)) :=
  number base (map (fun l => line_dist l p d) (rp_lines pm)).
(** As above, src/core/pin_mesh_rect.cpp:78-103. *)
Definition rect_dist (pm : RectPin) (base : Z) (p : Point2) (d : Dir) (coinc : Z) : option R * bool * Z :=
  if Rltb (0.5 * rp_pitch pm) (Rabs (ptx p)) || Rltb (0.5 * rp_pitch pm) (Rabs (pty p)) then (Some 0, true, coinc)
  else let '(t, id) := scan coinc (rect_surfaces pm base p d) None coinc in (t, false, id).
(** src/core/pin_mesh_cyl.cpp:313-351 PinMesh_Cyl::distance_to_surface: the circles, then the lines. *)
Definition cyl_surfaces (pm : CylPin) (base : Z) (p : Point2) (d : Dir) : list (Z * (bool -> option R)) :=
  number base (map (fun r => circle_dist {| cc := origin; cr := r |} p d) (cp_radii pm) ++ map (fun l => line_dist l p d) (cp_lines pm)).
(** As above, src/core/pin_mesh_cyl.cpp:313-351. *)
Definition cyl_dist (pm : CylPin) (base : Z) (p : Point2) (d : Dir) (coinc : Z) : option R * bool * Z :=
  if Rltb (0.5 * cp_pitch pm) (Rabs (ptx p)) || Rltb (0.5 * cp_pitch pm) (Rabs (pty p)) then (Some 0, true, coinc)
  else let '(t, id) := scan coinc (cyl_surfaces pm base p d) None coinc in (t, false, id).

(** ** Regions for a travelling particle *)
(** src/core/pin_mesh_rect.cpp:177-182 (and 183-188): the index along one axis; [eqv] stands for fp_equiv.  [None] = a read
    past the end of the divisions. *)
Definition axis_index (eqv : R -> R -> bool) (h : list R) (n : nat) (x o : R) : option Z :=
  match lower_bound fuzzy_lt h x with
  | None => None
  | Some i => match nth_error h i with
              | None => None
              | Some v => let i' := if eqv x v then (if Rltb 0 o then Z.of_nat i + 1 else Z.of_nat i)%Z else Z.of_nat i in
                          Some (Z.max 0 (Z.min (Z.of_nat n - 1) (i' - 1)))
              end
  end.
(** src/core/pin_mesh_rect.cpp:167-193 PinMesh_Rect::find_reg(Point2, Direction). *)
Definition rect_find_reg_dir (eqv : R -> R -> bool) (pm : RectPin) (p : Point2) (d : Dir) : option Z :=
  let h := 0.5 * rp_pitch pm in
  if (Rltb (ptx p) (- h + REAL_FUZZ) && Rltb (ox d) 0) || (Rltb (h - REAL_FUZZ) (ptx p) && Rltb 0 (ox d)) ||
     (Rltb (pty p) (- h + REAL_FUZZ) && Rltb (oy d) 0) || (Rltb (h - REAL_FUZZ) (pty p) && Rltb 0 (oy d)) then Some (-1)%Z
  else match axis_index eqv (rp_hx pm) (rp_nx pm) (ptx p) (ox d), axis_index eqv (rp_hy pm) (rp_ny pm) (pty p) (oy d) with
       | Some ix, Some iy => Some (Z.of_nat (rp_nx pm) * iy + ix)%Z
       | _, _ => None
       end.

(** src/core/pin_mesh_cyl.cpp:258-311 PinMesh_Cyl::find_reg(Point2, Direction); [ulp] is fp_equiv_ulp.  std::round rounds halves
    up here as the quotient is not negative, and the remainder on line 303 is C's, negative for a negative sector. *)
Definition cyl_find_reg_dir (ulp : R -> R -> bool) (pm : CylPin) (p : Point2) (d : Dir) : option Reg :=
  let h := 0.5 * cp_pitch pm in
  if (Rltb (ptx p) (- h) && Rltb (ox d) 0) || (Rltb h (ptx p) && Rltb 0 (ox d)) ||
     (Rltb (pty p) (- h) && Rltb (oy d) 0) || (Rltb h (pty p) && Rltb 0 (oy d)) then Some (RIdx (-1))
  else
    let r := sqrt (ptx p * ptx p + pty p * pty p) in
    match lower_bound fuzzy_lt (cp_radii pm) r with
    | None => None
    | Some i =>
        let ir := match nth_error (cp_radii pm) i with
                  | Some v => if ulp r v && Rltb 0 (ptx p * ox d + pty p * oy d) then S i else i
                  | None => i
                  end in
        let azi := if ulp (alpha p) (2 * PI) then (if Rltb PI (AngModel.alpha d) then 2 * PI else 0) else alpha p in
        let space := 2 * PI / IZR (cp_azi pm) in
        let closest := Int_part (azi / space + 1 / 2) in
        let ia := if fp_equiv_abs (IZR closest * space) azi then (if Rltb azi (AngModel.alpha d) then closest else (closest - 1)%Z)
                  else Int_part (azi / space) in
        let ireg := (Z.of_nat ir * cp_azi pm + Z.rem ia (cp_azi pm))%Z in
        Some (if ((0 <=? ireg) && (ireg <? cyl_n_reg pm))%Z then RIdx ireg else RAssert)
    end.

(** ** Particles *)
(** src/sweepers/mc/particle.hpp:55-92 struct Particle; the region indices and pin position are left to the callers. *)
Record Particle := mkPart { pweight : R; pgroup : nat; ploc : Point2; pdir : Dir; pgx : R; pgy : R; pgz : R; pid : Z; pcoinc : Z; palive : bool }.
(** src/sweepers/mc/particle.hpp:61-71: a new particle; the pin-local point is not set. *)
Definition new_particle (x y z : R) (d : Dir) (ig : nat) (id : Z) (unset : Point2) : Particle :=
  mkPart 1 ig unset d x y z id (-1) true.
(** src/sweepers/mc/particle.hpp:30 BUMP. *)
Definition BUMP : R := 1 / 10 ^ 11.
(** src/util/sign.hpp:23-25 sgn. *)
Definition sgn (v : R) : R := (if Rltb 0 v then 1 else 0) - (if Rltb v 0 then 1 else 0).
(** src/sweepers/mc/particle.hpp:102-113 Particle::move, one coordinate. *)
Definition advance (v o t : R) : R := v + ((t + BUMP) * o + BUMP * sgn o).
(** As above, src/sweepers/mc/particle.hpp:102-113. *)
Definition move (p : Particle) (t : R) : Particle :=
  let d := pdir p in
  mkPart (pweight p) (pgroup p) {| ptx := advance (ptx (ploc p)) (ox d) t; pty := advance (pty (ploc p)) (oy d) t |} d
         (advance (pgx p) (ox d) t) (advance (pgy p) (oy d) t) (advance (pgz p) (oz d) t) (pid p) (pcoinc p) (palive p).

(** src/sweepers/mc/particle_pusher.cpp:36-40: one axis.  A quotient by zero is an infinity or not a number; of those only
    +inf passes the test, and the minimum with the largest double discards it. *)
Definition axis_dist (lo hi x o : R) : option R :=
  if Reqb o 0 then None
  else let t := if Rltb 0 o then (hi - x) / o else (lo - x) / o in if Rltb 0 t then Some t else None.
(** As above, src/sweepers/mc/particle_pusher.cpp:36-40. *)
Definition omin (a b : option R) : option R :=
  match a, b with Some x, Some y => Some (Rmin x y) | Some x, None => Some x | None, y => y end.
(** src/sweepers/mc/particle_pusher.cpp:30-57 distance_to_pin; [None] = the assertion on line 54 fails (in a release build
    the largest double is returned). *)
Definition distance_to_pin (lx ly lz hx hy hz : R) (p : Particle) : option R :=
  omin (axis_dist lz hz (pgz p) (oz (pdir p))) (omin (axis_dist ly hy (pgy p) (oy (pdir p))) (axis_dist lx hx (pgx p) (ox (pdir p)))).

(** ** Collisions *)
(** src/util/rng_lcg.hpp:114-120 sample_cdf, given the random number. *)
Definition sample (cdf : list R) (u : R) : option nat := lower_bound Rltb cdf u.
(** src/sweepers/mc/particle_pusher.cpp:132,150: a direction from two random numbers; C++ does not fix the order in which the
    two arguments are evaluated, [ltr] tells whether it is left to right. *)
Definition draw_direction (ltr : bool) (us : list R) : option (Dir * list R) :=
  match us with u :: v :: r => Some (if ltr then isotropic u v else isotropic v u, r) | _ => None end.
(** src/sweepers/mc/particle_pusher.cpp:147-153: the fission sites. *)
Fixpoint fission_sites (ltr : bool) (chi : list R) (p : Particle) (k : nat) (us : list R) : option (list Particle * list R) :=
  match k with
  | O => Some ([], us)
  | S k' =>
      match us with
      | [] => None
      | u :: r =>
          match sample chi u, draw_direction ltr r with
          | Some ig, Some (d, r') =>
              match fission_sites ltr chi p k' r' with
              | Some (l, r'') => Some (new_particle (pgx p) (pgy p) (pgz p) d ig (pid p) (ploc p) :: l, r'')
              | None => None
              end
          | _, _ => None
          end
      end
  end.
(** src/sweepers/mc/particle_pusher.cpp:144: int n_fis = weight * nu + random. *)
Definition n_fission (w nu u : R) : nat := Z.to_nat (Int_part (w * nu + u)).
(** What a collision does: the particle, the sites added to the bank, the score of the collision estimate of k, that of the
    flux, and the random numbers left.  See src/sweepers/mc/particle_pusher.cpp:98-164. *)
Record Collision := mkCol { c_part : Particle; c_sites : list Particle; c_k : R; c_flux : R; c_left : list R }.
(** As above, src/sweepers/mc/particle_pusher.cpp:144. *)
Definition set_alive (p : Particle) (b : bool) : Particle := mkPart (pweight p) (pgroup p) (ploc p) (pdir p) (pgx p) (pgy p) (pgz p) (pid p) (pcoinc p) b.
(** As above, src/sweepers/mc/particle_pusher.cpp:144. *)
Definition scattered (p : Particle) (ig : nat) (d : Dir) : Particle := mkPart (pweight p) ig (ploc p) d (pgx p) (pgy p) (pgz p) (pid p) (pcoinc p) (palive p).
(** src/sweepers/mc/particle_pusher.cpp:98-164 ParticlePusher::collide; [us] are the values of RNG.random() to come.  The
    table of the fission spectrum, rebuilt for every site in the program, is built once.  [None] =
    a read out of range or a division by zero. *)
Definition collide (ltr : bool) (x : XReg) (p : Particle) (us : list R) : option Collision :=
  match us, reaction_cdf x (pgroup p), nth_error (xr_tr x) (pgroup p), nth_error (xr_nf x) (pgroup p), nth_error (xr_f x) (pgroup p) with
  | u :: us1, Some rc, Some tr, Some nf, Some f =>
      match sample rc u with
      | None => None
      | Some reaction =>
          let k := pweight p * nf / tr in
          let fl := pweight p / tr in
          match reaction with
          | 0%nat =>
              match out_cdf (xr_sc x) (pgroup p), us1 with
              | Some cdf, v :: us2 =>
                  match sample cdf v, draw_direction ltr us2 with
                  | Some ig, Some (d, us3) => Some (mkCol (scattered p ig d) [] k fl us3)
                  | _, _ => None
                  end
              | _, _ => None
              end
          | 1%nat =>
              match chi_cdf x, us1 with
              | Some chi, v :: us2 =>
                  if Reqb f 0 then None
                  else match fission_sites ltr chi p (n_fission (pweight p) (nf / f) v) us2 with
                       | Some (sites, us3) => Some (mkCol (set_alive p false) sites k fl us3)
                       | None => None
                       end
              | _, _ => None
              end
          | _ => Some (mkCol (set_alive p false) [] k fl us1)
          end
      end
  | _, _, _, _, _ => None
  end.
