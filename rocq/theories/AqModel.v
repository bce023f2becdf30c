(** Model of the quadratures a user writes down, of quadrature files, assignment and the weight update, and of the
    Gauss-Legendre polar angles.  src/core/geometry/angle.cpp, src/core/angular_quadrature_user.cpp,
    src/core/angular_quadrature.{hpp,cpp}, src/core/product_quadrature.hpp.  Real arithmetic is exact. *)
From Coq Require Import ZArith List Bool Reals.
From Verif Require Import RUtil MeshModel AngModel.
Import ListNotations.
Open Scope R_scope.

(** ** Angles in the input *)

(** The attributes of an <angle> tag read in src/core/geometry/angle.cpp:29-107; [None] = not given.  Text that is not
    a number is read as some number by the XML library and is not modelled. *)
Record XAng := mkXAng { x_weight : option R; x_ox : option R; x_oy : option R; x_oz : option R;
                        x_alpha : option R; x_theta : option R }.
(** pugixml attribute.empty() and as_double(default), used in src/core/geometry/angle.cpp:36-84. *)
Definition given (o : option R) : bool := match o with Some _ => true | None => false end.
(** As above, src/core/geometry/angle.cpp:36-84. *)
Definition or_else (o : option R) (d : R) : R := match o with Some v => v | None => d end.

(** fp_equiv_ulp(x, 1.0) (src/util/fp_utils.hpp:53-70) for a double x: fewer than 200 representable numbers away from
    one, hence this interval (proved in AqProps.near_one_bits against the bit-level model). *)
Definition near_one (x : R) : bool := Rleb (1 - 199 / 2 ^ 53) x && Rleb x (1 + 199 / 2 ^ 52).

(** src/core/geometry/angle.cpp:29-107 Angle(xml); [None] = exception.  The constants HPI, PI and TWOPI are exact. *)
Definition angle_of (x : XAng) : option Angle :=
  let w := or_else (x_weight x) 0 in
  if Rleb w 0 then None else
  if given (x_ox x) then
    if given (x_alpha x) || given (x_theta x) then None else
    let cx := or_else (x_ox x) 2 in let cy := or_else (x_oy x) 2 in let cz := or_else (x_oz x) 2 in
    if Rleb cx (-1) || Rleb 1 cx then None else
    if Rleb cy (-1) || Rleb 1 cy then None else
    if Rleb cz (-1) || Rleb 1 cz then None else
    if negb (near_one (sqrt (cx * cx + cy * cy + cz * cz))) then None else
    Some (mkAngle (dir_cosines cx cy cz) w)
  else if given (x_alpha x) then
    if given (x_ox x) || given (x_oy x) || given (x_oz x) then None else
    let t := or_else (x_theta x) 0 in let a := or_else (x_alpha x) 0 in
    if Rleb t (- (PI / 2)) || Rleb (PI / 2) t then None else
    if Rltb a 0 || Rleb (2 * PI) a || Reqb a 0 || Reqb a (PI / 2) || Reqb a PI || Reqb a (3 * (PI / 2)) then None else
    Some (mkAngle (dir_angles a t) w)
  else None.

(** src/core/angular_quadrature_user.cpp:38-41: the angles in order, the first exception wins. *)
Fixpoint angles_of (xs : list XAng) : option (list Angle) :=
  match xs with
  | [] => Some []
  | x :: r => match angle_of x with
              | None => None
              | Some a => match angles_of r with Some l => Some (a :: l) | None => None end
              end
  end.
(** src/core/angular_quadrature_user.cpp:43-52: some angle outside the first octant. *)
Definition outside (a : Angle) : bool := Rltb (ox (adir a)) 0 || Rltb (oy (adir a)) 0 || Rltb (oz (adir a)) 0.
(** src/core/angular_quadrature_user.cpp:23-63 GenUserQuadrature; [None] = exception. *)
Definition user_angles (xs : list XAng) : option (list Angle) :=
  match angles_of xs with
  | None => None
  | Some l =>
      if existsb outside l then None
      else if negb (near_one (fold_left (fun s a => s + weight a) l 0)) then None
      else Some l
  end.

(** ** The quadrature object *)

(** src/core/angular_quadrature.hpp:28-37 QuadratureType. *)
Inductive QType := LS | CHEB_GAUSS | CHEB_YAMAMOTO | USER | IMPORT.
(** src/core/angular_quadrature.hpp:202-213: the members.  A default-constructed quadrature (hpp:56) leaves them
    indeterminate and is not represented. *)
Record Quad := mkQuad { q_type : QType; q_ndir : nat; q_angles : list Angle; q_npol : Z; q_nazi : Z }.
(** src/core/angular_quadrature.cpp:101-112: the object made of the angles of the first octant; the numbers of polar
    and azimuthal angles are -1 unless the input gives them (lines 59-60). *)
Definition quad_of (t : QType) (nazi npol : Z) (oct1 : list Angle) : Quad := mkQuad t (length oct1) (expand oct1) npol nazi.
(** src/core/angular_quadrature.cpp:92-96 with 101-112: a user-specified quadrature. *)
Definition user_quad (xs : list XAng) (nazi npol : option Z) : option Quad :=
  match user_angles xs with
  | Some l => Some (quad_of USER (match nazi with Some n => n | None => (-1)%Z end)
                                 (match npol with Some n => n | None => (-1)%Z end) l)
  | None => None
  end.

(** src/core/angular_quadrature.cpp:161-190 operator=, from a different object; [None] = exception, nothing changed. *)
Definition assign (dst src : Quad) : option Quad :=
  if negb (q_npol dst =? q_npol src)%Z || negb (q_nazi dst =? q_nazi src)%Z then None
  else Some (mkQuad (q_type src) (q_ndir src) (q_angles src) (q_npol src) (q_nazi src)).

(** src/core/geometry/direction.hpp:154-162 and src/core/geometry/angle.hpp:120-139: [same] stands for fp_equiv_ulp. *)
Definition dir_eq (same : R -> R -> bool) (a b : Dir) : bool :=
  negb (negb (same (ox a) (ox b)) || negb (same (oy a) (oy b)) || negb (same (oz a) (oz b)) ||
        negb (same (alpha a) (alpha b)) || negb (same (theta a) (theta b)) || negb (same (rsintheta a) (rsintheta b))).
(** As above, src/core/geometry/direction.hpp:154-162. *)
Definition angle_eq (same : R -> R -> bool) (a b : Angle) : bool :=
  negb (negb (same (weight a) (weight b)) || negb (dir_eq same (adir a) (adir b))).
(** std::vector's operator==, used in src/core/angular_quadrature.hpp:171-174. *)
Fixpoint angles_eq (same : R -> R -> bool) (l m : list Angle) : bool :=
  match l, m with
  | [], [] => true
  | a :: l', b :: m' => angle_eq same a b && angles_eq same l' m'
  | _, _ => false
  end.
(** src/core/angular_quadrature.hpp:171-174 operator==. *)
Definition quad_eq (same : R -> R -> bool) (p q : Quad) : bool :=
  (q_ndir p =? q_ndir q)%nat && angles_eq same (q_angles p) (q_angles q).

(** ** Files *)

(** The group "ang_quad" written in src/core/angular_quadrature.cpp:213-249. *)
Record QFile := mkQFile { f_npol : Z; f_nazi : Z; f_alpha : list R; f_theta : list R;
                          f_ox : list R; f_oy : list R; f_oz : list R; f_weight : list R }.
(** src/core/angular_quadrature.cpp:213-249 output. *)
Definition write_quad (q : Quad) : QFile :=
  let l := q_angles q in
  mkQFile (q_npol q) (q_nazi q) (map (fun a => alpha (adir a)) l) (map (fun a => theta (adir a)) l)
    (map (fun a => ox (adir a)) l) (map (fun a => oy (adir a)) l) (map (fun a => oz (adir a)) l) (map weight l).

(** What reading gives: an exception, a read outside an array, or the object.  See src/core/angular_quadrature.cpp:147-154. *)
Inductive QRead := QThrow | QUB | QOk (q : Quad).
(** src/core/angular_quadrature.cpp:147-154: angle number [i] of the file; [None] = theta or alpha read out of range. *)
Definition read_angle (f : QFile) (i : nat) : option Angle :=
  match nth_error (f_ox f) i, nth_error (f_oy f) i, nth_error (f_oz f) i, nth_error (f_weight f) i,
        nth_error (f_theta f) i, nth_error (f_alpha f) i with
  | Some x, Some y, Some z, Some w, Some t, Some a =>
      let d := dir_cosines x y z in Some (mkAngle (mkDir (ox d) (oy d) (oz d) a t (rsintheta d)) w)
  | _, _, _, _, _, _ => None
  end.
(** As above, src/core/angular_quadrature.cpp:147-154. *)
Fixpoint read_angles (f : QFile) (is : list nat) : option (list Angle) :=
  match is with
  | [] => Some []
  | i :: r => match read_angle f i, read_angles f r with Some a, Some l => Some (a :: l) | _, _ => None end
  end.
(** src/core/angular_quadrature.cpp:115-159 AngularQuadrature(H5Node). *)
Definition read_quad (f : QFile) : QRead :=
  let size := length (f_ox f) in
  if negb (size =? length (f_oy f))%nat || negb (size =? length (f_oz f))%nat || negb (size =? length (f_weight f))%nat then QThrow
  else if negb (size mod 8 =? 0)%nat then QThrow
  else match read_angles f (seq 0 size) with
       | Some l => QOk (mkQuad IMPORT (size / 8) l (f_npol f) (f_nazi f))
       | None => QUB
       end.

(** ** The weight update *)

(** std::sort on numbers, used in src/core/angular_quadrature.cpp:310. *)
Fixpoint insert (x : R) (l : list R) : list R :=
  match l with [] => [x] | y :: r => if Rleb x y then x :: l else y :: insert x r end.
(** As above, src/core/angular_quadrature.cpp:310. *)
Fixpoint sort (l : list R) : list R := match l with [] => [] | x :: r => insert x (sort r) end.
(** std::unique with fp_equiv_ulp ([same]), used in src/core/angular_quadrature.cpp:312-314: an element is dropped
    when it is equivalent to the last one kept. *)
Fixpoint uniq_from (same : R -> R -> bool) (k : R) (l : list R) : list R :=
  match l with [] => [] | y :: r => if same k y then uniq_from same k r else y :: uniq_from same y r end.
(** As above, src/core/angular_quadrature.cpp:312-314. *)
Definition uniq (same : R -> R -> bool) (l : list R) : list R :=
  match l with [] => [] | x :: r => x :: uniq_from same x r end.

(** What an update gives.  See src/core/angular_quadrature.cpp:288-352. *)
Inductive QUpd := UThrow | UUB | UOk (q : Quad).
(** src/core/angular_quadrature.cpp:288-352 update_chebyshev_weights; [pol] is what the generator of polar angles
    returns.  Lines 345-350 take ndir_oct_ angles of the new list as the first octant: when the new list has another
    length the outcome is [UUB] (out of range, or octants of the wrong size). *)
Definition update_chebyshev_weights (same : R -> R -> bool) (pol : list (R * R)) (q : Quad) : QUpd :=
  let azi := uniq same (sort (map (fun a => alpha (adir a)) (firstn (q_ndir q) (q_angles q)))) in
  if negb (Z.of_nat (length azi) =? q_nazi q)%Z then UThrow
  else match wedge azi (azi_bounds azi) with
       | None => UUB
       | Some pairs =>
           let l := gen_product pairs pol in
           if (length l =? q_ndir q)%nat then UOk (mkQuad (q_type q) (q_ndir q) (expand l) (q_npol q) (q_nazi q)) else UUB
       end.
(** src/core/angular_quadrature.cpp:251-282 update_weights; [gauss] and [yamamoto] are what the generators return for
    n_polar, [None] = exception. *)
Definition update_weights (same : R -> R -> bool) (gauss yamamoto : option (list (R * R))) (q : Quad) : QUpd :=
  match q_type q with
  | LS | IMPORT | USER => UOk q
  | CHEB_GAUSS => match gauss with Some pol => update_chebyshev_weights same pol q | None => UThrow end
  | CHEB_YAMAMOTO => match yamamoto with Some pol => update_chebyshev_weights same pol q | None => UThrow end
  end.
(** src/core/product_quadrature.hpp:32-45 GenYamamoto. *)
Definition gen_yamamoto_n (n : Z) : option (list (R * R)) := if (n =? 3)%Z then Some gen_yamamoto else None.

(** src/sweepers/moc/ray_data.cpp:161-186: angle number [i] of the first octant gets the azimuthal angle [new i] and
    is put back; [None] = out of range. *)
Fixpoint modularise (new : nat -> R) (n : nat) (is : list nat) (l : list Angle) : option (list Angle) :=
  match is with
  | [] => Some l
  | i :: r =>
      match nth_error l i with
      | None => None
      | Some a => match modify_angle n i (mkAngle (dir_angles (new i) (theta (adir a))) (weight a)) l with
                  | Some l' => modularise new n r l'
                  | None => None
                  end
      end
  end.

(** ** Gauss-Legendre polar angles *)

(** src/core/product_quadrature.hpp:77-82: the starting points, i = 0 .. N1-1, with N1 = 2 n_polar, N = N1 - 1,
    N2 = N1 + 1. *)
Definition gauss_start (npol : nat) (i : nat) : R :=
  let n1 := INR (2 * npol) in
  let xu := -1 + INR i * (2 / (n1 - 1)) in
  cos ((2 * INR i + 1) * PI / (2 * n1)) + 0.27 / n1 * sin (PI * xu * (n1 - 1) / (n1 + 1)).
(** src/core/product_quadrature.hpp:95-103: column [k] of L at the point y (the recursion of lines 100-101). *)
Fixpoint legendre2 (k : nat) (y : R) : R * R :=   (* (L(k), L(k+1)) *)
  match k with
  | O => (1, y)
  | S k' => let '(a, b) := legendre2 k' y in (b, ((2 * INR k + 1) * y * b - INR k * a) / (INR k + 1))
  end.
(** As above, src/core/product_quadrature.hpp:95-103. *)
Definition legendre (k : nat) (y : R) : R := fst (legendre2 k y).
(** src/core/product_quadrature.hpp:105-108 Lp at a point; L(i, N1-1) and L(i, N2-1) = L(i, N1). *)
Definition gauss_slope (npol : nat) (y : R) : R :=
  let n1 := (2 * npol)%nat in (INR n1 + 1) * (legendre (n1 - 1) y - y * legendre n1 y) / (1 - y * y).
(** src/core/product_quadrature.hpp:110-114: one Newton step. *)
Definition gauss_step (npol : nat) (y : R) : R := y - legendre (2 * npol) y / gauss_slope npol y.
(** src/core/product_quadrature.hpp:94-115: the points after [k] passes of the loop, and the points Lp was last
    computed at (none before the first pass: Lp is then not initialised).  How many passes are made depends on
    rounding; the theorems hold for every number. *)
Fixpoint gauss_points (npol k : nat) : list R :=
  match k with
  | O => map (gauss_start npol) (seq 0 (2 * npol))
  | S k' => map (gauss_step npol) (gauss_points npol k')
  end.
(** src/core/product_quadrature.hpp:117-120: the weight at index [i]: y after the last pass, Lp from before it. *)
Definition gauss_weight (npol : nat) (y yprev : R) : R :=
  let n1 := INR (2 * npol) in
  1 / ((1 - y * y) * gauss_slope npol yprev * gauss_slope npol yprev) * (n1 + 1) * (n1 + 1) / (n1 * n1).
(** As above, src/core/product_quadrature.hpp:117-120. *)
Definition gauss_weights (npol k : nat) : list R :=
  map (fun p => gauss_weight npol (fst p) (snd p)) (combine (gauss_points npol (S k)) (gauss_points npol k)).
(** src/core/product_quadrature.hpp:122-132: acos of every point, first half swapped with the second. *)
Definition gauss_thetas (npol k : nat) : list R := rev (map acos (gauss_points npol (S k))).
(** src/core/product_quadrature.hpp:134-138: the pairs, for k + 1 passes of the loop. *)
Definition gen_gauss (npol k : nat) : list (R * R) := skipn npol (combine (gauss_thetas npol k) (gauss_weights npol k)).
