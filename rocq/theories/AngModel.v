(** Model of directions and angular quadratures.
    src/core/geometry/direction.hpp, src/core/geometry/angle.{hpp,cpp}, src/core/angular_quadrature.{hpp,cpp},
    src/core/level_symmetric.hpp, src/core/product_quadrature.hpp.  Real arithmetic is exact. *)
From Coq Require Import ZArith List Lia Bool Reals.
From Verif Require Import RUtil MeshModel.
Import ListNotations.
Open Scope R_scope.

(** ** Directions *)

(** src/core/geometry/direction.hpp:27-41 struct Direction. *)
Record Dir := mkDir { ox : R; oy : R; oz : R; alpha : R; theta : R; rsintheta : R }.

(** src/core/geometry/direction.hpp:57-64 Direction(alpha, theta). *)
Definition dir_angles (a t : R) : Dir :=
  mkDir (sin t * cos a) (sin t * sin a) (cos t) a t (1 / sin t).

(** src/core/geometry/direction.hpp:69-82 Direction(ox, oy, oz). *)
Definition dir_cosines (x y z : R) : Dir :=
  let t := acos z in
  let a := acos (x / sin t) in
  mkDir x y z (if Rltb y 0 then 2 * PI - a else a) t (1 / sin t).

(** src/core/geometry/direction.hpp:98-112 upwind_surface. *)
Definition upwind_surface (d : Dir) (n : Normal) : Surface :=
  match n with
  | X_NORM => if Rltb 0 (ox d) then WEST else EAST
  | Y_NORM => if Rltb 0 (oy d) then SOUTH else NORTH
  | Z_NORM => if Rltb 0 (oz d) then BOTTOM else TOP
  end.

(** src/core/geometry/direction.hpp:117-128 reflect(surf); surfaces other than the six faces do nothing. *)
Definition dir_reflect (d : Dir) (s : Surface) : Dir :=
  match s with
  | EAST | WEST => dir_cosines (- ox d) (oy d) (oz d)
  | NORTH | SOUTH => dir_cosines (ox d) (- oy d) (oz d)
  | TOP | BOTTOM => dir_cosines (ox d) (oy d) (- oz d)
  end.

(** src/core/geometry/direction.hpp:165-188 to_octant; octants are 1..8 (0-based here: oct - 1). *)
Definition dir_octant (d : Dir) (o : nat) : option Dir :=
  let x := Rabs (ox d) in let y := Rabs (oy d) in let z := Rabs (oz d) in
  match o with
  | 0%nat => Some (dir_cosines x y z)
  | 1%nat => Some (dir_cosines (- x) y z)
  | 2%nat => Some (dir_cosines (- x) (- y) z)
  | 3%nat => Some (dir_cosines x (- y) z)
  | 4%nat => Some (dir_cosines x y (- z))
  | 5%nat => Some (dir_cosines (- x) y (- z))
  | 6%nat => Some (dir_cosines (- x) (- y) (- z))
  | 7%nat => Some (dir_cosines x (- y) (- z))
  | _ => None
  end.

(** ** Quadratures *)

(** src/core/geometry/angle.hpp:61-63 struct Angle. *)
Record Angle := mkAngle { adir : Dir; weight : R }.

(** src/core/geometry/angle.cpp Angle::to_octant: the direction moved, the weight kept.  See src/core/geometry/angle.cpp:110-113. *)
Definition to_octant (a : Angle) (o : nat) : option Angle :=
  match dir_octant (adir a) o with Some d => Some (mkAngle d (weight a)) | None => None end.

(** All octants of a list: src/core/angular_quadrature.cpp:104-110 (octant 1 as given, octants 2..8 from
    to_octant; an octant outside 1..8 cannot occur). *)
Definition expand (oct1 : list Angle) : list Angle :=
  oct1 ++ flat_map (fun o => flat_map (fun a => match to_octant a o with Some b => [b] | None => [] end) oct1)
    [1; 2; 3; 4; 5; 6; 7]%nat.

(** src/core/angular_quadrature.cpp:43-45 reflection_. *)
Definition reflection (n : Normal) : list Z :=
  match n with
  | X_NORM => [1; 0; 3; 2; 5; 4; 7; 6]
  | Y_NORM => [3; 2; 1; 0; 7; 6; 5; 4]
  | Z_NORM => [4; 5; 6; 7; 0; 1; 2; 3]
  end%Z.

(** src/core/angular_quadrature.hpp:130-136 reflect(iang, normal); [None] = table read out of range. *)
Definition reflect (n : Z) (iang : Z) (norm : Normal) : option Z :=
  let ioct := (iang / n)%Z in
  if (ioct <? 0)%Z then None else
  match nth_error (reflection norm) (Z.to_nat ioct) with
  | Some new_oct => Some (iang + (new_oct - ioct) * n)%Z
  | None => None
  end.

(** src/core/angular_quadrature.hpp:141-150 reflect(iang, surf). *)
Definition reflect_surf (n iang : Z) (s : Surface) : option Z :=
  match s with
  | NORTH | SOUTH => reflect n iang Y_NORM
  | EAST | WEST => reflect n iang X_NORM
  | _ => reflect n iang Z_NORM
  end.

(** src/core/angular_quadrature.hpp:158-167 reverse(iang, dim). *)
Definition reverse2 (n iang : Z) : Z := ((iang + n * 2) mod (n * 4))%Z.
(** As above, src/core/angular_quadrature.hpp:158-167. *)
Definition reverse3 (n iang : Z) : Z := ((iang + n * 6) mod (n * 8))%Z.

(** Replace the element at [i]; [None] = out of range.  See src/core/angular_quadrature.cpp:190-197. *)
Fixpoint upd {A} (l : list A) (i : nat) (v : A) : option (list A) :=
  match l, i with
  | [], _ => None
  | _ :: r, O => Some (v :: r)
  | a :: r, S i' => match upd r i' v with Some r' => Some (a :: r') | None => None end
  end.

(** src/core/angular_quadrature.cpp:190-197 modify_angle. *)
Fixpoint modify_octants (n iang : nat) (a : Angle) (octs : list nat) (l : list Angle) : option (list Angle) :=
  match octs with
  | [] => Some l
  | o :: r =>
      match to_octant a o with
      | None => None
      | Some b => match upd l (iang + o * n) b with Some l' => modify_octants n iang a r l' | None => None end
      end
  end.
(** As above, src/core/angular_quadrature.cpp:190-197. *)
Definition modify_angle (n iang : nat) (a : Angle) (l : list Angle) : option (list Angle) :=
  match upd l iang a with Some l' => modify_octants n iang a [1; 2; 3; 4; 5; 6; 7]%nat l' | None => None end.

(** ** Product quadratures *)

(** src/core/product_quadrature.hpp:143-164 GenProduct; pairs are (angle, weight). *)
Definition gen_product (azi pol : list (R * R)) : list Angle :=
  let raw := flat_map (fun a => map (fun p => mkAngle (dir_angles (fst a) (fst p)) (snd a * snd p)) pol) azi in
  let wsum := fold_left (fun s a => s + weight a) raw 0 in
  map (fun a => mkAngle (adir a) (weight a / wsum)) raw.

(** src/core/product_quadrature.hpp:49-63 GenChebyshev. *)
Definition gen_chebyshev (n : nat) : list (R * R) :=
  map (fun i => (0.5 * PI / (2 * INR n) * (2 * INR i + 1), 1 / INR n)) (seq 0 n).

(** src/core/product_quadrature.hpp:32-45 GenYamamoto for n_polar = 3. *)
Definition gen_yamamoto : list (R * R) :=
  [(0.167429147795, 0.046233); (0.567715121084, 0.283619); (1.202533146789, 0.670148)].

(** src/core/angular_quadrature.cpp:323-330: azi_bounds. *)
Fixpoint midpoints (l : list R) : list R :=
  match l with a :: ((b :: _) as r) => (a + b) / 2 :: midpoints r | _ => [] end.
(** As above, src/core/angular_quadrature.cpp:323-330. *)
Definition azi_bounds (azi : list R) : list R := 0 :: midpoints azi ++ [PI / 2].

(** src/core/angular_quadrature.cpp:332-341: azi_pairs, from the sorted distinct azimuthal angles.  [None] =
    bounds read out of range. *)
Fixpoint wedge (azi bounds : list R) : option (list (R * R)) :=
  match azi, bounds with
  | [], _ => Some []
  | a :: r, b0 :: ((b1 :: _) as br) =>
      match wedge r br with Some l => Some ((a, (b1 - b0) / (PI / 2)) :: l) | None => None end
  | _, _ => None
  end.

(** src/core/angular_quadrature.cpp:332-351: the new angles.  [azi] is the sorted list of distinct azimuthal
    angles (lines 303-321, std::sort and std::unique are not modelled). *)
Definition update_chebyshev (azi : list R) (pol : list (R * R)) : option (list Angle) :=
  match wedge azi (azi_bounds azi) with Some l => Some (expand (gen_product l pol)) | None => None end.

(** ** Level-symmetric quadratures *)

(** src/core/level_symmetric.hpp:30-32 mu_base (in units of 1e-15). *)
Definition mu_base : list R := map (fun z => IZR z / 10 ^ 15)
  [577350269189626; 350021000000000; 266636000000000; 218218218218218;
   192450089729876; 174077655955702; 161575000000000; 149071198499989]%Z.

(** src/core/level_symmetric.hpp:41 w_offset. *)
Definition w_offset : list nat := [0; 1; 2; 4; 7; 11; 16; 23]%nat.

(** src/core/level_symmetric.hpp:34-39: the size of w_unique. *)
Definition w_unique_size : nat := 31.

(** src/core/level_symmetric.hpp:43-47 w_map. *)
Definition w_map : list nat :=
  [1; 1; 1; 1; 1; 2; 2; 1; 2; 1; 1; 2; 2; 2; 3; 2; 1; 2; 2; 1;
   1; 2; 2; 3; 4; 3; 2; 4; 4; 2; 1; 2; 3; 2; 1; 1; 2; 2; 3; 5;
   3; 4; 6; 6; 4; 3; 6; 7; 6; 3; 2; 5; 6; 6; 5; 2; 1; 2; 3; 4;
   3; 2; 1; 1; 2; 2; 3; 5; 3; 4; 6; 6; 4; 4; 7; 8; 7; 4; 3; 6;
   8; 8; 6; 3; 2; 5; 6; 7; 6; 5; 2; 1; 2; 3; 4; 4; 3; 2; 1]%nat.

(** src/core/level_symmetric.hpp:49 w_map_offset (seven entries). *)
Definition w_map_offset : list nat := [0; 1; 4; 10; 20; 35; 63]%nat.

(** Index triple of each generated ordinate into the list of base cosines, with the position in w_unique its
    weight is read from (src/core/level_symmetric.hpp:79-96). *)
Record Ordinate := mkOrd { ix : nat; iy : nat; iz : nat; iw : nat }.

(** Outcomes of GenSn.  See src/core/level_symmetric.hpp:88-96. *)
Inductive SnResult := SnThrow | SnUB | SnOk (l : list Ordinate).

(** src/core/level_symmetric.hpp:88-96: the (i, j) pairs in loop order. *)
Definition sn_pairs (n : nat) : list (nat * nat) :=
  flat_map (fun i => map (fun j => (i, j)) (seq 0 (S i))) (seq 0 n).

(** src/core/level_symmetric.hpp:79-96 for one ordinate number [k]. *)
Definition sn_ordinate (n woff moff k : nat) (ij : nat * nat) : option Ordinate :=
  match nth_error w_map (moff + k) with
  | None => None
  | Some m =>
      if (m =? 0)%nat then None else
      let w := (woff + (m - 1))%nat in
      if (w <? w_unique_size)%nat
      then Some (mkOrd (fst ij - snd ij) (snd ij) (n - fst ij - 1) w) else None
  end.
(** As above, src/core/level_symmetric.hpp:79-96. *)
Fixpoint sn_fill (n woff moff k : nat) (l : list (nat * nat)) : option (list Ordinate) :=
  match l with
  | [] => Some []
  | ij :: r =>
      match sn_ordinate n woff moff k ij, sn_fill n woff moff (S k) r with
      | Some o, Some os => Some (o :: os)
      | _, _ => None
      end
  end.

(** src/core/level_symmetric.hpp:54-107 GenSn, for any int order; table reads outside the tables are UB. *)
Definition gen_sn (order : Z) : SnResult :=
  if negb (Z.rem order 2 =? 0)%Z then SnThrow
  else if (16 <? order)%Z then SnThrow
  else
    let n := Z.quot order 2 in
    if (n <? 1)%Z then SnUB   (* mu_base[n-1], line 68 *)
    else
      let n := Z.to_nat n in
      match nth_error mu_base (n - 1), nth_error w_offset (n - 1), nth_error w_map_offset (n - 1) with
      | Some _, Some wo, Some mo =>
          match sn_fill n wo mo 0 (sn_pairs n) with Some l => SnOk l | None => SnUB end
      | _, _, _ => SnUB
      end.

(** src/core/level_symmetric.hpp:66-75: base cosine number [i] for [n] base cosines. *)
Definition mu (n i : nat) : R :=
  let mu0 := nth (n - 1) mu_base 0 in
  match i with
  | O => mu0
  | _ => sqrt (mu0 * mu0 + INR i * (2 * (1 - 3 * (mu0 * mu0)) / (2 * INR n - 2)))
  end.
