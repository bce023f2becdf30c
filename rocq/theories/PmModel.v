(** Model of the pin meshes: src/core/pin_mesh_base.cpp, src/core/pin_mesh_rect.cpp, src/core/pin_mesh_cyl.cpp, with
    src/core/geometry/points.hpp and src/core/geometry/box.cpp.  Lengths are real numbers; sin, cos, sqrt, atan are exact. *)
From Coq Require Import Reals ZArith List Bool Permutation.
From Verif Require Import RUtil StdAlg GeomModel CoreModel.
Import ListNotations.
Local Open Scope R_scope.

(** Outcomes of the constructors: an object, an exception, or undefined behaviour (a read outside a vector; the square
    root of a negative number counts here too).  See src/core/pin_mesh_base.cpp:23-41. *)
Inductive POut (A : Type) := PVal (a : A) | PExc | PUB.
Arguments PVal {A}. Arguments PExc {A}. Arguments PUB {A}.
(** As above, src/core/pin_mesh_base.cpp:23-41. *)
Definition pbind {A B} (o : POut A) (f : A -> POut B) : POut B := match o with PVal a => f a | PExc => PExc | PUB => PUB end.

(** src/core/pin_mesh_base.cpp:23-41 PinMesh::PinMesh: the checks on id and pitch. *)
Definition base_ctor (id : Z) (pitch : R) : POut R := if (id <? 0)%Z then PExc else if Rleb pitch 0 then PExc else PVal pitch.

(** ** Rectangular pins *)
(** src/core/pin_mesh_rect.hpp:50-58: the divisions including the pin boundaries, the lines and the areas. *)
Record RectPin := mkRect { rp_pitch : R; rp_nx : nat; rp_ny : nat; rp_hx : list R; rp_hy : list R; rp_lines : list Line; rp_areas : list R }.
(** src/core/pin_mesh_rect.cpp:55-60: hx_ (and hy_). *)
Definition divisions (pitch : R) (n : nat) : list R := map (fun i => INR i * (pitch / INR n) - 0.5 * pitch) (seq 0 (S n)).
(** src/core/pin_mesh_rect.cpp:62-70: the lines inside the pin. *)
Definition rect_lines (pitch : R) (hx hy : list R) : list Line :=
  let h := 0.5 * pitch in
  map (fun x => {| p1 := {| ptx := x; pty := - h |}; p2 := {| ptx := x; pty := h |} |}) (interior hx) ++
  map (fun y => {| p1 := {| ptx := - h; pty := y |}; p2 := {| ptx := h; pty := y |} |}) (interior hy).
(** src/core/pin_mesh_rect.cpp:29-76 PinMesh_Rect::PinMesh_Rect (int overflow of the region count is not modelled). *)
Definition rect_ctor (id : Z) (pitch : R) (ndiv_x ndiv_y : Z) : POut RectPin :=
  pbind (base_ctor id pitch) (fun pitch =>
  if (ndiv_x <? 1)%Z then PExc else if (ndiv_y <? 1)%Z then PExc else
  let nx := Z.to_nat ndiv_x in let ny := Z.to_nat ndiv_y in
  let hx := divisions pitch nx in let hy := divisions pitch ny in
  PVal (mkRect pitch nx ny hx hy (rect_lines pitch hx hy) (repeat (pitch / INR nx * (pitch / INR ny)) (nx * ny)))).

(** A region index, or a failed assertion (the index is out of range).  See src/core/pin_mesh_rect.cpp:144-165. *)
Inductive Reg := RIdx (i : Z) | RAssert.
(** src/core/pin_mesh_rect.cpp:144-165 PinMesh_Rect::find_reg(Point2). *)
Definition rect_find_reg (pm : RectPin) (p : Point2) : Reg :=
  if Rltb (0.5 * rp_pitch pm) (Rabs (ptx p)) then RIdx (-1)
  else if Rltb (0.5 * rp_pitch pm) (Rabs (pty p)) then RIdx (-1)
  else match lower_bound Rltb (rp_hx pm) (ptx p), lower_bound Rltb (rp_hy pm) (pty p) with
       | Some lx, Some ly =>
           let ireg := (Z.of_nat (rp_nx pm) * (Z.of_nat ly - 1) + (Z.of_nat lx - 1))%Z in
           if ((0 <=? ireg) && (ireg <? Z.of_nat (rp_nx pm * rp_ny pm)))%Z then RIdx ireg else RAssert
       | _, _ => RAssert
       end.

(** ** Cylindrical pins *)
(** src/core/geometry/points.hpp:40-43 Point2::distance; src/core/geometry/points.hpp Midpoint. *)
Definition dist2 (p q : Point2) : R := sqrt ((ptx p - ptx q) * (ptx p - ptx q) + (pty p - pty q) * (pty p - pty q)).
(** As above, src/core/geometry/points.hpp:40-43. *)
Definition midpoint (p q : Point2) : Point2 := {| ptx := 0.5 * (ptx p + ptx q); pty := 0.5 * (pty p + pty q) |}.
(** std::atan2 (no signed zeros).  See src/core/geometry/points.hpp:87-95. *)
Definition atan2 (y x : R) : R :=
  if Rltb 0 x then atan (y / x)
  else if Rltb x 0 then (if Rltb y 0 then atan (y / x) - PI else atan (y / x) + PI)
  else if Rltb 0 y then PI / 2 else if Rltb y 0 then - (PI / 2) else 0.
(** src/core/geometry/points.hpp:87-95 Point2::alpha. *)
Definition alpha (p : Point2) : R := if Rltb 0 (pty p) then atan2 (pty p) (ptx p) else atan2 (pty p) (ptx p) + 2 * PI.

(** src/core/geometry/box.cpp:39-95 Box::intersect for the box from [lo] to [hi], given the cosine [ox] and sine [oy] of the
    azimuthal angle.  A zero component gives an infinite distance, for which every range test fails.  [None]: the
    default point, not marked ok. *)
Definition box_try (ok_d : bool) (d : R) (q : Point2) (lo hi v : R) (st : R * option Point2) : R * option Point2 :=
  if ok_d && Rltb REAL_FUZZ (Rabs d) && Rltb d (fst st) && Rltb lo v && Rltb v hi then (Rabs d, Some q) else st.
(** As above, src/core/geometry/box.cpp:39-95. *)
Definition box_intersect (lo hi p : Point2) (ox oy : R) : option Point2 :=
  let hasx := negb (Reqb ox 0) in let hasy := negb (Reqb oy 0) in
  let st := (1000000000000, None) in
  let d := (ptx lo - ptx p) / ox in let y := pty p + oy * d in
  let st := box_try hasx d {| ptx := ptx lo; pty := y |} (pty lo) (pty hi) y st in
  let d := (ptx hi - ptx p) / ox in let y := pty p + oy * d in
  let st := box_try hasx d {| ptx := ptx hi; pty := y |} (pty lo) (pty hi) y st in
  let d := (pty lo - pty p) / oy in let x := ptx p + ox * d in
  let st := box_try hasy d {| ptx := x; pty := pty lo |} (ptx lo) (ptx hi) x st in
  let d := (pty hi - pty p) / oy in let x := ptx p + ox * d in
  let st := box_try hasy d {| ptx := x; pty := pty hi |} (ptx lo) (ptx hi) x st in
  snd st.

(** src/core/pin_mesh_cyl.hpp:59-71 and the members of the base class that depend on the input. *)
Record CylPin := mkCyl { cp_pitch : R; cp_xs_radii : list R; cp_azi : Z; cp_sub : list Z; cp_radii : list R; cp_lines : list Line; cp_areas : list R }.
(** src/core/pin_mesh_cyl.cpp:57-65: the radii are ordered. *)
Fixpoint ordered (l : list R) : bool := match l with a :: (b :: _) as r => negb (Rltb b a) && ordered r | _ => true end.
(** src/core/pin_mesh_cyl.cpp:122-126: [k] rings from the radius [ri]. *)
Fixpoint ring (k : nat) (vn ri : R) : POut (list R) :=
  match k with
  | O => PVal []
  | S n => if Rltb (vn + ri * ri) 0 then PUB else let r := sqrt (vn + ri * ri) in pbind (ring n vn r) (fun l => PVal (r :: l))
  end.
(** src/core/pin_mesh_cyl.cpp:116-128: radii_. *)
Fixpoint mesh_radii (xs : list R) (sub : list Z) (rxsi ri : R) : POut (list R) :=
  match xs, sub with
  | x :: xs', k :: sub' =>
      pbind (ring (Z.to_nat k) ((x * x - rxsi * rxsi) / IZR k) ri) (fun l =>
      pbind (mesh_radii xs' sub' x (last l ri)) (fun m => PVal (l ++ m)))
  | _, _ => PVal []
  end.
(** src/core/pin_mesh_cyl.cpp:153-160: the areas inside the rings. *)
Fixpoint ring_areas (radii : list R) (prev : R) (azi : Z) : list R :=
  match radii with [] => [] | r :: t => repeat (PI * (r * r - prev * prev) / IZR azi) (Z.to_nat azi) ++ ring_areas t r azi end.
(** src/core/pin_mesh_cyl.cpp:137-148: the azimuthal lines; without an intersection the default point (the origin) is used. *)
Definition origin : Point2 := {| ptx := 0; pty := 0 |}.
(** As above, src/core/pin_mesh_cyl.cpp:137-148. *)
Definition azi_lines (pitch : R) (azi : Z) : list Line :=
  let h := 0.5 * pitch in
  map (fun i => let a := INR i * (2 * PI / IZR azi) in
    {| p1 := origin; p2 := match box_intersect {| ptx := - h; pty := - h |} {| ptx := h; pty := h |} origin (cos a) (sin a) with Some q => q | None => origin end |})
    (seq 0 (Z.to_nat azi)).
(** src/core/pin_mesh_cyl.cpp:36-171 PinMesh_Cyl::PinMesh_Cyl, after reading the numbers; the list of radii is not empty
    (an empty field throws).  In the remainder test the sign does not matter. *)
Definition cyl_ctor (id : Z) (pitch : R) (xs : list R) (azi : Z) (sub : list Z) : POut CylPin :=
  pbind (base_ctor id pitch) (fun pitch =>
  match xs with [] => PExc | _ =>
  if negb (ordered xs) then PExc
  else if Rltb (pitch * 0.5) (last xs 0) then PExc
  else if negb (Z.rem azi 2 =? 0)%Z || (8 <? azi)%Z then PExc
  else if negb (length sub =? length xs)%nat then PExc
  else pbind (mesh_radii xs sub 0 0) (fun radii =>
       match radii with [] => PUB | _ =>
       let big := last radii 0 in
       PVal (mkCyl pitch xs azi sub radii (azi_lines pitch azi)
         (ring_areas radii 0 azi ++ repeat ((pitch * pitch - PI * big * big) / IZR azi) (Z.to_nat azi))) end) end).
(** src/core/pin_mesh_cyl.cpp:150 n_reg_. *)
Definition cyl_n_reg (pm : CylPin) : Z := ((Z.of_nat (length (cp_radii pm)) + 1) * cp_azi pm)%Z.
(** src/core/pin_mesh_cyl.hpp:39-49 n_fsrs; [None] = read outside sub_rad_ (not reached: C59_fsrs). *)
Definition cyl_n_fsrs (pm : CylPin) (xsreg : nat) : option Z :=
  if (xsreg <? length (cp_xs_radii pm))%nat then option_map (fun k => (k * cp_azi pm)%Z) (nth_error (cp_sub pm) xsreg) else Some (cp_azi pm).

(** src/core/pin_mesh_cyl.cpp:237-241: the first ring the radius lies inside. *)
Fixpoint ring_of (r : R) (radii : list R) : nat := match radii with [] => O | x :: t => if Rltb r x then O else S (ring_of r t) end.
(** src/core/pin_mesh_cyl.cpp:227-256 PinMesh_Cyl::find_reg(Point2). *)
Definition cyl_find_reg (pm : CylPin) (p : Point2) : Reg :=
  if Rltb (0.5 * cp_pitch pm) (Rabs (ptx p)) || Rltb (0.5 * cp_pitch pm) (Rabs (pty p)) then RIdx (-1)
  else
    let ir := Z.of_nat (ring_of (sqrt (ptx p * ptx p + pty p * pty p)) (cp_radii pm)) in
    let ia := Int_part (alpha p / (2 * PI / IZR (cp_azi pm))) in
    let ireg := (ir * cp_azi pm + ia)%Z in
    if ((0 <=? ireg) && (ireg <? cyl_n_reg pm))%Z then RIdx ireg else RAssert.

(** ** Tracing *)
(** src/core/pin_mesh_rect.cpp:128: std::unique keeps the first point of each run of points equal to it. *)
Fixpoint uniq (eqp : Point2 -> Point2 -> bool) (x : Point2) (l : list Point2) : list Point2 :=
  match l with [] => [x] | y :: r => if eqp x y then uniq eqp x r else x :: uniq eqp y r end.
(** As above, src/core/pin_mesh_rect.cpp:128. *)
Definition unique (eqp : Point2 -> Point2 -> bool) (l : list Point2) : list Point2 := match l with [] => [] | x :: r => uniq eqp x r end.
(** src/core/geometry/points.hpp:60-63 Point2::operator==; [ulp] is the bit-level comparison. *)
Definition point_eq (ulp : R -> R -> bool) (p q : Point2) : bool := fp_equiv ulp (ptx p) (ptx q) && fp_equiv ulp (pty p) (pty q).
(** src/core/pin_mesh_rect.cpp:130-134, src/core/pin_mesh_cyl.cpp:212-217: segment lengths and midpoints. *)
Fixpoint segments (l : list Point2) : list (R * Point2) :=
  match l with a :: (b :: _) as r => (dist2 b a, midpoint b a) :: segments r | _ => [] end.
(** src/core/pin_mesh_rect.cpp:110-124: the points before sorting. *)
Definition rect_points (pm : RectPin) (a b : Point2) : list Point2 := a :: b :: trace_points (rp_lines pm) {| p1 := a; p2 := b |}.
(** src/core/pin_mesh_cyl.cpp:180-206: the points before sorting; only pairs of intersections with a circle are used.  A
    failed assertion of the intersection and a chord of length zero are [None]. *)
Fixpoint circle_points (radii : list R) (l : Line) : option (list Point2) :=
  match radii with
  | [] => Some []
  | r :: t =>
      match intersect_lc l {| cc := origin; cr := r |}, circle_points t l with
      | CTwo p q, Some ps => Some (p :: q :: ps)
      | CNone, Some ps => Some ps
      | COne _, Some ps => Some ps
      | _, _ => None
      end
  end.
(** As above, src/core/pin_mesh_cyl.cpp:180-206. *)
Definition cyl_points (pm : CylPin) (a b : Point2) : option (list Point2) :=
  let l := {| p1 := a; p2 := b |} in
  match circle_points (cp_radii pm) l with None => None | Some ps => Some (a :: b :: ps ++ trace_points (cp_lines pm) l) end.

(** src/core/geometry/points.hpp:52-55 Point2::operator< compares the y coordinates only; src/core/pin_mesh_rect.cpp:127
    and src/core/pin_mesh_cyl.cpp:209: std::sort gives some ordering by it (points of equal y in any order). *)
Fixpoint ascending (l : list Point2) : Prop := match l with a :: (b :: _) as r => pty a <= pty b /\ ascending r | _ => True end.
(** As above, src/core/geometry/points.hpp:52-55. *)
Definition sort_gives (ps l : list Point2) : Prop := Permutation ps l /\ ascending l.
(** src/core/pin_mesh_rect.cpp:126-136, src/core/pin_mesh_cyl.cpp:208-219: duplicates dropped, then a length and the region of
    the midpoint per segment; [l] are the sorted points.  (The caller's region offset is added by the callers.) *)
Definition trace_result (eqp : Point2 -> Point2 -> bool) (find : Point2 -> Reg) (l : list Point2) : list (R * Reg) :=
  map (fun sm => (fst sm, find (snd sm))) (segments (unique eqp l)).
