(** Model of pins, lattices and planes.  src/core/pin.{hpp,cpp}, src/core/lattice.{hpp,cpp}, src/core/plane.{hpp,cpp},
    src/util/fp_utils.hpp.  Doubles are exact reals; XML parsing is not modelled (the parsed values are arguments).
    Region counts and identifiers are unbounded except where the code computes in 32-bit unsigned arithmetic. *)
From Coq Require Import List Lia Bool Reals ZArith.
From Verif Require Import RUtil McModel StdAlg MatModel.
Import ListNotations.
Open Scope nat_scope.

(** src/util/fp_utils.hpp:39 REAL_FUZZ for double precision (epsilon = 2^-52). *)
Definition REAL_FUZZ : R := (200 / 2 ^ 52)%R.

(** src/util/fp_utils.hpp:76-79 fp_equiv_abs. *)
Definition fp_equiv_abs (v1 v2 : R) : bool := Rltb (Rabs (v1 - v2)) REAL_FUZZ.

(** src/util/fp_utils.hpp:124-126 fuzzy_lt.  A zero right-hand side makes the IEEE quotient -inf, NaN or +inf
    according to the sign of [l]; only the first compares below -REAL_FUZZ. *)
Definition fuzzy_lt (l r : R) : bool :=
  if Reqb r 0 then Rltb l 0 else Rltb ((l - r) / Rabs r) (- REAL_FUZZ).

(** src/util/fp_utils.hpp:88-100 fp_equiv; [ulp] stands for the bit-level comparison of lines 53-70 (FpModel.v). *)
Definition fp_equiv (ulp : R -> R -> bool) (v1 v2 : R) : bool :=
  if fp_equiv_abs v1 v2 then true
  else if negb (Bool.eqb (Rltb v1 0) (Rltb v2 0)) then false else ulp v1 v2.

(** src/core/pin_mesh_base.hpp:180-185 (the part used here). *)
Record PinMesh := mkPM { pm_id : Z; pm_nreg : nat; pm_nxs : nat; pm_px : R; pm_py : R }.

(** src/core/pin.hpp:109-116. *)
Record Pin := mkPin { pin_id : Z; pin_mesh : PinMesh; pin_mats : list Z; pin_fuel : bool }.

(** src/core/pin.cpp:65-77: the validity check and fissile search; [fissile] is Material::is_fissile. *)
Fixpoint check_mats {A} (lib : Lib A) (fissile : A -> bool) (mats : list Z) : Out bool :=
  match mats with
  | [] => Got false
  | m :: r =>
      if has lib m then
        match get_material_by_id lib m with
        | None => Threw
        | Some a => if fissile a then Got true else check_mats lib fissile r
        end
      else Threw
  end.

(** src/core/pin.cpp:36-85 Pin::Pin.  Arguments: the id and mesh attributes (0 when absent), the material list and the
    optional "fuel" attribute. *)
Definition make_pin {A} (meshes : list (Z * PinMesh)) (lib : Lib A) (fissile : A -> bool)
    (id mid : Z) (mats : list Z) (fuel : option bool) : Out Pin :=
  if (id =? 0)%Z then Threw
  else if (mid =? 0)%Z then Threw
  else match map_at Z.eqb meshes mid with
       | None => Threw
       | Some pm =>
           if negb (length mats =? pm_nxs pm) then Threw
           else match check_mats lib fissile mats with
                | Got f => Got (mkPin id pm mats (match fuel with Some b => b | None => f end))
                | Threw => Threw
                | Undef => Undef
                end
       end.

(** A loop that stops at the first exception or undefined behaviour; not tied to one source line. *)
Fixpoint fold_out {S X} (step : S -> X -> Out S) (s : S) (l : list X) : Out S :=
  match l with
  | [] => Got s
  | x :: r => match step s x with Got s' => fold_out step s' r | Threw => Threw | Undef => Undef end
  end.

(** 32-bit unsigned arithmetic; not tied to one source line. *)
Definition u32 (z : Z) : Z := (z mod 2 ^ 32)%Z.

(** src/core/lattice.cpp:59-63, src/core/core.cpp:89-91: the (iy, ix) pairs of the nested loop, in order. *)
Definition yx_loop (nx ny : nat) : list (nat * nat) := flat_map (fun iy => map (fun ix => (iy, ix)) (seq 0 nx)) (seq 0 ny).

(** src/core/lattice.cpp:58-66: place the pins, flipping y.  [None] entries are the null pointers of line 58. *)
Definition place_pins {P} (pins : list (Z * P)) (ids : list Z) (nx ny : nat) (size : nat) : Out (list (option P)) :=
  fold_out (fun st '(iy, ix) =>
      match nth_error ids (iy * nx + ix) with
      | None => Undef
      | Some id =>
          match map_at Z.eqb pins id with
          | None => Threw
          | Some p => match set_nth st ((ny - iy - 1) * nx + ix) (Some p) with Some st' => Got st' | None => Undef end
          end
      end) (repeat None size) (yx_loop nx ny).

(** src/core/lattice.hpp:178-195. *)
Record Lattice := mkLat {
  lat_id : Z; lat_nx : nat; lat_ny : nat; lat_nreg : nat; lat_nxs : nat;
  lat_hx : R; lat_hy : R; lat_hxv : list R; lat_hyv : list R; lat_xv : list R; lat_yv : list R;
  lat_pins : list Pin; lat_first : list nat
}.

(** Running sums starting at [a], one more entry than the list (src/core/lattice.cpp:84-92, src/core/plane.cpp:35-51). *)
Fixpoint psums (a : R) (l : list R) : list R := a :: match l with [] => [] | x :: r => psums (a + x) r end.
(** Running region offsets, one per entry (src/core/lattice.cpp:116-121, src/core/plane.cpp:66-71). *)
Fixpoint offsets (a : nat) (l : list nat) : list nat := match l with [] => [] | x :: r => a :: offsets (a + x) r end.

(** All entries non-null (a null entry would be dereferenced at src/core/lattice.cpp:71-111). *)
Fixpoint all_some {P} (l : list (option P)) : option (list P) :=
  match l with
  | [] => Some []
  | Some p :: r => match all_some r with Some q => Some (p :: q) | None => None end
  | None :: _ => None
  end.

(** Read [f] at each index in turn, [None] if any read is out of range (src/core/lattice.cpp:70-81). *)
Fixpoint reads {P Q} (l : list P) (f : P -> Q) (idx : list nat) : option (list Q) :=
  match idx with
  | [] => Some []
  | i :: r => match nth_error l i, reads l f r with Some p, Some q => Some (f p :: q) | _, _ => None end
  end.

(** src/core/lattice.cpp:94-106: does pin (ix, iy) have the pitch of its column and row? *)
Definition pitch_ok (nx : nat) (pins : list Pin) (hxv hyv : list R) (q : nat * nat) : Out bool :=
  let '(iy, ix) := q in
  match nth_error pins (iy * nx + ix), nth_error hxv ix, nth_error hyv iy with
  | Some p, Some dx, Some dy => Got (Reqb (pm_px (pin_mesh p)) dx && Reqb (pm_py (pin_mesh p)) dy)
  | _, _, _ => Undef
  end.
(** As above, src/core/lattice.cpp:94-106. *)
Definition check_pitches (nx ny : nat) (pins : list Pin) (hxv hyv : list R) : Out unit :=
  fold_out (fun _ q => match pitch_ok nx pins hxv hyv q with
                       | Got true => Got tt | Got false => Threw | Threw => Threw | Undef => Undef end) tt (yx_loop nx ny).

(** src/core/lattice.cpp:31-123 Lattice::Lattice.  [nx0], [ny0] are the attributes as read (0 when absent); the
    members are unsigned, so negative values wrap, and the size check of line 48 is done in 32-bit arithmetic. *)
Definition make_lattice (pins : list (Z * Pin)) (id nx0 ny0 : Z) (ids : list Z) : Out Lattice :=
  if (id =? 0)%Z then Threw
  else if ((nx0 =? 0) || (ny0 =? 0))%Z then Threw
  else if negb (Z.of_nat (length ids) =? u32 (u32 nx0 * u32 ny0))%Z then Threw
  else
    let nx := Z.to_nat (u32 nx0) in let ny := Z.to_nat (u32 ny0) in
    match place_pins pins ids nx ny (Z.to_nat (u32 (u32 nx0 * u32 ny0))) with
    | Threw => Threw
    | Undef => Undef
    | Got st =>
        match all_some st with
        | None => Undef
        | Some ps =>
            match reads ps (fun p => pm_px (pin_mesh p)) (seq 0 nx),
                  reads ps (fun p => pm_py (pin_mesh p)) (map (fun iy => iy * nx) (seq 0 ny)) with
            | Some hxv, Some hyv =>
                match check_pitches nx ny ps hxv hyv with
                | Threw => Threw
                | Undef => Undef
                | Got _ =>
                    let nr := map (fun p => pm_nreg (pin_mesh p)) ps in
                    Got (mkLat id nx ny (list_sum nr) (list_sum (map (fun p => pm_nxs (pin_mesh p)) ps))
                               (fold_left Rplus hxv 0%R) (fold_left Rplus hyv 0%R) hxv hyv (psums 0 hxv) (psums 0 hyv)
                               ps (offsets 0 nr))
                end
            | _, _ => Undef
            end
        end
    end.

(** src/core/lattice.hpp:84-89 Lattice::at. *)
Definition lat_at (L : Lattice) (x y : nat) : option Pin := nth_error (lat_pins L) (y * lat_nx L + x).

(** src/core/lattice.cpp:137-144 (and 148-155), src/core/plane.cpp:105-120: the cell along one axis.  [edges] are the
    interface coordinates, [n] the number of cells, [pos] whether the direction cosine is positive, [equiv] the
    equality test used.  The decrement and clamp are unsigned.  [None] = read past the end of [edges]. *)
Definition locate (equiv : R -> R -> bool) (edges : list R) (n : nat) (v : R) (pos : bool) : option nat :=
  match lower_bound fuzzy_lt edges v with
  | None => None
  | Some lb =>
      match nth_error edges lb with
      | None => None
      | Some e =>
          let ix := if equiv v e && pos then lb + 1 else lb in
          let ix := Z.to_nat (u32 (Z.of_nat ix - 1)) in
          Some (Nat.min (n - 1) (Nat.max 0 ix))
      end
  end.

(** src/core/lattice.cpp:146 (156): the middle of a cell. *)
Definition middle (edges : list R) (i : nat) : option R :=
  match nth_error edges (i + 1), nth_error edges i with
  | Some b, Some a => Some (0.5 * (b + a))%R
  | _, _ => None
  end.

(** src/core/lattice.cpp:125-163 Lattice::get_pinmesh: the pin mesh, the pin origin and the increased region index.
    The assertions of lines 128-131 are preconditions, not checks. *)
Definition lat_get_pinmesh (L : Lattice) (px py : R) (first : nat) (posx posy : bool) : option (PinMesh * R * R * nat) :=
  match locate fp_equiv_abs (lat_xv L) (lat_nx L) px posx, locate fp_equiv_abs (lat_yv L) (lat_ny L) py posy with
  | Some ix, Some iy =>
      match middle (lat_xv L) ix, middle (lat_yv L) iy, nth_error (lat_first L) (iy * lat_nx L + ix), lat_at L ix iy with
      | Some mx, Some my, Some f, Some p => Some (pin_mesh p, mx, my, first + f)
      | _, _, _, _ => None
      end
  | _, _ => None
  end.

(** src/core/lattice.cpp:183-213 Lattice::compatible. *)
Fixpoint req_list (a b : list R) : bool :=
  match a, b with
  | [], _ => true
  | x :: r, y :: s => Reqb x y && req_list r s
  | _ :: _, [] => false
  end.
(** As above, src/core/lattice.cpp:183-213. *)
Definition lat_compatible (L M : Lattice) : bool :=
  Reqb (lat_hx L) (lat_hx M) && Reqb (lat_hy L) (lat_hy M) && (lat_nx L =? lat_nx M) && (lat_ny L =? lat_ny M) &&
  req_list (lat_hxv L) (lat_hxv M) && req_list (lat_hyv L) (lat_hyv M).

(** src/core/lattice.cpp:224-228: the pin meshes have the same identifiers.  [None] = the other list is shorter. *)
Fixpoint same_meshes (a b : list Pin) : option bool :=
  match a, b with
  | [], _ => Some true
  | x :: r, y :: s => if (pm_id (pin_mesh x) =? pm_id (pin_mesh y))%Z then same_meshes r s else Some false
  | _ :: _, [] => None
  end.
(** src/core/lattice.cpp:215-230 Lattice::geometrically_equivalent. *)
Definition lat_equiv (L M : Lattice) : option bool :=
  if negb (lat_nx L =? lat_nx M) || negb (lat_ny L =? lat_ny M) then Some false
  else if negb (lat_nreg L =? lat_nreg M) || negb (lat_nxs L =? lat_nxs M) then Some false
  else same_meshes (lat_pins L) (lat_pins M).

(** src/core/plane.hpp:164-194. *)
Record Plane := mkPlane {
  pl_lats : list Lattice; pl_nx : nat; pl_ny : nat; pl_nxpin : nat; pl_nypin : nat; pl_nreg : nat; pl_nxs : nat;
  pl_hx : list R; pl_hy : list R; pl_first : list nat; pl_nfuel : nat; pl_npin : nat
}.

(** src/core/plane.hpp:31-38 Plane::at. *)
Definition lats_at (ls : list Lattice) (nx : nat) (ix iy : nat) : option Lattice := nth_error ls (ix + nx * iy).
(** As above, src/core/plane.hpp:31-38. *)
Definition pl_at (P : Plane) (ix iy : nat) : option Lattice := lats_at (pl_lats P) (pl_nx P) ix iy.

(** src/core/plane.cpp:54-63: the lattice sizes conform (compared with fp_equiv_ulp). *)
Definition size_ok (ulp : R -> R -> bool) (nx : nat) (ls : list Lattice) (dx dy : list R) (q : nat * nat) : Out bool :=
  let '(iy, ix) := q in
  match lats_at ls nx ix iy, nth_error dx ix, nth_error dy iy with
  | Some l, Some a, Some b => Got (ulp (lat_hx l) a && ulp (lat_hy l) b)
  | _, _, _ => Undef
  end.

(** src/core/plane.cpp:25-90 Plane::Plane. *)
Definition make_plane (ulp : R -> R -> bool) (ls : list Lattice) (nx ny : nat) : Out Plane :=
  let col := seq 0 nx in let row := map (fun iy => nx * iy) (seq 0 ny) in
  match reads ls lat_hx col, reads ls lat_nx col, reads ls lat_hy row, reads ls lat_ny row with
  | Some dx, Some cx, Some dy, Some cy =>
      match fold_out (fun _ q => match size_ok ulp nx ls dx dy q with
                                 | Got true => Got tt | Got false => Threw | Threw => Threw | Undef => Undef end)
                     tt (yx_loop nx ny) with
      | Threw => Threw
      | Undef => Undef
      | Got _ =>
          let pins := flat_map lat_pins ls in
          Got (mkPlane ls nx ny (list_sum cx) (list_sum cy) (list_sum (map lat_nreg ls)) (list_sum (map lat_nxs ls))
                       (psums 0 dx) (psums 0 dy) (offsets 0 (map lat_nreg ls))
                       (length (filter pin_fuel pins)) (length pins))
      end
  | _, _, _, _ => Undef
  end.

(** src/core/plane.cpp:97-139 Plane::get_pinmesh. *)
Definition pl_get_pinmesh (ulp : R -> R -> bool) (P : Plane) (px py : R) (first : nat) (posx posy : bool) : option (PinMesh * R * R * nat) :=
  match locate (fp_equiv ulp) (pl_hx P) (pl_nx P) px posx, locate (fp_equiv ulp) (pl_hy P) (pl_ny P) py posy with
  | Some ix, Some iy =>
      match nth_error (pl_hx P) ix, nth_error (pl_hy P) iy, nth_error (pl_first P) (pl_nx P * iy + ix), pl_at P ix iy with
      | Some ox, Some oy, Some f, Some L =>
          match lat_get_pinmesh L (px - ox) (py - oy) (first + f) posx posy with
          | Some (pm, x, y, r) => Some (pm, (x + ox)%R, (y + oy)%R, r)
          | None => None
          end
      | _, _, _, _ => None
      end
  | _, _ => None
  end.

(** src/core/plane.cpp:143-151: the lattice holding a pin and the pin's index within it. *)
Fixpoint find_lat (ls : list Lattice) (ipin ilat : nat) : nat * nat :=
  match ls with
  | [] => (ilat, ipin)
  | l :: r => if ipin <? length (lat_pins l) then (ilat, ipin) else find_lat r (ipin - length (lat_pins l)) (S ilat)
  end.

(** src/core/plane.cpp:141-171 Plane::pin_position; [None] = modulo by zero or a lattice read out of range. *)
Definition pin_position (P : Plane) (ipin0 : nat) : option (nat * nat) :=
  if pl_npin P =? 0 then None
  else
    let '(ilat, ipin) := find_lat (pl_lats P) (ipin0 mod pl_npin P) 0 in
    if pl_nx P =? 0 then None
    else
      let lx := ilat mod pl_nx P in let ly := ilat / pl_nx P in
      match reads (pl_lats P) lat_nx (seq 0 lx), reads (pl_lats P) lat_ny (map (fun iy => pl_nx P * iy) (seq 0 ly)), pl_at P lx ly with
      | Some cx, Some cy, Some L =>
          if lat_nx L =? 0 then None else Some (list_sum cx + ipin mod lat_nx L, list_sum cy + ipin / lat_nx L)
      | _, _, _ => None
      end.

(** src/core/plane.cpp:183-188. *)
Fixpoint same_lats (a b : list Lattice) : option bool :=
  match a, b with
  | [], _ => Some true
  | x :: r, y :: s => match lat_equiv x y with Some true => same_lats r s | o => o end
  | _ :: _, [] => None
  end.
(** src/core/plane.cpp:173-190 Plane::geometrically_equivalent. *)
Definition pl_equiv (P Q : Plane) : option bool :=
  if negb (pl_nx P =? pl_nx Q) || negb (pl_ny P =? pl_ny Q) then Some false
  else if negb (pl_nreg P =? pl_nreg Q) || negb (pl_nxs P =? pl_nxs Q) then Some false
  else same_lats (pl_lats P) (pl_lats Q).

(** src/core/plane.hpp:118-129 Plane::areas, for a given area table per pin mesh. *)
Definition pl_areas {A} (areas : PinMesh -> list A) (P : Plane) : list A :=
  flat_map (fun l => flat_map (fun p => areas (pin_mesh p)) (lat_pins l)) (pl_lats P).
