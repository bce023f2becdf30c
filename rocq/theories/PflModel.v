(** Pin fluxes, transverse leakage and incoming flux of the MoC sweeper (src/sweepers/moc/moc_sweeper.cpp, .hpp).
    One energy group at a time (the group index of flux_ is fixed throughout each function); real arithmetic. *)
From Coq Require Import List Bool Reals Arith.
From Verif Require Import RUtil ListUtil McModel MatModel MocModel.
Import ListNotations.

(** What these functions read of a pin: Pin::area() (pitch product) and the areas of its regions
    (src/core/pin.hpp, src/core/pin_mesh_base.hpp).  Pin::n_reg() is the length of the list of areas.  See src/core/pin.hpp:66-80. *)
Record PinG := mkPG { pg_area : R; pg_areas : list R }.
(** src/core/plane.hpp:214-260 MacroPlane: axial planes spanned and pins. *)
Record MPl := mkMPl { ml_min : nat; ml_max : nat; ml_pins : list PinG }.

(** moc_sweeper.cpp:308-314: sums over the regions of one pin. *)
Definition wsum (fl w : list R) : R := fold_left (fun s p => (s + fst p * snd p)%R) (combine fl w) 0%R.
(** As above, src/sweepers/moc/moc_sweeper.cpp:308-314. *)
Definition vsum (w : list R) : R := fold_left Rplus w 0%R.
(** moc_sweeper.cpp:308-315, 333-340: the mean flux of a pin of [n] regions; [None] = reading past the end, or 0/0. *)
Definition pin_mean (n : nat) (fl vol : list R) : option R :=
  if (length fl <? n) || (length vol <? n) then None
  else if Reqb (vsum (firstn n vol)) 0 then None
  else Some (wsum (firstn n fl) (firstn n vol) / vsum (firstn n vol))%R.
(** moc_sweeper.cpp:307-323: all pins of a macroplane; ireg runs on (the lists are consumed). *)
Fixpoint plane_means (pins : list PinG) (fl vol : list R) : option (list R * (list R * list R)) :=
  match pins with
  | [] => Some ([], (fl, vol))
  | p :: r => let n := length (pg_areas p) in
      match pin_mean n fl vol, plane_means r (skipn n fl) (skipn n vol) with
      | Some v, Some (vs, rest) => Some (v :: vs, rest)
      | _, _ => None
      end
  end.
(** As above, src/sweepers/moc/moc_sweeper.cpp:307-323. *)
Fixpoint macro_means (ms : list MPl) (fl vol : list R) : option (list (list R)) :=
  match ms with
  | [] => Some []
  | m :: r => match plane_means (ml_pins m) fl vol with
      | Some (vs, (fl', vol')) => match macro_means r fl' vol' with Some l => Some (vs :: l) | None => None end
      | None => None
      end
  end.
(** moc_sweeper.cpp:317-320, 342-347: where the mean of each pin of a macroplane is added.  [cell ipin] is coarse_cell of
    pin_position(ipin) in the bottom plane, [nxy] = nx ny; Mesh::coarse_cell (src/core/mesh.hpp:437-440) adds nxy z. *)
Definition plane_writes (cell : nat -> nat) (nxy : nat) (zs : list nat) (vs : list R) : list (nat * R) :=
  flat_map (fun iv => map (fun z => (cell (fst iv) + nxy * z, snd iv)) zs) (combine (seq 0 (length vs)) vs).
(** moc_sweeper.cpp:301-352: the planes a macroplane's values go to, PIN_PLANE and PIN. *)
Definition zs_plane (i : nat) (m : MPl) : list nat := [i].
(** As above, src/sweepers/moc/moc_sweeper.cpp:301-352. *)
Definition zs_pin (i : nat) (m : MPl) : list nat := seq (ml_min m) (ml_max m + 1 - ml_min m).
(** As above, src/sweepers/moc/moc_sweeper.cpp:301-352. *)
Definition macro_writes (cell : nat -> nat) (nxy : nat) (zs : nat -> MPl -> list nat) (ms : list MPl) (vs : list (list R)) : list (nat * R) :=
  flat_map (fun imv => plane_writes cell nxy (zs (fst imv) (fst (snd imv))) (snd (snd imv))) (combine (seq 0 (length ms)) (combine ms vs)).
(** moc_sweeper.cpp:293-358 get_pin_flux_1g into an array of [n] cells set to zero; the means do not depend on the array,
    so all are computed before the additions here. *)
Definition get_pin_flux (cell : nat -> nat) (nxy n : nat) (zs : nat -> MPl -> list nat) (ms : list MPl) (fl vol : list R) : option (list R) :=
  match macro_means ms fl vol with
  | Some vs => deposit 1 (macro_writes cell nxy zs ms vs) (repeat 0%R n)
  | None => None
  end.

(** moc_sweeper.cpp:402-423: one pin after another.  Yields the new fluxes of the macroplane, the remaining ones and the
    squared residual.  [None] = out of range, or division by a zero area or mean flux. *)
Fixpoint set_pins (cell : nat -> nat) (nxy : nat) (z ipin : nat) (pins : list PinG) (input fl : list R) : option (list R * list R * R) :=
  match pins with
  | [] => Some ([], fl, 0%R)
  | p :: r => let n := length (pg_areas p) in
      if length fl <? n then None
      else match nth_error input (cell ipin + nxy * z) with
      | None => None
      | Some v =>
          if Reqb (pg_area p) 0 then None
          else let fm := (wsum (firstn n fl) (pg_areas p) / pg_area p)%R in
            if Reqb fm 0 then None
            else match set_pins cell nxy z (S ipin) r input (skipn n fl) with
            | Some (new, rest, e) => Some (map (fun x => x * (v / fm))%R (firstn n fl) ++ new, rest, ((v - fm) * (v - fm) + e)%R)
            | None => None
            end
      end
  end.
(** moc_sweeper.cpp:400-425. *)
Fixpoint set_planes (cell : nat -> nat) (nxy z : nat) (ms : list MPl) (input fl : list R) : option (list R * R) :=
  match ms with
  | [] => Some (fl, 0%R)
  | m :: r => match set_pins cell nxy z 0 (ml_pins m) input fl with
      | Some (new, rest, e) => match set_planes cell nxy (S z) r input rest with Some (new', e') => Some (new ++ new', (e + e')%R) | None => None end
      | None => None
      end
  end.
(** moc_sweeper.cpp:360-433 set_pin_flux_1g.  Line 397 assigns the argument to plane_pin_flux whatever the treatment, so
    the values homogenized at 383-395 (PIN) are dead; with a different size the assignment is outside blitz's contract.
    Yields the new fluxes and the residual. *)
Definition set_pin_flux (cell : nat -> nat) (nxy : nat) (ms : list MPl) (input fl : list R) : Out (list R * R) :=
  if existsb (fun v => Rleb v 0) input then Threw
  else if negb (length input =? nxy * length ms) then Undef
  else match set_planes cell nxy 0 ms input fl with
       | Some (fl', e) => Got (fl', (sqrt e / INR (nxy * length ms))%R)
       | None => Undef
       end.

(** moc_sweeper.cpp:443-459 with splitting allowed: new source and splitting cross section; [None] below is division by a
    zero flux. *)
Fixpoint split_tl (src tl fl : list R) : Out (list R * list R) :=
  match src, tl, fl with
  | [], _, _ => Got ([], [])
  | q :: src', t :: tl', f :: fl' =>
      let s := (q + t)%R in
      if Rltb s 0 then
        if Rltb f 0 then Threw
        else if Reqb f 0 then Undef
        else match split_tl src' tl' fl' with Got (a, b) => Got (0%R :: a, (- s / f)%R :: b) | o => o end
      else match split_tl src' tl' fl' with Got (a, b) => Got (s :: a, 0%R :: b) | o => o end
  | _, _, _ => Undef
  end.
(** moc_sweeper.cpp:465-468 without splitting. *)
Fixpoint plain_tl (src tl : list R) : Out (list R) :=
  match src, tl with
  | [], _ => Got []
  | q :: src', t :: tl' => match plain_tl src' tl' with Got a => Got ((q + t)%R :: a) | o => o end
  | _, [] => Undef
  end.
(** moc_sweeper.cpp:435-472 apply_transverse_leakage; [split] is the splitting array as it was. *)
Definition apply_tl (allow : bool) (src tl fl split : list R) : Out (list R * list R) :=
  if allow then split_tl src tl fl
  else match plain_tl src tl with Got a => Got (a, split) | Threw => Threw | Undef => Undef end.

(** moc_sweeper.cpp:264-287 the two update rules; [part], [part_old]: sum of the two partial currents of a surface. *)
Definition upd_ratio (part part_old : nat -> option R) (x : R) (is : nat) : option R :=
  match part is, part_old is with
  | Some p, Some q => Some (if Rltb 0 (2 * q) then x * (2 * p / (2 * q)) else x)%R
  | _, _ => None
  end.
(** As above, src/sweepers/moc/moc_sweeper.cpp:264-287. *)
Definition upd_first (part : nat -> option R) (x : R) (is : nat) : option R :=
  match part is with Some p => Some (2 * (1 / (4 * PI)) * p)%R | None => None end.
(** moc_sweeper.hpp:217-220: what is read of a ray: cm_cell_fw, cm_cell_bw, cm_surf_fw, cm_surf_bw, bc(0), bc(1). *)
Record URay := mkUR { ur_cell1 : nat; ur_cell2 : nat; ur_surf1 : nat; ur_surf2 : nat; ur_bc1 : nat; ur_bc2 : nat }.
(** As above, src/sweepers/moc/moc_sweeper.hpp:217-220. *)
Definition modify (f : R -> option R) (i : nat) (l : list R) : option (list R) :=
  match nth_error l i with Some x => match f x with Some y => set_nth l i y | None => None end | None => None end.
(** moc_sweeper.hpp:216-224: the rays of one angle; fw and bw: the boundary values of the angle and of its reverse. *)
Fixpoint upd_rays (f : R -> nat -> option R) (rays : list URay) (fw bw : list R) : option (list R * list R) :=
  match rays with
  | [] => Some (fw, bw)
  | r :: rest => match modify (fun x => f x (ur_cell1 r)) (ur_bc1 r) fw, modify (fun x => f x (ur_cell2 r)) (ur_bc2 r) bw with
      | Some fw', Some bw' => upd_rays f rest fw' bw'
      | _, _ => None
      end
  end.
