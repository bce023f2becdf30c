(** Model of the pin-flux interface of the Sn sweepers on the macroplane mesh (treatment PIN_PLANE):
    src/sweepers/sn/sn_sweeper.hpp:47-84 get_pin_flux_1g and 100-150 set_pin_flux_1g.  Treatment PIN is in SnModel.
    The flux column of the group is split by planes (plane_cell_begin .. plane_cell_end of src/core/core_mesh.hpp are
    consecutive blocks of nx * ny); real arithmetic is exact and a division by zero has no result. *)
From Coq Require Import List Reals.
From Verif Require Import RUtil ExpModel SnModel.
Import ListNotations.
Open Scope R_scope.

(** A macroplane: its height (src/core/macroplane.hpp) and its planes, each with its height and its fluxes.  See src/sweepers/sn/sn_sweeper.hpp:66-70. *)
Record MP := mkMP { mp_h : R; mp_pl : list (R * list R) }.
(** src/sweepers/sn/sn_sweeper.hpp:66-70: acc += plane * hz, element by element; [None] = ranges of different length. *)
Fixpoint axpy (hz : R) (pl acc : list R) : option (list R) :=
  match pl, acc with
  | [], [] => Some []
  | p :: ps, a :: aa => match axpy hz ps aa with Some r => Some ((a + p * hz) :: r) | None => None end
  | _, _ => None
  end.
(** Lines 64-71: the planes of a macroplane. *)
Fixpoint acc_planes (pls : list (R * list R)) (acc : list R) : option (list R) :=
  match pls with [] => Some acc | (hz, pl) :: r => match axpy hz pl acc with Some a => acc_planes r a | None => None end end.
(** Lines 72: division of a range by a number.  See src/sweepers/sn/sn_sweeper.hpp:72. *)
Fixpoint div_all (l : list R) (h : R) : option (list R) :=
  match l with [] => Some [] | v :: r => match rdiv v h, div_all r h with Some x, Some y => Some (x :: y) | _, _ => None end end.
(** Lines 56-77; [n] is nx * ny. *)
Definition get_mp (n : nat) (m : MP) : option (list R) :=
  match acc_planes (mp_pl m) (repeat 0 n) with Some a => div_all a (mp_h m) | None => None end.
(** As above, src/sweepers/sn/sn_sweeper.hpp:56-77. *)
Fixpoint get_pin_plane (n : nat) (ms : list MP) : option (list (list R)) :=
  match ms with [] => Some [] | m :: r => match get_mp n m, get_pin_plane n r with Some a, Some b => Some (a :: b) | _, _ => None end end.
(** Lines 125 and 135-139: element-wise division. *)
Fixpoint div_each (a b : list R) : option (list R) :=
  match a, b with
  | [], [] => Some []
  | x :: a', y :: b' => match rdiv x y, div_each a' b' with Some v, Some r => Some (v :: r) | _, _ => None end
  | _, _ => None
  end.
(** Lines 132-140: the planes of a macroplane divided by the ratio. *)
Fixpoint scale_planes (pls : list (R * list R)) (ratio : list R) : option (list (R * list R)) :=
  match pls with [] => Some [] | (hz, pl) :: r => match div_each pl ratio, scale_planes r ratio with Some p, Some q => Some ((hz, p) :: q) | _, _ => None end end.
(** Lines 119-143; the residual stays 0. *)
Fixpoint set_mps (ms : list MP) (old pf : list (list R)) : option (list MP) :=
  match ms, old, pf with
  | [], [], [] => Some []
  | m :: ms', o :: old', p :: pf' =>
      match div_each o p with
      | Some ratio => match scale_planes (mp_pl m) ratio, set_mps ms' old' pf' with Some q, Some r => Some (mkMP (mp_h m) q :: r) | _, _ => None end
      | None => None
      end
  | _, _, _ => None
  end.
(** As above, src/sweepers/sn/sn_sweeper.hpp:119-143. *)
Definition set_pin_plane (n : nat) (pf : list (list R)) (ms : list MP) : option (list MP * R) :=
  match get_pin_plane n ms with
  | Some old => match set_mps ms old pf with Some r => Some (r, sqrt 0) | None => None end
  | None => None
  end.
