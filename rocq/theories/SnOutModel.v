(** Model of what the Sn sweeper reports: src/sweepers/sn/sn_sweeper.cpp:176-211 pin_powers and pin_powers_2d,
    src/sweepers/sn/sn_sweeper.cpp:213-251 check_balance.  Regions of the Sn sweeper are the cells of the core mesh. *)
From Coq Require Import List Bool Reals Arith ZArith.
From Verif Require Import RUtil ListUtil McModel MeshModel GeomModel CoreModel XsModel SrcModel SolModel.
Import ListNotations.
Open Scope nat_scope.

(** src/sweepers/sn/sn_sweeper.cpp:184-187 and 203-206: the groups of one region, added to entry [t] of the powers.  [None] =
    access out of range. *)
Fixpoint sp_groups (x : XReg) (fl : list (list R)) (vol : list R) (i t ig cnt : nat) (pw : list R) : option (list R) :=
  match cnt with
  | O => Some pw
  | S c =>
      match nth_error vol i, at2 fl i ig, nth_error (xr_f x) ig, nth_error pw t with
      | Some v, Some ph, Some f, Some p => match set_nth pw t (p + v * ph * f)%R with Some pw' => sp_groups x fl vol i t (S ig) c pw' | None => None end
      | _, _, _, _ => None
      end
  end.
(** Lines 182-188 and 201-207: the regions of one cross-section region; [tgt] is where a region's power goes. *)
Fixpoint sp_regs (tgt : nat -> nat) (x : XReg) (ng : nat) (fl : list (list R)) (vol : list R) (regs : list nat) (pw : list R) : option (list R) :=
  match regs with
  | [] => Some pw
  | i :: r => match sp_groups x fl vol i (tgt i) 0 ng pw with Some pw' => sp_regs tgt x ng fl vol r pw' | None => None end
  end.
(** Lines 181-189 and 200-208. *)
Fixpoint sp_mesh (tgt : nat -> nat) (xs : list XReg) (ng : nat) (fl : list (list R)) (vol : list R) (pw : list R) : option (list R) :=
  match xs with
  | [] => Some pw
  | x :: r => match sp_regs tgt x ng fl vol (xr_reg x) pw with Some pw' => sp_mesh tgt r ng fl vol pw' | None => None end
  end.
(** Entry (pos.z, pos.y, pos.x) of an array with nz, ny and nx entries, and entry (pos.y, pos.x) of one with ny and nx.  See src/sweepers/sn/sn_sweeper.cpp:176-193. *)
Definition entry3 (m : Mesh) (i : nat) : nat := let p := coarse_position m (Z.of_nat i) in Z.to_nat (pz p * (ny m * nx m) + py p * nx m + px p).
(** As above, src/sweepers/sn/sn_sweeper.cpp:181-189 and 200-208. *)
Definition entry2 (m : Mesh) (i : nat) : nat := let p := coarse_position m (Z.of_nat i) in Z.to_nat (py p * nx m + px p).
(** src/sweepers/sn/sn_sweeper.cpp:176-193 pin_powers. *)
Definition sn_pin_powers (m : Mesh) (xs : list XReg) (ng : nat) (fl : list (list R)) (vol : list R) : option (list R) :=
  match sp_mesh (entry3 m) xs ng fl vol (repeat 0%R (Z.to_nat (nz m * ny m * nx m))) with
  | Some pw => option_map fst (normalize pw)
  | None => None
  end.
(** src/sweepers/sn/sn_sweeper.cpp:195-211 pin_powers_2d. *)
Definition sn_pin_powers_2d (m : Mesh) (xs : list XReg) (ng : nat) (fl : list (list R)) (vol : list R) : option (list R) :=
  match sp_mesh (entry2 m) xs ng fl vol (repeat 0%R (Z.to_nat (ny m * nx m))) with
  | Some pw => option_map fst (normalize pw)
  | None => None
  end.

(** One of the six terms of lines 222-239: current through a side of a cell times its area. *)
Definition bal_side (g : GMesh) (cur : list R) (i : nat) (s : Surface) : option R :=
  match coarse_surf (dims g) (Z.of_nat i) s, coarse_area_cell g (Z.of_nat i) s with
  | Some k, Some a => if (k <? 0)%Z then None else match nth_error cur (Z.to_nat k) with Some j => Some (j * a)%R | None => None end
  | _, _ => None
  end.
(** Lines 218-246: the number printed for a cell.  The cross section is that of the cross-section region with the number of the
    cell. *)
Definition bal_cell (g : GMesh) (cur src vol fl1 : list R) (xs : list XReg) (ig i : nat) : option R :=
  match bal_side g cur i EAST, bal_side g cur i NORTH, bal_side g cur i TOP, bal_side g cur i WEST, bal_side g cur i SOUTH, bal_side g cur i BOTTOM with
  | Some je, Some jn, Some jt, Some jw, Some js, Some jb =>
      match nth_error src i, nth_error vol i, nth_error fl1 i, nth_error xs i with
      | Some s, Some v, Some f, Some x =>
          match nth_error (xr_rm x) ig with
          | Some rm => Some (0 - je - jn - jt + jw + js + jb + s * v - f * rm * v)%R
          | None => None
          end
      | _, _, _, _ => None
      end
  | _, _, _, _, _, _ => None
  end.
(** Outcomes: "No coarse data", an access out of range, the numbers printed.  See src/sweepers/sn/sn_sweeper.cpp:213-251. *)
Inductive BalOut := BalThrow | BalUB | BalVals (l : list R).
(** src/sweepers/sn/sn_sweeper.cpp:213-251 check_balance; [cur] are the coarse currents of the group if there is coarse data,
    [fl1] the one-group flux left by the last sweep. *)
Definition check_balance (g : GMesh) (cur : option (list R)) (src vol fl1 : list R) (xs : list XReg) (ig : nat) : BalOut :=
  match cur with
  | None => BalThrow
  | Some c => match all_some (map (bal_cell g c src vol fl1 xs ig) (seq 0 (Z.to_nat (n_pin (dims g))))) with Some l => BalVals l | None => BalUB end
  end.
