(** Model of the CMFD eigenvalue solve with all its groups: src/core/cmfd.cpp:171-331 and 640-666, with the sources of
    src/core/source.cpp and src/core/source.hpp.  Builds on CmfdModel: the rows of the matrices are [mat_row], the loop is [cm_loop].
    Real arithmetic is exact.  Arrays over groups and cells are total maps that are read at groups below [cp_ng] and at cells
    of the mesh only. *)
From Coq Require Import List Bool Reals ZArith.
From Verif Require Import RUtil MeshModel BcModel ExpModel SnModel CmfdModel MocProofs.
Import ListNotations.
Open Scope Z_scope.

(** What a solve works with.  [cp_env g] is what setup_solve reads for group [g]; [cp_dt], [cp_dh] are d_tilde_ and d_hat_
    (cmfd.hpp), one array per group; [cp_nf], [cp_chi], [cp_sc] are the homogenised cross sections by cell, [cp_sc from to];
    [cp_sc] is zero outside of the stored part of a row (C19).  [cp_solver g b x] stands for solveWithGuess of Eigen's
    BiCGSTAB (cmfd.cpp:291), which is not modelled; what a theorem needs of it is a hypothesis there. *)
Record CmProb := mkCP { cp_m : Mesh; cp_env : nat -> CmEnv; cp_dt : nat -> Z -> R; cp_dh : nat -> Z -> R; cp_ng : nat; cp_nf : nat -> Z -> R; cp_chi : nat -> Z -> R;
  cp_sc : nat -> nat -> Z -> R; cp_solver : nat -> (Z -> R) -> (Z -> R) -> Z -> R }.
(** As above, src/core/cmfd.cpp:171-279. *)
Definition Flux := nat -> Z -> R.
(** cmfd.hpp n_cell_: the cells of the mesh, in the order of the loops.  See src/core/cmfd.hpp:200-202. *)
Definition cp_cells (p : CmProb) : list Z := zrange (n_pin (cp_m p)).
(** As above, src/core/cmfd.hpp:200-202. *)
Definition cp_groups (p : CmProb) : list nat := seq 0 (cp_ng p).
(** cmfd.cpp:663, (m_[group] * x_)(i).  The row exists for every cell of a mesh (C42_row); the other outcomes are not
    distinguished here. *)
Definition row_val (p : CmProb) (g : nat) (x : Z -> R) (i : Z) : R := match mat_row (cp_env p g) (cp_dt p g) (cp_dh p g) x i with CVal v => v | _ => 0%R end.
(** cmfd.cpp:301-317 fission_source, and its sum before the division. *)
Definition fis_rate (p : CmProb) (f : Flux) (i : Z) : R := lsum (fun g => (cp_nf p g i * f g i)%R) (cp_groups p).
(** As above, src/core/cmfd.cpp:301-317. *)
Definition fission_src (p : CmProb) (k : R) (f : Flux) : option (Z -> R) := match rdiv 1 k with Some r => Some (fun i => (fis_rate p f i * r)%R) | None => None end.
(** cmfd.cpp:319-331 total_fission: not weighted by volumes. *)
Definition total_fis (p : CmProb) (f : Flux) : R := lsum (fis_rate p f) (cp_cells p).
(** src/core/source.cpp:85-112 in_scatter. *)
Definition in_scat (p : CmProb) (g : nat) (f : Flux) (i : Z) : R := lsum (fun h => if Nat.eqb h g then 0%R else (cp_sc p h g i * f h i)%R) (cp_groups p).
(** cmfd.cpp:224-227, 646-649: initialize_group, fission, in_scatter, scale.  No external source is ever added (source.cpp:48-50). *)
Definition cm_source (p : CmProb) (g : nat) (fs : Z -> R) (f : Flux) (i : Z) : R := ((0 + cp_chi p g i * fs i + in_scat p g f i) * coarse_volume (cp_env p g) i)%R.
(** cmfd.cpp:661-666 residual(group) for the vector [x] and the source [b]. *)
Definition resid2 (p : CmProb) (g : nat) (x b : Z -> R) : R := lsum (fun i => ((row_val p g x i - b i) * (row_val p g x i - b i))%R) (cp_cells p).
(** As above, src/core/cmfd.cpp:281-299. *)
Definition set_group (f : Flux) (g : nat) (x : Z -> R) : Flux := fun h => if Nat.eqb h g then x else f h.
(** cmfd.cpp:223-230 with 281-299 solve_1g: each group uses the fluxes that the groups before it left. *)
Fixpoint cm_inner (p : CmProb) (fs : Z -> R) (gs : list nat) (f : Flux) (acc : R) : Flux * R :=
  match gs with
  | [] => (f, acc)
  | g :: r => let b := cm_source p g fs f in
              cm_inner p fs r (set_group f g (cp_solver p g b (f g))) (acc + resid2 p g (f g) b)%R
  end.
(** cmfd.cpp:238-243. *)
Definition cm_diff (p : CmProb) (a b : Z -> R) : R := sqrt (lsum (fun i => ((a i - b i) * (a i - b i))%R) (cp_cells p)).
(** As above, src/core/cmfd.cpp:238-243. *)
Definition cp_ops (p : CmProb) : CmOps Flux (Z -> R) := mkOps _ _ (fission_src p) (fun fs f => cm_inner p fs (cp_groups p) f 0) (total_fis p) (cm_diff p).
(** cmfd.cpp:231, 658: n_cell_ * n_group_. *)
Definition cp_scale (p : CmProb) : R := (IZR (n_pin (cp_m p)) * INR (cp_ng p))%R.
(** cmfd.cpp:640-659 residual(). *)
Definition cm_residual (p : CmProb) (fs : Z -> R) (f : Flux) : option R := rdiv (sqrt (lsum (fun g => resid2 p g (f g) (cm_source p g fs f)) (cp_groups p))) (cp_scale p).
(** cmfd.cpp:194-254: from the fluxes [f] and the eigenvalue [k].  The negative fluxes fixed before (176-184) and after
    (259-265) are [zero_fixup] and [fix_negative] of CmfdModel.  A loop makes at most [max_iter] + 1 passes (C44_limit). *)
Definition cms_solve (p : CmProb) (ktol ptol rred : R) (max_iter : Z) (k : R) (f : Flux) : option (CmLoop Flux (Z -> R)) :=
  match fission_src p k f with
  | None => None
  | Some fs => match cm_residual p fs f with
               | None => None
               | Some r0 => cm_loop (Z.to_nat (max_iter + 2)) (cp_ops p) ktol ptol rred r0 (cp_scale p) max_iter (mkLoop f k fs (total_fis p f) 0)
               end
  end.
(** cmfd.cpp:259-265 on the map. *)
Definition fix_neg (f : Flux) : Flux := fun g i => if Rltb (f g i) 0 then (- f g i)%R else f g i.

(** cmfd.cpp:88-163: options; [None] is an attribute that is absent.  An attribute that is no number is read as -1. *)
Record CmOpt := mkCO { co_ktol : R; co_ptol : R; co_rred : R; co_max : Z }.
(** As above, src/core/cmfd.cpp:88-163. *)
Definition read_pos (default : R) (given : option R) : COut R := match given with None => CVal default | Some v => if Rltb 0 v then CVal v else CExc end.
(** As above, src/core/cmfd.cpp:88-163. *)
Definition cm_options (ktol ptol rred : option R) (max_iter : option Z) : COut CmOpt :=
  cbind (read_pos (1 / 1000000) ktol) (fun a =>
  cbind (read_pos (1 / 100000) ptol) (fun b =>
  cbind (read_pos (1 / 1000) rred) (fun c =>
  cbind (read_max_iter max_iter) (fun n => CVal (mkCO a b c n))))).
