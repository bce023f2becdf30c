(** Model of the fluxes and powers that the MoC and Sn sweepers write to the results file: src/sweepers/moc/moc_sweeper.cpp:535-582 output,
    src/sweepers/sn/sn_sweeper.cpp:253-289 output.  The quadrature, the log and the Sn sweeper's cross sections (C183) are left out; the
    outcome is the data written, the HDF5 wrapper is the subject of C138-C140. *)
From Coq Require Import List Bool Reals ZArith Arith.
From Verif Require Import RUtil ListUtil McModel MatModel MeshModel CoreModel XsModel SrcModel SolModel MocModel PflModel SnOutModel.
Import ListNotations.
Open Scope nat_scope.

(** What is written: flux/<group> for groups from one on, fsr_flux/<group> if asked for, the pin powers, and their axial sums (Sn).
    Lines 549-563, 573-581 of src/sweepers/moc/moc_sweeper.cpp and 264-273 of src/sweepers/sn/sn_sweeper.cpp.  The data sets of the fluxes have
    planes, rows and columns of the mesh as dimensions, so are the cells in their order. *)
Record FluxFile := mkFF { ff_flux : list (list R); ff_fsr : option (list (list R)); ff_pow : list R; ff_pow2 : option (list R) }.
(** Fluxes of one group by region: flux_ is indexed by region and group (src/core/transport_sweeper.hpp:239-245). *)
Definition group_col (g : nat) (fl : list (list R)) : option (list R) :=
  fold_right (fun row acc => match nth_error row g, acc with Some v, Some l => Some (v :: l) | _, _ => None end) (Some []) fl.
(** All groups, one after another.  [None] = access out of range.  See src/core/transport_sweeper.cpp:202-205. *)
Fixpoint groups_from (f : list R -> option (list R)) (fl : list (list R)) (g n : nat) : option (list (list R)) :=
  match n with
  | O => Some []
  | S k => match group_col g fl with
           | Some c => match f c, groups_from f fl (S g) k with Some v, Some r => Some (v :: r) | _, _ => None end
           | None => None
           end
  end.
(** src/sweepers/moc/moc_sweeper.cpp:543-544, src/sweepers/sn/sn_sweeper.cpp:261-262: Normalize runs over the fluxes of all cells and groups.
    Here they are in the order of the groups; the number of positive ones and the (real) sum do not depend on it. *)
Definition normalized (pfs : list (list R)) : option (list (list R)) :=
  match normalize (concat pfs) with Some (_, f) => Some (map (map (fun v => v * f)%R) pfs) | None => None end.
(** src/sweepers/moc/moc_sweeper.cpp:535-582 output; the pin fluxes are those of PIN treatment (src/core/transport_sweeper.hpp:86), on a mesh of [nz]
    planes of [nxy] cells; [regs] are the numbers of regions of the pins by macroplane. *)
Definition moc_output (fsr : bool) (cell : nat -> nat) (nxy nz : nat) (ms : list MPl) (nfuel : R) (xs : list XReg) (ng : nat) (vol : list R) (fl : list (list R)) : option FluxFile :=
  match groups_from (fun c => get_pin_flux cell nxy (nxy * nz) zs_pin ms c vol) fl 0 ng with
  | Some pfs => match normalized pfs, (if fsr then option_map Some (groups_from Some fl 0 ng) else Some None),
                      pin_powers cell nxy (map (fun m => map (fun p => length (pg_areas p)) (ml_pins m)) ms) nfuel xs ng fl vol with
                | Some a, Some b, Some c => Some (mkFF a b c None)
                | _, _, _ => None
                end
  | None => None
  end.
(** src/sweepers/sn/sn_sweeper.cpp:253-289 output; the pin fluxes are the cells' (src/sweepers/sn/sn_sweeper.hpp:53-55). *)
Definition sn_output (m : Mesh) (xs : list XReg) (ng : nat) (vol : list R) (fl : list (list R)) : option FluxFile :=
  match groups_from Some fl 0 ng with
  | Some pfs => match normalized pfs, sn_pin_powers m xs ng fl vol, sn_pin_powers_2d m xs ng fl vol with
                | Some a, Some c, Some d => Some (mkFF a None c (Some d))
                | _, _, _ => None
                end
  | None => None
  end.
