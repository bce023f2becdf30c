(** Model of a group sweep of the Sn sweeper with its inner iterations, coarse data and clean-up
    (src/sweepers/sn/sn_sweeper_variant.hpp:94-154), on top of the one-group sweep of SnModel and the source of SrcModel. *)
From Coq Require Import List Bool Reals Arith ZArith.
From Verif Require Import RUtil ListUtil McModel MeshModel AngModel BcModel StdAlg CoreModel ExpModel MocModel SnModel XsModel SrcModel MgModel.
Import ListNotations.
Open Scope nat_scope.

(** Everything a sweep does not change (members of src/sweepers/sn/sn_sweeper.hpp and of the variants): mesh, boundary layouts,
    quadrature, cross sections per group, the Gauss-Seidel flag, whether the core is three-dimensional, the differencing
    equation per group, threads, regions, inner iterations and the cross-section regions.  [sg_sched] is the schedule OpenMP
    happens to choose for the angles in each inner iteration (numbered by how many remain).  See src/sweepers/sn/sn_sweeper.hpp:174-202. *)
Record SnStatic := mkSG { sg_m : Mesh; sg_in : BC; sg_out : BC; sg_quad : list Angle; sg_xstr : nat -> list R; sg_gs : bool; sg_d3 : bool;
  sg_eq : nat -> nat -> nat -> nat -> nat -> R -> R -> R -> R -> R -> option CellOut; sg_nt : nat; sg_sched : nat -> list (nat * nat);
  sg_nreg : nat; sg_inner : nat; sg_xs : list XReg }.
(** src/core/coarse_data.hpp: currents and surface fluxes, one list per group, and the two flags.  Partial currents are not
    touched by the sweep and left out.  See src/core/coarse_data.hpp:151-163. *)
Record CoarseD := mkCD { co_cur : list (list R); co_sf : list (list R); co_axial : bool; co_radial : bool }.
(** What a sweep changes: flux_, the source q_, the data of bc_in_ and bc_out_, and the coarse data if there is any.  See src/sweepers/sn/sn_sweeper.hpp:174-202. *)
Record SnGSt := mkGS { gs_flux : list (list R); gs_q : list R; gs_bin : list R; gs_bout : list R; gs_co : option CoarseD }.

(** The environment of one one-group sweep; the isotropic source is the same for every angle
    (src/core/source_isotropic.hpp:37-40). *)
Definition sg_env (m : SnStatic) (g : nat) (q : list R) (cw : bool) : SnEnv :=
  mkSN (sg_m m) (sg_in m) (sg_out m) g (sg_quad m) (sg_xstr m g) (fun _ => q) (sg_gs m) (sg_d3 m) cw (sg_eq m g).
(** src/sweepers/sn/sn_sweeper_variant.hpp:166-297: flux_1g_ is a view of one group of flux_ (line 113).  [cw] = the Current
    worker, which writes to the arrays [cur] and [sf]; the NoCurrent worker touches neither. *)
Definition sg_one (m : SnStatic) (g k : nat) (cw : bool) (q cur sf : list R) (s : SnGSt) : option (list (list R) * SnSt) :=
  match sn_sweep1g (sg_env m g q cw) (sg_nt m) (sg_sched m k) (sg_nreg m) (gs_bin s) (gs_bout s) cur sf with
  | Ok (f, st) => match set_col g f (gs_flux s) with Some fl => Some (fl, st) | None => None end
  | _ => None
  end.
(** As above, src/sweepers/sn/sn_sweeper_variant.hpp:166-297. *)
Definition no_arr (m : SnStatic) : list R := repeat 0%R (Z.to_nat (n_surf (sg_m m))).
(** Lines 116-137: one inner iteration; [k] iterations remain after it.  Lines 119-129: the last one records currents if there is
    coarse data, whose group is zeroed first (src/core/coarse_data.cpp:51-63). *)
Definition sg_step (m : SnStatic) (g : nat) (src : list R) (k : nat) (s : SnGSt) : option SnGSt :=
  match self_scatter false (sg_xs m) (gs_flux s) src g (gs_q s) with
  | Some q =>
      match k, gs_co s with
      | O, Some c =>
          match nth_error (co_cur c) g, nth_error (co_sf c) g with
          | Some cur, Some sf =>
              match sg_one m g k true q (map (fun _ => 0%R) cur) (map (fun _ => 0%R) sf) s with
              | Some (fl, st) =>
                  match set_nth (co_cur c) g (ss_cur st), set_nth (co_sf c) g (ss_sf st) with
                  | Some cu, Some su => Some (mkGS fl q (ss_in st) (ss_out st) (Some (mkCD cu su (co_axial c || sg_d3 m) true)))
                  | _, _ => None
                  end
              | None => None
              end
          | _, _ => None
          end
      | _, _ =>
          match sg_one m g k false q (no_arr m) (no_arr m) s with
          | Some (fl, st) => Some (mkGS fl q (ss_in st) (ss_out st) (gs_co s))
          | None => None
          end
      end
  | None => None
  end.
(** Line 116: the loop over the inner iterations.  See src/sweepers/sn/sn_sweeper_variant.hpp:116-137. *)
Fixpoint sg_steps (m : SnStatic) (g : nat) (src : list R) (n : nat) (s : SnGSt) : option SnGSt :=
  match n with O => Some s | S k => match sg_step m g src k s with Some s' => sg_steps m g src k s' | None => None end end.
(** Lines 94-154 sweep(group): the iterations, then the clean-up of lines 139-146. *)
Definition sg_sweep (m : SnStatic) (g : nat) (src : list R) (s : SnGSt) : option SnGSt :=
  match sg_steps m g src (sg_inner m) s with
  | Some s' =>
      match get_col g (gs_flux s') with
      | Some f => match set_col g (clean_up f) (gs_flux s') with Some fl => Some (mkGS fl (gs_q s') (gs_bin s') (gs_bout s') (gs_co s')) | None => None end
      | None => None
      end
  | None => None
  end.
