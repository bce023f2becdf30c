(** Model of a whole fixed-source calculation with the MoC sweeper (src/solvers/fixed_source_solver.cpp), on top of the group
    loop and the outer loop of SolModel and the group sweep of MgModel. *)
From Coq Require Import List Bool Reals Arith.
From Verif Require Import RUtil ListUtil McModel MeshModel AngModel BcModel StdAlg CoreModel ExpModel MocModel MatModel XsModel SrcModel SolModel MgModel.
Import ListNotations.
Open Scope nat_scope.

(** The flux kept by store_old_flux(), the group source and the sweeper.  See src/solvers/fixed_source_solver.cpp:102-117 and
    src/core/transport_sweeper.hpp:271-275. *)
Definition FxState : Type := list (list R) * (list R * MocState).
(** src/solvers/fixed_source_solver.cpp:102-117 step without a fission source (fs_ is null unless an EigenSolver sets it,
    fixed_source_solver.cpp:31); an access outside an array is undefined. *)
Definition fx_step (m : MocStatic) (ng : nat) (ext : option (list (list R))) (s : FxState) : Out FxState :=
  match fss_groups MocState mg_flux (moc_sweep m) (ms_xs m) (ms_nreg m) ext None 0 ng (snd s) with
  | Some st => Got (mg_flux (snd (snd s)), st)
  | None => Undef
  end.
(** src/core/transport_sweeper.cpp:210-223: the iterators run over all regions and groups. *)
Definition fx_resid (s : FxState) : R := flux_residual (concat (mg_flux (snd (snd s)))) (concat (fst s)).
(** src/solvers/fixed_source_solver.cpp:86-91. *)
Definition fx_small (tol : R) (s : FxState) : bool := Rltb (fx_resid s) tol.
(** src/solvers/fixed_source_solver.cpp:79-99 solve, with at most [mx] iterations. *)
Definition fx_solve (m : MocStatic) (ng : nat) (ext : option (list (list R))) (tol : R) (mx : nat) (s : FxState) : Out (FxState * nat) :=
  fixed_loop FxState (fx_step m ng ext) (fx_small tol) mx 0 s.
