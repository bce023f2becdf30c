(** Model of a group sweep of the MoC sweeper with its inner iterations (src/sweepers/moc/moc_sweeper.cpp:189-225), on top of
    the one-group sweep of MocModel and the source of SrcModel.  Coarse data is left out (see CurModel), cross sections are
    those expanded for the group without splitting (XsModel). *)
From Coq Require Import List Bool Reals Arith.
From Verif Require Import RUtil ListUtil McModel MeshModel AngModel BcModel StdAlg CoreModel ExpModel MocModel XsModel SrcModel.
Import ListNotations.
Open Scope nat_scope.

(** Everything a sweep does not change: boundary layouts, cross sections per group, volumes, quadrature, spacings, the
    Gauss-Seidel flag, threads, regions, inner iterations, and the planes with first region, height and rays
    (src/sweepers/moc/moc_sweeper.hpp members).  See src/sweepers/moc/moc_sweeper.cpp:199-220. *)
Record MocStatic := mkMS { ms_in : BC; ms_out : BC; ms_xstr : nat -> list R; ms_vol : list R; ms_quad : list Angle; ms_space : list R; ms_gs : bool;
  ms_nt : nat; ms_nreg : nat; ms_inner : nat; ms_xs : list XReg; ms_planes : list (nat * R * list (list (nat * Ray))) }.
(** What it changes: the flux, the transport source q (isotropic: the same for every angle,
    src/core/source_isotropic.hpp get_transport) and the boundary fluxes in and out of every plane.  See src/sweepers/moc/moc_sweeper.cpp:199-220. *)
Record MocState := mkMG { mg_flux : list (list R); mg_q : list R; mg_bnd : list (list R * list R) }.
(** src/sweepers/moc/moc_sweeper.cpp:199: flux_1g_ is a view of one group of flux_. *)
Fixpoint set_col (g : nat) (f : list R) (fl : list (list R)) : option (list (list R)) :=
  match f, fl with
  | [], [] => Some []
  | v :: f', row :: fl' => match set_nth row g v, set_col g f' fl' with Some r, Some l => Some (r :: l) | _, _ => None end
  | _, _ => None
  end.
(** As above, src/sweepers/moc/moc_sweeper.cpp:199. *)
Definition plane_in (p : nat * R * list (list (nat * Ray))) (b : list R * list R) : PlaneIn := mkPI (fst (fst p)) (snd (fst p)) (snd p) (fst b) (snd b).
(** src/sweepers/moc/moc_sweeper.cpp:202-220: one inner iteration. *)
Definition moc_inner (m : MocStatic) (g : nat) (src : list R) (s : MocState) : option MocState :=
  match self_scatter true (ms_xs m) (mg_flux s) src g (mg_q s) with
  | Some q =>
      let e := mkME (ms_in m) (ms_out m) g (ms_xstr m g) (ms_vol m) (fun _ => q) (ms_quad m) (ms_space m) (ms_gs m) in
      match sweep1g e (ms_nt m) (ms_nreg m) (map (fun pb => plane_in (fst pb) (snd pb)) (combine (ms_planes m) (mg_bnd s))) with
      | Ok (f, bs) => match set_col g f (mg_flux s) with Some fl => Some (mkMG fl q bs) | None => None end
      | _ => None
      end
  | None => None
  end.
(** As above, src/sweepers/moc/moc_sweeper.cpp:202-220. *)
Fixpoint moc_inners (m : MocStatic) (g : nat) (src : list R) (n : nat) (s : MocState) : option MocState :=
  match n with O => Some s | S k => match moc_inner m g src s with Some s' => moc_inners m g src k s' | None => None end end.
(** As above, src/sweepers/moc/moc_sweeper.cpp:202-220. *)
Definition moc_sweep (m : MocStatic) (g : nat) (src : list R) (s : MocState) : option MocState := moc_inners m g src (ms_inner m) s.
