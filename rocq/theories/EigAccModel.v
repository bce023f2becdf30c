(** Model of an eigenvalue calculation that CMFD accelerates: src/solvers/eigen_solver.cpp:111-121, 225-253 and 263-291, with the pin
    fluxes of a MoC sweeper (src/core/transport_sweeper.hpp:80-134) and CMFD::solve (src/core/cmfd.cpp:171-279).  Builds on SolModel
    (the iteration), PflModel (pin fluxes of one group) and CmsModel (the CMFD eigenvalue solve). *)
From Coq Require Import List Bool Reals ZArith Arith.
From Verif Require Import RUtil ListUtil McModel MatModel XsModel SrcModel SolModel MocModel MgModel PflModel.
From Verif Require Import MeshModel CmfdModel CmsModel.
Import ListNotations.
Open Scope nat_scope.

Section Accel.
(** The sweeper and the problem as in SolModel (src/solvers/eigen_solver.hpp:64-83). *)
Variable Sw : Type.
Variable flux : Sw -> list (list R).
Variable sweep : nat -> list R -> Sw -> option Sw.
Variable xs : list XReg.
Variable ngr nreg : nat.
Variable vol : list R.
(** [Data] is what CMFD and the sweeper share (src/core/coarse_data.hpp: currents and surface fluxes); [note] is what the sweeps of an
    iteration make of it.  [getp] and [setp] are get_pin_flux and set_pin_flux of the sweeper with PIN_PLANE, for all groups, and
    [csolve] is CMFD::solve, with the eigenvalue, the coarse flux, the sweeper (for the homogenised cross sections) and the data. *)
Variable Data : Type.
Variable note : ESt Sw -> ESt Sw -> Data -> Data.
Variable getp : Sw -> Out (list (list R)).
Variable setp : list (list R) -> Sw -> Out Sw.
Variable csolve : R -> list (list R) -> Sw -> Data -> Out (R * list (list R) * Data).

(** src/solvers/eigen_solver.cpp:263-291 do_cmfd; the way to choose tolerances is FIXED at line 275, so lines 279-285 are dead. *)
Definition acc_cmfd (k : R) (sw : Sw) (d : Data) : Out (R * Sw * Data) :=
  match getp sw with
  | Got pf => match csolve k pf sw d with
              | Got (k', pf', d') => match setp pf' sw with Got sw' => Got (k', sw', d') | Threw => Threw | Undef => Undef end
              | Threw => Threw | Undef => Undef
              end
  | Threw => Threw | Undef => Undef
  end.
(** The state of the solver with a new eigenvalue and sweeper (src/solvers/eigen_solver.cpp:287-288). *)
Definition with_k (s : ESt Sw) (k : R) (sw : Sw) : ESt Sw := mkE Sw (e_src Sw s) sw k (e_kp Sw s) (e_fs Sw s) (e_fsp Sw s) (e_hist Sw s).
(** src/solvers/eigen_solver.cpp:168-187 with the step of 225-253; [on] says that there is a CMFD solver and it is enabled
    (line 228). *)
Definition acc_iter (on : bool) (sd : ESt Sw * Data) : Out (ESt Sw * Data) :=
  let '(s, d) := sd in
  match (if on then acc_cmfd (e_k Sw s) (e_sw Sw s) d else Got (e_k Sw s, e_sw Sw s, d)) with
  | Got (k1, sw1, d1) => let s1 := with_k s k1 sw1 in
      match eigen_iter Sw flux sweep xs ngr nreg vol s1 with Got s' => Got (s', note s1 s' d1) | Threw => Threw | Undef => Undef end
  | Threw => Threw
  | Undef => Undef
  end.
(** src/solvers/eigen_solver.cpp:131-223 solve. *)
Definition acc_run (on : bool) (p : EParams) (dumps : list Z) (src : list R) (sw : Sw) (d : Data) (fs fsp : list R) : Out (ESt Sw * Data * nat * list nat) :=
  match calc_fission_source 1 xs ngr (flux sw) fs with
  | Some f => eigen_solve (ESt Sw * Data) (acc_iter on) (fun sd => eigen_conv Sw p (fst sd)) p dumps (mkE Sw src sw 1 1 f fsp [], d)
  | None => Undef
  end.
End Accel.

(** ** The pin fluxes of a MoC sweeper, all groups *)
(** Fluxes of one group by region: flux_ is indexed by region and group (src/core/transport_sweeper.hpp:239-245). *)
Definition col (g : nat) (fl : list (list R)) : option (list R) :=
  fold_right (fun row acc => match nth_error row g, acc with Some v, Some l => Some (v :: l) | _, _ => None end) (Some []) fl.
(** src/core/transport_sweeper.cpp:195-208 get_pin_flux: one group after another. *)
Definition moc_getp (cell : nat -> nat) (nxy : nat) (mps : list MPl) (vol : list R) (ng : nat) (fl : list (list R)) : Out (list (list R)) :=
  fold_right (fun g acc => match col g fl with
                           | Some f => match get_pin_flux cell nxy (nxy * length mps) zs_plane mps f vol, acc with Some pf, Got l => Got (pf :: l) | _, _ => Undef end
                           | None => Undef
                           end) (Got []) (seq 0 ng).
(** src/core/transport_sweeper.hpp:124-134 set_pin_flux (its residual is not used by do_cmfd). *)
Fixpoint moc_setp (cell : nat -> nat) (nxy : nat) (mps : list MPl) (g : nat) (pfs : list (list R)) (fl : list (list R)) : Out (list (list R)) :=
  match pfs with
  | [] => Got fl
  | pf :: r => match col g fl with
      | Some f => match set_pin_flux cell nxy mps pf f with
          | Got (f', _) => match set_col g f' fl with Some fl' => moc_setp cell nxy mps (S g) r fl' | None => Undef end
          | Threw => Threw
          | Undef => Undef
          end
      | None => Undef
      end
  end.
(** The two on the state of a MoC sweeper (src/sweepers/moc/moc_sweeper.cpp:293-433). *)
Definition moc_put (cell : nat -> nat) (nxy : nat) (mps : list MPl) (pfs : list (list R)) (s : MocState) : Out MocState :=
  match moc_setp cell nxy mps 0 pfs (mg_flux s) with Got fl => Got (mkMG fl (mg_q s) (mg_bnd s)) | Threw => Threw | Undef => Undef end.

(** ** CMFD::solve *)
(** coarse_data_.flux is indexed by cell and group; here a list of cells per group (src/core/cmfd.cpp:281-299). *)
Definition as_flux (pfs : list (list R)) : Flux := fun g i => nth (Z.to_nat i) (nth g pfs []) 0%R.
(** As above, src/core/cmfd.cpp:281-299. *)
Definition as_lists (p : CmProb) (f : Flux) : list (list R) := map (fun g => map (f g) (cp_cells p)) (cp_groups p).
(** src/core/cmfd.cpp:171-279: the optional cut of negative fluxes, the cross sections and coefficients that are set up ([mk]), the solve,
    the clean-up of negative fluxes and the currents that are stored ([store]). *)
Definition cmfd_solve {Sw Data : Type} (fixup : bool) (o : CmOpt) (mk : list (list R) -> Sw -> Data -> CmProb) (store : CmProb -> Flux -> Data -> Data) (k : R) (pfs : list (list R)) (sw : Sw) (d : Data) : Out (R * list (list R) * Data) :=
  let pfs1 := if fixup then map zero_fixup pfs else pfs in
  let p := mk pfs1 sw d in
  match cms_solve p (co_ktol o) (co_ptol o) (co_rred o) (co_max o) k (as_flux pfs1) with
  | Some l => let f := fix_neg (l_s l) in Got (l_k l, as_lists p f, store p f d)
  | None => Undef
  end.
