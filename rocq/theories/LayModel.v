(** Model of which groups and data sets the solvers and sweepers put into the results file, in the order of the code:
    src/driver.cpp:51-66 generate_output and the output functions that it calls.  What the values are is the subject of other properties
    (C183, C191, C192 among them): here they are given.  Messages to the log are left out.  Data sets of integers and character strings
    are treated like those of doubles.  The HDF5 wrapper is that of H5Model.v. *)
From Coq Require Import String Ascii List Bool Arith.
From Coq Require Import DecimalString.
From Verif Require Import StrModel H5Model.
Import ListNotations.
Open Scope nat_scope.

(** Names in the file, from those in the code.  See src/sweepers/moc/moc_sweeper.cpp:541-580. *)
Definition nm (s : string) : str := list_ascii_of_string s.
(** A number as a stream prints it, in decimal without leading zeros: src/core/cmfd.cpp:683, src/core/xs_mesh_homogenized.cpp:654. *)
Definition dec (n : nat) : str := list_ascii_of_string (NilEmpty.string_of_uint (Nat.to_uint n)).
(** With setfill('0') and setw(3), as in src/sweepers/moc/moc_sweeper.cpp:556-558: at least three characters. *)
Definition num3 (n : nat) : str := repeat "0"%char (3 - List.length (dec n)) ++ dec n.

Section WithValues.
Context {V : Type} (zero : V).

(** What is written, by the overloads of write in src/util/h5file.hpp:132-240 and 376-402: a vector; a vector with dimensions; a
    one-dimensional array with dimensions; an array; a range with dimensions; an integer; a string. *)
Inductive Payload :=
  | WVec (d : list V) | WDims (d : list V) (dims : list nat) | WArrD (a : @Arr V) (dims : list nat) | WArr (a : @Arr V) | WRange (d : list V) (dims : list nat) | WInt (v : V) | WStr (v : V).
(** A call on a node: where the node is, and the arguments.  create_link (src/util/h5file.hpp:97-98) is called with absolute paths. *)
Inductive Call := CGroup (at_ : list str) (p : HPath) | CData (at_ : list str) (p : HPath) (w : Payload) | CLink (src dst : list str).

(** One call, on a file open for writing; asserts if [debug].  src/util/h5file.cpp:51-175, 238-251 and src/util/h5file.hpp:157-240, 376-402.
    A hard link (src/util/h5file.cpp:70-86) is a second name of the object.  Here it is a copy: what is written
    into the object through one name later would be seen through the other, but after the links nothing is written there. *)
Definition call (debug : bool) (f : @HNode V) (c : Call) : HOut HNode :=
  match c with
  | CGroup n p => match create_group f (mkHN n H_WRITE) p with HOk (_, f') => HOk f' | HThrow => HThrow | HUncaught => HUncaught | HAbort => HAbort | HUB => HUB end
  | CData n p w =>
      let h := mkHN n H_WRITE in
      match w with
      | WVec d => write_vec f h p d
      | WDims d dims => write_vec_dims debug f h p d dims
      | WArrD a dims => write_arr_dims f h p a dims
      | WArr a => write_arr f h p a
      | WRange d dims => write_range zero f h p d dims
      | WInt v => put_data f h p [1] [v]
      | WStr v => put_data f h p [] [v]
      end
  | CLink src dst => match look f src with Some x => match create dst x f with Some f' => HOk f' | None => HThrow end | None => HThrow end
  end.
(** The calls one after another; the first failure ends the output.  See src/driver.cpp:51-66. *)
Fixpoint calls (debug : bool) (l : list Call) (f : @HNode V) : HOut HNode :=
  match l with [] => HOk f | c :: r => match call debug f c with HOk f' => calls debug r f' | x => x end end.

(** A call on the node [n] with a relative or an absolute path.  See src/util/h5file.hpp:132-240. *)
Definition grp (n : list str) (p : list str) : Call := CGroup n (mkHP false p).
(** As above, src/util/h5file.hpp:132-240. *)
Definition dat (n : list str) (p : list str) (w : Payload) : Call := CData n (mkHP false p) w.
(** As above, with a leading slash: src/sweepers/cmdo/plane_sweeper_2d3d.cpp:287, 304, 318, 323, 339. *)
Definition grp_abs (n : list str) (p : list str) : Call := CGroup n (mkHP true p).
(** As above. *)
Definition dat_abs (n : list str) (p : list str) (w : Payload) : Call := CData n (mkHP true p) w.

(** src/core/angular_quadrature.cpp:213-249 output. *)
Record AqData := mkAQ { aq_polar : V; aq_azi : V; aq_alpha : list V; aq_theta : list V; aq_ox : list V; aq_oy : list V; aq_oz : list V; aq_w : list V }.
(** As above. *)
Definition aq_out (n : list str) (q : AqData) : list Call :=
  let g := n ++ [nm "ang_quad"] in
  [grp n [nm "ang_quad"]; dat g [nm "n_polar"] (WInt (aq_polar q)); dat g [nm "n_azimuthal"] (WInt (aq_azi q)); dat g [nm "alpha"] (WVec (aq_alpha q)); dat g [nm "theta"] (WVec (aq_theta q));
   dat g [nm "omega_x"] (WVec (aq_ox q)); dat g [nm "omega_y"] (WVec (aq_oy q)); dat g [nm "omega_z"] (WVec (aq_oz q)); dat g [nm "weight"] (WVec (aq_w q))].

(** What a MoC or Sn sweeper has to write (src/sweepers/moc/moc_sweeper.cpp:535-582, src/sweepers/sn/sn_sweeper.cpp:253-275): dimensions of the mesh, planes
    first; normalised pin fluxes by group; numbers of regions and their fluxes by group; pin powers; axial sums of pin powers; quadrature. *)
Record SwData := mkSW { sw_dims : list nat; sw_flux : nat -> list V; sw_nreg : nat; sw_fsr : nat -> list V; sw_pow : @Arr V; sw_pow2 : @Arr V; sw_aq : AqData }.
(** src/sweepers/moc/moc_sweeper.cpp:535-582 output. *)
Definition moc_out (n : list str) (ng : nat) (fsr : bool) (d : SwData) : list Call :=
  grp n [nm "flux"] ::
  (if fsr then grp n [nm "fsr_flux"] :: map (fun ig => dat n [nm "fsr_flux"; num3 (ig + 1)] (WRange (sw_fsr d ig) [sw_nreg d; 1])) (seq 0 ng) else []) ++
  map (fun ig => dat n [nm "flux"; num3 (ig + 1)] (WRange (sw_flux d ig) (sw_dims d))) (seq 0 ng) ++
  dat n [nm "pin_powers"] (WArr (sw_pow d)) :: aq_out n (sw_aq d).

(** src/core/xs_mesh_homogenized.cpp:620-689 output: bounds of the groups, dimensions, the four cross sections by group, the scattering matrices. *)
Record XsData := mkXD { xd_bounds : list V; xd_dims : list nat; xd_tr : nat -> list V; xd_nf : nat -> list V; xd_ch : nat -> list V; xd_f : nat -> list V; xd_nreg : nat; xd_sc : list V }.
(** As above. *)
Definition xs_out (n : list str) (ng : nat) (x : XsData) : list Call :=
  let g := n ++ [nm "xsmesh"] in
  [grp n [nm "xsmesh"]; grp g [nm "xstr"]; grp g [nm "xsnf"]; grp g [nm "xsf"]; grp g [nm "xsch"]; dat g [nm "eubounds"] (WDims (xd_bounds x) [ng])] ++
  flat_map (fun ig => [dat g [nm "xstr"; dec ig] (WDims (xd_tr x ig) (xd_dims x)); dat g [nm "xsnf"; dec ig] (WDims (xd_nf x ig) (xd_dims x));
                       dat g [nm "xsch"; dec ig] (WDims (xd_ch x ig) (xd_dims x)); dat g [nm "xsf"; dec ig] (WDims (xd_f x ig) (xd_dims x))]) (seq 0 ng) ++
  [dat g [nm "xssc"] (WDims (xd_sc x) [xd_nreg x; ng; ng])].
(** src/sweepers/sn/sn_sweeper.cpp:253-289 output. *)
Definition sn_out (n : list str) (ng : nat) (d : SwData) (x : XsData) : list Call :=
  grp n [nm "flux"] :: map (fun ig => dat n [nm "flux"; num3 (ig + 1)] (WRange (sw_flux d ig) (sw_dims d))) (seq 0 ng) ++
  [dat n [nm "pin_powers"] (WArr (sw_pow d)); dat n [nm "pin_powers_2d"] (WArr (sw_pow2 d))] ++ aq_out n (sw_aq d) ++ xs_out n ng x.

(** src/sweepers/cmdo/correction_data.cpp:212-264 output: dimensions, number of angles, and the correction factors by group and angle. *)
Record CoData := mkCoD { co_dims : list nat; co_nang : nat; co_beta : nat -> nat -> @Arr V; co_ax : nat -> nat -> @Arr V; co_ay : nat -> nat -> @Arr V }.
(** As above. *)
Definition co_out (n : list str) (ng : nat) (c : CoData) : list Call :=
  [grp n [nm "alpha_x"]; grp n [nm "alpha_y"]; grp n [nm "beta"]] ++
  flat_map (fun g => [grp n [nm "alpha_x"; num3 g]; grp n [nm "alpha_y"; num3 g]; grp n [nm "beta"; num3 g]] ++
     flat_map (fun a => [dat (n ++ [nm "beta"; num3 g]) [num3 a] (WArrD (co_beta c g a) (co_dims c)); dat (n ++ [nm "alpha_x"; num3 g]) [num3 a] (WArrD (co_ax c g a) (co_dims c));
                         dat (n ++ [nm "alpha_y"; num3 g]) [num3 a] (WArrD (co_ay c g a) (co_dims c))]) (seq 0 (co_nang c))) (seq 0 ng).
(** src/sweepers/cmdo/sn_sweeper_cdd.hpp:116-122 output; [dump] is dump_corrections_. *)
Definition cdd_out (n : list str) (ng : nat) (d : SwData) (x : XsData) (dump : option CoData) : list Call :=
  sn_out n ng d x ++ match dump with Some c => co_out n ng c | None => [] end.
(** src/sweepers/cmdo/moc_sweeper_2d3d.cpp:101-134 output; [inner] is there with internal_coupling_; the residuals are lists of three numbers,
    [re g j] the list of the [j]th. *)
Definition moc2d3d_out (n : list str) (ng : nat) (fsr : bool) (d : SwData) (inner : option (CoData * XsData)) (re : nat -> nat -> list V) : list Call :=
  moc_out n ng fsr d ++ match inner with Some (c, x) => co_out n ng c ++ xs_out n ng x | None => [] end ++
  grp n [nm "correction_residual"] ::
  flat_map (fun ig => let g := n ++ [nm "correction_residual"; dec (ig + 1)] in
     [grp (n ++ [nm "correction_residual"]) [dec (ig + 1)]; dat g [nm "alpha_x"] (WVec (re ig 0)); dat g [nm "alpha_y"] (WVec (re ig 1)); dat g [nm "beta"] (WVec (re ig 2))]) (seq 0 ng).

(** What the 2D3D sweeper has (src/sweepers/cmdo/plane_sweeper_2d3d.cpp:283-354): its two sweepers, residuals, last MoC fluxes and leakages by group. *)
Record PlData := mkPL { pl_sn : SwData; pl_xs : XsData; pl_sndump : option CoData; pl_moc : SwData; pl_fsr : bool; pl_inner : option (CoData * XsData); pl_re : nat -> nat -> list V;
  pl_dims : list nat; pl_resid : nat -> list V; pl_flux : nat -> @Arr V; pl_tl : nat -> list V; pl_dump : option CoData }.
(** src/sweepers/cmdo/plane_sweeper_2d3d.cpp:283-354 output. *)
Definition plane_out (n : list str) (ng : nat) (d : PlData) : list Call :=
  grp_abs n [nm "Sn"] :: cdd_out [nm "Sn"] ng (pl_sn d) (pl_xs d) (pl_sndump d) ++
  [CLink [nm "Sn"; nm "xsmesh"] [nm "xsmesh"]; CLink [nm "Sn"; nm "ang_quad"] [nm "ang_quad"]] ++
  grp_abs n [nm "MoC"] :: moc2d3d_out [nm "MoC"] ng (pl_fsr d) (pl_moc d) (pl_inner d) (pl_re d) ++
  grp_abs n [nm "SnResid"] :: map (fun g => dat_abs n [nm "SnResid"; num3 g] (WDims (pl_resid d g) [List.length (pl_resid d g)])) (seq 0 ng) ++
  grp n [nm "moc_flux"] :: map (fun ig => dat (n ++ [nm "moc_flux"]) [num3 (ig + 1)] (WArrD (pl_flux d ig) (pl_dims d))) (seq 0 ng) ++
  grp_abs n [nm "transverse_leakage"] :: map (fun g => dat [nm "transverse_leakage"] [num3 g] (WRange (pl_tl d g) (pl_dims d))) (seq 0 ng) ++
  match pl_dump d with Some c => co_out n ng c | None => [] end.

(** The sweepers that src/sweepers/transport_sweeper_factory.cpp makes. *)
Inductive Sweeper :=
  | SwMoC (fsr : bool) (d : SwData) | SwSn (d : SwData) (x : XsData) | SwCdd (d : SwData) (x : XsData) (dump : option CoData)
  | SwMoC2D3D (fsr : bool) (d : SwData) (inner : option (CoData * XsData)) (re : nat -> nat -> list V) | SwPlane (d : PlData).
(** As above. *)
Definition sweeper_out (n : list str) (ng : nat) (s : Sweeper) : list Call :=
  match s with
  | SwMoC fsr d => moc_out n ng fsr d | SwSn d x => sn_out n ng d x | SwCdd d x dump => cdd_out n ng d x dump
  | SwMoC2D3D fsr d i re => moc2d3d_out n ng fsr d i re | SwPlane d => plane_out n ng d
  end.
(** src/solvers/fixed_source_solver.cpp:119-129 output. *)
Definition fss_out (n : list str) (ng : nat) (ngv : V) (bounds : list V) (s : Sweeper) : list Call :=
  dat n [nm "ng"] (WInt ngv) :: dat n [nm "eubounds"] (WDims bounds [ng]) :: sweeper_out n ng s.
(** The names of the surfaces in the order of AllSurfaces: src/core/constants.cpp:23-51. *)
Definition surfaces : list str := [nm "east"; nm "north"; nm "west"; nm "south"; nm "top"; nm "bottom"].
(** src/core/cmfd.cpp:670-699 output, with dump_current_: where the currents came from, and currents by group and surface. *)
Record CuData := mkCuD { cu_src : V; cu_dims : list nat; cu_cur : nat -> str -> @Arr V }.
(** As above. *)
Definition cu_out (n : list str) (ng : nat) (c : CuData) : list Call :=
  let g := n ++ [nm "current"] in
  grp n [nm "current"] :: dat g [nm "source"] (WStr (cu_src c)) ::
  flat_map (fun ig => grp g [dec (ig + 1)] :: map (fun s => dat (g ++ [dec (ig + 1)]) [s] (WArrD (cu_cur c ig s) (cu_dims c))) surfaces) (seq 0 ng).
(** src/solvers/eigen_solver.cpp:293-322 output; [hist] is the convergence record, [times] the times of its iterations (line 189); [cm] is there with
    a CMFD solver that dumps currents. *)
Record EiData := mkEi { ei_k : list V; ei_ek : list V; ei_ep : list V; ei_times : list V; ei_cm : option CuData }.
(** As above. *)
Definition eigen_out (n : list str) (ng : nat) (ngv : V) (bounds : list V) (e : EiData) (s : Sweeper) : list Call :=
  let g := n ++ [nm "convergence"] in let dims := [List.length (ei_k e)] in
  [grp n [nm "convergence"]; dat g [nm "k"] (WDims (ei_k e) dims); dat g [nm "error_k"] (WDims (ei_ek e) dims); dat g [nm "error_psi"] (WDims (ei_ep e) dims);
   dat g [nm "iteration_time"] (WVec (ei_times e)); dat g [nm "abscissae"] (WVec (ei_times e))] ++
  fss_out n ng ngv bounds s ++ match ei_cm e with Some c => cu_out n ng c | None => [] end.

(** src/sweepers/mc/particle_pusher.cpp:392-496 output: tallies of fluxes by group and their deviations, on the mesh, by region from track lengths
    and by region from collisions; pin powers. *)
Record McData := mkMC { mc_dims : list nat; mc_fl : nat -> @Arr V; mc_fls : nat -> @Arr V; mc_fs : nat -> @Arr V; mc_fss : nat -> @Arr V; mc_co : nat -> list V; mc_cos : nat -> list V; mc_pp : list V; mc_pps : list V }.
(** As above. *)
Definition pusher_out (n : list str) (ng : nat) (ngv : V) (bounds : list V) (d : McData) : list Call :=
  let fl := n ++ [nm "flux"] in let fs := n ++ [nm "fsr_flux"] in let fc := n ++ [nm "fsr_flux_col"] in
  [dat n [nm "ng"] (WInt ngv); dat n [nm "eubounds"] (WDims bounds [ng]); grp n [nm "flux"]] ++
  flat_map (fun ig => [dat fl [num3 (ig + 1)] (WArrD (mc_fl d ig) (mc_dims d)); dat fl [num3 (ig + 1) ++ nm "_stdev"] (WArrD (mc_fls d ig) (mc_dims d))]) (seq 0 ng) ++
  grp n [nm "fsr_flux"] :: flat_map (fun ig => [dat fs [num3 (ig + 1)] (WArr (mc_fs d ig)); dat fs [num3 (ig + 1) ++ nm "_stdev"] (WArr (mc_fss d ig))]) (seq 0 ng) ++
  grp n [nm "fsr_flux_col"] :: flat_map (fun ig => [dat fc [num3 (ig + 1)] (WVec (mc_co d ig)); dat fc [num3 (ig + 1) ++ nm "_stdev"] (WVec (mc_cos d ig))]) (seq 0 ng) ++
  [dat n [nm "pin_power"] (WDims (mc_pp d) (mc_dims d)); dat n [nm "pin_power_stdev"] (WDims (mc_pps d) (mc_dims d))].
(** The histories, in the order of src/solvers/monte_carlo_eigenvalue_solver.cpp:209-221. *)
Definition histories : list str := [nm "k_history_tl"; nm "k_history_col"; nm "k_history_analog"; nm "h_history"; nm "k_mean_history_tl"; nm "k_mean_history_col"; nm "k_mean_history_analog";
  nm "k_stdev_history_tl"; nm "k_stdev_history_col"; nm "k_stdev_history_analog"].
(** src/solvers/monte_carlo_eigenvalue_solver.cpp:204-228 output. *)
Definition mc_out (n : list str) (ng : nat) (ngv : V) (bounds : list V) (hist : str -> list V) (seed : V) (d : McData) : list Call :=
  map (fun s => dat n [s] (WVec (hist s))) histories ++ dat n [nm "seed"] (WInt seed) :: pusher_out n ng ngv bounds d.

(** The solvers that src/solvers/solver_factory.cpp makes. *)
Inductive Solver := SoEigen (e : EiData) (s : Sweeper) | SoFixed (s : Sweeper) | SoMC (hist : str -> list V) (seed : V) (d : McData).
(** As above. *)
Definition solver_out (n : list str) (ng : nat) (ngv : V) (bounds : list V) (s : Solver) : list Call :=
  match s with SoEigen e sw => eigen_out n ng ngv bounds e sw | SoFixed sw => fss_out n ng ngv bounds sw | SoMC h seed d => mc_out n ng ngv bounds h seed d end.
(** src/driver.cpp:51-66 generate_output: a new file, replacing one of that name. *)
Definition results_file (debug : bool) (ng : nat) (ngv : V) (bounds : list V) (input sha : V) (s : Solver) : HOut HNode :=
  match h5_open None H_WRITE with
  | HOk (h, f) => calls debug (solver_out (hn_at h) ng ngv bounds s ++ [dat (hn_at h) [nm "input_file"] (WStr input); dat (hn_at h) [nm "git_sha1"] (WStr sha)]) f
  | HThrow => HThrow | HUncaught => HUncaught | HAbort => HAbort | HUB => HUB
  end.
End WithValues.
