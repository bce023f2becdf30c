(** Model of the group sweep of the 2D3D sweeper (src/sweepers/cmdo/plane_sweeper_2d3d.cpp, .hpp), of the multi-group pin
    fluxes (src/core/transport_sweeper.hpp, .cpp) and of the CMFD step of the eigenvalue solver
    (src/solvers/eigen_solver.cpp).  The two sweepers, the coarse data, corrections and sources live in a state [W] about
    which nothing is assumed here: a MoC sweep, an Sn sweep and the transverse leakage are any (possibly failing)
    transformations of it.  What is concrete is the flow of control and every exchange of pin fluxes.  Messages, timers and
    the counts of negative or NaN values printed are left out. *)
From Coq Require Import List Bool Reals ZArith Arith.
From Verif Require Import RUtil ListUtil McModel MatModel ExpModel MocModel PflModel SnModel SnPinModel CmfdModel XsModel SrcModel SolModel.
Import ListNotations.
Open Scope nat_scope.

(** As above, src/sweepers/cmdo/plane_sweeper_2d3d.cpp:361-416. *)
Definition obind {A B} (o : Out A) (f : A -> Out B) : Out B := match o with Got a => f a | Threw => Threw | Undef => Undef end.
(** As above, src/sweepers/cmdo/plane_sweeper_2d3d.cpp:361-416. *)
Definition odef {A} (o : option A) : Out A := match o with Some a => Got a | None => Undef end.

(** src/sweepers/cmdo/plane_sweeper_2d3d.cpp:361-416: the options read by sweep(), as given (any integers are accepted). *)
Record Opts := mkOp { o_tl : bool; o_v : bool; o_snp : bool; o_mocp : bool; o_inactive : Z; o_modulo : Z }.
(** src/sweepers/cmdo/plane_sweeper_2d3d.cpp:145-146; % by zero is undefined and only evaluated when the first test holds. *)
Definition do_moc (o : Opts) (i : Z) : Out bool :=
  if (o_inactive o <? i + 1)%Z then (if (o_modulo o =? 0)%Z then Undef else Got (Z.rem i (o_modulo o) =? 0)%Z) else Got false.
(** src/sweepers/cmdo/plane_sweeper_2d3d.cpp:129-135, 187-192: negative values are replaced by zero. *)
Definition clip (l : list R) : list R := map (fun v => if Rltb v 0 then 0%R else v) l.
(** src/sweepers/cmdo/plane_sweeper_2d3d.cpp:202-208; [npin] is mesh_.n_pin(). *)
Fixpoint sq_sum (a b : list R) : option R :=
  match a, b with
  | [], _ => Some 0%R
  | x :: a', y :: b' => match sq_sum a' b' with Some s => Some ((x - y) * (x - y) + s)%R | None => None end
  | _ :: _, [] => None
  end.
(** As above, src/sweepers/cmdo/plane_sweeper_2d3d.cpp:202-208. *)
Definition residual (npin : nat) (a b : list R) : option R :=
  match sq_sum a b with Some s => rdiv (sqrt s) (INR npin) | None => None end.

(** The Sn flux of a group by macroplane and plane (SnPinModel) as one column and back (src/core/core_mesh.hpp:
    plane_cell_begin .. plane_cell_end are consecutive).  See src/core/mesh.hpp:356-367. *)
Definition flat (ms : list MP) : list R := concat (map (fun m => concat (map snd (mp_pl m))) ms).
(** As above, src/core/mesh.hpp:356-367. *)
Fixpoint refill_planes (pls : list (R * list R)) (col : list R) : list (R * list R) * list R :=
  match pls with
  | [] => ([], col)
  | (h, p) :: r => let '(q, rest) := refill_planes r (skipn (length p) col) in ((h, firstn (length p) col) :: q, rest)
  end.
(** As above, src/core/mesh.hpp:356-367. *)
Fixpoint refill (ms : list MP) (col : list R) : list MP :=
  match ms with [] => [] | m :: r => let '(q, rest) := refill_planes (mp_pl m) col in mkMP (mp_h m) q :: refill r rest end.
(** src/sweepers/sn/sn_sweeper.hpp:101-118 set_pin_flux_1g with its default treatment PIN on that column: values go to the
    first cells, one after the other (SnModel.set_pin_flux on a one-group flux). *)
Definition sn_set_pin (pf : list R) (ms : list MP) : option (list MP) :=
  match SnModel.set_pin_flux 0 pf (map (fun v => [v]) (flat ms)) with Some (fl, _) => Some (refill ms (concat fl)) | None => None end.
(** src/sweepers/sn/sn_sweeper.hpp:54-77 get_pin_flux_1g with PIN_PLANE into one array. *)
Definition sn_get (nxy : nat) (ms : list MP) : option (list R) := match get_pin_plane nxy ms with Some l => Some (concat l) | None => None end.
(** An array on the macroplane mesh by macroplane.  See src/sweepers/sn/sn_sweeper.hpp:54-77. *)
Fixpoint rows (nxy n : nat) (l : list R) : list (list R) := match n with O => [] | S k => firstn nxy l :: rows nxy k (skipn nxy l) end.

(** The core mesh as both sweepers see it: coarse cell of each pin of a plane, cells per plane, macroplanes of the MoC mesh,
    region volumes and the number of pins of the full mesh (src/core/core_mesh.hpp).  See src/core/mesh.hpp:326-329. *)
Record Geo := mkGeo { ge_cell : nat -> nat; ge_nxy : nat; ge_ms : list MPl; ge_vol : list R; ge_npin : nat }.

Section Sweeper.
Variable W : Type.
(** MoC flux of a group by region, Sn flux of a group by macroplane; and writing them. *)
Variable mcol : nat -> W -> list R.
Variable mput : nat -> list R -> W -> W.
Variable smps : nat -> W -> list MP.
Variable sput : nat -> list MP -> W -> W.
(** One group sweep of either sweeper (src/sweepers/cmdo/moc_sweeper_2d3d.cpp:48-99, src/sweepers/sn/sn_sweeper_variant.hpp)
    and the transverse leakage (plane_sweeper_2d3d.cpp:241-280, modelled in TlModel and PflModel). *)
Variable msweep ssweep leak : nat -> W -> Out W.
Variable geo : Geo.
Variable op : Opts.
(** Whether coarse data has been handed over. *)
Variable coarse : bool.

(** src/sweepers/moc/moc_sweeper.cpp:293-326 on the state. *)
Definition moc_get (g : nat) (w : W) : option (list R) :=
  PflModel.get_pin_flux (ge_cell geo) (ge_nxy geo) (ge_nxy geo * length (ge_ms geo)) zs_plane (ge_ms geo) (mcol g w) (ge_vol geo).
(** src/sweepers/moc/moc_sweeper.cpp:360-433 on the state; yields the residual too. *)
Definition moc_set (g : nat) (pf : list R) (w : W) : Out (W * R) :=
  match PflModel.set_pin_flux (ge_cell geo) (ge_nxy geo) (ge_ms geo) pf (mcol g w) with
  | Got (fl, r) => Got (mput g fl w, r) | Threw => Threw | Undef => Undef
  end.
(** As above, src/sweepers/moc/moc_sweeper.cpp:360-433. *)
Definition snflux (g : nat) (w : W) : option (list R) := sn_get (ge_nxy geo) (smps g w).
(** src/sweepers/sn/sn_sweeper.hpp:119-143 set_pin_flux_1g with PIN_PLANE on the state. *)
Definition sn_put (g : nat) (pf : list R) (w : W) : option W :=
  match set_pin_plane (ge_nxy geo) (rows (ge_nxy geo) (length (smps g w)) pf) (smps g w) with Some (ms, _) => Some (sput g ms w) | None => None end.

(** src/sweepers/cmdo/plane_sweeper_2d3d.cpp:129-141, 187-198: the Sn pin fluxes given to the MoC sweeper. *)
Definition project (g : nat) (sn : list R) (w : W) : Out W := obind (moc_set g (clip sn) w) (fun x => Got (fst x)).
(** src/sweepers/cmdo/plane_sweeper_2d3d.cpp:116-142: leakage and the early Sn sweep of a V cycle. *)
Definition opening (g : nat) (w : W) : Out W :=
  obind (if o_tl op then leak g w else Got w) (fun w1 =>
  if o_v op then obind (ssweep g w1) (fun w2 => obind (odef (snflux g w2)) (fun sn => project g sn w2)) else Got w1).
(** src/sweepers/cmdo/plane_sweeper_2d3d.cpp:145-176: the MoC sweep if due and the projection to Sn; yields the MoC pin
    fluxes and whether the MoC sweeper ran. *)
Definition moc_part (g : nat) (i : Z) (w : W) : Out (W * list R * bool) :=
  obind (do_moc op i) (fun d =>
  obind (if d then msweep g w else Got w) (fun w1 =>
  obind (odef (moc_get g w1)) (fun prev =>
  obind (if o_mocp op then odef (match sn_set_pin prev (smps g w1) with Some ms => Some (sput g ms w1) | None => None end) else Got w1) (fun w2 =>
  Got (w2, prev, d))))).
(** src/sweepers/cmdo/plane_sweeper_2d3d.cpp:178-208: Sn sweep, projection to MoC, residual. *)
Definition sn_part (g : nat) (prev : list R) (w : W) : Out (W * R) :=
  obind (ssweep g w) (fun w1 =>
  obind (odef (snflux g w1)) (fun sn =>
  obind (if o_snp op then project g sn w1 else Got w1) (fun w2 =>
  obind (odef (residual (ge_npin geo) prev (if o_snp op then clip sn else sn))) (fun r => Got (w2, r))))).

(** The sweeper: i_outer_, the residuals recorded (sn_resid_norm_, here with their groups in order) and prev_moc_flux_.
    [t_swept] lists the MoC sweeps done, as (outer iteration, group); it is not in the code.  sn_resid_ is left out: it is
    only read behind assert(false) (plane_sweeper_2d3d.hpp:82-88). *)
Record T2 := mkT { t_w : W; t_i : Z; t_res : list (nat * R); t_prev : nat -> list R; t_swept : list (Z * nat) }.
(** src/sweepers/cmdo/plane_sweeper_2d3d.cpp:105-217 sweep; overflow of the iteration count is left out. *)
Definition sweep (g : nat) (t : T2) : Out T2 :=
  if negb coarse then Threw
  else let i := if g =? 0 then (t_i t + 1)%Z else t_i t in
    obind (opening g (t_w t)) (fun w1 =>
    obind (moc_part g i w1) (fun x => let '(w2, prev, d) := x in
    obind (sn_part g prev w2) (fun y => let '(w3, r) := y in
    Got (mkT w3 i (t_res t ++ [(g, r)]) (fun g' => if g' =? g then prev else t_prev t g') (t_swept t ++ (if d then [(i, g)] else [])))))).

(** What a solver does with the sweeper: group sweeps, and anything else between them that leaves its own counters alone
    (sources, CMFD; src/solvers/fixed_source_solver.cpp:102-117, src/solvers/eigen_solver.cpp:225-253). *)
Inductive Ev := ESweep (g : nat) | EOther (f : W -> Out W).
(** As above, src/solvers/fixed_source_solver.cpp:102-117. *)
Fixpoint run (evs : list Ev) (t : T2) : Out T2 :=
  match evs with
  | [] => Got t
  | ESweep g :: r => obind (sweep g t) (run r)
  | EOther f :: r => obind (f (t_w t)) (fun w => run r (mkT w (t_i t) (t_res t) (t_prev t) (t_swept t)))
  end.
(** src/sweepers/cmdo/plane_sweeper_2d3d.cpp:60-73: freshly made. *)
Definition fresh (w : W) : T2 := mkT w (-1) [] (fun _ => []) [].

(** src/core/transport_sweeper.cpp:195-208 get_pin_flux with PIN_PLANE, by group; src/sweepers/cmdo/plane_sweeper_2d3d.cpp:
    227-238: Sn or MoC according to expose_sn. *)
Definition pin_flux_1g (expose : bool) (g : nat) (w : W) : option (list R) := if expose then snflux g w else moc_get g w.
(** As above, src/core/transport_sweeper.cpp:195-208. *)
Fixpoint pin_flux (expose : bool) (g cnt : nat) (w : W) : option (list (list R)) :=
  match cnt with O => Some [] | S c => match pin_flux_1g expose g w, pin_flux expose (S g) c w with Some a, Some b => Some (a :: b) | _, _ => None end end.
(** src/sweepers/cmdo/plane_sweeper_2d3d.hpp:73-95 set_pin_flux_1g without discrepant_flux_update. *)
Definition set_1g (g : nat) (pf : list R) (w : W) : Out (W * R) := obind (odef (sn_put g pf w)) (fun w1 => moc_set g pf w1).
(** src/core/transport_sweeper.hpp:124-134 set_pin_flux; the root of the sum is not used by the caller. *)
Fixpoint set_all (g : nat) (pfs : list (list R)) (w : W) : Out (W * R) :=
  match pfs with
  | [] => Got (w, 0%R)
  | pf :: r => obind (set_1g g pf w) (fun x => obind (set_all (S g) r (fst x)) (fun y => Got (fst y, (snd x * snd x + snd y)%R)))
  end.
(** src/solvers/eigen_solver.cpp:263-291 do_cmfd (the convergence option is always FIXED): [solve] is what CMFD::solve makes
    of k and the coarse flux before its final clean-up of negative values (src/core/cmfd.cpp:171-265, CmfdModel). *)
Definition do_cmfd (expose : bool) (ng : nat) (solve : R -> list (list R) -> Out (R * list (list R))) (k : R) (w : W) : Out (W * R) :=
  obind (odef (pin_flux expose 0 ng w)) (fun pf =>
  obind (solve k pf) (fun x => let '(k', f) := x in
  obind (set_all 0 (map fix_negative f) w) (fun y => Got (fst y, k')))).
End Sweeper.

(** src/solvers/eigen_solver.cpp:172-184: the error of the fission source between two iterations; [n] is n_reg() of the
    sweeper, [nf] the number of fissile regions (98-109). *)
Definition psi_error (n nf : nat) (fs fsp : list R) : Out R :=
  match normalize fs, normalize fsp with
  | Some (f, _), Some (fp, _) => match sum_sq n f fp with Some e => if nf =? 0 then Undef else Got (sqrt (e / INR nf)) | None => Undef end
  | _, _ => Undef
  end.
(** src/sweepers/cmdo/plane_sweeper_2d3d.hpp:143-150 n_reg. *)
Definition n_reg_2d3d (expose : bool) (sn_fl moc_fl : list (list R)) : nat := length (if expose then sn_fl else moc_fl).
(** src/solvers/eigen_solver.cpp:98-109 for a 2D3D sweeper, whose xs_mesh() is the one of the MoC sweeper
    (src/sweepers/cmdo/plane_sweeper_2d3d.cpp:78), and 172-184: the error from the fluxes of two iterations. *)
Definition psi_error_2d3d (expose : bool) (sn moc : list XReg) (ng : nat) (k0 k1 : R) (sf0 mf0 sf1 mf1 : list (list R)) (fs : list R) : Out R :=
  match calc_fission_2d3d k0 sn moc ng sf0 mf0 fs, calc_fission_2d3d k1 sn moc ng sf1 mf1 fs with
  | Some a, Some b => psi_error (n_reg_2d3d expose sf1 mf1) (n_fissile moc) b a
  | _, _ => Undef
  end.
