(** The tallies of a Monte Carlo eigenvalue calculation and what it records: the tallies of the particle pusher over the cycles
    (src/sweepers/mc/particle_pusher.cpp, src/sweepers/mc/particle_pusher.hpp), the solver's records of each cycle
    (src/solvers/monte_carlo_eigenvalue_solver.cpp), the numbers written, the checks of the input and the first source
    (src/sweepers/mc/fission_bank.cpp).  Over exact reals. *)
From Coq Require Import Reals ZArith List Bool.
From Verif Require Import RUtil StdAlg MeshModel GeomModel AngModel PmModel ScatModel XsModel PartModel SolModel McModel TallyModel HistModel RngModel.
Import ListNotations.
Local Open Scope R_scope.

(** ** The pusher's tallies *)
(** src/sweepers/mc/particle_pusher.hpp:235-250: the three estimators of k, the flux tallies of each group (coarse mesh, fine mesh,
    fine mesh by collisions) and the pin power tally. *)
Record Pusher := mkPu { pu_tl : TScalar; pu_col : TScalar; pu_an : TScalar; pu_co : list TSpatial; pu_fi : list TSpatial; pu_fc : list TSpatial; pu_pp : TSpatial }.
(** src/sweepers/mc/particle_pusher.cpp:68-80: the constructor; [cvol] are the coarse volumes, [vol] those of the regions. *)
Definition pu_new (ng : nat) (cvol vol : list R) : Pusher :=
  mkPu ts_new ts_new ts_new (repeat (tp_new cvol) ng) (repeat (tp_new vol) ng) (repeat (tp_new vol) ng) (tp_new cvol).
(** src/sweepers/mc/particle_pusher.cpp:85-94: the map from mesh regions to cross-section regions; [None] = a region number out of
    range. *)
Fixpoint map_regs (m : list Z) (ixs : Z) (regs : list nat) : option (list Z) :=
  match regs with
  | [] => Some m
  | r :: l => match set_nth m r ixs with Some m' => map_regs m' ixs l | None => None end
  end.
(** As above, the loop over the cross-section regions, src/sweepers/mc/particle_pusher.cpp:85-94. *)
Fixpoint map_xs (m : list Z) (ixs : Z) (xs : list (list nat)) : option (list Z) :=
  match xs with
  | [] => Some m
  | regs :: l => match map_regs m ixs regs with Some m' => map_xs m' (ixs + 1)%Z l | None => None end
  end.
(** As above, src/sweepers/mc/particle_pusher.cpp:85-94; [n] is the number of regions of the mesh. *)
Definition xs_map (n : nat) (xs : list (list nat)) : option (list Z) := map_xs (repeat (-1)%Z n) 0%Z xs.

(** What a thread does to the tallies: register a particle (src/sweepers/mc/particle_pusher.cpp:173-185) or score. *)
Inductive MEv := Begin (w : R) | Made (e : Ev).
(** Score in the tally of group [g]; [None] = a group or region out of range.  See src/sweepers/mc/particle_pusher.cpp:117,244-245. *)
Definition group_score (l : list TSpatial) (g i : nat) (v : R) : option (list TSpatial) :=
  match nth_error l g with
  | Some t => match tp_score t i v with Some t' => set_nth l g t' | None => None end
  | None => None
  end.
(** src/sweepers/mc/particle_pusher.cpp:116-118,173-185,240-245: one operation. *)
Definition pu_event (p : Pusher) (e : MEv) : option Pusher :=
  match e with
  | Begin w => Some (mkPu (ts_weight (pu_tl p) w) (ts_weight (pu_col p) w) (pu_an p) (map (fun t => tp_add_weight t w) (pu_co p))
                          (map (fun t => tp_add_weight t w) (pu_fi p)) (map (fun t => tp_add_weight t w) (pu_fc p)) (tp_add_weight (pu_pp p) w))
  | Made (TrackK v) => Some (mkPu (ts_score (pu_tl p) v) (pu_col p) (pu_an p) (pu_co p) (pu_fi p) (pu_fc p) (pu_pp p))
  | Made (CollideK v) => Some (mkPu (pu_tl p) (ts_score (pu_col p) v) (pu_an p) (pu_co p) (pu_fi p) (pu_fc p) (pu_pp p))
  | Made (Coarse g i v) => option_map (fun l => mkPu (pu_tl p) (pu_col p) (pu_an p) l (pu_fi p) (pu_fc p) (pu_pp p)) (group_score (pu_co p) g i v)
  | Made (Fine g i v) => option_map (fun l => mkPu (pu_tl p) (pu_col p) (pu_an p) (pu_co p) l (pu_fc p) (pu_pp p)) (group_score (pu_fi p) g i v)
  | Made (FineCol g i v) => option_map (fun l => mkPu (pu_tl p) (pu_col p) (pu_an p) (pu_co p) (pu_fi p) l (pu_pp p)) (group_score (pu_fc p) g i v)
  | Made (Power i v) => option_map (mkPu (pu_tl p) (pu_col p) (pu_an p) (pu_co p) (pu_fi p) (pu_fc p)) (tp_score (pu_pp p) i v)
  end.
(** The operations of a cycle, in the order in which they take effect.  See src/sweepers/mc/particle_pusher.cpp:371-379. *)
Fixpoint pu_events (p : Pusher) (es : list MEv) : option Pusher :=
  match es with
  | [] => Some p
  | e :: r => match pu_event p e with Some q => pu_events q r | None => None end
  end.
(** src/sweepers/mc/particle_pusher.hpp:173-188 commit_tallies. *)
Definition pu_commit (p : Pusher) : Pusher :=
  mkPu (pu_tl p) (pu_col p) (pu_an p) (map tp_commit (pu_co p)) (map tp_commit (pu_fi p)) (map tp_commit (pu_fc p)) (tp_commit (pu_pp p)).
(** src/sweepers/mc/particle_pusher.hpp:143-164 reset_tallies, with src/sweepers/mc/tally_scalar.hpp:66-76. *)
Definition pu_reset (persistent : bool) (p : Pusher) : Pusher :=
  if persistent then mkPu ts_new ts_new ts_new (map tp_reset (pu_co p)) (map tp_reset (pu_fi p)) (map tp_reset (pu_fc p)) (tp_reset (pu_pp p))
  else mkPu ts_new ts_new ts_new (pu_co p) (pu_fi p) (pu_fc p) (pu_pp p).
(** A cycle: the places and weights of the source particles, the number of sites banked, and the operations on the tallies in the
    order in which they take effect.  See src/sweepers/mc/particle_pusher.cpp:359-390. *)
Record Cycle := mkCy { cy_src : list (Point3 * R); cy_sites : nat; cy_ev : list MEv }.
(** src/sweepers/mc/particle_pusher.cpp:359-390 simulate(bank).  With an empty bank the analog estimate is 0/0: NaN in the code,
    0 here. *)
Definition pu_simulate (p : Pusher) (c : Cycle) : option Pusher :=
  match pu_events p (cy_ev c) with
  | Some q => Some (pu_commit (mkPu (pu_tl q) (pu_col q) (ts_weight (ts_score (pu_an q) (INR (cy_sites c) / INR (length (cy_src c)))) 1) (pu_co q) (pu_fi q) (pu_fc q) (pu_pp q)))
  | None => None
  end.

(** ** The solver's records *)
(** src/solvers/monte_carlo_eigenvalue_solver.hpp:70-94: the pusher, the solver's own tallies of k, the value of each estimator in
    every cycle, its running mean and deviation, and the entropy.  Histories are in order, first cycle first. *)
Record Solver := mkSo { so_pu : Pusher; so_tl : TScalar; so_col : TScalar; so_an : TScalar; so_ktl : list R; so_kcol : list R; so_kan : list R;
  so_mtl : list (R * R); so_mcol : list (R * R); so_man : list (R * R); so_h : list R }.
(** src/solvers/monte_carlo_eigenvalue_solver.cpp:36-51: nothing is recorded yet. *)
Definition so_new (ng : nat) (cvol vol : list R) : Solver := mkSo (pu_new ng cvol vol) ts_new ts_new ts_new [] [] [] [] [] [] [].
(** Outcomes of a calculation: src/sweepers/mc/fission_bank.cpp:96-100 throws; a score or a cell out of range is undefined. *)
Inductive SOut := SOk (s : Solver) | SThrow | SUB.
(** src/solvers/monte_carlo_eigenvalue_solver.cpp:133-202 step: everything it does to the tallies and the records.  The banks are
    in McModel; the screen is not modelled. *)
Definition so_step (g : GMesh) (active : bool) (s : Solver) (c : Cycle) : SOut :=
  match pu_simulate (so_pu s) c with
  | None => SUB
  | Some p =>
      match shannon_entropy g (cy_src c) with
      | EThrow => SThrow
      | EUB => SUB
      | EOk h =>
          let ktl := fst (ts_get (pu_tl p)) in let kcol := fst (ts_get (pu_col p)) in let kan := fst (ts_get (pu_an p)) in
          let q := pu_reset false p in
          if active then
            let tl := ts_weight (ts_score (so_tl s) ktl) 1 in let col := ts_weight (ts_score (so_col s) kcol) 1 in let an := ts_weight (ts_score (so_an s) kan) 1 in
            SOk (mkSo q tl col an (so_ktl s ++ [ktl]) (so_kcol s ++ [kcol]) (so_kan s ++ [kan])
                      (so_mtl s ++ [ts_get tl]) (so_mcol s ++ [ts_get col]) (so_man s ++ [ts_get an]) (so_h s ++ [h]))
          else SOk (mkSo q (so_tl s) (so_col s) (so_an s) (so_ktl s ++ [ktl]) (so_kcol s ++ [kcol]) (so_kan s ++ [kan]) (so_mtl s) (so_mcol s) (so_man s) (so_h s ++ [h]))
      end
  end.
(** Several calls of step with the same flag.  See src/solvers/monte_carlo_eigenvalue_solver.cpp:107-109,119-121. *)
Fixpoint so_steps (g : GMesh) (active : bool) (s : Solver) (cs : list Cycle) : SOut :=
  match cs with
  | [] => SOk s
  | c :: r => match so_step g active s c with SOk s' => so_steps g active s' r | o => o end
  end.
(** src/solvers/monte_carlo_eigenvalue_solver.cpp:111-113. *)
Definition so_clear (s : Solver) : Solver :=
  mkSo (pu_reset true (so_pu s)) (so_tl s) (so_col s) (so_an s) (so_ktl s) (so_kcol s) (so_kan s) (so_mtl s) (so_mcol s) (so_man s) (so_h s).
(** src/solvers/monte_carlo_eigenvalue_solver.cpp:95-124 solve; [cyc i] is what happens in the i-th call of step. *)
Definition so_solve (g : GMesh) (n_cycles n_inactive : Z) (s : Solver) (cyc : nat -> Cycle) : SOut :=
  let ni := Z.to_nat n_inactive in
  match so_steps g false s (map cyc (seq 0 ni)) with
  | SOk s1 => so_steps g true (so_clear s1) (map cyc (seq ni (Z.to_nat (n_cycles - n_inactive + 1))))
  | o => o
  end.

(** ** What is written *)
(** src/sweepers/mc/particle_pusher.cpp:400-476: the fluxes and deviations of a set of tallies, by group. *)
Definition out_flux (l : list TSpatial) : list (list R * list R) := map (fun t => (map fst (tp_get t), map snd (tp_get t))) l.
(** src/sweepers/mc/particle_pusher.cpp:478-495: the pin powers, normalised, and their deviations; [None] = division by zero. *)
Definition out_power (t : TSpatial) : option (list R * list R) :=
  match normalize (map fst (tp_get t)) with Some (pw, _) => Some (pw, map snd (tp_get t)) | None => None end.
(** The numbers in the file.  See src/solvers/monte_carlo_eigenvalue_solver.cpp:204-228. *)
Record McOut := mkMo { mo_ktl : list R; mo_kcol : list R; mo_kan : list R; mo_h : list R; mo_mtl : list R; mo_mcol : list R; mo_man : list R;
  mo_stl : list R; mo_scol : list R; mo_san : list R; mo_flux : list (list R * list R); mo_fsr : list (list R * list R); mo_fsr_col : list (list R * list R); mo_power : option (list R * list R) }.
(** src/solvers/monte_carlo_eigenvalue_solver.cpp:204-228 output and src/sweepers/mc/particle_pusher.cpp:392-498 output. *)
Definition so_output (s : Solver) : McOut :=
  mkMo (so_ktl s) (so_kcol s) (so_kan s) (so_h s) (map fst (so_mtl s)) (map fst (so_mcol s)) (map fst (so_man s)) (map snd (so_mtl s)) (map snd (so_mcol s)) (map snd (so_man s))
    (out_flux (pu_co (so_pu s))) (out_flux (pu_fi (so_pu s))) (out_flux (pu_fc (so_pu s))) (out_power (pu_pp (so_pu s))).

(** ** A cycle made of histories *)
(** What the history of [p] does to the tallies: it is registered, then scores in the order made.  See src/sweepers/mc/particle_pusher.cpp:166-353. *)
Definition hist_ops (ph : Particle * Hist) : list MEv := Begin (pweight (fst ph)) :: map Made (rev (hi_ev (snd ph))).
(** src/sweepers/mc/particle_pusher.cpp:359-390: [c] is a cycle from the particles of [bank]: every one of them is followed until it
    ends, by some thread; a thread follows its particles one after the other, and the operations of the threads interleave.
    The random numbers are arbitrary. *)
Definition cycle_of (ltr : bool) (W : World) (bank : list Particle) (c : Cycle) : Prop :=
  exists hs sched, map fst hs = bank /\
    Forall (fun ph => exists us h0, start W (fst ph) us = HNext h0 /\ runs ltr W h0 (snd ph) /\ palive (hi_p (snd ph)) = false) hs /\
    Permutation.Permutation (concat sched) hs /\
    merge (map (flat_map hist_ops) sched) (cy_ev c) /\
    cy_sites c = length (flat_map (fun ph => hi_sites (snd ph)) hs) /\
    cy_src c = map (fun p => (mkP3 (pgx p) (pgy p) (pgz p), pweight p)) bank.

(** ** The input and the first source *)
(** A <fission_box>: [None] = the attribute is absent.  See src/sweepers/mc/fission_bank.cpp:41-53. *)
Record FBox := mkFB { fb_x0 : option R; fb_x1 : option R; fb_y0 : option R; fb_y1 : option R; fb_z0 : option R; fb_z1 : option R }.
(** What can stop the construction.  See src/sweepers/mc/fission_bank.cpp:35-58, src/solvers/monte_carlo_eigenvalue_solver.cpp:54-82. *)
Inductive McErr := ENoBox | ENoBounds | EBadBounds | ELength | ENoInput | ESeed | ECycles | EInactive | EParticles.
(** Warnings.  See src/sweepers/mc/fission_bank.cpp:75, src/solvers/monte_carlo_eigenvalue_solver.cpp:66-82. *)
Inductive McWarn := WReject | WCycles | WInactive | WParticles.
(** src/util/rng_lcg.hpp:95-100 random_int, given the random number; exact product. *)
Definition draw_int (u : R) (n : nat) : nat := Z.to_nat (Int_part (u * INR n)).
(** src/sweepers/mc/fission_bank.cpp:66-72,76-82: the sites, from the numbers rng.random() returns (src/util/rng_lcg.hpp:83-90
    scales three of them to the box).  The order in which a call evaluates its arguments is not fixed: [o] says which of the three
    numbers drawn for a place is used for x, y and z, and [ltr] whether those of a direction are drawn from left to right. *)
Fixpoint box_sites (o : nat * nat * nat) (ltr : bool) (x0 x1 y0 y1 z0 z1 : R) (ng n : nat) (i : Z) (us : list R) : option (list Particle * list R) :=
  match n with
  | O => Some ([], us)
  | S n' =>
      match us with
      | a :: b :: c :: us1 =>
          let u := fun k => nth k [a; b; c] 0 in
          match draw_direction ltr us1 with
          | Some (d, f :: us2) =>
              match box_sites o ltr x0 x1 y0 y1 z0 z1 ng n' (i + 1)%Z us2 with
              | Some (l, us3) =>
                  Some (new_particle (x0 + (x1 - x0) * u (fst (fst o))) (y0 + (y1 - y0) * u (snd (fst o))) (z0 + (z1 - z0) * u (snd o)) d (draw_int f ng) i {| ptx := 0; pty := 0 |} :: l, us3)
              | None => None
              end
          | _ => None
          end
      | _ => None
      end
  end.
(** The attributes of the <solver> of a Monte Carlo calculation; absent numbers have the defaults of
    src/solvers/monte_carlo_eigenvalue_solver.cpp:37-40, an absent fissile_rejection is true (src/sweepers/mc/fission_bank.cpp:62). *)
Record McIn := mkMI { mi_cycles : Z; mi_inactive : Z; mi_particles : Z; mi_seed : Z; mi_box : option FBox; mi_reject : bool }.
(** The outcome: an error, or the first source, the numbers left and the warnings.  See src/solvers/monte_carlo_eigenvalue_solver.cpp:29-88. *)
Inductive MMade := MErr (e : McErr) | MMade_ok (src : list Particle) (left : list R) (ws : list McWarn) | MDry.
(** src/sweepers/mc/fission_bank.cpp:30-86: the bank of a box.  A negative [n] makes reserve throw std::length_error.  [MDry]: the
    list of random numbers was too short (the generator never ends). *)
Definition box_bank (o : nat * nat * nat) (ltr : bool) (b : option FBox) (reject : bool) (n : Z) (ng : nat) (us : list R) : MMade :=
  match b with
  | None => MErr ENoBox
  | Some b =>
      match fb_x0 b, fb_x1 b, fb_y0 b, fb_y1 b, fb_z0 b, fb_z1 b with
      | Some x0, Some x1, Some y0, Some y1, Some z0, Some z1 =>
          if Rleb x1 x0 || Rleb y1 y0 || Rleb z1 z0 then MErr EBadBounds
          else if (n <? 0)%Z then MErr ELength
          else match box_sites o ltr x0 x1 y0 y1 z0 z1 ng (Z.to_nat n) 0%Z us with
               | Some (l, us') => MMade_ok l us' (if reject then [WReject] else [])
               | None => MDry
               end
      | _, _, _, _, _, _ => MErr ENoBounds
      end
  end.
(** src/solvers/monte_carlo_eigenvalue_solver.cpp:29-88: the constructor; [None] = no such node.  The bank is made before the body
    runs. *)
Definition mc_make (o : nat * nat * nat) (ltr : bool) (inp : option McIn) (ng : nat) (us : list R) : MMade :=
  match box_bank o ltr (match inp with Some i => mi_box i | None => None end) (match inp with Some i => mi_reject i | None => true end)
                 (match inp with Some i => mi_particles i | None => (-1)%Z end) ng us with
  | MMade_ok l us' ws =>
      match inp with
      | None => MErr ENoInput
      | Some i =>
          if (Z.rem (mi_seed i) 2 =? 0)%Z then MErr ESeed
          else if (mi_cycles i <? 0)%Z then MErr ECycles
          else if (mi_inactive i <? 0)%Z then MErr EInactive
          else if (mi_particles i <? 0)%Z then MErr EParticles
          else MMade_ok l us' (ws ++ (if (mi_cycles i =? 0)%Z then [WCycles] else []) ++ (if (mi_inactive i =? 0)%Z then [WInactive] else []) ++ (if (mi_particles i =? 0)%Z then [WParticles] else []))
      end
  | r => r
  end.
