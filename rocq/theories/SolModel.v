(** Model of the deterministic solvers (src/solvers/eigen_solver.cpp, src/solvers/fixed_source_solver.cpp) and of the
    normalisation they use (src/util/utils.hpp).  Doubles are exact reals; a division by zero, which would give an infinity
    or NaN, is undefined here.  Logging and file formats are left out. *)
From Coq Require Import List Bool Reals ZArith Arith.
From Verif Require Import RUtil ListUtil RngModel McModel MatModel XsModel SrcModel.
Import ListNotations.
Open Scope nat_scope.

(** src/util/utils.hpp:28-51 Normalize. *)
Definition count_pos (l : list R) : nat := length (filter (fun v => Rltb 0 v) l).
(** As above, src/util/utils.hpp:28-51. *)
Definition total (l : list R) : R := fold_left Rplus l 0%R.
(** As above, src/util/utils.hpp:28-51. *)
Definition normalize (l : list R) : option (list R * R) :=
  if Reqb (total l) 0 then None else let f := (INR (count_pos l) / total l)%R in Some (map (fun v => v * f)%R l, f).
(** src/util/utils.hpp:67-92 NormalizeScaled; positive entries are counted before scaling. *)
Definition normalize_scaled (l scale : list R) : option (list R * R) :=
  if length scale <? length l then None
  else let s := map (fun p => fst p * snd p)%R (combine l scale) in
       if Reqb (total s) 0 then None else let f := (INR (count_pos l) / total s)%R in Some (map (fun v => v * f)%R s, f).

(** src/solvers/eigen_solver.cpp:50-82: attributes as given ([None] = absent); pugixml's as_int and as_float are assumed to
    return the value of a well-formed attribute in range. *)
Record EParams := mkEP { ep_ktol : R; ep_ptol : R; ep_max : nat; ep_min : nat }.
(** As above, src/solvers/eigen_solver.cpp:50-82. *)
Definition or_else {A} (o : option A) (d : A) : A := match o with Some a => a | None => d end.
(** As above, src/solvers/eigen_solver.cpp:50-82. *)
Definition read_params (k psi : option R) (mx mn : option Z) : Out EParams :=
  if Rleb (or_else k (-1)%R) 0 then Threw
  else if Rleb (or_else psi (-1)%R) 0 then Threw
  else let m := or_else mx (-1)%Z in
  if (m <? 0)%Z then Threw
  else match mn with
       | None => Got (mkEP (or_else k 0%R) (or_else psi 0%R) (Z.to_nat m) 0)
       | Some n => if (n <? 0)%Z || (m <? n)%Z then Threw else Got (mkEP (or_else k 0%R) (or_else psi 0%R) (Z.to_nat m) (Z.to_nat n))
       end.

(** src/solvers/eigen_solver.cpp:85-88: std::sort of the requested dump iterations. *)
Fixpoint insert_z (x : Z) (l : list Z) : list Z := match l with [] => [x] | y :: r => if (x <=? y)%Z then x :: l else y :: insert_z x r end.
(** As above, src/solvers/eigen_solver.cpp:85-88. *)
Definition sort_z (l : list Z) : list Z := fold_right insert_z [] l.
(** src/solvers/eigen_solver.cpp:160-164: [next_dump] is unsigned, the list holds ints. *)
Definition UINT_MAX : Z := (2 ^ 32 - 1)%Z.
(** As above, src/solvers/eigen_solver.cpp:160-164. *)
Definition INT_MAX : Z := (2 ^ 31 - 1)%Z.
(** As above, src/solvers/eigen_solver.cpp:160-164. *)
Definition first_dump (l : list Z) : Z := match l with [] => UINT_MAX | d :: _ => w32 d end.

Section Loop.
Variable St : Type.
(** [step] is EigenSolver::step with the error computation of lines 171-187; [conv] says both errors are below tolerance. *)
Variable step : St -> Out St.
Variable conv : St -> bool.
(** src/solvers/eigen_solver.cpp:166-222: [left] is the number of iterations that may still be done, [n] those done,
    [dl] the iterator dump_it and what follows; yields the state, the number of iterations and the dumped iterations.
    Incrementing dump_it past the end is undefined. *)
Fixpoint eigen_loop (left n mn : nat) (dl : list Z) (next : Z) (s : St) (dumped : list nat) : Out (St * nat * list nat) :=
  match left with
  | O => Got (s, n, dumped)
  | S l =>
      match step s with
      | Got s' =>
          if (Z.of_nat (n + 1) =? next)%Z then
            match dl with
            | [] => Undef
            | _ :: dl' =>
                let next' := match dl' with [] => INT_MAX | d :: _ => w32 d end in
                if conv s' && (mn <=? n) then Got (s', n + 1, dumped ++ [n + 1]) else eigen_loop l (n + 1) mn dl' next' s' (dumped ++ [n + 1])
            end
          else if conv s' && (mn <=? n) then Got (s', n + 1, dumped) else eigen_loop l (n + 1) mn dl next s' dumped
      | Threw => Threw
      | Undef => Undef
      end
  end.
(** As above, src/solvers/eigen_solver.cpp:166-222. *)
Definition eigen_solve (p : EParams) (dumps : list Z) (s : St) : Out (St * nat * list nat) :=
  let dl := sort_z dumps in eigen_loop (ep_max p) 0 (ep_min p) dl (first_dump dl) s [].

(** src/solvers/fixed_source_solver.cpp:79-99 solve: [small] says the residual is below the tolerance. *)
Variable small : St -> bool.
(** As above, src/solvers/fixed_source_solver.cpp:79-99. *)
Fixpoint fixed_loop (left n : nat) (s : St) : Out (St * nat) :=
  match left with
  | O => Got (s, n)
  | S l => match step s with Got s' => if small s' then Got (s', n + 1) else fixed_loop l (n + 1) s' | Threw => Threw | Undef => Undef end
  end.
End Loop.
(** src/solvers/fixed_source_solver.cpp:45-55: max_iter_ is a size_t (fixed_source_solver.hpp:121), so a negative int wraps. *)
Definition read_fixed (mx : option Z) (tol : option R) : Out (Z * R) :=
  let m := w64 (or_else mx (-1)%Z) in
  if (m <=? 0)%Z then Threw
  else if Rleb (or_else tol (-1)%R) 0 then Threw
  else Got (m, or_else tol 0%R).

Section Solver.
(** A transport sweeper: its flux and one group sweep (src/core/transport_sweeper.hpp: flux, sweep), given the group source. *)
Variable Sw : Type.
Variable flux : Sw -> list (list R).
Variable sweep : nat -> list R -> Sw -> option Sw.
(** Cross-section mesh, groups, regions and volumes of the problem. *)
Variable xs : list XReg.
Variable ngr nreg : nat.
Variable vol : list R.

(** src/solvers/fixed_source_solver.cpp:106-116: one group of step(). *)
Definition fss_group (ext : option (list (list R))) (fs : option (list R)) (ig : nat) (st : list R * Sw) : option (list R * Sw) :=
  let '(src, sw) := st in
  match initialize_group ext nreg ig src with
  | Some s0 =>
      match (match fs with Some f => fission xs f ig s0 | None => Some s0 end) with
      | Some s1 => match in_scatter xs (flux sw) ig s1 with
                   | Some s2 => match sweep ig s2 sw with Some sw' => Some (s2, sw') | None => None end
                   | None => None
                   end
      | None => None
      end
  | None => None
  end.
(** src/solvers/fixed_source_solver.cpp:102-117 step; the flux before is what store_old_flux() keeps. *)
Fixpoint fss_groups (ext : option (list (list R))) (fs : option (list R)) (ig cnt : nat) (st : list R * Sw) : option (list R * Sw) :=
  match cnt with O => Some st | S c => match fss_group ext fs ig st with Some st' => fss_groups ext fs (S ig) c st' | None => None end end.

(** State of an EigenSolver (src/solvers/eigen_solver.hpp:64-83); [e_hist] is convergence_. *)
Record ESt := mkE { e_src : list R; e_sw : Sw; e_k : R; e_kp : R; e_fs : list R; e_fsp : list R; e_hist : list (R * R * R) }.
(** src/solvers/eigen_solver.cpp:225-253 step, without CMFD acceleration. *)
Definition eigen_step (s : ESt) : option ESt :=
  match calc_fission_source (e_k s) xs ngr (flux (e_sw s)) (e_fs s) with
  | Some f1 =>
      match fss_groups None (Some f1) 0 ngr (e_src s, e_sw s) with
      | Some (src', sw') =>
          match total_fission xs ngr (flux sw') vol, total_fission xs ngr (flux (e_sw s)) vol with
          | Some t1, Some t2 =>
              if Reqb t2 0 then None
              else let k := (e_k s * t1 / t2)%R in
                match calc_fission_source k xs ngr (flux sw') f1 with
                | Some f2 => Some (mkE src' sw' k (e_k s) f2 f1 (e_hist s))
                | None => None
                end
          | _, _ => None
          end
      | None => None
      end
  | None => None
  end.
(** src/solvers/eigen_solver.cpp:98-109. *)
Definition n_fissile : nat := list_sum (map (fun x => if existsb (fun v => Rltb 0 v) (xr_nf x) then length (xr_reg x) else 0) xs).
(** src/solvers/eigen_solver.cpp:179-183: the sum runs over the sweeper's n_reg(). *)
Fixpoint sum_sq (n : nat) (a b : list R) : option R :=
  match n, a, b with
  | O, _, _ => Some 0%R
  | S k, x :: a', y :: b' => match sum_sq k a' b' with Some s => Some ((x - y) * (x - y) + s)%R | None => None end
  | S _, _, _ => None
  end.
(** src/solvers/eigen_solver.cpp:168-187: a step, the errors and the recorded convergence. *)
Definition eigen_iter (s : ESt) : Out ESt :=
  match eigen_step s with
  | Some s1 =>
      match normalize (e_fs s1), normalize (e_fsp s1) with
      | Some (f, _), Some (fp, _) =>
          match sum_sq nreg f fp with
          | Some e => if n_fissile =? 0 then Undef
                      else Got (mkE (e_src s1) (e_sw s1) (e_k s1) (e_kp s1) f fp (e_hist s1 ++ [(e_k s1, Rabs (e_k s1 - e_kp s1), sqrt (e / INR n_fissile))%R]))
          | None => Undef
          end
      | _, _ => Undef
      end
  | None => Undef
  end.
(** As above, src/solvers/eigen_solver.cpp:168-187. *)
Definition eigen_conv (p : EParams) (s : ESt) : bool :=
  match rev (e_hist s) with (_, ek, ep) :: _ => Rltb ek (ep_ktol p) && Rltb ep (ep_ptol p) | [] => false end.
(** src/solvers/eigen_solver.cpp:131-223 solve; [sw] is the sweeper after initialize(). *)
Definition eigen_run (p : EParams) (dumps : list Z) (src : list R) (sw : Sw) (fs fsp : list R) : Out (ESt * nat * list nat) :=
  match calc_fission_source 1 xs ngr (flux sw) fs with
  | Some f => eigen_solve ESt eigen_iter (eigen_conv p) p dumps (mkE src sw 1 1 f fsp [])
  | None => Undef
  end.
End Solver.
