(** Model of timers, warnings, checks of attribute names, the number of threads, and of the choice of solver and sweeper: src/util/timers.*,
    src/util/error.cpp, src/util/validate_input.cpp, src/core/parallel_environment.cpp, src/solvers/solver_factory.cpp,
    src/sweepers/*factory*.cpp.  Times are real numbers; what is printed is left out but for the messages themselves. *)
From Coq Require Import List Bool Arith ZArith Ascii String Reals.
From Verif Require Import StrModel.
Import ListNotations.
Local Open Scope list_scope.

(** Equality of std::string, as used by the functions below (e.g. src/util/error.cpp:42, src/solvers/solver_factory.cpp:38). *)
Definition usame (a b : str) : bool := if list_eq_dec ascii_dec a b then true else false.

(** ** Timers *)
(** src/util/timers.hpp:131-136: the state of a timer, without the children. *)
Record Watch := mkW { w_time : R; w_running : bool; w_start : R }.
(** src/util/timers.hpp:131-136: a timer and its children (a std::map by name). *)
Inductive Timer := mkT (w : Watch) (kids : list (str * Timer)).
(** src/util/timers.cpp:25-28; wtime_ is not set there, its value [g] is arbitrary. *)
Definition new_watch (g : R) : Watch := mkW 0 false g.
(** src/util/timers.cpp:38-43 tic at clock reading [t]; [None] = assertion. *)
Definition tic (debug : bool) (t : R) (w : Watch) : option Watch := if debug && w_running w then None else Some (mkW (w_time w) true t).
(** src/util/timers.cpp:45-52 toc: the new state and what is returned. *)
Definition toc (debug : bool) (t : R) (w : Watch) : option (Watch * R) :=
  if debug && negb (w_running w) then None else let s := (w_time w + (t - w_start w))%R in Some (mkW s false (w_start w), s).
(** src/util/timers.cpp:54-62 time. *)
Definition time (t : R) (w : Watch) : R := if w_running w then (w_time w + t - w_start w)%R else w_time w.
(** src/util/timers.hpp:136 children_, looked up by name. *)
Fixpoint child (s : str) (l : list (str * Timer)) : option Timer := match l with [] => None | (n, x) :: r => if usame n s then Some x else child s r end.
(** src/util/timers.hpp:113-117 and 123-127 new_timer: emplace leaves an existing child alone; [start] = the clock reading when it is to be
    started.  The children with it, and its state. *)
Definition new_timer (g : R) (start : option R) (s : str) (T : Timer) : Timer :=
  match T with
  | mkT w l => match child s l with
               | Some _ => T
               | None => mkT w (l ++ [(s, mkT (match start with Some t => mkW 0 true t | None => new_watch g end) [])])
               end
  end.

(** ** Warnings *)
(** src/util/error.cpp:40-50: a message already in the table of messages and counts. *)
Fixpoint bump (msg : str) (l : list (str * nat)) : option (list (str * nat)) :=
  match l with [] => None | (m, c) :: r => if usame m msg then Some ((m, S c) :: r) else match bump msg r with Some r' => Some ((m, c) :: r') | None => None end end.
(** src/util/error.cpp:40-50 Warn: the table, and the messages displayed. *)
Definition warn (msg : str) (st : list (str * nat) * list str) : list (str * nat) * list str :=
  match bump msg (fst st) with Some l => (l, snd st) | None => (fst st ++ [(msg, 1)], snd st ++ [msg]) end.
(** src/util/validate_input.cpp:24-42 validate_input: [text] builds the message for an attribute of this element. *)
Fixpoint validate_input (text : str -> str) (known : list str) (attrs : list str) (st : list (str * nat) * list str) : bool * (list (str * nat) * list str) :=
  match attrs with
  | [] => (true, st)
  | a :: r => if existsb (usame a) known then validate_input text known r st
              else let '(_, st') := validate_input text known r (warn (text a) st) in (false, st')
  end.

(** src/core/parallel_environment.cpp:23-46: the number of threads set ([asked] = the attribute as an integer, 0 if there is none);
    [None] = exception; the flag says whether it warns. *)
Definition threads (asked procs : Z) : option (Z * bool) := if (asked <? 1)%Z then None else Some (asked, (procs <? asked)%Z).

(** ** Choice of solver and sweeper *)
(** The literals the factories compare with (src/solvers/solver_factory.cpp:38-44). *)
Definition lit (s : string) : str := list_ascii_of_string s.
(** An attribute's text, or the default (e.g. src/sweepers/sn_sweeper_factory.cpp:41-52). *)
Definition attr (d : string) (a : option str) : str := match a with Some s => s | None => lit d end.
(** The solvers made in src/solvers/solver_factory.cpp:28-54. *)
Inductive SolverKind := EIGENVALUE | FIXED_SOURCE | EIGENVALUE_MC.
(** src/solvers/solver_factory.cpp:28-54; an absent attribute has the empty value. *)
Definition solver_factory (type : option str) : option SolverKind :=
  let t := attr "" type in
  if usame t (lit "eigenvalue") then Some EIGENVALUE else if usame t (lit "fixed_source") then Some FIXED_SOURCE
  else if usame t (lit "eigenvalue_mc") then Some EIGENVALUE_MC else None.
(** src/sweepers/sn_sweeper_factory.cpp:53-65, src/sweepers/cmdo/sn_sweeper_factory_cdd.cpp:73-95, the Sn sweepers: plain diamond difference with diamond or step characteristics axially, and the corrected ones. *)
Inductive SnKind := SN_DD | SN_DD_SC | CDD_DD | CDD_DD_FF | CDD_SC | CDD_FW | CDD_PMB.
(** src/sweepers/cmdo/sn_sweeper_factory_cdd.cpp:73-95: the axial treatment of a corrected sweeper. *)
Definition cdd_axial (ax : option str) : SOut SnKind :=
  sbind (match ax with Some s => sanitize s | None => SVal (lit "dd") end) (fun a =>
  if usame a (lit "dd") then SVal CDD_DD else if usame a (lit "dd_ff") then SVal CDD_DD_FF else if usame a (lit "sc") then SVal CDD_SC
  else if usame a (lit "fw") then SVal CDD_FW else if usame a (lit "pmb") then SVal CDD_PMB else SExc).
(** src/sweepers/sn_sweeper_factory.cpp:35-76 and src/sweepers/cmdo/sn_sweeper_factory_cdd.cpp:43-97, which call each other; [fuel] bounds
    the calls.  Only the choice is modelled: making the sweeper chosen, and reading correction data, can still fail. *)
Fixpoint sn_factory (fuel : nat) (eq ax : option str) : SOut SnKind :=
  match fuel with
  | O => SMore
  | S k =>
      let e := attr "dd" eq in
      if usame e (lit "dd") then
        let a := attr "dd" ax in if usame a (lit "dd") then SVal SN_DD else if usame a (lit "sc") then SVal SN_DD_SC else SExc
      else if usame e (lit "cdd") then
        (* sn_sweeper_factory_cdd.cpp with this equation *)
        match k with
        | O => SMore
        | S k' => sbind (sanitize e) (fun e' => if usame e' (lit "cdd") then cdd_axial ax else sn_factory k' eq ax)
        end
      else SExc
  end.
(** src/sweepers/cmdo/sn_sweeper_factory_cdd.cpp:43-97. *)
Definition cdd_factory (fuel : nat) (eq ax : option str) : SOut SnKind :=
  match fuel with
  | O => SMore
  | S k => sbind (match eq with Some s => sanitize s | None => SVal (lit "cdd") end) (fun e' =>
           if usame e' (lit "cdd") then cdd_axial ax else sn_factory k eq ax)
  end.
(** The sweepers made in src/sweepers/transport_sweeper_factory.cpp:28-70. *)
Inductive SweeperKind := SW_MOC | SW_SN (k : SnKind) | SW_2D3D (k : SnKind) | SW_MOC_2D3D.
(** src/sweepers/transport_sweeper_factory.cpp:28-70; [eq], [ax] are the attributes of the Sn sweeper's own element
    (src/sweepers/cmdo/plane_sweeper_2d3d.cpp:48-54 for 2D3D). *)
Definition sweeper_factory (fuel : nat) (type eq ax : option str) : SOut SweeperKind :=
  let t := attr "" type in
  if usame t (lit "moc") then SVal SW_MOC
  else if usame t (lit "sn") then sbind (sn_factory fuel eq ax) (fun k => SVal (SW_SN k))
  else if usame t (lit "2d3d") then sbind (cdd_factory fuel eq ax) (fun k => SVal (SW_2D3D k))
  else if usame t (lit "moc_2d3d") then SVal SW_MOC_2D3D
  else SExc.
