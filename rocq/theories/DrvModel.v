(** Model of the program's top level and of where its text goes: src/driver.cpp, src/mocc.cpp, src/util/files.cpp and
    src/util/tee_stream.hpp.  What the stages of a run do (reading the input, making the mesh and the solver, solving, writing results)
    is a parameter: the text they print and how they end.  Standard output and standard error take everything; a log file that is open
    does too.  Passing the address of a member to the base class before it is constructed (tee_stream.hpp:122-123), the timers and
    the thread count's parallel region are not modelled. *)
From Coq Require Import String Ascii List Bool ZArith.
From Verif Require Import UtilModel.
Import ListNotations.
Open Scope list_scope.

(** Text put out: to standard output (std::cout), to standard error (std::cerr), to LogScreen, or to LogFile (src/util/files.cpp:23-28). *)
Inductive Put := OnScreen (s : list ascii) | OnErr (s : list ascii) | OnBoth (s : list ascii) | OnLog (s : list ascii).
(** How a stage ends: with a value, an Exception of the program (src/util/error.hpp:49-73), another exception, a call of
    exit(EXIT_FAILURE) (src/input_proc.cpp:101-110, src/util/error.cpp:33-38), or undefined behaviour. *)
Inductive SR (A : Type) := Fine (a : A) | Thrown (msg : list ascii) | Foreign | Quit | Broken.
Arguments Fine {A}. Arguments Thrown {A}. Arguments Foreign {A}. Arguments Quit {A}. Arguments Broken {A}.
(** How a run ends: main returns a status (src/mocc.cpp:20-23), exit is called, std::terminate is called, or anything may happen. *)
Inductive Fin := Returns (status : Z) | Exits (status : Z) | Aborts | Anything.

(** A results file (src/driver.cpp:51-66): its name, what the solver wrote, and the input and version once written. *)
Record Result (Res : Type) := mkRes { r_name : list ascii; r_data : Res; r_tail : option (list ascii * list ascii) }.
(** The state of the process: standard output and error; text files by name; the file LogFile has open and whether LogFile has failed;
    whether LogScreen's second buffer is LogFile's (src/util/files.cpp:28, 40) and whether LogScreen has failed; results files;
    the case of input_proc and the case whose solver the global solver is (src/driver.cpp:41-48). *)
Record World (Res : Type) := mkWorld { w_screen : list ascii; w_err : list ascii; w_text : list ascii -> option (list ascii); w_open : option (list ascii); w_lfail : bool; w_tee : bool; w_tfail : bool;
  w_h5 : list (Result Res); w_proc : option (list ascii); w_solver : option (list ascii) }.
Arguments mkRes {Res}. Arguments r_name {Res}. Arguments r_data {Res}. Arguments r_tail {Res}. Arguments mkWorld {Res}.
Arguments w_screen {Res}. Arguments w_err {Res}. Arguments w_text {Res}. Arguments w_open {Res}. Arguments w_lfail {Res}. Arguments w_tee {Res}. Arguments w_tfail {Res}. Arguments w_h5 {Res}. Arguments w_proc {Res}. Arguments w_solver {Res}.

Section Drv.
Context {Res : Type}.
Notation World := (World Res).
(** std::endl writes this (e.g. src/driver.cpp:58). *)
Definition nl : list ascii := ["010"%char].
(** Writing to std::cout (src/driver.cpp:73, 85). *)
Definition to_screen (s : list ascii) (w : World) : World := mkWorld (w_screen w ++ s) (w_err w) (w_text w) (w_open w) (w_lfail w) (w_tee w) (w_tfail w) (w_h5 w) (w_proc w) (w_solver w).
(** Writing to std::cerr (src/driver.cpp:175-176). *)
Definition to_err (s : list ascii) (w : World) : World := mkWorld (w_screen w) (w_err w ++ s) (w_text w) (w_open w) (w_lfail w) (w_tee w) (w_tfail w) (w_h5 w) (w_proc w) (w_solver w).
(** Text at the end of a file that std::basic_filebuf has open (src/util/files.cpp:23). *)
Definition add_text (f s : list ascii) (t : list ascii -> option (list ascii)) : list ascii -> option (list ascii) :=
  fun g => if usame g f then Some (match t f with Some old => old ++ s | None => s end) else t g.
(** As above, src/util/files.cpp:23. *)
Definition set_text (w : World) (t : list ascii -> option (list ascii)) : World := mkWorld (w_screen w) (w_err w) t (w_open w) (w_lfail w) (w_tee w) (w_tfail w) (w_h5 w) (w_proc w) (w_solver w).
(** Flags of LogFile and LogScreen; badbit and failbit are not told apart (src/util/files.cpp:23-28). *)
Definition log_fails (w : World) : World := mkWorld (w_screen w) (w_err w) (w_text w) (w_open w) true (w_tee w) (w_tfail w) (w_h5 w) (w_proc w) (w_solver w).
(** As above, src/util/files.cpp:23-28. *)
Definition tee_fails (w : World) : World := mkWorld (w_screen w) (w_err w) (w_text w) (w_open w) (w_lfail w) (w_tee w) true (w_h5 w) (w_proc w) (w_solver w).
(** Writing to LogFile, a std::fstream (src/util/files.cpp:23): nothing once it has failed; with no file open it fails. *)
Definition to_log (s : list ascii) (w : World) : World :=
  if w_lfail w then w
  else match s, w_open w with
       | [], _ => w
       | _, Some f => set_text w (add_text f s (w_text w))
       | _, None => log_fails w
       end.
(** src/util/tee_stream.hpp:54-70 overflow: a character goes to the first buffer, then to the second; [false] = eof.  A NullStream
    takes everything (tee_stream.hpp:87-93); a file buffer with no file open takes nothing. *)
Definition tee_char (c : ascii) (w : World) : World * bool :=
  let w1 := to_screen [c] w in
  if w_tee w then match w_open w with Some f => (set_text w1 (add_text f [c] (w_text w1)), true) | None => (w1, false) end
  else (w1, true).
(** Writing to LogScreen: character by character until one is refused, when the stream fails; nothing once it has failed
    (std::ostream over tee_stream.hpp:26-75, which has no buffer of its own). *)
Fixpoint tee_chars (s : list ascii) (w : World) : World :=
  match s with [] => w | c :: r => let '(w', ok) := tee_char c w in if ok then tee_chars r w' else tee_fails w' end.
(** As above, src/util/tee_stream.hpp:26-75. *)
Definition to_both (s : list ascii) (w : World) : World := if w_tfail w then w else tee_chars s w.
(** One piece of text (src/util/files.cpp:23-28). *)
Definition put (p : Put) (w : World) : World := match p with OnScreen s => to_screen s w | OnErr s => to_err s w | OnBoth s => to_both s w | OnLog s => to_log s w end.
(** As above, src/util/files.cpp:23-28. *)
Definition puts (l : list Put) (w : World) : World := fold_left (fun w p => put p w) l w.

(** src/util/files.cpp:32-43 StartLogFile; [can f] = a file of that name can be made.  open() on a stream whose file is open fails
    and leaves that file open; otherwise it clears the stream's state or, when the file cannot be made, sets failbit. *)
Definition start_log (can : list ascii -> bool) (case : list ascii) (w : World) : World :=
  let f := case ++ lit ".log" in
  let w1 := to_screen (lit "Logging output to: " ++ f ++ nl ++ nl) w in
  let tee x := mkWorld (w_screen x) (w_err x) (w_text x) (w_open x) (w_lfail x) true (w_tfail x) (w_h5 x) (w_proc x) (w_solver x) in
  match w_open w with
  | Some _ => tee (log_fails w1)
  | None => if can f then tee (mkWorld (w_screen w1) (w_err w1) (fun g => if usame g f then Some [] else w_text w1 g) (Some f) false (w_tee w1) (w_tfail w1) (w_h5 w1) (w_proc w1) (w_solver w1))
            else tee (log_fails w1)
  end.
(** src/util/files.cpp:45-48 StopLogFile; closing what is not open fails. *)
Definition stop_log (w : World) : World :=
  match w_open w with
  | Some _ => mkWorld (w_screen w) (w_err w) (w_text w) None (w_lfail w) (w_tee w) (w_tfail w) (w_h5 w) (w_proc w) (w_solver w)
  | None => log_fails w
  end.

(** What a run is made of: the banner; reading the command line and the input file, giving a case name; which files can be made; the
    lines of src/driver.cpp:132-140 with the time and version; processing the input; the lines about the number of threads and
    the mesh; solving; the solver's results; saving the input; the warnings; the table of timers. *)
Record Driver := mkDrv { d_banner : list ascii; d_ctor : list Put * SR (list ascii); d_can : list ascii -> bool; d_intro : list ascii; d_process : list Put * SR unit; d_threads : list ascii; d_mesh : list ascii;
  d_solve : list Put * SR unit; d_out : list Put * SR Res; d_save : SR (list ascii); d_sha : list ascii; d_warn : list (list ascii); d_timers : list ascii }.
(** src/driver.cpp:174-180: an Exception is caught by value, reported and turned into a status of 1; nothing else is caught. *)
Definition ends {A} (r : SR A) (w : World) : option Fin * World :=
  match r with
  | Fine _ => (None, w)
  | Thrown msg => (Some (Returns 1), to_log msg (to_log (lit "Error:" ++ nl) (to_err msg (to_err (lit "Error:" ++ nl) w))))
  | Foreign => (Some Aborts, w)
  | Quit => (Some (Exits 1), w)
  | Broken => (Some Anything, w)
  end.
(** A stage: its text, its end, and what is done with its value (src/driver.cpp:122-180). *)
Definition stage {A} (s : list Put * SR A) (k : A -> World -> World) (w : World) : option Fin * World :=
  let w1 := puts (fst s) w in match snd s with Fine a => (None, k a w1) | r => ends r w1 end.
(** src/driver.cpp:126; the constructor has returned. *)
Definition set_proc (c : list ascii) (w : World) : World := mkWorld (w_screen w) (w_err w) (w_text w) (w_open w) (w_lfail w) (w_tee w) (w_tfail w) (w_h5 w) (Some c) (w_solver w).
(** src/driver.cpp:161. *)
Definition set_solver (c : list ascii) (w : World) : World := mkWorld (w_screen w) (w_err w) (w_text w) (w_open w) (w_lfail w) (w_tee w) (w_tfail w) (w_h5 w) (w_proc w) (Some c).
(** src/driver.cpp:53-56: the results file. *)
Definition add_h5 (c : list ascii) (r : Res) (w : World) : World := mkWorld (w_screen w) (w_err w) (w_text w) (w_open w) (w_lfail w) (w_tee w) (w_tfail w) (w_h5 w ++ [mkRes (c ++ lit ".h5") r None]) (w_proc w) (w_solver w).
(** src/driver.cpp:61-66: written into the same file. *)
Definition end_h5 (t : list ascii * list ascii) (w : World) : World :=
  mkWorld (w_screen w) (w_err w) (w_text w) (w_open w) (w_lfail w) (w_tee w) (w_tfail w) (match rev (w_h5 w) with [] => [] | r :: l => rev l ++ [mkRes (r_name r) (r_data r) (Some t)] end) (w_proc w) (w_solver w).
(** input_proc->case_name() where it is not null (src/driver.cpp:53, 130). *)
Definition case_of (w : World) : list ascii := match w_proc w with Some c => c | None => [] end.
(** src/driver.cpp:68-82; the count goes to std::cout only.  [number] prints it. *)
Definition warned (number : nat -> list ascii) (ws : list (list ascii)) : list Put :=
  match ws with
  | [] => []
  | [w] => [OnBoth (lit "There was "); OnScreen (number 1); OnBoth (lit " warning:" ++ nl)] ++ [OnBoth (["009"%char] ++ w ++ nl)]
  | _ => [OnBoth (lit "There were "); OnScreen (number (length ws)); OnBoth (lit " warnings:" ++ nl)] ++ map (fun w => OnBoth (["009"%char] ++ w ++ nl)) ws
  end.
(** src/driver.cpp:116-182 run and 51-87 generate_output, step by step; the stages named in the order of [Driver]. *)
Definition drv_steps (number : nat -> list ascii) (d : Driver) : list (World -> option Fin * World) :=
  [ (fun w => (None, to_screen (d_banner d) w));
    stage (d_ctor d) set_proc;
    (fun w => (None, start_log (d_can d) (case_of w) w));
    (fun w => (None, to_both (lit "Running case: " ++ case_of w ++ d_intro d) w));
    stage (d_process d) (fun _ w => w);
    (fun w => (None, to_log (d_mesh d) (to_both (d_threads d) w)));
    (fun w => (None, set_solver (case_of w) w));
    stage (d_solve d) (fun _ w => w);
    (fun w => stage (d_out d) (fun r => add_h5 (case_of w) r) w);
    (fun w => stage ([OnLog (nl ++ lit "Full input:" ++ nl)], d_save d) (fun i => end_h5 (i, d_sha d)) w);
    (fun w => (None, puts (warned number (d_warn d)) w));
    (fun w => (None, to_screen (lit "Output written to '" ++ case_of w ++ lit "'" ++ nl) w));
    (fun w => (None, to_log (d_timers d) (to_screen (d_timers d ++ nl) w)));
    (fun w => (None, stop_log w)) ].
(** As above, src/driver.cpp:116-182. *)
Fixpoint exec (l : list (World -> option Fin * World)) (w : World) : Fin * World :=
  match l with [] => (Returns 0, w) | s :: r => match s w with (None, w') => exec r w' | (Some f, w') => (f, w') end end.
(** As above, src/driver.cpp:116-182. *)
Definition drv_run (number : nat -> list ascii) (d : Driver) (w : World) : Fin * World := exec (drv_steps number d) w.
(** The state after the first [k] steps, if the run gets there (src/driver.cpp:116-182). *)
Fixpoint after_steps (k : nat) (l : list (World -> option Fin * World)) (w : World) : option World :=
  match k, l with
  | O, _ => Some w
  | S k', s :: r => match s w with (None, w') => after_steps k' r w' | _ => None end
  | S _, [] => None
  end.
(** src/driver.cpp:93-98 int_handler with 51-66; [out c] is what the solver of case [c] writes at that moment.  A null input_proc or
    solver is dereferenced.  That the handler calls functions a handler may not call is not modelled; nor is what follows the results. *)
Definition interrupt (out : list ascii -> SR Res) (w : World) : Fin * World :=
  let w1 := to_screen (lit "Caught SIGINT. Bailing." ++ nl) w in
  match w_proc w, w_solver w with
  | Some c, Some s => match out s with
      | Fine r => (Exits 1, add_h5 c r w1)
      | Quit => (Exits 1, w1)
      | Broken => (Anything, w1)
      | Thrown _ | Foreign => (Anything, w1)
      end
  | _, _ => (Anything, w1)
  end.
(** The process when main starts: nothing open, LogScreen going to the screen and nowhere else (src/util/files.cpp:23-28). *)
Definition fresh : World := mkWorld [] [] (fun _ => None) None false false false [] None None.
End Drv.
Arguments Driver : clear implicits.
