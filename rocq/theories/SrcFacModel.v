(** Model of how a fixed source solver, alone or inside an eigenvalue solver, gets its source: the constructor of FixedSourceSolver as far
    as the source goes (src/solvers/fixed_source_solver.cpp:27-75), TransportSweeper::create_source (src/core/transport_sweeper.hpp:165-177),
    its overrides (src/sweepers/moc/moc_sweeper.hpp:91-95, src/sweepers/cmdo/plane_sweeper_2d3d.hpp:130-136), SourceFactory
    (src/core/source_factory.cpp:27-70) and Source::add_external (src/core/source.cpp:123-144), on the HDF5 wrapper of H5Model.
    Messages are left out; the outcomes are those of H5Model. *)
From Coq Require Import Ascii String List Bool Arith.
From Verif Require Import StrModel UtilModel H5Model.
Import ListNotations.
Local Open Scope list_scope.

(** The attributes of a source element that are looked at.  See src/core/source_factory.cpp:40 and src/core/source.cpp:125. *)
Record SourceTag := mkTag { tg_scattering : option str; tg_file : option str }.
(** A source: the external source (extents and values) it was given, if any, and for 2D3D also that of the Sn source inside.
    See src/core/source.hpp:195-198 and src/sweepers/cmdo/source_2d3d.hpp:48-54, 105. *)
Record SrcObj (V : Type) := mkSrc { so_main : option (list nat * list V); so_sn : option (option (list nat * list V)) }.
Arguments mkSrc {V}. Arguments so_main {V}. Arguments so_sn {V}.

Section Fac.
Context {V : Type}.
(** The files there are, by name.  See src/core/source.cpp:130-131. *)
Variable disk : str -> option (@HNode V).
(** src/core/source.cpp:123-144, given the external source so far; an array never read into has two dimensions and no elements. *)
Definition external (ng nreg : nat) (file : option str) (old : option (list nat * list V)) : HOut (option (list nat * list V)) :=
  match file with
  | None => HOk old
  | Some fn =>
      match h5_open (disk fn) H_READ with
      | HOk (h, f) =>
          match read_arr f h (mkHP true [lit "source"]) (match old with None => mkArr [0; 0] [] true | Some (d, v) => mkArr d v true end) with
          | HOk a => if negb (nth 0 (a_shape a) 0 =? ng) then HThrow
                     else if negb (nth 1 (a_shape a) 0 =? nreg) then HThrow
                     else HOk (Some (a_shape a, a_vals a))
          | HThrow => HThrow | HUncaught => HUncaught | HAbort => HAbort | HUB => HUB
          end
      | HThrow => HThrow | HUncaught => HUncaught | HAbort => HAbort | HUB => HUB
      end
  end.
(** As above for a source; the function is not virtual, so only the array of the source itself is read.  See src/core/source.hpp:110. *)
Definition add_to (ng nreg : nat) (file : option str) (o : SrcObj V) : HOut (SrcObj V) :=
  match external ng nreg file (so_main o) with
  | HOk e => HOk (mkSrc e (so_sn o)) | HThrow => HThrow | HUncaught => HUncaught | HAbort => HAbort | HUB => HUB
  end.
(** src/core/source_factory.cpp:27-70; [None] = no source element. *)
Definition source_factory (ng nreg : nat) (input : option SourceTag) : HOut (SrcObj V) :=
  match input with
  | None => HThrow
  | Some t =>
      let s := attr "" (tg_scattering t) in
      if usame s [] then HThrow
      else match sanitize s with
           | SVal z => if usame z (lit "p0") then add_to ng nreg (tg_file t) (mkSrc None None) else HThrow
           | SExc => HThrow
           | SUB | SMore => HUB
           end
  end.
(** src/core/transport_sweeper.hpp:165-177: an exception of the program becomes another, one of the HDF5 library is not caught; a 2D3D sweeper does not look
    at the element (src/sweepers/cmdo/plane_sweeper_2d3d.hpp:130-136), all others do the same (src/sweepers/moc/moc_sweeper.hpp:91-95). *)
Definition create_source (k : SweeperKind) (ng nreg : nat) (input : option SourceTag) : HOut (SrcObj V) :=
  match k with SW_2D3D _ => HOk (mkSrc None (Some None)) | _ => source_factory ng nreg input end.
(** src/solvers/fixed_source_solver.cpp:27-75: [top] says the solver is the one asked for and not that of an eigenvalue solver; its limits are taken to be
    acceptable (SolModel).  An exception of the program ends it through Fail. *)
Definition solver_source (top : bool) (k : SweeperKind) (ng nreg : nat) (input : option SourceTag) : HOut (SrcObj V) :=
  match create_source k ng nreg input with
  | HOk o => if top then match input with None => HThrow | Some t => add_to ng nreg (tg_file t) o end else HOk o
  | e => e
  end.
End Fac.
