(** Model of what the constructor of the MoC sweeper reads from its tag and checks: src/sweepers/moc/moc_sweeper.cpp:88-143, and of the
    search for the angular quadrature, src/core/transport_sweeper.cpp:25-54.  The options of the rays are in MocSetModel.v.  Warnings about
    unknown attributes are in UtilModel.v.  Options that only choose output (dump_rays, dump_fsr_flux) are left out. *)
From Coq Require Import ZArith List Bool Ascii String.
From Verif Require Import StrModel AqxModel CoreModel MatModel RatModel MocSetModel.
Import ListNotations.

(** A <sweeper> tag as read in src/sweepers/moc/moc_sweeper.cpp:91-122; numbers and truth values as pugixml converts them, [None] = not given. *)
Record SweepTag := mkSweepTag { st_there : bool; st_inner : option Z; st_update : option (list ascii); st_split : option bool }.
(** n_inner_, gauss_seidel_boundary_ and allow_splitting_, src/sweepers/moc/moc_sweeper.cpp:96-122. *)
Record SweepOpts := mkSweepOpts { so_inner : Z; so_gs : bool; so_split : bool }.
(** src/sweepers/moc/moc_sweeper.cpp:91-122. *)
Definition sweep_options (t : SweepTag) : Out SweepOpts :=
  if negb (st_there t) then Threw else
  let n := match st_inner t with Some v => v | None => (-1)%Z end in
  if (n <? 0)%Z then Threw else
  bind (text_option true (st_update t) (fun v => if is_type v "jacobi" || is_type v "j" then Got false else if is_type v "gs" then Got true else Threw)) (fun gs =>
  Got (mkSweepOpts n gs (match st_split t with Some b => b | None => false end))).

(** src/sweepers/moc/moc_sweeper.cpp:132-138: the other planes of a macroplane; [ids] holds the lattice of every plane of an assembly.  An index
    out of range is an assertion in src/core/assembly.hpp:107-111. *)
Fixpoint same_lattice (ids : list Z) (lat : Z) (is : list nat) : Out unit :=
  match is with
  | [] => Got tt
  | i :: r => match nth_error ids i with None => Undef | Some v => if (v =? lat)%Z then same_lattice ids lat r else Threw end
  end.
(** src/sweepers/moc/moc_sweeper.cpp:129-141: the macroplanes of an assembly from plane [ip] on. *)
Fixpoint check_assembly (ids : list Z) (ip : nat) (macro : list nat) : Out unit :=
  match macro with
  | [] => Got tt
  | n :: r => match nth_error ids ip with
              | None => Undef
              | Some lat => bind (same_lattice ids lat (seq (ip + 1) (n - 1))) (fun _ => check_assembly ids (ip + n) r)
              end
  end.
(** src/sweepers/moc/moc_sweeper.cpp:128-143, all assemblies of the core. *)
Fixpoint check_lattices (core : list (list Z)) (macro : list nat) : Out unit :=
  match core with [] => Got tt | a :: r => bind (check_assembly a 0 macro) (fun _ => check_lattices r macro) end.

(** src/core/transport_sweeper.cpp:29-54 find_angquad: [path] holds, from the given node up to the root of the document, the first
    <ang_quad> child of each node; an empty node has an empty path. *)
Fixpoint find_angquad {A} (path : list (option A)) : Out A :=
  match path with [] => Threw | Some q :: _ => Got q | None :: r => find_angquad r end.
