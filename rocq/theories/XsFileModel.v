(** Model of reading the cross sections of a homogenized mesh from HDF5 files and of writing them:
    src/core/xs_mesh_homogenized.cpp:82-137 and 366-690.  A file is what its data sets hold (H5Model.v gives the access to them); the
    arrays of the mesh are flat, region by region, as they are stored (src/core/xs_mesh.hpp:133-143).  Doubles are exact reals; counts
    do not overflow. *)
From Coq Require Import List Bool Arith ZArith Reals.
From Verif Require Import RUtil ScatModel McModel XsModel H5Model.
Import ListNotations.
Open Scope nat_scope.

(** Sequencing of calls, any outcome other than a result ends them.  See src/core/xs_mesh_homogenized.cpp:366-618. *)
Definition hb {A B : Type} (o : HOut A) (f : A -> HOut B) : HOut B :=
  match o with HOk a => f a | HThrow => HThrow | HUncaught => HUncaught | HAbort => HAbort | HUB => HUB end.
(** A loop whose body may end the run.  See src/core/xs_mesh_homogenized.cpp:366-618. *)
Fixpoint hloop {A S : Type} (body : A -> S -> HOut S) (l : list A) (s : S) : HOut S :=
  match l with [] => HOk s | a :: r => hb (body a s) (hloop body r) end.

(** The mesh: pins in x and y, macroplanes, groups, and the cell of a pin in its plane (coarse_cell of pin_position).
    See src/core/xs_mesh_homogenized.cpp:29-81. *)
Record XMesh := mkXMesh { w_nx : nat; w_ny : nat; w_np : nat; w_ng : nat; w_cell : nat -> nat }.
(** As above, src/core/xs_mesh_homogenized.cpp:474. *)
Definition w_nxy (m : XMesh) : nat := w_nx m * w_ny m.
(** As above, src/core/xs_mesh_homogenized.cpp:36-38: one region per pin of each macroplane. *)
Definition w_nreg (m : XMesh) : nat := w_nxy m * w_np m.

(** What the mesh object holds: energy bounds, five flat arrays of [w_nreg * w_ng] values, a scattering matrix per region.
    See src/core/xs_mesh.hpp:133-160. *)
Record HX := mkHX { x_eub : list R; x_tr : nat -> R; x_nf : nat -> R; x_ch : nat -> R; x_f : nat -> R; x_rm : nat -> R; x_sc : nat -> SM }.

(** A data set: dimensions and values in order (as many as the dimensions say).  See src/util/h5file.hpp:267-337. *)
Definition DS := (list nat * list R)%type.
(** A file: its data sets below /xsmesh, the reactions one per group.  See src/core/xs_mesh_homogenized.cpp:393-431. *)
Record XFile := mkXFile { xf_eub : option DS; xf_tr : nat -> option DS; xf_nf : nat -> option DS; xf_ch : nat -> option DS; xf_f : nat -> option DS; xf_sc : option DS }.

(** A <data> tag: the two attributes if given (as_int of the text), the file attribute if given and, if it can be opened, what the file
    holds.  See src/core/xs_mesh_homogenized.cpp:366-384, 480-503. *)
Record DTag := mkDTag { dt_top : option Z; dt_bot : option Z; dt_file : option (option XFile) }.

(** Opening the file of a tag: without the attribute the name is empty, the library refuses it and nothing converts its exception.
    See src/core/xs_mesh_homogenized.cpp:119, 385, 506. *)
Definition dt_open (d : DTag) : HOut XFile := match dt_file d with Some (Some f) => HOk f | _ => HUncaught end.

(** src/util/h5file.cpp:88-103 dimensions of /xsmesh/xstr/0, then the entries 2, 1 and 0 of the vector, indexed without check
    (xs_mesh_homogenized.cpp:120-123, 507-524; entry 2 is always looked at first). *)
Definition dims3 (f : XFile) : HOut (nat * nat * nat) :=
  match xf_tr f 0 with
  | None => HThrow
  | Some (d0 :: d1 :: d2 :: _, _) => HOk (d0, d1, d2)
  | Some _ => HUB
  end.

(** src/util/h5file.hpp:267-337 read into a one-dimensional array of [n] values. *)
Definition read_buf (n : nat) (d : option DS) : HOut (list R) :=
  match d with
  | None => HThrow
  | Some (_, vals) => if (n =? 0) || (length vals =? n) then HOk vals else HThrow
  end.
(** src/core/xs_mesh_homogenized.cpp:394-431 and 554-577: the four data sets of a group, in order. *)
Definition read_bufs (n ig : nat) (f : XFile) : HOut (list R * list R * list R * list R) :=
  hb (read_buf n (xf_tr f ig)) (fun t => hb (read_buf n (xf_nf f ig)) (fun nf => hb (read_buf n (xf_ch f ig)) (fun c => hb (read_buf n (xf_f f ig)) (fun k => HOk (t, nf, c, k))))).

(** An element of a buffer or of a flat array; out of range is undefined.  See src/core/xs_mesh_homogenized.cpp:443-446. *)
Definition hget (l : list R) (k : nat) : HOut R := match nth_error l k with Some v => HOk v | None => HUB end.
(** As above, src/core/xs_mesh_homogenized.cpp:443-446. *)
Definition fset {A : Type} (a : nat -> A) (k : nat) (v : A) : nat -> A := fun j => if j =? k then v else a j.

(** src/core/xs_mesh_homogenized.cpp:443-446, 590-593: the values of cell [icell] to region [ixs], group [ig]. *)
Definition put_cell (m : XMesh) (ig ixs icell : nat) (b : list R * list R * list R * list R) (s : HX) : HOut HX :=
  let '(t, n, c, k) := b in
  let j := w_ng m * ixs + ig in
  if j <? w_ng m * w_nreg m then
    hb (hget t icell) (fun vt => hb (hget n icell) (fun vn => hb (hget c icell) (fun vc => hb (hget k icell) (fun vk =>
      HOk (mkHX (x_eub s) (fset (x_tr s) j vt) (fset (x_nf s) j vn) (fset (x_ch s) j vc) (fset (x_f s) j vk) (x_rm s) (x_sc s))))))
  else HUB.

(** The scattering matrix of entry [i] of a data set of extents [e0] x [e1] x [e2] (src/core/xs_mesh_homogenized.cpp:463-464, 606-607 and
    src/core/scattering_matrix.cpp:57-123): e1 groups are taken, that e2 is the same is only asserted; the values are read at their place
    in memory. *)
Definition matrix_of (debug : bool) (e1 e2 : nat) (vals : list R) (i : nat) : HOut SM :=
  if debug && negb (e1 =? e2) then HAbort
  else if (e1 =? 0) || (i * (e1 * e2) + (e1 - 1) * e2 + e1 <=? length vals) then
    match compress e1 (fun to from => nth (i * (e1 * e2) + to * e2 + from) vals 0%R) with Some s => HOk s | None => HUB end
  else HUB.

(** src/core/xs_mesh_region.hpp:175-181 update_removal of region [ixs]: as many groups as the matrix has, in the flat arrays. *)
Definition one_removal (m : XMesh) (ixs ig : nat) (s : HX) : HOut HX :=
  let j := w_ng m * ixs + ig in
  match self_scat (x_sc s ixs) ig with
  | Some v => if j <? w_ng m * w_nreg m then HOk (mkHX (x_eub s) (x_tr s) (x_nf s) (x_ch s) (x_f s) (fset (x_rm s) j (x_tr s j - v)%R) (x_sc s)) else HUB
  | None => HUB
  end.
(** src/core/xs_mesh_homogenized.cpp:465-466, 610-611: matrix and removal of a region. *)
Definition put_matrix (m : XMesh) (ixs : nat) (sm : SM) (s : HX) : HOut HX :=
  if ixs <? w_nreg m then
    hloop (one_removal m ixs) (seq 0 (ng sm)) (mkHX (x_eub s) (x_tr s) (x_nf s) (x_ch s) (x_f s) (x_rm s) (fset (x_sc s) ixs sm))
  else HUB.

(** src/core/xs_mesh_homogenized.cpp:454-458, 601-602: the scattering data set, read into an empty array of rank 3. *)
Definition read_scat (f : XFile) : HOut (nat * nat * nat * list R) :=
  match xf_sc f with
  | Some ([e0; e1; e2], vals) => HOk (e0, e1, e2, vals)
  | _ => HThrow
  end.

(** src/core/xs_mesh_homogenized.cpp:366-470 read_data_single. *)
Definition read_single (debug : bool) (m : XMesh) (d : DTag) (s : HX) : HOut HX :=
  let bot := match dt_bot d with Some z => z | None => 0%Z end in
  let top := match dt_top d with Some z => z | None => (Z.of_nat (w_np m) - 1)%Z end in
  if negb (bot =? 0)%Z || negb (top =? Z.of_nat (w_np m) - 1)%Z then HThrow
  else
    hb (dt_open d) (fun f =>
    hb (hloop (fun ig s => hb (read_bufs (w_nreg m) ig f) (fun b => hloop (fun i s => put_cell m ig i (data_cell (w_cell m) (w_nxy m) i) b s) (seq 0 (w_nreg m)) s))
          (seq 0 (w_ng m)) s) (fun s =>
    hb (read_scat f) (fun e => let '(e0, e1, e2, vals) := e in
    if negb (e0 =? w_nreg m) then HThrow
    else hloop (fun i s => hb (matrix_of debug e1 e2 vals i) (fun sm => put_matrix m i sm s)) (seq 0 (w_nreg m)) s))).

(** src/core/xs_mesh_homogenized.cpp:482-490, 541-548: the bounds of a tag, zero without the attribute. *)
Definition mt_bot (d : DTag) : Z := match dt_bot d with Some z => z | None => 0%Z end.
(** As above, src/core/xs_mesh_homogenized.cpp:482-490. *)
Definition mt_top (d : DTag) : Z := match dt_top d with Some z => z | None => 0%Z end.
(** The macroplanes of a tag, from the bottom to the top one.  See src/core/xs_mesh_homogenized.cpp:526, 582. *)
Definition mt_planes (d : DTag) : list nat := seq (Z.to_nat (mt_bot d)) (Z.to_nat (mt_top d) + 1 - Z.to_nat (mt_bot d)).
(** src/core/xs_mesh_homogenized.cpp:481-535: the checks of a tag and the planes seen so far. *)
Definition check_tag (m : XMesh) (d : DTag) (seen : nat -> bool) : HOut (nat -> bool) :=
  if (mt_bot d <? 0)%Z || (Z.of_nat (w_np m) <=? mt_bot d)%Z then HThrow
  else if (mt_top d <? 0)%Z || (Z.of_nat (w_np m) <=? mt_top d)%Z then HThrow
  else match dt_file d with
  | None => HThrow
  | Some _ =>
    hb (dt_open d) (fun f => hb (dims3 f) (fun e => let '(d0, d1, d2) := e in
    if negb (d2 =? w_nx m) then HThrow else if negb (d1 =? w_ny m) then HThrow else if negb (d0 =? 1) then HThrow
    else hloop (fun (ip : nat) (seen : nat -> bool) => if seen ip then HThrow else HOk (fset seen ip true)) (mt_planes d) seen))
  end.
(** src/util/h5file.cpp:213-252 read of the energy bounds into a vector. *)
Definition read_eub (f : XFile) (old : list R) : HOut (list R) :=
  match xf_eub f with
  | Some ([n], vals) => if (length old =? 0) || (length old =? n) then HOk vals else HThrow
  | _ => HThrow
  end.
(** src/core/xs_mesh_homogenized.cpp:540-614: one tag applied. *)
Definition apply_tag (debug : bool) (m : XMesh) (d : DTag) (s : HX) : HOut HX :=
  hb (dt_open d) (fun f =>
  hb (read_eub f (x_eub s)) (fun eub =>
  hb (hloop (fun ig s => hb (read_bufs (w_nxy m) ig f) (fun b =>
        hloop (fun ip s => hloop (fun i s => put_cell m ig (w_nxy m * ip + i) (w_cell m i) b s) (seq 0 (w_nxy m)) s) (mt_planes d) s))
      (seq 0 (w_ng m)) (mkHX eub (x_tr s) (x_nf s) (x_ch s) (x_f s) (x_rm s) (x_sc s))) (fun s =>
  hb (read_scat f) (fun e => let '(e0, e1, e2, vals) := e in
  hloop (fun i s => hb (matrix_of debug e1 e2 vals i) (fun sm => hloop (fun ip s => put_matrix m (i + w_nxy m * ip) sm s) (mt_planes d) s)) (seq 0 (w_nxy m)) s)))).
(** src/core/xs_mesh_homogenized.cpp:472-618 read_data_multi. *)
Definition read_data_multi (debug : bool) (m : XMesh) (ds : list DTag) (s : HX) : HOut HX :=
  hb (hloop (check_tag m) ds (fun _ => false)) (fun _ => hloop (apply_tag debug m) ds s).

(** src/core/xs_mesh_homogenized.cpp:97-137: the constructor from an input tag, [s] = the mesh homogenized from its own materials. *)
Definition xs_from_files (debug : bool) (m : XMesh) (ds : list DTag) (s : HX) : HOut HX :=
  match ds with
  | [] => HThrow
  | [d] => hb (dt_open d) (fun f => hb (dims3 f) (fun e => let '(d0, d1, d2) := e in
           if (d2 =? w_nx m) && (d1 =? w_ny m) && (d0 =? w_np m) then read_single debug m d s else read_data_multi debug m ds s))
  | _ => read_data_multi debug m ds s
  end.

(** src/core/xs_mesh_homogenized.cpp:639-676: the data set of one reaction and group, dimensions macroplanes x ny x nx. *)
Definition out_set (m : XMesh) (a : nat -> R) (ig : nat) : option DS :=
  match output_data (w_cell m) (w_nxy m) (map (fun i => a (w_ng m * i + ig)) (seq 0 (w_nreg m))) with
  | Some b => Some ([w_np m; w_ny m; w_nx m], b)
  | None => None
  end.
(** src/core/xs_mesh_homogenized.cpp:679-683: the dense matrices one after another; [None]: an element out of range. *)
Fixpoint dense_all (l : list SM) : option (list R) :=
  match l with
  | [] => Some []
  | s :: r => match as_vector s, dense_all r with Some v, Some w => Some (v ++ w) | _, _ => None end
  end.
(** src/core/xs_mesh_homogenized.cpp:620-690 output: [None] if something is written out of range.  A data set with fewer values than its
    dimensions say would be filled from behind the vector; the energy bounds are as many as the groups. *)
Definition xs_output (m : XMesh) (s : HX) : option XFile :=
  match dense_all (map (x_sc s) (seq 0 (w_nreg m))) with
  | Some v =>
      if length v <=? w_nreg m * w_ng m * w_ng m then
        if forallb (fun ig => match out_set m (x_tr s) ig, out_set m (x_nf s) ig, out_set m (x_ch s) ig, out_set m (x_f s) ig with Some _, Some _, Some _, Some _ => true | _, _, _, _ => false end) (seq 0 (w_ng m)) then
          let put a ig := if ig <? w_ng m then out_set m a ig else None in
          Some (mkXFile (Some ([w_ng m], x_eub s)) (put (x_tr s)) (put (x_nf s)) (put (x_ch s)) (put (x_f s))
                  (Some ([w_nreg m; w_ng m; w_ng m], v ++ repeat 0%R (w_nreg m * w_ng m * w_ng m - length v))))
        else None
      else None
  | None => None
  end.
