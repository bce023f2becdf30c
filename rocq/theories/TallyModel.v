(** Model of the Monte Carlo tallies and of the Shannon entropy of a bank, over exact reals.
    src/sweepers/mc/tally_scalar.hpp, src/sweepers/mc/tally_spatial.hpp, src/sweepers/mc/fission_bank.cpp. *)
From Coq Require Import ZArith List Lia Bool Reals.
From Verif Require Import StdAlg RUtil MeshModel GeomModel McModel.
Import ListNotations.
Open Scope R_scope.

(** ** TallyScalar *)

(** src/sweepers/mc/tally_scalar.hpp:95-98. *)
Record TScalar := mkTS { ts_sum : R; ts_sq : R; ts_w : R }.

(** src/sweepers/mc/tally_scalar.hpp:36-39. *)
Definition ts_new : TScalar := mkTS 0 0 0.

(** src/sweepers/mc/tally_scalar.hpp:44-52 score; the two updates are each atomic and commute. *)
Definition ts_score (t : TScalar) (v : R) : TScalar := mkTS (ts_sum t + v) (ts_sq t + v * v) (ts_w t).

(** src/sweepers/mc/tally_scalar.hpp:57-61 add_weight. *)
Definition ts_weight (t : TScalar) (w : R) : TScalar := mkTS (ts_sum t) (ts_sq t) (ts_w t + w).

(** src/sweepers/mc/tally_scalar.hpp:82-93 get.  Division by a zero weight or mean is 0 here and NaN/inf
    in the code; the theorems assume them away. *)
Definition ts_get (t : TScalar) : R * R :=
  let mean := ts_sum t / ts_w t in
  (mean, sqrt (1 / (ts_w t - 1) * (1 / ts_w t * ts_sq t - mean * mean)) / mean).

(** Operations a client performs between two reads (monte_carlo_eigenvalue_solver.cpp:152-157,
    particle_pusher.cpp:174-185,241-245), in the order in which the atomic updates take effect. *)
Inductive TOp := Score (v : R) | AddWeight (w : R).

(** Effect of a sequence of operations.  See src/sweepers/mc/tally_scalar.hpp:42-61. *)
Definition ts_op (t : TScalar) (o : TOp) : TScalar :=
  match o with Score v => ts_score t v | AddWeight w => ts_weight t w end.

(** ** TallySpatial *)

(** src/sweepers/mc/tally_spatial.hpp:141-148. *)
Record TSpatial := mkTP { tp_norm : list R; tp_data : list (R * R); tp_buf : list R; tp_w : R; tp_n : nat }.

(** src/sweepers/mc/tally_spatial.hpp:46-55. *)
Definition tp_new (norm : list R) : TSpatial :=
  mkTP norm (map (fun _ => (0, 0)) norm) (map (fun _ => 0) norm) 0 0.

(** Add [v] to entry [i]; [None] = out of range.  See src/sweepers/mc/tally_spatial.hpp:60-66. *)
Fixpoint add_nth (l : list R) (i : nat) (v : R) : option (list R) :=
  match l, i with
  | [], _ => None
  | a :: r, O => Some (a + v :: r)
  | a :: r, S i' => match add_nth r i' v with Some r' => Some (a :: r') | None => None end
  end.

(** src/sweepers/mc/tally_spatial.hpp:60-66 score. *)
Definition tp_score (t : TSpatial) (i : nat) (v : R) : option TSpatial :=
  match add_nth (tp_buf t) i v with
  | Some b => Some (mkTP (tp_norm t) (tp_data t) b (tp_w t) (tp_n t))
  | None => None
  end.

(** src/sweepers/mc/tally_spatial.hpp:71-85 commit_realization. *)
Definition tp_commit (t : TSpatial) : TSpatial :=
  let rw := 1 / tp_w t in
  mkTP (tp_norm t)
    (map (fun db => let '((f, s), b) := db in let v := b * rw in (f + v, s + v * v))
         (combine (tp_data t) (tp_buf t)))
    (map (fun _ => 0) (tp_buf t)) 0 (S (tp_n t)).

(** src/sweepers/mc/tally_spatial.hpp:90-95 add_weight. *)
Definition tp_add_weight (t : TSpatial) (w : R) : TSpatial :=
  mkTP (tp_norm t) (tp_data t) (tp_buf t) (tp_w t + w) (tp_n t).

(** src/sweepers/mc/tally_spatial.hpp:100-114 reset. *)
Definition tp_reset (t : TSpatial) : TSpatial :=
  mkTP (tp_norm t) (map (fun _ => (0, 0)) (tp_data t)) (map (fun _ => 0) (tp_buf t)) 0 0.

(** src/sweepers/mc/tally_spatial.hpp:126-135, one region of get(). *)
Definition tp_get1 (n : nat) (norm : R) (d : R * R) : R * R :=
  let r_norm := 1 / norm in
  let mean := fst d / INR n in
  let square_of_mean := fst d * fst d / (INR n * (INR n - 1)) in
  let mean_of_square := snd d / (INR n - 1) in
  let variance := mean_of_square - square_of_mean in
  (mean * r_norm, sqrt (variance * r_norm) / (mean * r_norm)).

(** src/sweepers/mc/tally_spatial.hpp:120-139 get. *)
Definition tp_get (t : TSpatial) : list (R * R) :=
  map (fun nd => tp_get1 (tp_n t) (fst nd) (snd nd)) (combine (tp_norm t) (tp_data t)).

(** One realization (cycle): a sequence of scores and weight contributions in the order their atomic
    updates take effect, then commit_realization().  See src/sweepers/mc/tally_spatial.hpp:60-95. *)
Inductive POp := PScore (i : nat) (v : R) | PWeight (w : R).

(** Effect of one such operation.  See src/sweepers/mc/tally_spatial.hpp:60-95. *)
Definition tp_op (t : option TSpatial) (o : POp) : option TSpatial :=
  match t with
  | None => None
  | Some t => match o with PScore i v => tp_score t i v | PWeight w => Some (tp_add_weight t w) end
  end.

(** A whole realization.  See src/sweepers/mc/tally_spatial.hpp:60-95. *)
Definition tp_realization (t : option TSpatial) (ops : list POp) : option TSpatial :=
  match fold_left tp_op ops t with Some t => Some (tp_commit t) | None => None end.

(** ** Shannon entropy *)

(** A point in space: src/core/geometry/points.hpp struct Point3.  See src/core/geometry/points.hpp:100. *)
Record Point3 := mkP3 { p3x : R; p3y : R; p3z : R }.

(** src/core/mesh.cpp:373-388 coarse_cell_point(Point3). *)
Definition cell_of_point (g : GMesh) (p : Point3) : option Z :=
  match lower_bound Rltb (xv g) (p3x p), lower_bound Rltb (yv g) (p3y p), lower_bound Rltb (zv g) (p3z p) with
  | Some ix, Some iy, Some iz =>
      Some (coarse_cell (dims g) {| px := Z.of_nat ix - 1; py := Z.of_nat iy - 1; pz := Z.of_nat iz - 1 |})
  | _, _, _ => None
  end.

(** Outcomes of shannon_entropy.  See src/sweepers/mc/fission_bank.cpp:94-102. *)
Inductive Entropy := EOk (h : R) | EThrow | EUB.

(** src/sweepers/mc/fission_bank.cpp:94-102, the population loop over (location, weight). *)
Inductive Pops := POk (l : list R) | PThrow | PUB.
(** As above, src/sweepers/mc/fission_bank.cpp:94-102. *)
Fixpoint populate (g : GMesh) (pops : list R) (sites : list (Point3 * R)) : Pops :=
  match sites with
  | [] => POk pops
  | (p, w) :: r =>
      match cell_of_point g p with
      | None => PUB
      | Some icell =>
          if ((icell <? 0) || (n_pin (dims g) <? icell))%Z then PThrow
          else match add_nth pops (Z.to_nat icell) w with
               | Some pops' => populate g pops' r
               | None => PUB
               end
      end
  end.

(** std::log2.  See src/sweepers/mc/fission_bank.cpp:104-109. *)
Definition log2 (x : R) : R := ln x / ln 2.

(** src/sweepers/mc/fission_bank.cpp:104-109, the entropy sum. *)
Definition entropy_sum (n : nat) (pops : list R) : R :=
  fold_left (fun h p => let pj := p / INR n in if Rltb 0 pj then h - pj * log2 pj else h) pops 0.

(** src/sweepers/mc/fission_bank.cpp:88-112 shannon_entropy.  For an empty bank pj is 0/0, for which both
    the code's NaN and the model's 0 skip the addition. *)
Definition shannon_entropy (g : GMesh) (sites : list (Point3 * R)) : Entropy :=
  match populate g (repeat 0 (Z.to_nat (n_pin (dims g)))) sites with
  | PThrow => EThrow
  | PUB => EUB
  | POk pops => EOk (entropy_sum (length sites) pops)
  end.
