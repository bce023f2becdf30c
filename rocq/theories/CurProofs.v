(** Proofs about coarse ray records and MoC currents. *)
From Coq Require Import List Lia Bool Reals ZArith Lra Psatz.
From Verif Require Import RUtil ListUtil McModel MeshModel MeshSpec MeshProofs StdAlg AngModel BcModel CoreModel CoreProofs MocModel MocProofs CurModel.
Import ListNotations.
Open Scope Z_scope.

(** ** Records *)
Definition fw_steps (recs : list RC) : list (Z * Surface) := flat_map (fun r => match rc_fw r with Some s => [(rc_nfw r, s)] | None => [] end) recs.
Definition bw_steps (recs : list RC) : list (Z * Surface) := flat_map (fun r => match rc_bw r with Some s => [(rc_nbw r, s)] | None => [] end) recs.

Lemma pair_records_spec : forall nf nb sf sb, length sf = length nf -> length sb = length nb -> Forall (fun n => 0 <= n < 256) nf -> Forall (fun n => 0 <= n < 256) nb ->
  exists r, pair_records nf nb sf sb = Some r /\ let k := Nat.min (length nf) (length nb) in
    fw_steps r = firstn k (combine nf sf) /\ bw_steps r = firstn k (combine nb sb).
Proof.
  induction nf as [|f nf IH]; intros nb sf sb Lf Lb Ff Fb; [exists []; split; auto|]. destruct nb as [|b nb]; [exists []; split; auto|].
  destruct sf as [|s sf]; [discriminate|]. destruct sb as [|t sb]; [discriminate|]. inversion Ff; inversion Fb; subst. cbn in Lf, Lb.
  destruct (IH nb sf sb) as (r & E & A & B); auto. exists (mkRC (Some s) (Some t) (bits8 f) (bits8 b) :: r). cbn [pair_records]. rewrite E. split; [reflexivity|].
  cbn zeta in *. cbn [length Nat.min firstn combine]. unfold fw_steps, bw_steps in *. cbn [flat_map rc_fw rc_bw rc_nfw rc_nbw app]. rewrite A, B. unfold bits8. rewrite !Z.mod_small by lia. auto.
Qed.

Lemma nsegs_length : forall cs, Forall (fun c : Z * list Surface => length (snd c) = 1 \/ length (snd c) = 2)%nat cs -> length (crossing_surfs cs) = length (crossing_nsegs cs).
Proof.
  intros cs F. induction F as [|[n l] cs H F IH]; [reflexivity|]. unfold crossing_surfs, crossing_nsegs in *. cbn [flat_map fst snd]. rewrite !app_length, IH. cbn [snd] in H. cbn [length].
  destruct H as [->| ->]; cbn; lia.
Qed.
Lemma nsegs_range : forall cs, Forall (fun c : Z * list Surface => 0 <= fst c < 256) cs -> Forall (fun n => 0 <= n < 256) (crossing_nsegs cs).
Proof.
  intros cs F. induction F as [|[n l] cs H F IH]; [constructor|]. unfold crossing_nsegs in *. cbn [flat_map fst snd]. apply Forall_app. split; [|exact IH]. constructor; [exact H|]. destruct (1 <? length l)%nat; constructor; [lia|constructor].
Qed.
Fixpoint zsum (l : list Z) : Z := match l with [] => 0 | a :: r => a + zsum r end.
Lemma zsum_app : forall a b, zsum (a ++ b) = zsum a + zsum b.
Proof. induction a as [|x a IH]; intros b; cbn [app zsum]; [lia|]. rewrite IH. lia. Qed.
Lemma nsegs_sum : forall cs, zsum (crossing_nsegs cs) = zsum (map fst cs).
Proof.
  induction cs as [|[n l] cs IH]; [reflexivity|]. unfold crossing_nsegs in *. cbn [flat_map map fst snd]. rewrite zsum_app, IH. cbn [zsum]. destruct (1 <? length l)%nat; cbn [zsum]; lia.
Qed.

Lemma last_pair : forall {A} (l : list A), l <> [] -> exists a r, rev l = a :: r /\ l = rev r ++ [a].
Proof. intros A l H. destruct (exists_last H) as (r & a & ->). exists a, (rev r). rewrite rev_app_distr, rev_involutive. auto. Qed.

Lemma combine_last : forall {A B} (a : list A) (b : list B) x y, length a = length b -> combine (a ++ [x]) (b ++ [y]) = combine a b ++ [(x, y)].
Proof. induction a as [|u a IH]; intros [|v b] x y L; cbn in L; try discriminate; [reflexivity|]. cbn. rewrite IH by lia. reflexivity. Qed.

(** What the extra record stands for: the second surface of a corner at the end of the longer direction. *)
Definition ends_in_corner (cs : list (Z * list Surface)) : Prop := exists cs' c, cs = cs' ++ [c] /\ length (snd c) = 2%nat.

Lemma nsegs_snoc : forall cs c, length (snd c) = 2%nat -> crossing_nsegs (cs ++ [c]) = crossing_nsegs cs ++ [fst c; 0] /\ exists s t, snd c = [s; t] /\ crossing_surfs (cs ++ [c]) = crossing_surfs cs ++ [s; t].
Proof.
  intros cs [n l] H. cbn [snd fst] in *. destruct l as [|s [|t [|]]]; try discriminate. unfold crossing_nsegs, crossing_surfs. rewrite !flat_map_app. cbn [flat_map fst snd app]. split; [reflexivity|]. exists s, t. auto.
Qed.

Lemma snoc_steps : forall l cs, Forall (fun c : Z * list Surface => length (snd c) = 1 \/ length (snd c) = 2)%nat cs -> ends_in_corner cs -> length (crossing_nsegs cs) = S l ->
  exists s, hd_error (rev (crossing_surfs cs)) = Some s /\ combine (crossing_nsegs cs) (crossing_surfs cs) = firstn l (combine (crossing_nsegs cs) (crossing_surfs cs)) ++ [(0, s)].
Proof.
  intros l cs F (cs' & c & -> & Lc) Ll. apply Forall_app in F. destruct F as [F _]. destruct (nsegs_snoc cs' c Lc) as (E1 & s & t & Es & E2). rewrite E1, E2 in *.
  exists t. rewrite rev_app_distr. cbn [rev app hd_error]. split; [reflexivity|]. pose proof (nsegs_length _ F) as L'. rewrite app_length in Ll. cbn [length] in Ll.
  replace (crossing_nsegs cs' ++ [fst c; 0]) with ((crossing_nsegs cs' ++ [fst c]) ++ [0]) by now rewrite <- app_assoc.
  replace (crossing_surfs cs' ++ [s; t]) with ((crossing_surfs cs' ++ [s]) ++ [t]) by now rewrite <- app_assoc.
  assert (LL : length (crossing_nsegs cs' ++ [fst c]) = length (crossing_surfs cs' ++ [s])) by (rewrite !app_length; cbn; lia).
  rewrite combine_last by exact LL. f_equal. rewrite firstn_app. replace (l - _)%nat with 0%nat; [|rewrite combine_length, <- LL, Nat.min_id, app_length; cbn; lia].
  cbn [firstn]. rewrite app_nil_r. symmetry. apply firstn_all2. rewrite combine_length, <- LL, Nat.min_id, app_length. cbn. lia.
Qed.

Lemma steps_app : forall a b, fw_steps (a ++ b) = fw_steps a ++ fw_steps b /\ bw_steps (a ++ b) = bw_steps a ++ bw_steps b.
Proof. intros. unfold fw_steps, bw_steps. now rewrite !flat_map_app. Qed.

(** ** Currents *)
(** In-plane net outflow of a cell from the currents on its faces. *)
Definition face_cur (m : Mesh) (cur : list R) (p : Position) (s : Surface) : R := match coarse_surf m (coarse_cell m p) s with Some k => nth (Z.to_nat k) cur 0%R | None => 0%R end.
Definition outflow (m : Mesh) (cur : list R) (p : Position) : R := (face_cur m cur p EAST - face_cur m cur p WEST + face_cur m cur p NORTH - face_cur m cur p SOUTH)%R.

(** Rate at which a current weight carries flux out through face [s]. *)
Definition flow (wx wy : R) (s : Surface) : R := match s with EAST => wx | WEST => - wx | NORTH => wy | SOUTH => - wy | _ => 0 end%R.
Definition in_plane (s : Surface) : Prop := match s with TOP | BOTTOM => False | _ => True end.

Definition pos_eqb (p q : Position) : bool := (px p =? px q) && (py p =? py q) && (pz p =? pz q).
Lemma pos_eqb_spec : forall p q, Bool.reflect (p = q) (pos_eqb p q).
Proof.
  intros [x y z] [x' y' z']. unfold pos_eqb. cbn. destruct (Z.eqb_spec x x'), (Z.eqb_spec y y'), (Z.eqb_spec z z'); cbn; constructor; congruence.
Qed.
Definition hit (p q : Position) : R := if pos_eqb p q then 1%R else 0%R.

Lemma face_cur_add : forall m cur q s v cur' p t, mesh_ok m -> in_mesh m q -> in_mesh m p -> length cur = Z.to_nat (n_surf m) ->
  add_z cur (face_index m (face_of q s)) v = Some cur' -> face_cur m cur' p t = (face_cur m cur p t + (if face_index m (face_of p t) =? face_index m (face_of q s) then v else 0))%R.
Proof.
  intros m cur q s v cur' p t M Q P L E. unfold face_cur. rewrite coarse_surf_correct by auto.
  pose proof (face_index_bounds m _ M (face_of_ok m q s Q)) as B1. pose proof (face_index_bounds m _ M (face_of_ok m p t P)) as B2.
  unfold add_z in E. destruct (Z.ltb_spec (face_index m (face_of q s)) 0); [lia|].
  destruct (add_at_spec cur (Z.to_nat (face_index m (face_of q s))) v) as (c & Ec & _ & Pc); [lia|]. rewrite Ec in E. injection E as <-. specialize (Pc (Z.to_nat (face_index m (face_of p t)))). unfold at0 in Pc. rewrite Pc. f_equal.
  destruct (Z.eqb_spec (face_index m (face_of p t)) (face_index m (face_of q s))) as [->|N]; [now rewrite Nat.eqb_refl|]. destruct (Nat.eqb_spec (Z.to_nat (face_index m (face_of p t))) (Z.to_nat (face_index m (face_of q s)))); [lia|reflexivity].
Qed.

Lemma same_face : forall m p q s t, mesh_ok m -> in_mesh m p -> in_mesh m q -> (face_index m (face_of p t) =? face_index m (face_of q s)) = true <-> (p = q /\ t = s) \/ (p = move q s /\ t = opposite s).
Proof.
  intros m p q s t M P Q. rewrite Z.eqb_eq. split.
  - intros E. apply face_index_inj in E; auto using face_of_ok. destruct p as [x y z], q as [x' y' z']; destruct s, t; cbn in E; injection E; intros; try discriminate; subst; cbn;
    (left; split; [f_equal; lia|reflexivity]) || (right; split; [f_equal; lia|reflexivity]).
  - intros [[-> ->]|[-> ->]]; [reflexivity|]. now rewrite face_shared.
Qed.
Lemma move_neq : forall q s, q <> move q s.
Proof. intros [x y z] s E. destruct s; cbn in E; injection E; lia. Qed.

Lemma outflow_add : forall m cur q s v cur' p, mesh_ok m -> in_mesh m q -> in_mesh m p -> length cur = Z.to_nat (n_surf m) -> in_plane s ->
  add_z cur (face_index m (face_of q s)) v = Some cur' -> outflow m cur' p = (outflow m cur p + flow v v s * (hit p q - hit p (move q s)))%R.
Proof.
  intros m cur q s v cur' p M Q P L I E. unfold outflow.
  rewrite (face_cur_add m cur q s v cur' p EAST), (face_cur_add m cur q s v cur' p WEST), (face_cur_add m cur q s v cur' p NORTH), (face_cur_add m cur q s v cur' p SOUTH) by auto.
  assert (G : forall t, (if face_index m (face_of p t) =? face_index m (face_of q s) then v else 0)%R = ((if pos_eqb p q then match t, s with EAST, EAST | WEST, WEST | NORTH, NORTH | SOUTH, SOUTH | TOP, TOP | BOTTOM, BOTTOM => v | _, _ => 0 end else 0) +
      (if pos_eqb p (move q s) then match t, s with EAST, WEST | WEST, EAST | NORTH, SOUTH | SOUTH, NORTH | TOP, BOTTOM | BOTTOM, TOP => v | _, _ => 0 end else 0))%R).
  { intros t. destruct (face_index m (face_of p t) =? face_index m (face_of q s)) eqn:F.
    - apply same_face in F; auto. destruct F as [[-> ->]|[-> ->]].
      + destruct (pos_eqb_spec q q) as [_|N]; [|congruence]. destruct (pos_eqb_spec q (move q s)) as [N|_]; [now apply move_neq in N|]. destruct s; lra.
      + destruct (pos_eqb_spec (move q s) q) as [N|_]; [symmetry in N; now apply move_neq in N|]. destruct (pos_eqb_spec (move q s) (move q s)) as [_|N]; [|congruence]. destruct s; cbn; lra.
    - assert (NF : ~ ((p = q /\ t = s) \/ (p = move q s /\ t = opposite s))) by (intros X; apply (same_face m) in X; auto; congruence).
      destruct (pos_eqb_spec p q) as [->|]; [destruct (pos_eqb_spec q (move q s)) as [N|_]; [now apply move_neq in N|]; destruct s, t; try lra; exfalso; apply NF; now left|].
      destruct (pos_eqb_spec p (move q s)) as [->|]; [|lra]. destruct s, t; try lra; exfalso; apply NF; right; split; reflexivity. }
  rewrite !G. unfold hit, flow. destruct s; try contradiction; destruct (pos_eqb p q), (pos_eqb p (move q _)); lra.
Qed.

Lemma add_z_ok : forall m cur f v, mesh_ok m -> face_ok m f -> length cur = Z.to_nat (n_surf m) -> exists cur', add_z cur (face_index m f) v = Some cur' /\ length cur' = length cur.
Proof.
  intros m cur f v M F L. pose proof (face_index_bounds m f M F). unfold add_z. destruct (Z.ltb_spec (face_index m f) 0); [lia|].
  destruct (add_at_spec cur (Z.to_nat (face_index m f)) v) as (c & Ec & Lc & _); [lia|]. eauto.
Qed.
Lemma psi_some : forall (psi : list R) i n, length psi = S n -> 0 <= i <= Z.of_nat n -> psi_at psi i = Some (nth (Z.to_nat i) psi 0%R).
Proof. intros psi i n L H. unfold psi_at. destruct (Z.ltb_spec i 0); [lia|]. apply nth_error_nth'. lia. Qed.

Definition psi_z (psi : list R) (i : Z) : R := nth (Z.to_nat i) psi 0%R.
Lemma flow_weight : forall wx wy s, in_plane s -> exists w, weight_at wx wy (surface_to_normal s) = Some w /\ forall c p, (flow (c * (p * w)) (c * (p * w)) s = c * (p * flow wx wy s))%R.
Proof. intros wx wy s H. destruct s; try contradiction; eexists; (split; [reflexivity|]); intros; cbn; ring. Qed.

(** Contribution of one direction of a ray to the outflow of [p], after entry. *)
Fixpoint path_out (psi : list R) (dir : Z) (steps : list (Z * Surface)) (q : Position) (i : Z) (p : Position) : R :=
  match steps with
  | [] => 0%R
  | (n, s) :: r => (psi_z psi (i + dir * n) * (hit p q - hit p (move q s)) + path_out psi dir r (move q s) (i + dir * n) p)%R
  end.

(** A path through the mesh: every cell it is in belongs to the mesh until the last crossing leaves it, it crosses faces in
    the direction of flight (flow [W]), and its segment indices stay in range. *)
Fixpoint path_ok (m : Mesh) (wx wy W : R) (nseg dir : Z) (steps : list (Z * Surface)) (q : Position) (i : Z) : Prop :=
  match steps with
  | [] => ~ in_mesh m q
  | (n, s) :: r => in_mesh m q /\ in_plane s /\ flow wx wy s = W /\ 0 <= i + dir * n <= nseg /\ path_ok m wx wy W nseg dir r (move q s) (i + dir * n)
  end.

Lemma tally_ok : forall m wx wy sgn psi nseg i q s cur, mesh_ok m -> in_mesh m q -> in_plane s -> length cur = Z.to_nat (n_surf m) -> length psi = S (Z.to_nat nseg) -> 0 <= i <= nseg ->
  exists cur', tally wx wy sgn psi i (surface_to_normal s) (face_index m (face_of q s)) cur = Some cur' /\ length cur' = length cur /\
    forall p, in_mesh m p -> outflow m cur' p = (outflow m cur p + sgn * (psi_z psi i * flow wx wy s) * (hit p q - hit p (move q s)))%R.
Proof.
  intros m wx wy sgn psi nseg i q s cur M Q I L Lp Hi. unfold tally. rewrite (psi_some psi i (Z.to_nat nseg) Lp) by lia. destruct (flow_weight wx wy s I) as (w & -> & Fw).
  destruct (add_z_ok m cur (face_of q s) (sgn * (nth (Z.to_nat i) psi 0 * w))%R M (face_of_ok m q s Q) L) as (c & Ec & Lc). exists c. split; [exact Ec|]. split; [exact Lc|].
  intros p P. rewrite (outflow_add m cur q s _ c p M Q P L I Ec). rewrite Fw. unfold psi_z. reflexivity.
Qed.

(** The state of one direction of the walk: still inside at [q] with steps to go, or finished. *)
Definition at_cell (m : Mesh) (cell : Z) (q : Position) (steps : list (Z * Surface)) : Prop := steps = [] \/ cell = coarse_cell m q.

Lemma cross_ok : forall m wx wy W sgn psi nseg dir cell i q s n steps cur, mesh_ok m -> length cur = Z.to_nat (n_surf m) -> length psi = S (Z.to_nat nseg) ->
  at_cell m cell q ((match s with Some t => [(n, t)] | None => [] end) ++ steps) -> path_ok m wx wy W nseg dir ((match s with Some t => [(n, t)] | None => [] end) ++ steps) q i -> (s = None -> steps = []) ->
  exists i' q' cur', cross m wx wy sgn psi dir cell i s n cur = Some (i', cur') /\ length cur' = length cur /\ at_cell m (next_cell m cell s) q' steps /\ path_ok m wx wy W nseg dir steps q' i' /\
    forall p, in_mesh m p -> (outflow m cur' p + sgn * W * path_out psi dir steps q' i' p = outflow m cur p + sgn * W * path_out psi dir ((match s with Some t => [(n, t)] | None => [] end) ++ steps) q i p)%R.
Proof.
  intros m wx wy W sgn psi nseg dir cell i q s n steps cur M L Lp Ac Po Sn. destruct s as [t|].
  - cbn [app] in *. destruct Ac as [X| ->]; [discriminate|]. cbn [path_ok] in Po. destruct Po as (Q & I & F & Hi & Po). unfold cross. rewrite coarse_surf_correct by auto.
    destruct (tally_ok m wx wy sgn psi nseg (i + dir * n) q t cur M Q I L Lp Hi) as (c & Ec & Lc & Pc). rewrite Ec. exists (i + dir * n), (move q t), c. split; [reflexivity|]. split; [exact Lc|]. split; [|split; [exact Po|]].
    + destruct steps as [|[n' t'] steps]; [now left|]. right. destruct Po as (Q' & _). unfold next_cell. pose proof (coarse_cell_bounds m q Q). destruct (Z.ltb_spec (coarse_cell m q) 0); [lia|]. rewrite coarse_neighbor_spec by auto. now apply cell_or_none_in.
    + intros p P. rewrite Pc by exact P. cbn [path_out]. rewrite F. ring.
  - cbn [app] in *. rewrite (Sn eq_refl) in *. exists i, q, cur. split; [reflexivity|]. split; [reflexivity|]. split; [now left|]. split; [exact Po|]. reflexivity.
Qed.

(** Records in which a no-op ends its direction. *)
Fixpoint noop_last (recs : list RC) : Prop :=
  match recs with [] => True | r :: rest => (rc_fw r = None -> fw_steps rest = []) /\ (rc_bw r = None -> bw_steps rest = []) /\ noop_last rest end.

Lemma walk_ok : forall m wx wy W psi1 psi2 nseg recs cf cb qf qb jf jb cur, mesh_ok m -> length cur = Z.to_nat (n_surf m) -> length psi1 = S (Z.to_nat nseg) -> length psi2 = S (Z.to_nat nseg) -> noop_last recs ->
  at_cell m cf qf (fw_steps recs) -> at_cell m cb qb (bw_steps recs) -> path_ok m wx wy W nseg 1 (fw_steps recs) qf jf -> path_ok m wx wy (- W) nseg (-1) (bw_steps recs) qb jb ->
  exists cur', walk m wx wy psi1 psi2 recs cf cb jf jb cur = Some cur' /\ length cur' = length cur /\
    forall p, in_mesh m p -> outflow m cur' p = (outflow m cur p + W * (path_out psi1 1 (fw_steps recs) qf jf p + path_out psi2 (-1) (bw_steps recs) qb jb p))%R.
Proof.
  intros m wx wy W psi1 psi2 nseg. induction recs as [|r recs IH]; intros cf cb qf qb jf jb cur M L L1 L2 Nl Af Ab Pf Pb; cbn [walk].
  - exists cur. split; [reflexivity|]. split; [reflexivity|]. intros p _. cbn. ring.
  - destruct Nl as (N1 & N2 & Nl).
    change (fw_steps (r :: recs)) with ((match rc_fw r with Some s => [(rc_nfw r, s)] | None => [] end) ++ fw_steps recs) in *.
    change (bw_steps (r :: recs)) with ((match rc_bw r with Some s => [(rc_nbw r, s)] | None => [] end) ++ bw_steps recs) in *.
    destruct (cross_ok m wx wy W 1 psi1 nseg 1 cf jf qf (rc_fw r) (rc_nfw r) (fw_steps recs) cur M L L1 Af Pf N1) as (i1 & q1 & c1 & E1 & Lc1 & A1 & P1 & O1). rewrite E1.
    destruct (cross_ok m wx wy (- W) (-1) psi2 nseg (-1) cb jb qb (rc_bw r) (rc_nbw r) (bw_steps recs) c1 M ltac:(congruence) L2 Ab Pb N2) as (i2 & q2 & c2 & E2 & Lc2 & A2 & P2 & O2). rewrite E2.
    destruct (IH (next_cell m cf (rc_fw r)) (next_cell m cb (rc_bw r)) q1 q2 i1 i2 c2 M ltac:(congruence) L1 L2 Nl A1 A2 P1 P2) as (c3 & E3 & L3 & O3). exists c3. split; [exact E3|]. split; [congruence|].
    intros p P. rewrite O3 by exact P. specialize (O1 p P). specialize (O2 p P). nra.
Qed.

(** Visits of one direction: cell, segment index on entry and on exit. *)
Fixpoint visits (dir : Z) (steps : list (Z * Surface)) (q : Position) (i : Z) : list (Position * Z * Z) :=
  match steps with [] => [] | (n, s) :: r => (q, i, i + dir * n) :: visits dir r (move q s) (i + dir * n) end.

Lemma path_visits : forall m wx wy W nseg psi dir steps q i p, in_mesh m p -> path_ok m wx wy W nseg dir steps q i ->
  (path_out psi dir steps q i p - psi_z psi i * hit p q = lsum (fun v => hit p (fst (fst v)) * (psi_z psi (snd v) - psi_z psi (snd (fst v)))) (visits dir steps q i))%R.
Proof.
  intros m wx wy W nseg psi dir. induction steps as [|[n s] steps IH]; intros q i p P Po; cbn [path_out visits lsum path_ok] in *.
  - unfold hit. destruct (pos_eqb_spec p q) as [->|]; [contradiction|]. lra.
  - destruct Po as (_ & _ & _ & _ & Po). rewrite <- (IH _ _ _ P Po). cbn [fst snd]. ring.
Qed.
