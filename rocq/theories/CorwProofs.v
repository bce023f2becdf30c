(** Proofs about the sums from which the correction factors are built. *)
From Coq Require Import List Lia Bool Reals ZArith Lra Psatz.
From Verif Require Import RUtil ListUtil McModel MeshModel MeshSpec MeshProofs StdAlg AngModel BcModel CoreModel CoreProofs MocModel MocProofs CurModel CurProofs SnModel CorwModel.
Import ListNotations.
Open Scope Z_scope.

Lemma add_at_inv : forall l i v c, add_at l i v = Some c -> (i < length l)%nat /\ length c = length l /\ forall j, at0 c j = (at0 l j + (if Nat.eqb j i then v else 0))%R.
Proof.
  induction l as [|x l IH]; intros [|i] v c H; cbn [add_at] in H; try discriminate.
  - injection H as <-. cbn [length]. split; [lia|]. split; [reflexivity|]. intros [|j]; unfold at0; cbn [nth Nat.eqb]; lra.
  - destruct (add_at l i v) as [r|] eqn:E; [|discriminate]. injection H as <-. destruct (IH _ _ _ E) as (A & B & C). cbn [length]. split; [lia|]. split; [lia|].
    intros [|j]; unfold at0 in *; cbn [nth Nat.eqb]; [lra|apply C].
Qed.
(** Entry of a list at an int index. *)
Definition atz (l : list R) (k : Z) : R := at0 l (Z.to_nat k).
Lemma add_z_inv : forall l k v c, add_z l k v = Some c -> 0 <= k < Z.of_nat (length l) /\ length c = length l /\ forall j, 0 <= j -> atz c j = (atz l j + (if j =? k then v else 0))%R.
Proof.
  intros l k v c H. unfold add_z in H. destruct (Z.ltb_spec k 0); [discriminate|]. destruct (add_at_inv _ _ _ _ H) as (A & B & C). split; [lia|]. split; [exact B|].
  intros j J. unfold atz. rewrite C. f_equal. destruct (Nat.eqb_spec (Z.to_nat j) (Z.to_nat k)), (Z.eqb_spec j k); try lia; reflexivity.
Qed.

(** Sum of [f] over [n] indices from [lo]. *)
Fixpoint span (f : Z -> R) (lo : Z) (n : nat) : R := match n with O => 0%R | S k => (f lo + span f (lo + 1) k)%R end.
Lemma span_snoc : forall f n lo, span f lo (S n) = (span f lo n + f (lo + Z.of_nat n)%Z)%R.
Proof.
  induction n as [|n IH]; intros lo; [cbn [span]; replace (lo + Z.of_nat 0) with lo by lia; lra|].
  change (span f lo (S (S n))) with (f lo + span f (lo + 1) (S n))%R. rewrite IH. change (span f lo (S n)) with (f lo + span f (lo + 1) n)%R. replace (lo + Z.of_nat (S n)) with (lo + 1 + Z.of_nat n) by lia. lra.
Qed.
Lemma span_ext : forall f g n lo, (forall i, lo <= i < lo + Z.of_nat n -> f i = g i) -> span f lo n = span g lo n.
Proof. induction n as [|n IH]; intros lo H; [reflexivity|]. cbn [span]. rewrite (H lo) by lia. rewrite (IH (lo + 1)); [reflexivity|]. intros i I. apply H. lia. Qed.
Lemma span_tele : forall f g (h : Z -> R) c n lo, (forall i, lo <= i < lo + Z.of_nat n -> f i = (g i + c * (h i - h (i + 1)%Z))%R) -> (span f lo n = span g lo n + c * (h lo - h (lo + Z.of_nat n)%Z))%R.
Proof.
  induction n as [|n IH]; intros lo H; [cbn [span]; replace (lo + Z.of_nat 0) with lo by lia; lra|].
  cbn [span]. rewrite (H lo) by lia. rewrite (IH (lo + 1)) by (intros i I; apply H; lia). replace (lo + 1 + Z.of_nat n) with (lo + Z.of_nat (S n)) by lia. lra.
Qed.

(** Terms of a segment: flux times length, length, cross section. *)
Definition t_f (o : option (R * R * R)) : R := match o with Some (f, _, _) => f | None => 0%R end.
Definition t_l (o : option (R * R * R)) : R := match o with Some (_, l, _) => l | None => 0%R end.
Definition t_r (o : option (R * R * R)) : R := match o with Some (f, _, x) => (x * f)%R | None => 0%R end.

Lemma fw_vol_inv : forall d psi cell n i v nrm t i' v' nrm' t', fw_vol d psi cell n i v nrm t = Some (i', v', nrm', t') -> i' = i + Z.of_nat n /\
  (forall k, i <= k < i + Z.of_nat n -> seg_fw d psi k <> None) /\
  forall j, 0 <= j -> atz v' j = (atz v j + (if Z.eqb j cell then span (fun k => t_f (seg_fw d psi k)) i n else 0))%R /\
    atz nrm' j = (atz nrm j + (if Z.eqb j cell then span (fun k => t_l (seg_fw d psi k)) i n else 0))%R /\ atz t' j = (atz t j + (if Z.eqb j cell then span (fun k => t_r (seg_fw d psi k)) i n else 0))%R.
Proof.
  intros d psi cell. induction n as [|n IH]; intros i v nrm t i' v' nrm' t' H; cbn [fw_vol] in H.
  - injection H as <- <- <- <-. split; [lia|]. split; [intros; lia|]. intros j _. cbn [span]. destruct (j =? cell); lra.
  - destruct (seg_fw d psi i) as [[[f l] x]|] eqn:E; [|discriminate]. destruct (add_z v cell f) as [v1|] eqn:E1; [|discriminate]. destruct (add_z nrm cell l) as [n1|] eqn:E2; [|discriminate]. destruct (add_z t cell (x * f)%R) as [t1|] eqn:E3; [|discriminate].
    destruct (IH _ _ _ _ _ _ _ _ H) as (A & B & C). split; [lia|]. split; [intros k K; destruct (Z.eq_dec k i) as [->|]; [congruence|apply B; lia]|].
    intros j J. destruct (C j J) as (C1 & C2 & C3). rewrite C1, C2, C3. destruct (add_z_inv _ _ _ _ E1) as (_ & _ & A1). destruct (add_z_inv _ _ _ _ E2) as (_ & _ & A2). destruct (add_z_inv _ _ _ _ E3) as (_ & _ & A3).
    rewrite (A1 j J), (A2 j J), (A3 j J). cbn [span]. rewrite E. cbn [t_f t_l t_r]. destruct (j =? cell); repeat split; lra.
Qed.
Lemma bw_vol_inv : forall d psi cell n i v t i' v' t', bw_vol d psi cell n i v t = Some (i', v', t') -> i' = i - Z.of_nat n /\
  (forall k, i - Z.of_nat n <= k < i -> seg_bw d psi k <> None) /\
  forall j, 0 <= j -> atz v' j = (atz v j + (if Z.eqb j cell then span (fun k => t_f (seg_bw d psi k)) (i - Z.of_nat n) n else 0))%R /\
    atz t' j = (atz t j + (if Z.eqb j cell then span (fun k => t_r (seg_bw d psi k)) (i - Z.of_nat n) n else 0))%R.
Proof.
  intros d psi cell. induction n as [|n IH]; intros i v t i' v' t' H; cbn [bw_vol] in H.
  - injection H as <- <- <-. split; [lia|]. split; [intros; lia|]. intros j _. cbn [span]. destruct (j =? cell); lra.
  - destruct (seg_bw d psi (i - 1)) as [[[f l] x]|] eqn:E; [|discriminate]. destruct (add_z v cell f) as [v1|] eqn:E1; [|discriminate]. destruct (add_z t cell (x * f)%R) as [t1|] eqn:E3; [|discriminate].
    destruct (IH _ _ _ _ _ _ H) as (A & B & C). split; [lia|]. split; [intros k K; destruct (Z.eq_dec k (i - 1)) as [->|]; [congruence|apply B; lia]|].
    intros j J. destruct (C j J) as (C1 & C3). rewrite C1, C3. destruct (add_z_inv _ _ _ _ E1) as (_ & _ & A1). destruct (add_z_inv _ _ _ _ E3) as (_ & _ & A3).
    rewrite (A1 j J), (A3 j J). rewrite !span_snoc. replace (i - 1 - Z.of_nat n) with (i - Z.of_nat (S n)) by lia. replace (i - Z.of_nat (S n) + Z.of_nat n) with (i - 1) by lia. rewrite E. cbn [t_f t_r]. destruct (j =? cell); split; lra.
Qed.

(** Net sum over the faces of a cell in the direction of flight: [sx] is the sign of the x component of the forward
    direction, whose y component is positive. *)
Definition net (m : Mesh) (sx : R) (l : list R) (p : Position) : R := (sx * (face_cur m l p EAST - face_cur m l p WEST) + (face_cur m l p NORTH - face_cur m l p SOUTH))%R.
Lemma net_add : forall m sx l q s v l' p, mesh_ok m -> in_mesh m q -> in_mesh m p -> in_plane s -> add_z l (face_index m (face_of q s)) v = Some l' ->
  net m sx l' p = (net m sx l p + v * flow sx 1 s * (hit p q - hit p (move q s)))%R.
Proof.
  intros m sx l q s v l' p M Q P I E. unfold net.
  assert (F : forall t, face_cur m l' p t = (face_cur m l p t + (if face_index m (face_of p t) =? face_index m (face_of q s) then v else 0))%R).
  { intros t. unfold face_cur. rewrite coarse_surf_correct by auto. destruct (add_z_inv _ _ _ _ E) as (_ & _ & A). apply A. pose proof (face_index_bounds m _ M (face_of_ok m p t P)). lia. }
  rewrite !F. clear F.
  assert (G : forall t, (if face_index m (face_of p t) =? face_index m (face_of q s) then v else 0)%R = ((if pos_eqb p q then match t, s with EAST, EAST | WEST, WEST | NORTH, NORTH | SOUTH, SOUTH | TOP, TOP | BOTTOM, BOTTOM => v | _, _ => 0 end else 0) +
      (if pos_eqb p (move q s) then match t, s with EAST, WEST | WEST, EAST | NORTH, SOUTH | SOUTH, NORTH | TOP, BOTTOM | BOTTOM, TOP => v | _, _ => 0 end else 0))%R).
  { intros t. destruct (face_index m (face_of p t) =? face_index m (face_of q s)) eqn:F.
    - apply same_face in F; auto. destruct F as [[-> ->]|[-> ->]].
      + destruct (pos_eqb_spec q q) as [_|N]; [|congruence]. destruct (pos_eqb_spec q (move q s)) as [N|_]; [now apply move_neq in N|]. destruct s; lra.
      + destruct (pos_eqb_spec (move q s) q) as [N|_]; [symmetry in N; now apply move_neq in N|]. destruct (pos_eqb_spec (move q s) (move q s)) as [_|N]; [|congruence]. destruct s; cbn; lra.
    - assert (NF : ~ ((p = q /\ t = s) \/ (p = move q s /\ t = opposite s))) by (intros X; apply (same_face m) in X; auto; congruence).
      destruct (pos_eqb_spec p q) as [->|]; [destruct (pos_eqb_spec q (move q s)) as [N|_]; [now apply move_neq in N|]; destruct s, t; try lra; exfalso; apply NF; now left|].
      destruct (pos_eqb_spec p (move q s)) as [->|]; [|lra]. destruct s, t; try lra; exfalso; apply NF; right; split; reflexivity. }
  rewrite !G. unfold hit, flow. destruct s; try contradiction; destruct (pos_eqb p q), (pos_eqb p (move q _)); lra.
Qed.

(** Sum over the visits of a path to [p] of [f] over the segments of the visit. *)
Definition vsum_at (f : Z -> R) (vs : list (Position * Z * Z)) (p : Position) : R :=
  lsum (fun v => hit p (fst (fst v)) * span f (Z.min (snd (fst v)) (snd v)) (Z.to_nat (Z.abs (snd v - snd (fst v)))))%R vs.
(** Every segment of every visit is well defined. *)
Definition vdef (sg : Z -> option (R * R * R)) (vs : list (Position * Z * Z)) : Prop := forall v k, In v vs -> Z.min (snd (fst v)) (snd v) <= k < Z.max (snd (fst v)) (snd v) -> sg k <> None.
(** A buffer by cells. *)
Definition cell_at (m : Mesh) (l : list R) (p : Position) : R := atz l (coarse_cell m p).
Definition head_step (s : option Surface) (n : Z) : list (Z * Surface) := match s with Some t => [(n, t)] | None => [] end.

Lemma cell_hit : forall m p q (x : R), in_mesh m p -> in_mesh m q -> (if coarse_cell m p =? coarse_cell m q then x else 0)%R = (hit p q * x)%R.
Proof.
  intros m p q x P Q. unfold hit. destruct (pos_eqb_spec p q) as [->|N]; [rewrite Z.eqb_refl; lra|]. destruct (Z.eqb_spec (coarse_cell m p) (coarse_cell m q)) as [E|]; [apply coarse_cell_inj in E; auto; contradiction|lra].
Qed.

Section Halves.
  Variables (m : Mesh) (plane : Z) (w : Wts) (d : RayD).
  Hypothesis M : mesh_ok m.
  Notation so := (n_surf_plane m * plane).

  Lemma put_fw_inv : forall psi i q s b b', in_mesh m q -> in_plane s -> put_fw w psi so i (face_index m (face_of q s)) (surface_to_normal s) b = Some b' ->
    (forall sx p, in_mesh m p -> net m sx (cb_sf b') p = (net m sx (cb_sf b) p + psi_z psi i * flow sx 1 s * (hit p q - hit p (move q s)))%R) /\ length (cb_sf b') = length (cb_sf b) /\
    cb_sb b' = cb_sb b /\ cb_vf b' = cb_vf b /\ cb_vb b' = cb_vb b /\ cb_n b' = cb_n b /\ cb_tf b' = cb_tf b /\ cb_tb b' = cb_tb b /\ 0 <= i < Z.of_nat (length psi) /\
    tally (w_cx w) (w_cy w) 1 psi i (surface_to_normal s) (face_index m (face_of q s) + so) (cb_cur b) = Some (cb_cur b').
  Proof.
    intros psi i q s b b' Q I H. unfold put_fw in H. destruct (tally (w_cx w) _ _ _ _ _ _ _) as [c|] eqn:Ec; [|discriminate]. destruct (tally (w_fx w) _ _ _ _ _ _ _) as [f|] eqn:Ef; [|discriminate]. destruct (psi_at psi i) as [v|] eqn:Ep; [|discriminate]. destruct (add_z _ _ _) as [l|] eqn:E; [|discriminate].
    injection H as <-. cbn [cb_sf cb_sb cb_vf cb_vb cb_n cb_tf cb_tb cb_cur]. unfold psi_at in Ep. destruct (Z.ltb_spec i 0); [discriminate|]. assert (psi_z psi i = v) by (unfold psi_z; now apply nth_error_nth). subst v.
    assert (Z.to_nat i < length psi)%nat by (apply nth_error_Some; congruence).
    split; [intros sx p P; exact (net_add m sx _ q s _ _ p M Q P I E)|]. split; [exact (proj1 (proj2 (add_z_inv _ _ _ _ E)))|]. repeat split; try reflexivity; lia.
  Qed.
  Lemma put_bw_inv : forall psi i q s b b', in_mesh m q -> in_plane s -> put_bw w psi so i (face_index m (face_of q s)) (surface_to_normal s) b = Some b' ->
    (forall sx p, in_mesh m p -> net m sx (cb_sb b') p = (net m sx (cb_sb b) p + psi_z psi i * flow sx 1 s * (hit p q - hit p (move q s)))%R) /\ length (cb_sb b') = length (cb_sb b) /\
    cb_sf b' = cb_sf b /\ cb_vf b' = cb_vf b /\ cb_vb b' = cb_vb b /\ cb_n b' = cb_n b /\ cb_tf b' = cb_tf b /\ cb_tb b' = cb_tb b /\ 0 <= i < Z.of_nat (length psi) /\
    tally (w_cx w) (w_cy w) (-1) psi i (surface_to_normal s) (face_index m (face_of q s) + so) (cb_cur b) = Some (cb_cur b').
  Proof.
    intros psi i q s b b' Q I H. unfold put_bw in H. destruct (tally (w_cx w) _ _ _ _ _ _ _) as [c|] eqn:Ec; [|discriminate]. destruct (tally (w_fx w) _ _ _ _ _ _ _) as [f|] eqn:Ef; [|discriminate]. destruct (psi_at psi i) as [v|] eqn:Ep; [|discriminate]. destruct (add_z _ _ _) as [l|] eqn:E; [|discriminate].
    injection H as <-. cbn [cb_sf cb_sb cb_vf cb_vb cb_n cb_tf cb_tb cb_cur]. unfold psi_at in Ep. destruct (Z.ltb_spec i 0); [discriminate|]. assert (psi_z psi i = v) by (unfold psi_z; now apply nth_error_nth). subst v.
    assert (Z.to_nat i < length psi)%nat by (apply nth_error_Some; congruence).
    split; [intros sx p P; exact (net_add m sx _ q s _ _ p M Q P I E)|]. split; [exact (proj1 (proj2 (add_z_inv _ _ _ _ E)))|]. repeat split; try reflexivity; lia.
  Qed.

  (** Forward half of a record: what is done plus what is to come is what was to come. *)
  Lemma rec_fw_inv : forall psi sx nseg cell i q s n steps b i' b', at_cell m cell q (head_step s n ++ steps) -> path_ok m sx 1 1 nseg 1 (head_step s n ++ steps) q i -> (s = None -> steps = []) -> 0 <= n ->
    rec_fw m w d psi so cell i s n b = Some (i', b') -> exists q', at_cell m (next_cell m cell s) q' steps /\ path_ok m sx 1 1 nseg 1 steps q' i' /\
      (vdef (seg_fw d psi) (visits 1 steps q' i') -> vdef (seg_fw d psi) (visits 1 (head_step s n ++ steps) q i)) /\
      (forall p, in_mesh m p -> (net m sx (cb_sf b') p + path_out psi 1 steps q' i' p = net m sx (cb_sf b) p + path_out psi 1 (head_step s n ++ steps) q i p)%R /\
         (cell_at m (cb_vf b') p + vsum_at (fun k => t_f (seg_fw d psi k)) (visits 1 steps q' i') p = cell_at m (cb_vf b) p + vsum_at (fun k => t_f (seg_fw d psi k)) (visits 1 (head_step s n ++ steps) q i) p)%R /\
         (cell_at m (cb_n b') p + vsum_at (fun k => t_l (seg_fw d psi k)) (visits 1 steps q' i') p = cell_at m (cb_n b) p + vsum_at (fun k => t_l (seg_fw d psi k)) (visits 1 (head_step s n ++ steps) q i) p)%R /\
         (cell_at m (cb_tf b') p + vsum_at (fun k => t_r (seg_fw d psi k)) (visits 1 steps q' i') p = cell_at m (cb_tf b) p + vsum_at (fun k => t_r (seg_fw d psi k)) (visits 1 (head_step s n ++ steps) q i) p)%R) /\
      cb_sb b' = cb_sb b /\ cb_vb b' = cb_vb b /\ cb_tb b' = cb_tb b /\
      match s with Some t => i' = i + n /\ q' = move q t /\ tally (w_cx w) (w_cy w) 1 psi (i + n) (surface_to_normal t) (face_index m (face_of q t) + so) (cb_cur b) = Some (cb_cur b') | None => i' = i /\ q' = q /\ cb_cur b' = cb_cur b end.
  Proof.
    intros psi sx nseg cell i q s n steps b i' b' Ac Po Sn Hn H. unfold rec_fw in H. destruct s as [t|]; cbn [head_step app] in *.
    - destruct Ac as [X| ->]; [discriminate|]. cbn [path_ok] in Po. destruct Po as (Q & I & F & Hi & Po). destruct (fw_vol _ _ _ _ _ _ _ _) as [[[[i1 v] nrm] ts]|] eqn:E; [|discriminate]. rewrite coarse_surf_correct in H by auto.
      destruct (put_fw _ _ _ _ _ _ _) as [b1|] eqn:Ep; [|discriminate]. injection H as <- <-. destruct (fw_vol_inv _ _ _ _ _ _ _ _ _ _ _ _ E) as (-> & D & V). rewrite Z2Nat.id in * by lia.
      destruct (put_fw_inv _ _ _ _ _ _ Q I Ep) as (Nt & _ & B1 & B2 & B3 & B4 & B5 & B6 & _ & Tl). cbn [cb_sf cb_sb cb_vf cb_vb cb_n cb_tf cb_tb cb_cur] in *.
      replace (i + 1 * n) with (i + n) in * by ring. exists (move q t). split; [|split; [exact Po|split; [|split; [|repeat split; auto]]]].
      + destruct steps as [|[n' t'] steps]; [now left|]. right. destruct Po as (Q' & _). unfold next_cell. pose proof (coarse_cell_bounds m q Q). destruct (Z.ltb_spec (coarse_cell m q) 0); [lia|]. rewrite coarse_neighbor_spec by auto. now apply cell_or_none_in.
      + intros Dv u k [<-|Iu] K; [|apply (Dv u k); [replace (i + n) with (i + 1 * n) by ring; exact Iu|exact K]]. cbn [fst snd] in K. apply D. lia.
      + intros p P. rewrite (Nt sx p P). rewrite B2, B4, B5. cbn [path_out visits]. replace (i + 1 * n) with (i + n) in * by ring. unfold vsum_at. cbn [lsum fst snd]. fold (vsum_at (fun k => t_f (seg_fw d psi k)) (visits 1 steps (move q t) (i + n)) p). fold (vsum_at (fun k => t_l (seg_fw d psi k)) (visits 1 steps (move q t) (i + n)) p). fold (vsum_at (fun k => t_r (seg_fw d psi k)) (visits 1 steps (move q t) (i + n)) p).
        replace (Z.min i (i + n)) with i by lia. replace (Z.abs (i + n - i)) with n by lia. unfold cell_at. pose proof (coarse_cell_bounds m p P) as Bp. destruct (V (coarse_cell m p) ltac:(lia)) as (V1 & V2 & V3). rewrite V1, V2, V3. rewrite !(cell_hit m p q _ P Q). rewrite F. repeat split; ring.
    - injection H as <- <-. rewrite (Sn eq_refl) in *. exists q. split; [now left|]. split; [exact Po|]. split; [auto|]. split; [intros p P; repeat split; reflexivity|]. auto 6.
  Qed.
  Lemma rec_bw_inv : forall psi sx nseg cell i q s n steps b i' b', at_cell m cell q (head_step s n ++ steps) -> path_ok m sx 1 (- (1)) nseg (-1) (head_step s n ++ steps) q i -> (s = None -> steps = []) -> 0 <= n ->
    rec_bw m w d psi so cell i s n b = Some (i', b') -> exists q', at_cell m (next_cell m cell s) q' steps /\ path_ok m sx 1 (- (1)) nseg (-1) steps q' i' /\
      (vdef (seg_bw d psi) (visits (-1) steps q' i') -> vdef (seg_bw d psi) (visits (-1) (head_step s n ++ steps) q i)) /\
      (forall p, in_mesh m p -> (net m sx (cb_sb b') p - path_out psi (-1) steps q' i' p = net m sx (cb_sb b) p - path_out psi (-1) (head_step s n ++ steps) q i p)%R /\
         (cell_at m (cb_vb b') p + vsum_at (fun k => t_f (seg_bw d psi k)) (visits (-1) steps q' i') p = cell_at m (cb_vb b) p + vsum_at (fun k => t_f (seg_bw d psi k)) (visits (-1) (head_step s n ++ steps) q i) p)%R /\
         (cell_at m (cb_tb b') p + vsum_at (fun k => t_r (seg_bw d psi k)) (visits (-1) steps q' i') p = cell_at m (cb_tb b) p + vsum_at (fun k => t_r (seg_bw d psi k)) (visits (-1) (head_step s n ++ steps) q i) p)%R) /\
      cb_sf b' = cb_sf b /\ cb_vf b' = cb_vf b /\ cb_tf b' = cb_tf b /\ cb_n b' = cb_n b /\
      match s with Some t => i' = i - n /\ q' = move q t /\ tally (w_cx w) (w_cy w) (-1) psi (i - n) (surface_to_normal t) (face_index m (face_of q t) + so) (cb_cur b) = Some (cb_cur b') | None => i' = i /\ q' = q /\ cb_cur b' = cb_cur b end.
  Proof.
    intros psi sx nseg cell i q s n steps b i' b' Ac Po Sn Hn H. unfold rec_bw in H. destruct s as [t|]; cbn [head_step app] in *.
    - destruct Ac as [X| ->]; [discriminate|]. cbn [path_ok] in Po. destruct Po as (Q & I & F & Hi & Po). destruct (bw_vol _ _ _ _ _ _ _) as [[[i1 v] ts]|] eqn:E; [|discriminate]. rewrite coarse_surf_correct in H by auto.
      destruct (put_bw _ _ _ _ _ _ _) as [b1|] eqn:Ep; [|discriminate]. injection H as <- <-. destruct (bw_vol_inv _ _ _ _ _ _ _ _ _ _ E) as (-> & D & V). rewrite Z2Nat.id in * by lia.
      destruct (put_bw_inv _ _ _ _ _ _ Q I Ep) as (Nt & _ & B1 & B2 & B3 & B4 & B5 & B6 & _ & Tl). cbn [cb_sf cb_sb cb_vf cb_vb cb_n cb_tf cb_tb cb_cur] in *.
      replace (i + -1 * n) with (i - n) in * by ring. exists (move q t). split; [|split; [exact Po|split; [|split; [|repeat split; auto]]]].
      + destruct steps as [|[n' t'] steps]; [now left|]. right. destruct Po as (Q' & _). unfold next_cell. pose proof (coarse_cell_bounds m q Q). destruct (Z.ltb_spec (coarse_cell m q) 0); [lia|]. rewrite coarse_neighbor_spec by auto. now apply cell_or_none_in.
      + intros Dv u k [<-|Iu] K; [|apply (Dv u k); [replace (i - n) with (i + -1 * n) by ring; exact Iu|exact K]]. cbn [fst snd] in K. apply D. lia.
      + intros p P. rewrite (Nt sx p P). rewrite B3, B6. cbn [path_out visits]. replace (i + -1 * n) with (i - n) in * by ring. unfold vsum_at. cbn [lsum fst snd]. fold (vsum_at (fun k => t_f (seg_bw d psi k)) (visits (-1) steps (move q t) (i - n)) p). fold (vsum_at (fun k => t_r (seg_bw d psi k)) (visits (-1) steps (move q t) (i - n)) p).
        replace (Z.min i (i - n)) with (i - n) by lia. replace (Z.abs (i - n - i)) with n by lia. unfold cell_at. pose proof (coarse_cell_bounds m p P) as Bp. destruct (V (coarse_cell m p) ltac:(lia)) as (V1 & V3). rewrite V1, V3. rewrite !(cell_hit m p q _ P Q). rewrite F. repeat split; ring.
    - injection H as <- <-. rewrite (Sn eq_refl) in *. exists q. split; [now left|]. split; [exact Po|]. split; [auto|]. split; [intros p P; repeat split; reflexivity|]. auto 8.
  Qed.
End Halves.
