(** Properties of the correction factors of the 2D3D method. *)
From Coq Require Import List Lia Bool Reals ZArith Lra Psatz.
From Verif Require Import RUtil ListUtil McModel MeshModel MeshSpec MeshProofs StdAlg AngModel BcModel CoreModel CoreProofs MocModel MocProofs CurModel CurProofs CurProps SnModel CorwModel CorwProofs.
Import ListNotations.
Open Scope Z_scope.

(** ** C119 *)
(** A ray's coarse data fit the mesh: a ray of forward x sign [sx] goes from boundary to boundary, both ways. *)
Definition start_fw (m : Mesh) (ray : CRay) : Position := coarse_position m (cr_cell_fw ray).
Definition start_bw (m : Mesh) (ray : CRay) : Position := coarse_position m (cr_cell_bw ray).
Definition ray_fits (m : Mesh) (sx : R) (ray : CRay) : Prop :=
  0 <= cr_nseg ray /\ noop_last (cr_recs ray) /\ Forall (fun r => 0 <= rc_nfw r /\ 0 <= rc_nbw r) (cr_recs ray) /\
  (exists s, entry_ok m sx 1 1 (cr_cell_fw ray) (cr_surf_fw ray) (start_fw m ray) s) /\ (exists s, entry_ok m sx 1 (- (1)) (cr_cell_bw ray) (cr_surf_bw ray) (start_bw m ray) s) /\
  path_ok m sx 1 1 (cr_nseg ray) 1 (fw_steps (cr_recs ray)) (start_fw m ray) 0 /\ path_ok m sx 1 (- (1)) (cr_nseg ray) (-1) (bw_steps (cr_recs ray)) (start_bw m ray) (cr_nseg ray).
Definition visits_fw (m : Mesh) (ray : CRay) := visits 1 (fw_steps (cr_recs ray)) (start_fw m ray) 0.
Definition visits_bw (m : Mesh) (ray : CRay) := visits (-1) (bw_steps (cr_recs ray)) (start_bw m ray) (cr_nseg ray).
(** What the sweep of a ray yields: the fluxes and the attenuations. *)
Definition swept (d : RayD) (psi1 psi2 : list R) : Prop := rd_true d = rd_split d /\
  Forall2 (fun sg e => exists i, seg_etau (rd_split d) (rd_first d) (rd_rst d) sg = Some (i, e)) (rd_segs d) (rd_etau d) /\
  exists r in1 in2 o, ray_segs r = rd_segs d /\ sweep_ray (rd_split d) (rd_q d) (rd_first d) (rd_rst d) in1 in2 r = Some o /\ psi1 = ro_psi1 o /\ psi2 = ro_psi2 o.
(** Length of a segment in space, and its source: length times source times cross section. *)
Definition seg_t (d : RayD) (i : Z) : R := match nth_error (rd_segs d) (Z.to_nat i) with Some (_, len) => (rd_rst d * len)%R | None => 0%R end.
Definition seg_src (d : RayD) (i : Z) : R :=
  match nth_error (rd_segs d) (Z.to_nat i) with Some (r, len) => (rd_rst d * len * nth (r + rd_first d) (rd_q d) 0 * nth (r + rd_first d) (rd_true d) 0)%R | None => 0%R end.

Lemma track_nth : forall q es psi ds ps k i e, track q es psi = Some (ds, ps) -> nth_error es k = Some (i, e) -> exists v, nth_error q i = Some v /\ (nth (S k) ps 0 = nth k ps 0 - (nth k ps 0 - v) * e)%R.
Proof.
  intros q. induction es as [|[j f] es IH]; intros psi ds ps k i e T E; [destruct k; discriminate|]. cbn [track] in T. destruct (nth_error q j) as [b|] eqn:Eb; [|discriminate]. destruct (track q es _) as [[d p]|] eqn:Et; [|discriminate]. injection T as <- <-.
  destruct k as [|k]; cbn [nth_error] in E.
  - injection E as -> ->. exists b. split; [exact Eb|]. destruct (track_shape _ _ _ _ _ Et) as (_ & Lp & Hp). destruct p as [|p0 p]; [discriminate|]. cbn in Hp. subst p0. cbn [nth]. reflexivity.
  - destruct (IH _ _ _ _ _ _ Et E) as (v & Ev & X). exists v. split; [exact Ev|]. exact X.
Qed.
Lemma Forall2_nth2 : forall {A B} (P : A -> B -> Prop) l1 l2 k a b, Forall2 P l1 l2 -> nth_error l1 k = Some a -> nth_error l2 k = Some b -> P a b.
Proof. intros A B P l1 l2 k a b F. revert k. induction F as [|x y l1 l2 H F IH]; intros [|k] E1 E2; cbn in *; try discriminate; [congruence|eauto]. Qed.
Lemma nth_error_rev : forall {A} (l : list A) k, (k < length l)%nat -> nth_error (rev l) k = nth_error l (length l - 1 - k).
Proof.
  intros A l k H. destruct (nth_error l (length l - 1 - k)) as [a|] eqn:E.
  - erewrite nth_error_nth' with (d := a) by (rewrite rev_length; lia). rewrite rev_nth by lia. replace (length l - S k)%nat with (length l - 1 - k)%nat by lia. f_equal. now apply nth_error_nth.
  - apply nth_error_None in E. lia.
Qed.

(** The backward fluxes follow the attenuations. *)
Lemma swept_bw : forall d psi1 psi2 k r len e v, swept d psi1 psi2 -> nth_error (rd_segs d) k = Some (r, len) -> nth_error (rd_etau d) k = Some e -> nth_error (rd_q d) (r + rd_first d) = Some v ->
  (nth k psi2 0 = nth (S k) psi2 0 - (nth (S k) psi2 0 - v) * e)%R /\ length psi2 = S (length (rd_segs d)).
Proof.
  intros d psi1 psi2 k r len e v (Tr & Fe & ry & in1 & in2 & o & Sg & Sw & _ & ->) Ek Ee Ev. destruct (sweep_ray_inv _ _ _ _ _ _ _ _ Sw) as (es & p2 & F & T1 & T2 & P2). rewrite Sg in F.
  assert (Ls : length es = length (rd_segs d)) by (clear - F; induction F; cbn; congruence). destruct (track_shape _ _ _ _ _ T2) as (_ & Lp & _). rewrite rev_length in Lp.
  assert (K : (k < length (rd_segs d))%nat) by (apply nth_error_Some; congruence). destruct (nth_error es k) as [[i e']|] eqn:Es; [|apply nth_error_None in Es; lia].
  pose proof (Forall2_nth2 _ _ _ _ _ _ F Ek Es) as H1. cbn beta in H1. destruct (Forall2_nth2 _ _ _ _ _ _ Fe Ek Ee) as (i' & H2). rewrite H1 in H2. injection H2 as <- ->.
  assert (i = r + rd_first d)%nat by (unfold seg_etau in H1; cbn [fst snd] in H1; destruct (nth_error (rd_split d) (r + rd_first d)); [|discriminate]; destruct (moc_exp _); [|discriminate]; now injection H1 as <- _). subst i.
  rewrite P2, rev_length. split; [|lia]. rewrite !rev_nth by lia. replace (length p2 - S k)%nat with (S (length es - 1 - k)) by lia. replace (length p2 - S (S k))%nat with (length es - 1 - k)%nat by lia.
  destruct (track_nth _ _ _ _ _ (length es - 1 - k)%nat (r + rd_first d)%nat e T2) as (v' & Ev' & X); [rewrite nth_error_rev by lia; rewrite <- Es; f_equal; lia|]. rewrite Ev in Ev'. injection Ev' as <-. exact X.
Qed.

Lemma psi_at_z : forall psi i v, psi_at psi i = Some v -> 0 <= i /\ psi_z psi i = v.
Proof. intros psi i v H. unfold psi_at in H. destruct (Z.ltb_spec i 0); [discriminate|]. split; [lia|]. unfold psi_z. now apply nth_error_nth. Qed.
Lemma rdiv_inv : forall a b c, rdiv a b = Some c -> b <> 0%R /\ c = (a / b)%R.
Proof. intros a b c H. unfold rdiv in H. destruct (Reqb_spec b 0); [discriminate|]. injection H as <-. auto. Qed.

Lemma seg_fw_bal : forall d psi1 psi2 k, swept d psi1 psi2 -> seg_fw d psi1 k <> None -> t_r (seg_fw d psi1 k) = (seg_src d k + 1 * (psi_z psi1 k - psi_z psi1 (k + 1)))%R /\ t_l (seg_fw d psi1 k) = seg_t d k.
Proof.
  intros d psi1 psi2 k (Tr & _) H. unfold seg_fw, seg_src, seg_t in *. destruct (Z.ltb_spec k 0); [congruence|]. destruct (nth_error (rd_segs d) (Z.to_nat k)) as [[r len]|]; [|congruence].
  destruct (nth_error (rd_split d) _) as [x|] eqn:Ex; [|congruence]. destruct (nth_error (rd_true d) _) as [xt|] eqn:Et; [|congruence]. destruct (nth_error (rd_q d) _) as [q|] eqn:Eq; [|congruence].
  destruct (psi_at psi1 k) as [a|] eqn:Ea; [|congruence]. destruct (psi_at psi1 (k + 1)) as [b|] eqn:Eb; [|congruence]. destruct (rdiv _ _) as [u|] eqn:Eu; [|congruence]. apply rdiv_inv in Eu. destruct Eu as [Nx ->].
  apply psi_at_z in Ea. apply psi_at_z in Eb. destruct Ea as [_ ->], Eb as [_ ->]. cbn [t_r t_l]. rewrite (nth_error_nth _ _ 0%R Eq), (nth_error_nth _ _ 0%R Et). rewrite Tr in Et. rewrite Ex in Et. injection Et as ->. split; [field; exact Nx|reflexivity].
Qed.
Lemma seg_bw_bal : forall d psi1 psi2 k, swept d psi1 psi2 -> seg_bw d psi2 k <> None -> t_r (seg_bw d psi2 k) = (seg_src d k + (-1) * (psi_z psi2 k - psi_z psi2 (k + 1)))%R.
Proof.
  intros d psi1 psi2 k Sw H. pose proof (proj1 Sw) as Tr. unfold seg_bw, seg_src in *. destruct (Z.ltb_spec k 0); [congruence|]. destruct (nth_error (rd_segs d) (Z.to_nat k)) as [[r len]|] eqn:Es; [|congruence].
  destruct (nth_error (rd_split d) _) as [x|] eqn:Ex; [|congruence]. destruct (nth_error (rd_true d) _) as [xt|] eqn:Et; [|congruence]. destruct (nth_error (rd_q d) _) as [q|] eqn:Eq; [|congruence]. destruct (nth_error (rd_etau d) _) as [e|] eqn:Ee; [|congruence].
  destruct (psi_at psi2 (k + 1)) as [b|] eqn:Eb; [|congruence]. destruct (rdiv _ _) as [u|] eqn:Eu; [|congruence]. apply rdiv_inv in Eu. destruct Eu as [Nx ->].
  apply psi_at_z in Eb. destruct Eb as [_ Eb]. cbn [t_r]. rewrite (nth_error_nth _ _ 0%R Eq), (nth_error_nth _ _ 0%R Et). rewrite Tr in Et. rewrite Ex in Et. injection Et as ->.
  destruct (swept_bw _ _ _ _ _ _ _ _ Sw Es Ee Eq) as [X _]. unfold psi_z in *. rewrite X. replace (Z.to_nat (k + 1)) with (S (Z.to_nat k)) in * by lia. rewrite Eb. field. exact Nx.
Qed.

(** Sums over visits. *)
Lemma vsum_bal : forall f g (psi : list R) c vs p, (forall u k, In u vs -> Z.min (snd (fst u)) (snd u) <= k < Z.max (snd (fst u)) (snd u) -> f k = (g k + c * (psi_z psi k - psi_z psi (k + 1)))%R) ->
  (forall u, In u vs -> (c = 1%R /\ snd (fst u) <= snd u) \/ (c = (-1)%R /\ snd u <= snd (fst u))) -> (vsum_at f vs p + visit_sum psi vs p = vsum_at g vs p)%R.
Proof.
  intros f g psi c vs p. rewrite visit_sum_hit. unfold vsum_at. induction vs as [|u vs IH]; intros H D; cbn [lsum]; [lra|].
  pose proof (IH (fun u' k I => H u' k (or_intror I)) (fun u' I => D u' (or_intror I))) as X.
  assert (Y : (span f (Z.min (snd (fst u)) (snd u)) (Z.to_nat (Z.abs (snd u - snd (fst u)))) + (psi_z psi (snd u) - psi_z psi (snd (fst u))) = span g (Z.min (snd (fst u)) (snd u)) (Z.to_nat (Z.abs (snd u - snd (fst u)))))%R); [|rewrite <- X, <- Y; ring].
  rewrite (span_tele f g (psi_z psi) c); [|intros k K; apply (H u k); [now left|lia]]. destruct (D u (or_introl eq_refl)) as [[-> L]|[-> L]].
  - replace (Z.min (snd (fst u)) (snd u)) with (snd (fst u)) by lia. replace (snd (fst u) + Z.of_nat (Z.to_nat (Z.abs (snd u - snd (fst u))))) with (snd u) by lia. lra.
  - replace (Z.min (snd (fst u)) (snd u)) with (snd u) by lia. replace (snd u + Z.of_nat (Z.to_nat (Z.abs (snd u - snd (fst u))))) with (snd (fst u)) by lia. lra.
Qed.
Lemma vsum_ext : forall f g vs p, (forall u k, In u vs -> Z.min (snd (fst u)) (snd u) <= k < Z.max (snd (fst u)) (snd u) -> f k = g k) -> vsum_at f vs p = vsum_at g vs p.
Proof. intros f g vs p H. unfold vsum_at. apply lsum_ext. intros u I. f_equal. apply span_ext. intros k K. apply (H u k I). lia. Qed.
Lemma visits_dir : forall dir steps q i u, Forall (fun st => 0 <= fst st) steps -> In u (visits dir steps q i) -> (dir = 1 -> snd (fst u) <= snd u) /\ (dir = -1 -> snd u <= snd (fst u)).
Proof.
  intros dir. induction steps as [|[n s] steps IH]; intros q i u F I; [destruct I|]. inversion F as [|? ? F1 F2]; subst. cbn [fst] in F1. destruct I as [<-|I]; [cbn [fst snd]; split; intros ->; lia|]. exact (IH _ _ _ F2 I).
Qed.
Lemma steps_counts : forall recs, Forall (fun r => 0 <= rc_nfw r /\ 0 <= rc_nbw r) recs -> Forall (fun st => 0 <= fst st) (fw_steps recs) /\ Forall (fun st => 0 <= fst st) (bw_steps recs).
Proof.
  intros recs F. induction F as [|r recs [H1 H2] F [A B]]; [split; constructor|].
  change (fw_steps (r :: recs)) with (head_step (rc_fw r) (rc_nfw r) ++ fw_steps recs). change (bw_steps (r :: recs)) with (head_step (rc_bw r) (rc_nbw r) ++ bw_steps recs).
  split; apply Forall_app; split; auto; [destruct (rc_fw r)|destruct (rc_bw r)]; cbn; auto.
Qed.

Section Rays.
  Variables (m : Mesh) (plane : Z) (w : Wts).
  Hypothesis M : mesh_ok m.

  Lemma cc_walk_inv : forall d psi1 psi2 sx nseg recs cf cb qf qb jf jb b b', noop_last recs -> Forall (fun r => 0 <= rc_nfw r /\ 0 <= rc_nbw r) recs ->
    at_cell m cf qf (fw_steps recs) -> at_cell m cb qb (bw_steps recs) -> path_ok m sx 1 1 nseg 1 (fw_steps recs) qf jf -> path_ok m sx 1 (- (1)) nseg (-1) (bw_steps recs) qb jb ->
    cc_walk m w d psi1 psi2 (n_surf_plane m * plane) recs cf cb jf jb b = Some b' ->
    vdef (seg_fw d psi1) (visits 1 (fw_steps recs) qf jf) /\ vdef (seg_bw d psi2) (visits (-1) (bw_steps recs) qb jb) /\
    forall p, in_mesh m p -> net m sx (cb_sf b') p = (net m sx (cb_sf b) p + path_out psi1 1 (fw_steps recs) qf jf p)%R /\ net m sx (cb_sb b') p = (net m sx (cb_sb b) p - path_out psi2 (-1) (bw_steps recs) qb jb p)%R /\
      cell_at m (cb_vf b') p = (cell_at m (cb_vf b) p + vsum_at (fun k => t_f (seg_fw d psi1 k)) (visits 1 (fw_steps recs) qf jf) p)%R /\ cell_at m (cb_n b') p = (cell_at m (cb_n b) p + vsum_at (fun k => t_l (seg_fw d psi1 k)) (visits 1 (fw_steps recs) qf jf) p)%R /\
      cell_at m (cb_tf b') p = (cell_at m (cb_tf b) p + vsum_at (fun k => t_r (seg_fw d psi1 k)) (visits 1 (fw_steps recs) qf jf) p)%R /\
      cell_at m (cb_vb b') p = (cell_at m (cb_vb b) p + vsum_at (fun k => t_f (seg_bw d psi2 k)) (visits (-1) (bw_steps recs) qb jb) p)%R /\ cell_at m (cb_tb b') p = (cell_at m (cb_tb b) p + vsum_at (fun k => t_r (seg_bw d psi2 k)) (visits (-1) (bw_steps recs) qb jb) p)%R.
  Proof.
    intros d psi1 psi2 sx nseg. induction recs as [|r recs IH]; intros cf cb qf qb jf jb b b' Nl Fc Af Ab Pf Pb H; cbn [cc_walk] in H.
    - injection H as <-. split; [intros ? ? []|]. split; [intros ? ? []|]. intros p _. cbn [fw_steps bw_steps flat_map path_out visits]. unfold vsum_at. cbn [lsum]. repeat split; lra.
    - destruct Nl as (N1 & N2 & Nl). inversion Fc as [|? ? [C1 C2] Fc']; subst.
      change (fw_steps (r :: recs)) with (head_step (rc_fw r) (rc_nfw r) ++ fw_steps recs) in *. change (bw_steps (r :: recs)) with (head_step (rc_bw r) (rc_nbw r) ++ bw_steps recs) in *.
      destruct (rec_fw _ _ _ _ _ _ _ _ _ _) as [[j1 b1]|] eqn:E1; [|discriminate]. destruct (rec_bw _ _ _ _ _ _ _ _ _ _) as [[j2 b2]|] eqn:E2; [|discriminate].
      destruct (rec_fw_inv m plane w d M psi1 sx nseg cf jf qf _ _ _ b j1 b1 Af Pf N1 C1 E1) as (q1 & A1 & P1 & D1 & S1 & K1 & K2 & K3 & _).
      destruct (rec_bw_inv m plane w d M psi2 sx nseg cb jb qb _ _ _ b1 j2 b2 Ab Pb N2 C2 E2) as (q2 & A2 & P2 & D2 & S2 & L1 & L2 & L3 & L4 & _).
      destruct (IH _ _ _ _ _ _ _ _ Nl Fc' A1 A2 P1 P2 H) as (V1 & V2 & X). split; [exact (D1 V1)|]. split; [exact (D2 V2)|]. intros p P. destruct (X p P) as (X1 & X2 & X3 & X4 & X5 & X6 & X7). destruct (S1 p P) as (Y1 & Y2 & Y3 & Y4). destruct (S2 p P) as (Z1 & Z2 & Z3).
      rewrite L1 in X1. rewrite L2 in X3. rewrite L4 in X4. rewrite L3 in X5. rewrite K1 in Z1. rewrite K2 in Z2. rewrite K3 in Z3. repeat split; lra.
  Qed.

  Lemma start_eq : forall wx wy W cell surf s, entry_ok m wx wy W cell surf (coarse_position m cell) s -> cell = coarse_cell m (coarse_position m cell).
  Proof. intros wx wy W cell surf s H. unfold entry_ok in H. tauto. Qed.

  (** Everything a ray leaves in the buffers. *)
  Lemma ray_sums : forall d psi1 psi2 sx ray b b', ray_fits m sx ray -> 0 < nz m -> cc_post_ray m plane w d psi1 psi2 ray b = Some b' ->
    vdef (seg_fw d psi1) (visits_fw m ray) /\ vdef (seg_bw d psi2) (visits_bw m ray) /\
    forall p, in_mesh m p -> net m sx (cb_sf b') p = (net m sx (cb_sf b) p + visit_sum psi1 (visits_fw m ray) p)%R /\ net m sx (cb_sb b') p = (net m sx (cb_sb b) p - visit_sum psi2 (visits_bw m ray) p)%R /\
      cell_at m (cb_vf b') p = (cell_at m (cb_vf b) p + vsum_at (fun k => t_f (seg_fw d psi1 k)) (visits_fw m ray) p)%R /\ cell_at m (cb_n b') p = (cell_at m (cb_n b) p + vsum_at (fun k => t_l (seg_fw d psi1 k)) (visits_fw m ray) p)%R /\
      cell_at m (cb_tf b') p = (cell_at m (cb_tf b) p + vsum_at (fun k => t_r (seg_fw d psi1 k)) (visits_fw m ray) p)%R /\
      cell_at m (cb_vb b') p = (cell_at m (cb_vb b) p + vsum_at (fun k => t_f (seg_bw d psi2 k)) (visits_bw m ray) p)%R /\ cell_at m (cb_tb b') p = (cell_at m (cb_tb b) p + vsum_at (fun k => t_r (seg_bw d psi2 k)) (visits_bw m ray) p)%R.
  Proof.
    intros d psi1 psi2 sx ray b b' (Hn & Nl & Fc & (sf & Ef) & (sb & Eb) & Pf & Pb) Nz H. unfold cc_post_ray in H. cbn zeta in H.
    destruct (lift_entry m _ _ _ _ _ _ _ 0 M ltac:(lia) Ef) as (Qf & Cf & Sf & Nf & Of). destruct (lift_entry m _ _ _ _ _ _ _ 0 M ltac:(lia) Eb) as (Qb & Cb & Sb & Nb & Ob).
    assert (Lf : lift 0 (start_fw m ray) = start_fw m ray) by (destruct Ef as (_ & _ & _ & _ & Z0 & _); destruct (start_fw m ray) as [x y z]; cbn in *; now subst z).
    assert (Lb : lift 0 (start_bw m ray) = start_bw m ray) by (destruct Eb as (_ & _ & _ & _ & Z0 & _); destruct (start_bw m ray) as [x y z]; cbn in *; now subst z).
    rewrite Lf in *. rewrite Lb in *. rewrite Z.mul_0_r, Z.add_0_r in *. destruct Ef as (_ & If & _ & Ff & _). destruct Eb as (_ & Ib & _ & Fb & _). rewrite Nf, Nb, Sf, Sb in H.
    destruct (put_fw _ _ _ _ _ _ _) as [b1|] eqn:E1; [|discriminate]. destruct (put_bw _ _ _ _ _ _ _) as [b2|] eqn:E2; [|discriminate].
    destruct (put_fw_inv m plane w M psi1 _ _ _ _ _ Qf If E1) as (O1 & _ & U1 & U2 & U3 & U4 & U5 & U6 & _). destruct (put_bw_inv m plane w M psi2 _ _ _ _ _ Qb Ib E2) as (O2 & _ & T1 & T2 & T3 & T4 & T5 & T6 & _).
    destruct (cc_walk_inv d psi1 psi2 sx (cr_nseg ray) (cr_recs ray) _ _ (start_fw m ray) (start_bw m ray) _ _ b2 b' Nl Fc ltac:(right; exact Cf) ltac:(right; exact Cb) Pf Pb H) as (V1 & V2 & X).
    split; [exact V1|]. split; [exact V2|]. intros p P. destruct (X p P) as (X1 & X2 & X3 & X4 & X5 & X6 & X7). unfold visits_fw, visits_bw. rewrite !visit_sum_hit.
    rewrite <- (path_visits m sx 1 1 (cr_nseg ray) psi1 1 _ _ _ p P Pf), <- (path_visits m sx 1 (- (1)) (cr_nseg ray) psi2 (-1) _ _ _ p P Pb).
    assert (H1 : hit p (move (start_fw m ray) sf) = 0%R) by (unfold hit; destruct (pos_eqb_spec p (move (start_fw m ray) sf)) as [->|]; [contradiction|reflexivity]).
    assert (H2 : hit p (move (start_bw m ray) sb) = 0%R) by (unfold hit; destruct (pos_eqb_spec p (move (start_bw m ray) sb)) as [->|]; [contradiction|reflexivity]).
    pose proof (O1 sx p P) as O1'. pose proof (O2 sx p P) as O2'. rewrite Ff, H1 in O1'. rewrite Fb, H2 in O2'. rewrite T1 in X1. rewrite T2, U2 in X3. rewrite T4, U4 in X4. rewrite T5, U5 in X5. rewrite T3, U3 in X6. rewrite T6, U6 in X7. rewrite U1 in O2'. repeat split; lra.
  Qed.
End Rays.

(** Balance of a ray: in every cell, and both ways, what a swept ray adds to the collision sum plus what it adds to the sum
    over the faces it leaves through less the faces it enters through is its source along its segments in the cell; and its
    segments' lengths are added up. *)
Theorem C119_ray : forall m plane w d psi1 psi2 sx ray b b' p, mesh_ok m -> in_mesh m p -> ray_fits m sx ray -> swept d psi1 psi2 -> cc_post_ray m plane w d psi1 psi2 ray b = Some b' ->
  (cell_at m (cb_tf b') p + net m sx (cb_sf b') p = cell_at m (cb_tf b) p + net m sx (cb_sf b) p + vsum_at (seg_src d) (visits_fw m ray) p)%R /\
  (cell_at m (cb_tb b') p - net m sx (cb_sb b') p = cell_at m (cb_tb b) p - net m sx (cb_sb b) p + vsum_at (seg_src d) (visits_bw m ray) p)%R /\
  cell_at m (cb_n b') p = (cell_at m (cb_n b) p + vsum_at (seg_t d) (visits_fw m ray) p)%R.
Proof.
  intros m plane w d psi1 psi2 sx ray b b' p M P Ft Sw H. assert (Nz : 0 < nz m) by (unfold in_mesh in P; lia).
  destruct (ray_sums m plane w M d psi1 psi2 sx ray b b' Ft Nz H) as (V1 & V2 & X). destruct (X p P) as (X1 & X2 & X3 & X4 & X5 & X6 & X7). destruct Ft as (_ & _ & Fc & _). destruct (steps_counts _ Fc) as [Cf Cb].
  assert (A : (vsum_at (fun k => t_r (seg_fw d psi1 k)) (visits_fw m ray) p + visit_sum psi1 (visits_fw m ray) p = vsum_at (seg_src d) (visits_fw m ray) p)%R).
  { apply (vsum_bal _ _ psi1 1); [intros u k I K; now apply (seg_fw_bal d psi1 psi2 k Sw), (V1 u)|]. intros u I. left. split; [reflexivity|]. now apply (visits_dir _ _ _ _ u Cf I). }
  assert (B : (vsum_at (fun k => t_r (seg_bw d psi2 k)) (visits_bw m ray) p + visit_sum psi2 (visits_bw m ray) p = vsum_at (seg_src d) (visits_bw m ray) p)%R).
  { apply (vsum_bal _ _ psi2 (-1)); [intros u k I K; now apply (seg_bw_bal d psi1 psi2 k Sw), (V2 u)|]. intros u I. right. split; [reflexivity|]. now apply (visits_dir _ _ _ _ u Cb I). }
  assert (C : vsum_at (fun k => t_l (seg_fw d psi1 k)) (visits_fw m ray) p = vsum_at (seg_t d) (visits_fw m ray) p).
  { apply vsum_ext. intros u k I K. now apply (seg_fw_bal d psi1 psi2 k Sw), (V1 u). }
  repeat split; lra.
Qed.
Print Assumptions C119_ray.

(** All rays of an angle. *)
Definition fit (m : Mesh) (sx : R) (r : Swept) : Prop := let '(d, p1, p2, ray) := r in ray_fits m sx ray /\ swept d p1 p2.
Definition source_fw (m : Mesh) (rays : list Swept) (p : Position) : R := lsum (fun r : Swept => let '(d, _, _, ray) := r in vsum_at (seg_src d) (visits_fw m ray) p) rays.
Definition source_bw (m : Mesh) (rays : list Swept) (p : Position) : R := lsum (fun r : Swept => let '(d, _, _, ray) := r in vsum_at (seg_src d) (visits_bw m ray) p) rays.
Definition length_in (m : Mesh) (rays : list Swept) (p : Position) : R := lsum (fun r : Swept => let '(d, _, _, ray) := r in vsum_at (seg_t d) (visits_fw m ray) p) rays.

Lemma rays_sums : forall m plane w sx rays b b' p, mesh_ok m -> in_mesh m p -> Forall (fit m sx) rays -> cc_rays m plane w rays b = Some b' ->
  (cell_at m (cb_tf b') p + net m sx (cb_sf b') p = cell_at m (cb_tf b) p + net m sx (cb_sf b) p + source_fw m rays p)%R /\
  (cell_at m (cb_tb b') p - net m sx (cb_sb b') p = cell_at m (cb_tb b) p - net m sx (cb_sb b) p + source_bw m rays p)%R /\
  cell_at m (cb_n b') p = (cell_at m (cb_n b) p + length_in m rays p)%R.
Proof.
  intros m plane w sx rays. induction rays as [|[[[d p1] p2] ray] rays IH]; intros b b' p M P F H; cbn [cc_rays] in H.
  - injection H as <-. unfold source_fw, source_bw, length_in. cbn [lsum]. repeat split; lra.
  - inversion F as [|? ? F0 F']; subst. unfold fit in F0. destruct F0 as [F1 F2]. destruct (cc_post_ray _ _ _ _ _ _ _ _) as [b1|] eqn:E; [|discriminate]. destruct (C119_ray m plane w d p1 p2 sx ray b b1 p M P F1 F2 E) as (A1 & A2 & A3). destruct (IH b1 b' p M P F' H) as (B1 & B2 & B3).
    unfold source_fw, source_bw, length_in in *. cbn [lsum]. repeat split; lra.
Qed.
Lemma at0_zeros : forall n k, at0 (repeat 0%R n) k = 0%R.
Proof. induction n as [|n IH]; intros [|k]; cbn; auto. apply IH. Qed.
Lemma net_zeros : forall m sx n p, net m sx (repeat 0%R n) p = 0%R.
Proof.
  intros m sx n p. unfold net, face_cur. assert (Z0 : forall s, match coarse_surf m (coarse_cell m p) s with Some k => nth (Z.to_nat k) (repeat 0%R n) 0%R | None => 0%R end = 0%R) by (intros s; destruct (coarse_surf _ _ _); [apply at0_zeros|reflexivity]). rewrite !Z0. ring.
Qed.
Theorem C119_angle : forall m plane w sx rays cur flx b p, mesh_ok m -> in_mesh m p -> Forall (fit m sx) rays -> cc_rays m plane w rays (cc_zero m cur flx) = Some b ->
  (cell_at m (cb_tf b) p + net m sx (cb_sf b) p = source_fw m rays p)%R /\ (cell_at m (cb_tb b) p - net m sx (cb_sb b) p = source_bw m rays p)%R /\ cell_at m (cb_n b) p = length_in m rays p.
Proof.
  intros m plane w sx rays cur flx b p M P F H. destruct (rays_sums m plane w sx rays _ b p M P F H) as (A & B & C). unfold cc_zero in *. cbn [cb_tf cb_tb cb_sf cb_sb cb_n] in *. rewrite !net_zeros in *. assert (Z0 : cell_at m (repeat 0%R (Z.to_nat (nx m * ny m))) p = 0%R) by apply at0_zeros. rewrite Z0 in *. repeat split; lra.
Qed.
Print Assumptions C119_angle.

(** Unless an access is out of range, nothing can go wrong: sizes fit and cross sections are not zero. *)
Definition sized (m : Mesh) (b : CB) : Prop :=
  length (cb_sf b) = Z.to_nat (n_surf_plane m) /\ length (cb_sb b) = Z.to_nat (n_surf_plane m) /\ length (cb_vf b) = Z.to_nat (nx m * ny m) /\ length (cb_vb b) = Z.to_nat (nx m * ny m) /\ length (cb_n b) = Z.to_nat (nx m * ny m) /\
  length (cb_tf b) = Z.to_nat (nx m * ny m) /\ length (cb_tb b) = Z.to_nat (nx m * ny m) /\ length (cb_cur b) = Z.to_nat (n_surf m) /\ length (cb_flx b) = Z.to_nat (n_surf m).
Definition data_fit (d : RayD) (psi1 psi2 : list R) (ray : CRay) : Prop :=
  length (rd_segs d) = Z.to_nat (cr_nseg ray) /\ length psi1 = S (Z.to_nat (cr_nseg ray)) /\ length psi2 = S (Z.to_nat (cr_nseg ray)) /\ length (rd_etau d) = Z.to_nat (cr_nseg ray) /\
  Forall (fun sg => exists x xt q, nth_error (rd_split d) (fst sg + rd_first d) = Some x /\ x <> 0%R /\ nth_error (rd_true d) (fst sg + rd_first d) = Some xt /\ nth_error (rd_q d) (fst sg + rd_first d) = Some q) (rd_segs d).

Lemma seg_fw_def : forall d psi1 psi2 ray k, data_fit d psi1 psi2 ray -> 0 <= k < cr_nseg ray -> seg_fw d psi1 k <> None.
Proof.
  intros d psi1 psi2 ray k (L1 & L2 & _ & _ & F) K. unfold seg_fw. destruct (Z.ltb_spec k 0); [lia|]. destruct (nth_error (rd_segs d) (Z.to_nat k)) as [[r len]|] eqn:E; [|apply nth_error_None in E; lia].
  apply nth_error_In in E. rewrite Forall_forall in F. specialize (F _ E). cbn [fst] in F. destruct F as (x & xt & q & -> & Nx & -> & ->). rewrite (psi_some psi1 k (Z.to_nat (cr_nseg ray)) L2) by lia. rewrite (psi_some psi1 (k + 1) (Z.to_nat (cr_nseg ray)) L2) by lia.
  unfold rdiv. destruct (Reqb_spec x 0); [contradiction|discriminate].
Qed.
Lemma seg_bw_def : forall d psi1 psi2 ray k, data_fit d psi1 psi2 ray -> 0 <= k < cr_nseg ray -> seg_bw d psi2 k <> None.
Proof.
  intros d psi1 psi2 ray k (L1 & _ & L2 & Le & F) K. unfold seg_bw. destruct (Z.ltb_spec k 0); [lia|]. destruct (nth_error (rd_segs d) (Z.to_nat k)) as [[r len]|] eqn:E; [|apply nth_error_None in E; lia].
  apply nth_error_In in E. rewrite Forall_forall in F. specialize (F _ E). cbn [fst] in F. destruct F as (x & xt & q & -> & Nx & -> & ->). destruct (nth_error (rd_etau d) (Z.to_nat k)) as [u|] eqn:Eu; [|apply nth_error_None in Eu; lia]. rewrite (psi_some psi2 (k + 1) (Z.to_nat (cr_nseg ray)) L2) by lia.
  unfold rdiv. destruct (Reqb_spec x 0); [contradiction|discriminate].
Qed.
Lemma add_z_def : forall l k v, 0 <= k < Z.of_nat (length l) -> exists c, add_z l k v = Some c /\ length c = length l.
Proof. intros l k v K. unfold add_z. destruct (Z.ltb_spec k 0); [lia|]. destruct (add_at_spec l (Z.to_nat k) v ltac:(lia)) as (c & -> & L & _). eauto. Qed.

Lemma fw_vol_def : forall d psi1 psi2 ray cell n i v nrm t, data_fit d psi1 psi2 ray -> 0 <= i -> i + Z.of_nat n <= cr_nseg ray -> 0 <= cell < Z.of_nat (length v) -> length nrm = length v -> length t = length v ->
  exists v' nrm' t', fw_vol d psi1 cell n i v nrm t = Some (i + Z.of_nat n, v', nrm', t') /\ length v' = length v /\ length nrm' = length v /\ length t' = length v.
Proof.
  intros d psi1 psi2 ray cell. induction n as [|n IH]; intros i v nrm t D I In C L1 L2; cbn [fw_vol].
  - exists v, nrm, t. replace (i + Z.of_nat 0) with i by lia. auto.
  - pose proof (seg_fw_def d psi1 psi2 ray i D ltac:(lia)) as X. destruct (seg_fw d psi1 i) as [[[f l] x]|]; [|congruence].
    destruct (add_z_def v cell f C) as (v1 & -> & Lv). destruct (add_z_def nrm cell l ltac:(lia)) as (n1 & -> & Ln). destruct (add_z_def t cell (x * f)%R ltac:(lia)) as (t1 & -> & Lt).
    destruct (IH (i + 1) v1 n1 t1 D ltac:(lia) ltac:(lia) ltac:(lia) ltac:(lia) ltac:(lia)) as (v' & nrm' & t' & E & A & B & Cc). exists v', nrm', t'. split; [|repeat split; congruence]. replace (i + Z.of_nat (S n)) with (i + 1 + Z.of_nat n) by lia. exact E.
Qed.
Lemma bw_vol_def : forall d psi1 psi2 ray cell n i v t, data_fit d psi1 psi2 ray -> i <= cr_nseg ray -> 0 <= i - Z.of_nat n -> 0 <= cell < Z.of_nat (length v) -> length t = length v ->
  exists v' t', bw_vol d psi2 cell n i v t = Some (i - Z.of_nat n, v', t') /\ length v' = length v /\ length t' = length v.
Proof.
  intros d psi1 psi2 ray cell. induction n as [|n IH]; intros i v t D I In C L2; cbn [bw_vol].
  - exists v, t. replace (i - Z.of_nat 0) with i by lia. auto.
  - pose proof (seg_bw_def d psi1 psi2 ray (i - 1) D ltac:(lia)) as X. destruct (seg_bw d psi2 (i - 1)) as [[[f l] x]|]; [|congruence].
    destruct (add_z_def v cell f C) as (v1 & -> & Lv). destruct (add_z_def t cell (x * f)%R ltac:(lia)) as (t1 & -> & Lt).
    destruct (IH (i - 1) v1 t1 D ltac:(lia) ltac:(lia) ltac:(lia) ltac:(lia)) as (v' & t' & E & A & B). exists v', t'. split; [|repeat split; congruence]. replace (i - Z.of_nat (S n)) with (i - 1 - Z.of_nat n) by lia. exact E.
Qed.

Lemma face_plane0 : forall m q s, mesh_ok m -> in_mesh m q -> pz q = 0 -> in_plane s -> 0 <= face_index m (face_of q s) < n_surf_plane m.
Proof.
  intros m q s M Q Z0 I. pose proof (face_of_ok m q s Q) as F. rewrite face_index_off.
  assert (pz (snd (face_of q s)) = 0) by (destruct q as [x y z]; cbn in Z0; subst z; destruct s; try contradiction; reflexivity). rewrite H.
  destruct q as [x y z]. cbn in Z0. subst z. unfold in_mesh in Q. cbn in Q. unfold mesh_ok in M. unfold n_surf_plane. destruct s; try contradiction; unfold face_off; cbn [face_of fst snd surface_to_normal px py pz move] in *; nia.
Qed.
Lemma cell_plane0 : forall m q, in_mesh m q -> pz q = 0 -> 0 <= coarse_cell m q < nx m * ny m.
Proof. intros m [x y z] Q Z0. unfold in_mesh, coarse_cell in *. cbn in *. subst z. nia. Qed.
Lemma face_shift : forall m q s plane, mesh_ok m -> in_mesh m q -> pz q = 0 -> in_plane s -> 0 <= plane < nz m -> face_index m (face_of q s) + n_surf_plane m * plane = face_index m (face_of (lift plane q) s) /\ in_mesh m (lift plane q).
Proof.
  intros m [x y z] s plane M Q Z0 I K. cbn in Z0. subst z. unfold in_mesh in *. unfold lift. cbn [px py pz] in *. split; [|lia]. clear - I. destruct s; try contradiction; unfold face_index; cbn [face_of fst snd surface_to_normal px py pz move]; ring.
Qed.

Section Defined.
  Variables (m : Mesh) (plane : Z) (w : Wts).
  Hypothesis M : mesh_ok m.
  Hypothesis K : 0 <= plane < nz m.
  Notation so := (n_surf_plane m * plane).

  Lemma tally_def : forall wx wy sgn psi nseg i q s cur, in_mesh m q -> pz q = 0 -> in_plane s -> length cur = Z.to_nat (n_surf m) -> length psi = S (Z.to_nat nseg) -> 0 <= i <= nseg ->
    exists cur', tally wx wy sgn psi i (surface_to_normal s) (face_index m (face_of q s) + so) cur = Some cur' /\ length cur' = length cur.
  Proof.
    intros wx wy sgn psi nseg i q s cur Q Z0 I L Lp Hi. destruct (face_shift m q s plane M Q Z0 I K) as [-> Q']. destruct (tally_ok m wx wy sgn psi nseg i (lift plane q) s cur M Q' I L Lp Hi) as (c & E & Lc & _). eauto.
  Qed.
  Lemma put_fw_def : forall psi nseg i q s b, in_mesh m q -> pz q = 0 -> in_plane s -> sized m b -> length psi = S (Z.to_nat nseg) -> 0 <= i <= nseg ->
    exists b', put_fw w psi so i (face_index m (face_of q s)) (surface_to_normal s) b = Some b' /\ sized m b'.
  Proof.
    intros psi nseg i q s b Q Z0 I (S1 & S2 & S3 & S4 & S5 & S6 & S7 & S8 & S9) Lp Hi. unfold put_fw.
    destruct (tally_def (w_cx w) (w_cy w) 1 psi nseg i q s (cb_cur b) Q Z0 I S8 Lp Hi) as (c & -> & Lc). destruct (tally_def (w_fx w) (w_fy w) 1 psi nseg i q s (cb_flx b) Q Z0 I S9 Lp Hi) as (f & -> & Lf).
    rewrite (psi_some psi i (Z.to_nat nseg) Lp) by lia. pose proof (face_plane0 m q s M Q Z0 I). destruct (add_z_def (cb_sf b) (face_index m (face_of q s)) (nth (Z.to_nat i) psi 0%R) ltac:(lia)) as (l & -> & Ll).
    eexists. split; [reflexivity|]. unfold sized. cbn [cb_sf cb_sb cb_vf cb_vb cb_n cb_tf cb_tb cb_cur cb_flx]. repeat split; congruence.
  Qed.
  Lemma put_bw_def : forall psi nseg i q s b, in_mesh m q -> pz q = 0 -> in_plane s -> sized m b -> length psi = S (Z.to_nat nseg) -> 0 <= i <= nseg ->
    exists b', put_bw w psi so i (face_index m (face_of q s)) (surface_to_normal s) b = Some b' /\ sized m b'.
  Proof.
    intros psi nseg i q s b Q Z0 I (S1 & S2 & S3 & S4 & S5 & S6 & S7 & S8 & S9) Lp Hi. unfold put_bw.
    destruct (tally_def (w_cx w) (w_cy w) (-1) psi nseg i q s (cb_cur b) Q Z0 I S8 Lp Hi) as (c & -> & Lc). destruct (tally_def (w_fx w) (w_fy w) (-1) psi nseg i q s (cb_flx b) Q Z0 I S9 Lp Hi) as (f & -> & Lf).
    rewrite (psi_some psi i (Z.to_nat nseg) Lp) by lia. pose proof (face_plane0 m q s M Q Z0 I). destruct (add_z_def (cb_sb b) (face_index m (face_of q s)) (nth (Z.to_nat i) psi 0%R) ltac:(lia)) as (l & -> & Ll).
    eexists. split; [reflexivity|]. unfold sized. cbn [cb_sf cb_sb cb_vf cb_vb cb_n cb_tf cb_tb cb_cur cb_flx]. repeat split; congruence.
  Qed.

  Lemma rec_fw_def : forall d psi1 psi2 ray sx cell i q s n steps b, data_fit d psi1 psi2 ray -> sized m b -> at_cell m cell q (head_step s n ++ steps) -> path_ok m sx 1 1 (cr_nseg ray) 1 (head_step s n ++ steps) q i -> 0 <= n -> 0 <= i -> pz q = 0 ->
    exists i' b', rec_fw m w d psi1 so cell i s n b = Some (i', b') /\ sized m b'.
  Proof.
    intros d psi1 psi2 ray sx cell i q s n steps b D Sb Ac Po Hn Hi Z0. unfold rec_fw. destruct s as [t|]; [|eauto]. cbn [head_step app] in *. destruct Ac as [X| ->]; [discriminate|]. cbn [path_ok] in Po. destruct Po as (Q & I & _ & Hi' & _).
    pose proof Sb as (S1 & S2 & S3 & S4 & S5 & S6 & S7 & S8 & S9). pose proof (cell_plane0 m q Q Z0).
    destruct (fw_vol_def d psi1 psi2 ray (coarse_cell m q) (Z.to_nat n) i (cb_vf b) (cb_n b) (cb_tf b) D Hi ltac:(lia) ltac:(lia) ltac:(congruence) ltac:(congruence)) as (v & nrm & ts & -> & Lv & Ln & Lt).
    rewrite coarse_surf_correct by auto. edestruct (put_fw_def psi1 (cr_nseg ray) (i + Z.of_nat (Z.to_nat n)) q t) as (b' & -> & Sb'); [exact Q|exact Z0|exact I| |exact (proj1 (proj2 D))|lia|eauto].
    unfold sized. cbn [cb_sf cb_sb cb_vf cb_vb cb_n cb_tf cb_tb cb_cur cb_flx]. repeat split; congruence.
  Qed.
  Lemma rec_bw_def : forall d psi1 psi2 ray sx cell i q s n steps b, data_fit d psi1 psi2 ray -> sized m b -> at_cell m cell q (head_step s n ++ steps) -> path_ok m sx 1 (- (1)) (cr_nseg ray) (-1) (head_step s n ++ steps) q i -> 0 <= n -> i <= cr_nseg ray -> pz q = 0 ->
    exists i' b', rec_bw m w d psi2 so cell i s n b = Some (i', b') /\ sized m b'.
  Proof.
    intros d psi1 psi2 ray sx cell i q s n steps b D Sb Ac Po Hn Hi Z0. unfold rec_bw. destruct s as [t|]; [|eauto]. cbn [head_step app] in *. destruct Ac as [X| ->]; [discriminate|]. cbn [path_ok] in Po. destruct Po as (Q & I & _ & Hi' & _).
    pose proof Sb as (S1 & S2 & S3 & S4 & S5 & S6 & S7 & S8 & S9). pose proof (cell_plane0 m q Q Z0).
    destruct (bw_vol_def d psi1 psi2 ray (coarse_cell m q) (Z.to_nat n) i (cb_vb b) (cb_tb b) D Hi ltac:(lia) ltac:(lia) ltac:(congruence)) as (v & ts & -> & Lv & Lt).
    rewrite coarse_surf_correct by auto. edestruct (put_bw_def psi2 (cr_nseg ray) (i - Z.of_nat (Z.to_nat n)) q t) as (b' & -> & Sb'); [exact Q|exact Z0|exact I| |exact (proj1 (proj2 (proj2 D)))|lia|eauto].
    unfold sized. cbn [cb_sf cb_sb cb_vf cb_vb cb_n cb_tf cb_tb cb_cur cb_flx]. repeat split; congruence.
  Qed.
  Lemma pz_move : forall q s, in_plane s -> pz (move q s) = pz q.
  Proof. intros [x y z] s I. destruct s; try contradiction; reflexivity. Qed.

  Lemma cc_walk_def : forall d psi1 psi2 ray sx recs cf cb qf qb jf jb b, data_fit d psi1 psi2 ray -> sized m b -> noop_last recs -> Forall (fun r => 0 <= rc_nfw r /\ 0 <= rc_nbw r) recs ->
    at_cell m cf qf (fw_steps recs) -> at_cell m cb qb (bw_steps recs) -> path_ok m sx 1 1 (cr_nseg ray) 1 (fw_steps recs) qf jf -> path_ok m sx 1 (- (1)) (cr_nseg ray) (-1) (bw_steps recs) qb jb -> 0 <= jf -> jb <= cr_nseg ray -> pz qf = 0 -> pz qb = 0 ->
    exists b', cc_walk m w d psi1 psi2 so recs cf cb jf jb b = Some b' /\ sized m b'.
  Proof.
    intros d psi1 psi2 ray sx. induction recs as [|r recs IH]; intros cf cb qf qb jf jb b D Sb Nl Fc Af Ab Pf Pb Hf Hb Zf Zb; cbn [cc_walk]; [eauto|].
    destruct Nl as (N1 & N2 & Nl). inversion Fc as [|? ? [C1 C2] Fc']; subst.
    change (fw_steps (r :: recs)) with (head_step (rc_fw r) (rc_nfw r) ++ fw_steps recs) in *. change (bw_steps (r :: recs)) with (head_step (rc_bw r) (rc_nbw r) ++ bw_steps recs) in *.
    destruct (rec_fw_def d psi1 psi2 ray sx cf jf qf _ _ _ b D Sb Af Pf C1 Hf Zf) as (j1 & b1 & E1 & Sb1). rewrite E1. destruct (rec_bw_def d psi1 psi2 ray sx cb jb qb _ _ _ b1 D Sb1 Ab Pb C2 Hb Zb) as (j2 & b2 & E2 & Sb2). rewrite E2.
    destruct (rec_fw_inv m plane w d M psi1 sx (cr_nseg ray) cf jf qf _ _ _ b j1 b1 Af Pf N1 C1 E1) as (q1 & A1 & P1 & _ & _ & _ & _ & _ & J1). destruct (rec_bw_inv m plane w d M psi2 sx (cr_nseg ray) cb jb qb _ _ _ b1 j2 b2 Ab Pb N2 C2 E2) as (q2 & A2 & P2 & _ & _ & _ & _ & _ & _ & J2).
    assert (0 <= j1 /\ pz q1 = 0) as [U1 U2]. { destruct (rc_fw r) as [t|]; [|destruct J1 as (-> & -> & _); auto]. destruct J1 as (-> & -> & _). split; [lia|]. cbn in Pf. rewrite pz_move; tauto. }
    assert (j2 <= cr_nseg ray /\ pz q2 = 0) as [U3 U4]. { destruct (rc_bw r) as [t|]; [|destruct J2 as (-> & -> & _); auto]. destruct J2 as (-> & -> & _). split; [lia|]. cbn in Pb. rewrite pz_move; tauto. }
    apply (IH _ _ q1 q2); auto.
  Qed.
End Defined.

(** Rays that fit never lead the worker out of range. *)
Theorem C119_defined : forall m plane w d psi1 psi2 sx ray b, mesh_ok m -> 0 <= plane < nz m -> ray_fits m sx ray -> data_fit d psi1 psi2 ray -> sized m b -> exists b', cc_post_ray m plane w d psi1 psi2 ray b = Some b' /\ sized m b'.
Proof.
  intros m plane w d psi1 psi2 sx ray b M K (Hn & Nl & Fc & (sf & Ef) & (sb & Eb) & Pf & Pb) D Sb. unfold cc_post_ray. cbn zeta.
  destruct (lift_entry m _ _ _ _ _ _ _ 0 M ltac:(lia) Ef) as (Qf & Cf & Sf & Nf & Of). destruct (lift_entry m _ _ _ _ _ _ _ 0 M ltac:(lia) Eb) as (Qb & Cb & Sb' & Nb & Ob).
  destruct Ef as (_ & If & _ & Ff & Zf & _). destruct Eb as (_ & Ib & _ & Fb & Zb & _).
  assert (Lf : lift 0 (start_fw m ray) = start_fw m ray) by (destruct (start_fw m ray) as [x y z]; cbn in *; now subst z).
  assert (Lb : lift 0 (start_bw m ray) = start_bw m ray) by (destruct (start_bw m ray) as [x y z]; cbn in *; now subst z).
  rewrite Lf in *. rewrite Lb in *. rewrite Z.mul_0_r, Z.add_0_r in *. rewrite Nf, Nb, Sf, Sb'.
  destruct (put_fw_def m plane w M K psi1 (cr_nseg ray) 0 (start_fw m ray) sf b Qf Zf If Sb (proj1 (proj2 D)) ltac:(lia)) as (b1 & -> & Sb1).
  destruct (put_bw_def m plane w M K psi2 (cr_nseg ray) (cr_nseg ray) (start_bw m ray) sb b1 Qb Zb Ib Sb1 (proj1 (proj2 (proj2 D))) ltac:(lia)) as (b2 & -> & Sb2).
  apply (cc_walk_def m plane w M K d psi1 psi2 ray sx (cr_recs ray) _ _ (start_fw m ray) (start_bw m ray)); auto; try lia; now right.
Qed.
Print Assumptions C119_defined.

(** ** C120 *)
(** A factor in the store. *)
Definition nth2 (st : list (list Fac)) (a c : nat) : option Fac := match nth_error st a with Some row => nth_error row c | None => None end.
Lemma put_fac_inv : forall st ia ic f st' old, put_fac st ia ic f = Some (st', old) -> nth2 st ia ic = Some old /\ forall a c, nth2 st' a c = if (Nat.eqb a ia && Nat.eqb c ic)%bool then Some f else nth2 st a c.
Proof.
  intros st ia ic f st' old H. unfold put_fac in H. destruct (nth_error st ia) as [row|] eqn:Er; [|discriminate]. destruct (nth_error row ic) as [o|] eqn:Eo; [|discriminate]. destruct (set_nth row ic f) as [row'|] eqn:E1; [|discriminate]. destruct (set_nth st ia row') as [st1|] eqn:E2; [|discriminate]. injection H as <- <-.
  destruct (set_nth_spec _ _ _ _ E1) as (L1 & K1 & N1). destruct (set_nth_spec _ _ _ _ E2) as (L2 & K2 & N2). split; [unfold nth2; now rewrite Er|]. intros a c. unfold nth2. rewrite N2. destruct (Nat.eqb_spec a ia) as [->|]; cbn [andb]; [|reflexivity]. rewrite N1, Er. reflexivity.
Qed.

(** Squared change of component [j] of a factor. *)
Definition comp (j : nat) (f : Fac) : R := let '(x, y, z) := f in match j with O => x | S O => y | _ => z end.
Definition fac2 (st : list (list Fac)) (a c : nat) : Fac := match nth2 st a c with Some f => f | None => (0, 0, 0)%R end.
Definition change2 (st st' : list (list Fac)) (j a c : nat) : R := ((comp j (fac2 st' a c) - comp j (fac2 st a c)) * (comp j (fac2 st' a c) - comp j (fac2 st a c)))%R.
Lemma comp_add : forall j r f o, comp j (add_res r f o) = (comp j r + (comp j f - comp j o) * (comp j f - comp j o))%R.
Proof. intros [|[|j]] [[a b] c] [[x y] z] [[x' y'] z']; reflexivity. Qed.

Lemma cc_cells_inv : forall m e b cnt ic s s', ce_i1 e <> ce_i2 e -> cc_cells m e b ic cnt s = Some s' ->
  (forall k, (ic <= k < ic + cnt)%nat -> exists fw bw, cc_pair m e b k = Some (fw, bw) /\ nth2 (fst s') (ce_i1 e) (k + ce_off e) = Some fw /\ nth2 (fst s') (ce_i2 e) (k + ce_off e) = Some bw) /\
  (forall a c, (a <> ce_i1 e /\ a <> ce_i2 e) \/ (c < ic + ce_off e)%nat \/ (ic + cnt + ce_off e <= c)%nat -> nth2 (fst s') a c = nth2 (fst s) a c) /\
  (forall j, comp j (snd s') = (comp j (snd s) + lsum (fun k => change2 (fst s) (fst s') j (ce_i1 e) (k + ce_off e)%nat + change2 (fst s) (fst s') j (ce_i2 e) (k + ce_off e)%nat) (seq ic cnt))%R).
Proof.
  intros m e b. induction cnt as [|cnt IH]; intros ic s s' Ni H; cbn [cc_cells] in H.
  - injection H as <-. split; [intros; lia|]. split; [reflexivity|]. intros j. cbn [seq lsum]. lra.
  - destruct (cc_cell m e b ic s) as [s1|] eqn:E; [|discriminate]. unfold cc_cell in E. destruct (cc_pair m e b ic) as [[fw bw]|] eqn:Ep; [|discriminate]. destruct (put_fac (fst s) _ _ _) as [[st1 o1]|] eqn:E1; [|discriminate]. destruct (put_fac st1 _ _ _) as [[st2 o2]|] eqn:E2; [|discriminate]. injection E as <-.
    destruct (put_fac_inv _ _ _ _ _ _ E1) as (O1 & P1). destruct (put_fac_inv _ _ _ _ _ _ E2) as (O2 & P2). destruct (IH _ _ _ Ni H) as (A & B & C). cbn [fst snd] in *.
    assert (W1 : nth2 (fst s') (ce_i1 e) (ic + ce_off e) = Some fw). { rewrite B by lia. rewrite P2. destruct (Nat.eqb_spec (ce_i1 e) (ce_i2 e)); [contradiction|]. cbn [andb]. rewrite P1. now rewrite !Nat.eqb_refl. }
    assert (W2 : nth2 (fst s') (ce_i2 e) (ic + ce_off e) = Some bw). { rewrite B by lia. rewrite P2. now rewrite !Nat.eqb_refl. }
    assert (O2' : nth2 (fst s) (ce_i2 e) (ic + ce_off e) = Some o2). { rewrite P1 in O2. destruct (Nat.eqb_spec (ce_i2 e) (ce_i1 e)); [congruence|]. exact O2. }
    assert (Same : forall a c, c <> (ic + ce_off e)%nat -> nth2 st2 a c = nth2 (fst s) a c). { intros a c N. rewrite P2. destruct (Nat.eqb_spec c (ic + ce_off e)); [contradiction|]. rewrite andb_false_r. rewrite P1. destruct (Nat.eqb_spec c (ic + ce_off e)); [contradiction|]. now rewrite andb_false_r. }
    split; [|split].
    + intros k K. destruct (Nat.eq_dec k ic) as [->|]; [eauto|]. apply A. lia.
    + intros a c Hc. rewrite B by lia. destruct (Nat.eq_dec c (ic + ce_off e)) as [->|N]; [|now apply Same]. rewrite P2. destruct (Nat.eqb_spec a (ce_i2 e)); [lia|]. cbn [andb]. rewrite P1. destruct (Nat.eqb_spec a (ce_i1 e)); [lia|]. reflexivity.
    + intros j. rewrite C, !comp_add. cbn [seq lsum]. unfold change2 at 3 4. unfold fac2. rewrite W1, W2, O1, O2'.
      rewrite (lsum_ext (fun k => change2 st2 (fst s') j (ce_i1 e) (k + ce_off e)%nat + change2 st2 (fst s') j (ce_i2 e) (k + ce_off e)%nat)%R (fun k => change2 (fst s) (fst s') j (ce_i1 e) (k + ce_off e)%nat + change2 (fst s) (fst s') j (ce_i2 e) (k + ce_off e)%nat)%R (seq (S ic) cnt)); [ring|].
      intros k Ik. apply in_seq in Ik. unfold change2, fac2. rewrite !Same by lia. reflexivity.
Qed.

(** The cell equation of the corrected scheme with the factors of a cell in balance. *)
Lemma cdd_cell : forall xi xo yi yo T V N xs A B tx ty tz fz S, (0 < T)%R -> V <> 0%R -> (0 < N)%R -> (0 < xs)%R -> (0 <= xi)%R -> (0 <= xo)%R -> (0 <= yi)%R -> (0 <= yo)%R -> (0 < tx)%R -> (0 < ty)%R ->
  (xi * A + xo * A <> 0)%R -> (yi * B + yo * B <> 0)%R -> (N * tx * A = 1)%R -> (N * ty * B = 1)%R -> (T + (xo - xi) + (yo - yi) = S)%R ->
  eval_cdd_2d (V / N / (xi * A + xo * A)) (V / N / (yi * B + yo * B)) (T / V / xs) tx ty tz (xi * A) (yi * B) fz (S / N) xs = Some (T / (N * xs), xo * A, yo * B, fz)%R.
Proof.
  intros xi xo yi yo T V N xs A B tx ty tz fz S HT HV HN Hx X1 X2 Y1 Y2 Tx Ty NX NY EA EB ES. unfold eval_cdd_2d. cbn zeta.
  assert (HA : A = (/ (N * tx))%R) by (apply (Rmult_eq_reg_l (N * tx)); [rewrite EA; symmetry; apply Rinv_r; nra|nra]). assert (HB : B = (/ (N * ty))%R) by (apply (Rmult_eq_reg_l (N * ty)); [rewrite EB; symmetry; apply Rinv_r; nra|nra]).
  set (X := (xi * A + xo * A)%R) in *. set (Y := (yi * B + yo * B)%R) in *.
  assert (G1 : (V / N / X * (T / V / xs) = T / (N * xs) / X)%R) by (field; repeat split; lra). assert (G2 : (V / N / Y * (T / V / xs) = T / (N * xs) / Y)%R) by (field; repeat split; lra). rewrite G1, G2.
  assert (PP : (0 < T / (N * xs))%R) by (apply Rdiv_lt_0_compat; nra). set (P := (T / (N * xs))%R) in *.
  assert (N1 : (P / X <> 0)%R) by (unfold Rdiv; apply Rmult_integral_contrapositive_currified; [lra|now apply Rinv_neq_0_compat]). assert (N2 : (P / Y <> 0)%R) by (unfold Rdiv; apply Rmult_integral_contrapositive_currified; [lra|now apply Rinv_neq_0_compat]).
  unfold rdiv. destruct (Reqb_spec (P / X) 0) as [Q|_]; [contradiction|]. destruct (Reqb_spec (P / Y) 0) as [Q|_]; [contradiction|].
  assert (D1 : (tx / (P / X) = (xi + xo) / (N * P))%R) by (unfold X; rewrite HA; field; repeat split; try lra; unfold X in NX; rewrite HA in NX; intros Q; apply NX; replace (xi * / (N * tx) + xo * / (N * tx))%R with ((xi + xo) * / (N * tx))%R by ring; rewrite Q; ring).
  assert (D2 : (ty / (P / Y) = (yi + yo) / (N * P))%R) by (unfold Y; rewrite HB; field; repeat split; try lra; unfold Y in NY; rewrite HB in NY; intros Q; apply NY; replace (yi * / (N * ty) + yo * / (N * ty))%R with ((yi + yo) * / (N * ty))%R by ring; rewrite Q; ring).
  rewrite D1, D2. assert (Den : (0 < (xi + xo) / (N * P) + (yi + yo) / (N * P) + xs)%R).
  { assert (0 < N * P)%R by nra. assert (0 <= (xi + xo) / (N * P))%R by (apply Rmult_le_pos; [lra|left; now apply Rinv_0_lt_compat]). assert (0 <= (yi + yo) / (N * P))%R by (apply Rmult_le_pos; [lra|left; now apply Rinv_0_lt_compat]). lra. }
  destruct (Reqb_spec ((xi + xo) / (N * P) + (yi + yo) / (N * P) + xs) 0) as [Q|_]; [lra|].
  assert (Psi : ((S / N + 2 * (tx * (xi * A) + ty * (yi * B))) / ((xi + xo) / (N * P) + (yi + yo) / (N * P) + xs) = P)%R).
  { apply (Rmult_eq_reg_r ((xi + xo) / (N * P) + (yi + yo) / (N * P) + xs)); [|lra]. unfold Rdiv at 1. rewrite Rmult_assoc, Rinv_l by lra. rewrite <- ES, HA, HB. unfold P. field. repeat split; lra. }
  rewrite Psi. assert (F1 : ((P - P / X * (xi * A)) / (P / X) = xo * A)%R) by (replace (xo * A)%R with (X - xi * A)%R by (unfold X; ring); field; split; lra).
  assert (F2 : ((P - P / Y * (yi * B)) / (P / Y) = yo * B)%R) by (replace (yo * B)%R with (Y - yi * B)%R by (unfold Y; ring); field; split; lra).
  rewrite F1, F2. reflexivity.
Qed.

Lemma sum_at_inv : forall m sums p s v, mesh_ok m -> in_mesh m p -> sum_at m sums (coarse_cell m p) s = Some v -> v = face_cur m sums p s.
Proof.
  intros m sums p s v M P H. unfold sum_at, face_cur in *. rewrite coarse_surf_correct in * by auto. destruct (Z.ltb_spec (face_index m (face_of p s)) 0); [discriminate|]. symmetry. now apply nth_error_nth.
Qed.
Lemma cell_factors_inv : forall m sums sd ax ay f s xs p fac, mesh_ok m -> in_mesh m p -> cell_factors m sums sd ax ay f s xs (coarse_cell m p) = Some fac ->
  (face_cur m sums p (xl sd) * ax + face_cur m sums p (xr sd) * ax <> 0)%R /\ (face_cur m sums p (yl sd) * ay + face_cur m sums p (yr sd) * ay <> 0)%R /\
  fac = (f / (face_cur m sums p (xl sd) * ax + face_cur m sums p (xr sd) * ax), f / (face_cur m sums p (yl sd) * ay + face_cur m sums p (yr sd) * ay), s / xs)%R.
Proof.
  intros m sums sd ax ay f s xs p fac M P H. unfold cell_factors in H. destruct (sum_at m sums _ (xl sd)) as [a|] eqn:E1; [|discriminate]. destruct (sum_at m sums _ (xr sd)) as [b|] eqn:E2; [|discriminate]. destruct (sum_at m sums _ (yl sd)) as [c|] eqn:E3; [|discriminate]. destruct (sum_at m sums _ (yr sd)) as [e|] eqn:E4; [|discriminate].
  apply sum_at_inv in E1, E2, E3, E4; auto. subst. destruct (rdiv f _) as [u|] eqn:U1; [|discriminate]. destruct (rdiv f (_ * ay + _)) as [v|] eqn:U2; [|discriminate]. destruct (rdiv s xs) as [t|] eqn:U3; [|discriminate].
  apply rdiv_inv in U1, U2, U3. destruct U1 as [? ->], U2 as [? ->], U3 as [? ->]. injection H as <-. auto.
Qed.

(** Average of the angular flux over a face of a cell of widths [dx] and [dy]: every ray through the face stands for
    spacing / |cos alpha| of the length of an x-normal face, and for spacing / |sin alpha| of that of a y-normal one. *)
Definition face_avg (m : Mesh) (e : CcEnv) (sums : list R) (p : Position) (dx dy : R) (s : Surface) : R :=
  (face_cur m sums p s * match surface_to_normal s with X_NORM => Rabs (ce_sp e / cos (alpha (adir (ce_ang e)))) / dy | _ => Rabs (ce_sp e / sin (alpha (adir (ce_ang e)))) / dx end)%R.
(** Entry and exit faces of the forward direction in x. *)
Definition west_of (al : R) : Surface := if Rltb 0 (cos al) then WEST else EAST.
Definition east_of (al : R) : Surface := if Rltb 0 (cos al) then EAST else WEST.

Lemma face_nonneg : forall m l p s, Forall (fun x => 0 <= x)%R l -> (0 <= face_cur m l p s)%R.
Proof. intros m l p s F. unfold face_cur. destruct (coarse_surf _ _ _) as [k|]; [|lra]. destruct (nth_in_or_default (Z.to_nat k) l 0%R) as [I| ->]; [|lra]. rewrite Forall_forall in F. auto. Qed.

Theorem C120_square : forall m plane w sx rays cur flx b e st res st' res' p al th wt D xs tz fz,
  mesh_ok m -> in_mesh m p -> pz p = 0 -> Forall (fit m sx) rays -> cc_rays m plane w rays (cc_zero m cur flx) = Some b ->
  ce_ang e = mkAngle (dir_angles al th) wt -> (0 < sin al)%R -> (0 < sin th)%R -> (sx = 1 /\ 0 < cos al \/ sx = -1 /\ cos al < 0)%R -> (0 < ce_sp e)%R ->
  nth_error (ce_dx e) (Z.to_nat (px p)) = Some D -> nth_error (ce_dy e) (Z.to_nat (py p)) = Some D -> (0 < D)%R -> nth_error (ce_xs e) (Z.to_nat (coarse_cell m p) + ce_offx e) = Some xs -> (0 < xs)%R -> ce_i1 e <> ce_i2 e ->
  (length_in m rays p * sin th * ce_sp e = D * D)%R -> Forall (fun x => 0 <= x)%R (cb_sf b) -> Forall (fun x => 0 <= x)%R (cb_sb b) -> (0 < cell_at m (cb_tf b) p)%R -> (0 < cell_at m (cb_tb b) p)%R ->
  post_angle m e b (st, res) = Some (st', res') ->
  exists fx fy fb gx gy gb, nth2 st' (ce_i1 e) (Z.to_nat (coarse_cell m p) + ce_off e) = Some (fx, fy, fb) /\ nth2 st' (ce_i2 e) (Z.to_nat (coarse_cell m p) + ce_off e) = Some (gx, gy, gb) /\
    let avg := face_avg m e in let tx := (Rabs (ox (dir_angles al th)) / D)%R in let ty := (Rabs (oy (dir_angles al th)) / D)%R in let n := length_in m rays p in
    eval_cdd_2d fx fy fb tx ty tz (avg (cb_sf b) p D D (west_of al)) (avg (cb_sf b) p D D SOUTH) fz (source_fw m rays p / n) xs = Some (cell_at m (cb_tf b) p / (n * xs), avg (cb_sf b) p D D (east_of al), avg (cb_sf b) p D D NORTH, fz)%R /\
    eval_cdd_2d gx gy gb tx ty tz (avg (cb_sb b) p D D (east_of al)) (avg (cb_sb b) p D D NORTH) fz (source_bw m rays p / n) xs = Some (cell_at m (cb_tb b) p / (n * xs), avg (cb_sb b) p D D (west_of al), avg (cb_sb b) p D D SOUTH, fz)%R.
Proof.
  intros m plane w sx rays cur flx b e st res st' res' p al th wt D xs tz fz M P Z0 F Hr Ha Sa St Sx Sp Dx Dy HD Ex Xp Ni Vol Ff Fb Tf Tb H.
  destruct (C119_angle m plane w sx rays cur flx b p M P F Hr) as (Bf & Bb & Bn). pose proof (cell_plane0 m p P Z0) as Hc. unfold post_angle in H.
  destruct (cc_cells_inv m e b _ _ _ _ Ni H) as (A & _ & _). destruct (A (Z.to_nat (coarse_cell m p)) ltac:(lia)) as (fw & bw & Ep & W1 & W2). cbn [fst] in W1, W2. clear A H.
  assert (Np : (0 < length_in m rays p)%R). { assert (0 < D * D)%R by nra. rewrite <- Vol in H. destruct (Rlt_le_dec 0 (length_in m rays p)); [assumption|]. assert (0 < sin th * ce_sp e)%R by nra. nra. }
  unfold cc_pair in Ep. rewrite Z2Nat.id in Ep by lia. rewrite position_of_cell in Ep by auto. rewrite Ha in Ep. cbn [adir alpha] in Ep. change (alpha (dir_angles al th)) with al in Ep. change (ox (dir_angles al th)) with (sin th * cos al)%R in Ep.
  destruct (nth_error (cb_tf b) _) as [tf|] eqn:E1; [|discriminate]. destruct (nth_error (cb_vf b) _) as [vf|] eqn:E2; [|discriminate]. destruct (nth_error (cb_tb b) _) as [tb|] eqn:E3; [|discriminate]. destruct (nth_error (cb_vb b) _) as [vb|] eqn:E4; [|discriminate]. destruct (nth_error (cb_n b) _) as [n|] eqn:E5; [|discriminate].
  assert (tf = cell_at m (cb_tf b) p) by (symmetry; now apply nth_error_nth). assert (tb = cell_at m (cb_tb b) p) by (symmetry; now apply nth_error_nth). assert (n = length_in m rays p) by (rewrite <- Bn; symmetry; now apply nth_error_nth). subst tf tb n.
  destruct (cc_means _ vf _) as [[s1 f1]|] eqn:M1; [|discriminate]. destruct (cc_means _ vb _) as [[s2 f2]|] eqn:M2; [|discriminate]. rewrite Dx, Dy, Ex in Ep. destruct (rdiv _ (cos al)) as [c|] eqn:C1; [|discriminate]. destruct (rdiv _ (sin al)) as [sn|] eqn:C2; [|discriminate].
  destruct (rdiv (Rabs c) D) as [ax|] eqn:D1; [|discriminate]. destruct (rdiv (Rabs sn) D) as [ay|] eqn:D2; [|discriminate]. destruct (cell_factors _ (cb_sf b) _ _ _ _ _ _ _) as [fa|] eqn:Fa; [|discriminate]. destruct (cell_factors _ (cb_sb b) _ _ _ _ _ _ _) as [fb|] eqn:Fb'; [|discriminate]. injection Ep as <- <-.
  unfold cc_means in M1, M2. destruct (rdiv _ vf) as [u1|] eqn:U1; [|discriminate]. destruct (rdiv vf _) as [u2|] eqn:U2; [|discriminate]. injection M1 as <- <-. destruct (rdiv _ vb) as [u3|] eqn:U3; [|discriminate]. destruct (rdiv vb _) as [u4|] eqn:U4; [|discriminate]. injection M2 as <- <-.
  apply rdiv_inv in U1, U2, U3, U4, C1, C2, D1, D2. destruct U1 as [V1 ->], U2 as [_ ->], U3 as [V2 ->], U4 as [_ ->], C1 as [Nc ->], C2 as [Ns ->], D1 as [_ ->], D2 as [_ ->].
  apply cell_factors_inv in Fa, Fb'; auto. destruct Fa as (X1 & Y1 & ->), Fb' as (X2 & Y2 & ->).
  do 6 eexists. split; [exact W1|]. split; [exact W2|]. cbn zeta.
  assert (Tx : (0 < Rabs (sin th * cos al) / D)%R) by (apply Rdiv_lt_0_compat; [apply Rabs_pos_lt; nra|lra]). assert (Ty : (0 < Rabs (sin th * sin al) / D)%R) by (apply Rdiv_lt_0_compat; [apply Rabs_pos_lt; nra|lra]).
  assert (Quo : forall x, x <> 0%R -> (Rabs (ce_sp e / x) = ce_sp e / Rabs x)%R) by (intros x _; unfold Rdiv; rewrite Rabs_mult, Rabs_inv, (Rabs_right (ce_sp e)) by lra; reflexivity).
  assert (Ax : (length_in m rays p * (Rabs (sin th * cos al) / D) * (Rabs (ce_sp e / cos al) / D) = 1)%R).
  { rewrite Quo by auto. rewrite Rabs_mult, (Rabs_right (sin th)) by lra. assert (Rabs (cos al) <> 0)%R by now apply Rabs_no_R0. apply (Rmult_eq_reg_r (D * D)); [|nra]. rewrite Rmult_1_l. transitivity (length_in m rays p * sin th * ce_sp e)%R; [field; split; lra|exact Vol]. }
  assert (Ay : (length_in m rays p * (Rabs (sin th * sin al) / D) * (Rabs (ce_sp e / sin al) / D) = 1)%R).
  { rewrite Quo by auto. rewrite Rabs_mult, (Rabs_right (sin th)) by lra. assert (Rabs (sin al) <> 0)%R by now apply Rabs_no_R0. apply (Rmult_eq_reg_r (D * D)); [|nra]. rewrite Rmult_1_l. transitivity (length_in m rays p * sin th * ce_sp e)%R; [field; split; lra|exact Vol]. }
  change (ox (dir_angles al th)) with (sin th * cos al)%R. change (oy (dir_angles al th)) with (sin th * sin al)%R. unfold face_avg. rewrite Ha. cbn [adir]. change (alpha (dir_angles al th)) with al.
  unfold west_of, east_of, sides_fw, sides_bw, net in *. destruct Sx as [[-> Ca]|[-> Ca]].
  - rewrite (Rltb_true 0 (sin th * cos al)) in * by nra. rewrite (Rltb_true 0 (cos al)) in * by lra. cbn [xl xr yl yr surface_to_normal] in *.
    split; apply cdd_cell; auto using face_nonneg; try lra.
  - rewrite (Rltb_false 0 (sin th * cos al)) in * by nra. rewrite (Rltb_false 0 (cos al)) in * by lra. cbn [xl xr yl yr surface_to_normal] in *.
    split; apply cdd_cell; auto using face_nonneg; try lra.
Qed.
Print Assumptions C120_square.

(** A cell one wide and [h] high, with the two modular rays of slope [h], in a flat flux of 1 that the source sustains. *)
Definition m1 : Mesh := {| nx := 1; ny := 1; nz := 1 |}.
Definition p0 : Position := {| px := 0; py := 0; pz := 0 |}.
Definition ray_se : CRay := mkCRay 0 0 3 2 1 [mkRC (Some EAST) (Some SOUTH) 1 1].
Definition ray_wn : CRay := mkCRay 0 0 1 4 1 [mkRC (Some NORTH) (Some WEST) 1 1].
Definition flat_d (len e : R) : RayD := mkRD [(0%nat, len)] 0 [1%R] [1%R] [1%R] [e] 1.
Definition w1 : Wts := mkW 1 1 1 1.

Lemma flat_swept : forall len, (0 < len)%R -> exists e, swept (flat_d len e) [1; 1]%R [1; 1]%R.
Proof.
  intros len L. destruct (moc_exp_range (- (1) * len * 1)%R) as (E & HE & _); [lra|]. exists (1 - E)%R. split; [reflexivity|]. cbn [flat_d rd_split rd_first rd_rst rd_segs rd_etau rd_q].
  assert (Es : seg_etau [1%R] 0 1 (0%nat, len) = Some (0%nat, (1 - E)%R)) by (unfold seg_etau; cbn [fst snd Nat.add nth_error]; now rewrite HE).
  split; [constructor; [eauto|constructor]|]. exists (mkRay 0 0 [(0%nat, len)]), 1%R, 1%R. eexists. split; [reflexivity|]. unfold sweep_ray. cbn [ray_segs map all_some]. rewrite Es. cbn [rev app track nth_error]. split; [reflexivity|]. cbn [ro_psi1 ro_psi2 rev app]. split; f_equal; [f_equal; ring|ring].
Qed.
Lemma m1_ok : mesh_ok m1.
Proof. unfold mesh_ok. cbn. lia. Qed.
Lemma fits_se : ray_fits m1 1 ray_se.
Proof.
  unfold ray_fits, ray_se, start_fw, start_bw. cbn [cr_nseg cr_recs cr_cell_fw cr_cell_bw cr_surf_fw cr_surf_bw]. change (coarse_position m1 0) with p0. split; [lia|]. split; [cbn; repeat split; discriminate|]. split; [constructor; [cbn; lia|constructor]|].
  split; [exists SOUTH; unfold entry_ok, in_mesh; cbn; repeat split; try lia; lra|]. split; [exists EAST; unfold entry_ok, in_mesh; cbn; repeat split; try lia; lra|].
  split; cbn; unfold in_mesh; cbn; repeat split; try lia; lra.
Qed.
Lemma fits_wn : ray_fits m1 1 ray_wn.
Proof.
  unfold ray_fits, ray_wn, start_fw, start_bw. cbn [cr_nseg cr_recs cr_cell_fw cr_cell_bw cr_surf_fw cr_surf_bw]. change (coarse_position m1 0) with p0. split; [lia|]. split; [cbn; repeat split; discriminate|]. split; [constructor; [cbn; lia|constructor]|].
  split; [exists WEST; unfold entry_ok, in_mesh; cbn; repeat split; try lia; lra|]. split; [exists NORTH; unfold entry_ok, in_mesh; cbn; repeat split; try lia; lra|].
  split; cbn; unfold in_mesh; cbn; repeat split; try lia; lra.
Qed.
Lemma rdiv_some : forall a b, b <> 0%R -> rdiv a b = Some (a / b)%R.
Proof. intros a b H. unfold rdiv. destruct (Reqb_spec b 0); [contradiction|reflexivity]. Qed.

Definition flat_rays (len e : R) : list Swept := [(flat_d len e, [1; 1]%R, [1; 1]%R, ray_se); (flat_d len e, [1; 1]%R, [1; 1]%R, ray_wn)].
Lemma flat_run : forall len e, exists b, cc_rays m1 0 w1 (flat_rays len e) (cc_zero m1 (repeat 0%R 6) (repeat 0%R 6)) = Some b /\ cb_sf b = [0; 1; 1; 1; 1]%R /\ cb_sb b = [0; 1; 1; 1; 1]%R /\ cb_vf b = [2 * len]%R /\ cb_vb b = [2 * len]%R /\ cb_n b = [2 * len]%R /\ cb_tf b = [2 * len]%R /\ cb_tb b = [2 * len]%R.
Proof.
  intros len e.
  assert (S1 : seg_fw (flat_d len e) [1; 1]%R 0 = Some (len, len, 1%R)) by (unfold seg_fw, psi_at, flat_d; cbn -[rdiv IZR Rmult Rminus Rplus]; change (Pos.to_nat 1) with 1%nat; cbn [nth_error]; rewrite rdiv_some by lra; repeat f_equal; lra).
  assert (S2 : seg_bw (flat_d len e) [1; 1]%R 0 = Some (len, len, 1%R)) by (unfold seg_bw, psi_at, flat_d; cbn -[rdiv IZR Rmult Rminus Rplus]; change (Pos.to_nat 1) with 1%nat; cbn [nth_error]; rewrite rdiv_some by lra; repeat f_equal; lra).
  eexists. split.
  - cbv -[seg_fw seg_bw Rplus Rmult Ropp IZR flat_d]. repeat (rewrite ?S1, ?S2; cbv -[seg_fw seg_bw Rplus Rmult Ropp IZR flat_d]). reflexivity.
  - cbn [cb_sf cb_sb cb_vf cb_vb cb_n cb_tf cb_tb]. repeat split; repeat (f_equal; try lra).
Qed.
Definition flat_env (h : R) : CcEnv := mkCE (sin (atan h)) (mkAngle (dir_angles (atan h) (PI / 2)) 1) 0 1 [1%R] [h] [1%R] 0 0.
Definition zf : Fac := (0, 0, 0)%R.
Lemma slope : forall h, (0 < h)%R -> (0 < sin (atan h))%R /\ (0 < cos (atan h))%R /\ (sin (atan h) = h * cos (atan h))%R /\ (cos (atan h) * cos (atan h) * (1 + h * h) = 1)%R.
Proof.
  intros h H. rewrite sin_atan, cos_atan. assert (0 < sqrt (1 + h²))%R by (apply sqrt_lt_R0; unfold Rsqr; nra). split; [apply Rdiv_lt_0_compat; lra|]. split; [apply Rdiv_lt_0_compat; lra|]. split; [field; lra|].
  assert (E : (sqrt (1 + h²) * sqrt (1 + h²) = 1 + h * h)%R) by (rewrite sqrt_def; unfold Rsqr; nra). apply (Rmult_eq_reg_r (sqrt (1 + h²) * sqrt (1 + h²))); [|nra]. rewrite E at 2. field. lra.
Qed.
Lemma flat_factors : forall h len b, (0 < h)%R -> (0 < len)%R -> cb_sf b = [0; 1; 1; 1; 1]%R -> cb_sb b = [0; 1; 1; 1; 1]%R -> cb_vf b = [2 * len]%R -> cb_vb b = [2 * len]%R -> cb_n b = [2 * len]%R -> cb_tf b = [2 * len]%R -> cb_tb b = [2 * len]%R ->
  exists st' res', post_angle m1 (flat_env h) b ([[zf]; [zf]], zf) = Some (st', res') /\ nth2 st' 0 0 = Some (1 / (2 * h), h / 2, 1)%R /\ nth2 st' 1 0 = Some (1 / (2 * h), h / 2, 1)%R.
Proof.
  intros h len b H L E1 E2 E3 E4 E5 E6 E7. destruct (slope h H) as (S1 & S2 & S3 & S4).
  assert (P : cc_pair m1 (flat_env h) b 0 = Some ((1 / (2 * h), h / 2, 1), (1 / (2 * h), h / 2, 1))%R).
  { unfold cc_pair. rewrite E1, E2, E3, E4, E5, E6, E7. unfold flat_env, cc_means. cbn [ce_ang ce_sp ce_dx ce_dy ce_xs ce_offx adir nth_error Nat.add]. change (alpha (dir_angles (atan h) (PI / 2))) with (atan h). change (ox (dir_angles (atan h) (PI / 2))) with (sin (PI / 2) * cos (atan h))%R.
    change (Z.to_nat (px (coarse_position m1 (Z.of_nat 0)))) with 0%nat. change (Z.to_nat (py (coarse_position m1 (Z.of_nat 0)))) with 0%nat. cbn [nth_error]. rewrite !rdiv_some by lra. unfold cell_factors, sides_fw, sides_bw. rewrite sin_PI2, Rmult_1_l. rewrite (Rltb_true 0 (cos (atan h))) by lra. cbn [xl xr yl yr].
    change (sum_at m1 [0; 1; 1; 1; 1]%R (Z.of_nat 0) WEST) with (Some 1%R). change (sum_at m1 [0; 1; 1; 1; 1]%R (Z.of_nat 0) EAST) with (Some 1%R). change (sum_at m1 [0; 1; 1; 1; 1]%R (Z.of_nat 0) SOUTH) with (Some 1%R). change (sum_at m1 [0; 1; 1; 1; 1]%R (Z.of_nat 0) NORTH) with (Some 1%R). cbn beta iota.
    replace (sin (atan h) / cos (atan h))%R with h by (rewrite S3; field; lra). replace (sin (atan h) / sin (atan h))%R with 1%R by (field; lra). rewrite (Rabs_right h), (Rabs_right 1) by lra.
    assert (0 < 1 / h)%R by (apply Rdiv_lt_0_compat; lra). rewrite !rdiv_some by lra. f_equal. f_equal; f_equal; try f_equal; field; lra. }
  unfold post_angle. change (Z.to_nat (nx m1 * ny m1)) with 1%nat. cbn [cc_cells]. unfold cc_cell. rewrite P. cbn [fst snd flat_env ce_i1 ce_i2 ce_off Nat.add]. do 2 eexists. split; [reflexivity|]. split; reflexivity.
Qed.
Lemma flat_facts : forall len e, length_in m1 (flat_rays len e) p0 = (2 * len)%R /\ source_fw m1 (flat_rays len e) p0 = (2 * len)%R.
Proof.
  intros len e. unfold length_in, source_fw, flat_rays, lsum. assert (V1 : visits_fw m1 ray_se = [(p0, 0, 1)]) by reflexivity. assert (V2 : visits_fw m1 ray_wn = [(p0, 0, 1)]) by reflexivity. rewrite V1, V2.
  unfold vsum_at. cbn [lsum fst snd]. change (Z.min 0 1) with 0. change (Z.to_nat (Z.abs (1 - 0))) with 1%nat. cbn [span]. unfold seg_t, seg_src, flat_d. cbn [rd_segs rd_rst rd_q rd_true rd_first Z.to_nat nth_error Nat.add nth]. assert (Hh : hit p0 p0 = 1%R) by reflexivity. rewrite Hh. split; ring.
Qed.

(** All the conditions of the theorem hold for the square cell. *)
Example C120_instance : exists len e b st' res', let E := flat_env 1 in Forall (fit m1 1) (flat_rays len e) /\ cc_rays m1 0 w1 (flat_rays len e) (cc_zero m1 (repeat 0%R 6) (repeat 0%R 6)) = Some b /\ (0 < sin (atan 1))%R /\ (0 < sin (PI / 2))%R /\ (0 < cos (atan 1))%R /\ (0 < ce_sp E)%R /\
  (length_in m1 (flat_rays len e) p0 * sin (PI / 2) * ce_sp E = 1 * 1)%R /\ Forall (fun x => 0 <= x)%R (cb_sf b) /\ Forall (fun x => 0 <= x)%R (cb_sb b) /\ (0 < cell_at m1 (cb_tf b) p0)%R /\ (0 < cell_at m1 (cb_tb b) p0)%R /\ post_angle m1 E b ([[zf]; [zf]], zf) = Some (st', res') /\ nth2 st' 0 0 = Some (1 / 2, 1 / 2, 1)%R.
Proof.
  destruct (slope 1 ltac:(lra)) as (S1 & S2 & S3 & S4). set (len := (1 / (2 * cos (atan 1)))%R). assert (L : (0 < len)%R) by (apply Rdiv_lt_0_compat; lra). destruct (flat_swept len L) as (e & Sw). destruct (flat_run len e) as (b & Eb & B1 & B2 & B3 & B4 & B5 & B6 & B7). destruct (flat_factors 1 len b ltac:(lra) L B1 B2 B3 B4 B5 B6 B7) as (st' & res' & Ep & N1 & _).
  exists len, e, b, st', res'. cbn zeta. split; [constructor; [split; [exact fits_se|exact Sw]|constructor; [split; [exact fits_wn|exact Sw]|constructor]]|]. split; [exact Eb|]. split; [exact S1|]. split; [rewrite sin_PI2; lra|]. split; [exact S2|]. split; [exact S1|].
  split; [rewrite (proj1 (flat_facts len e)), sin_PI2; unfold len, flat_env; cbn [ce_sp]; rewrite S3; field; lra|]. rewrite B1, B2, B6, B7. split; [repeat (constructor; [lra|]); constructor|]. split; [repeat (constructor; [lra|]); constructor|]. split; [unfold cell_at, atz, at0; cbn; lra|]. split; [unfold cell_at, atz, at0; cbn; lra|]. split; [exact Ep|]. rewrite N1. repeat f_equal; lra.
Qed.

(** In a cell twice as high as wide the face sums are divided by the wrong width: a flat flux, sustained by its source, is not
    reproduced by the corrected scheme from its own exact inflow. *)
Theorem C120_oblong_refuted : exists rays b E dx dy xs st' res' fx fy fb psi xo yo fz,
  Forall (fit m1 1) rays /\ cc_rays m1 0 w1 rays (cc_zero m1 (repeat 0%R 6) (repeat 0%R 6)) = Some b /\ ce_ang E = mkAngle (dir_angles (atan 2) (PI / 2)) 1 /\ ce_dx E = [dx] /\ ce_dy E = [dy] /\ ce_xs E = [xs] /\ ce_offx E = 0%nat /\ dx = 1%R /\ dy = 2%R /\ xs = 1%R /\
  (length_in m1 rays p0 * sin (PI / 2) * ce_sp E = dx * dy)%R /\ post_angle m1 E b ([[zf]; [zf]], zf) = Some (st', res') /\ nth2 st' (ce_i1 E) (ce_off E) = Some (fx, fy, fb) /\
  (forall s, s = WEST \/ s = EAST \/ s = SOUTH \/ s = NORTH -> face_avg m1 E (cb_sf b) p0 dx dy s = 1)%R /\ (cell_at m1 (cb_tf b) p0 / (length_in m1 rays p0 * xs) = 1)%R /\
  eval_cdd_2d fx fy fb (Rabs (ox (dir_angles (atan 2) (PI / 2))) / dx) (Rabs (oy (dir_angles (atan 2) (PI / 2))) / dy) 0 (face_avg m1 E (cb_sf b) p0 dx dy WEST) (face_avg m1 E (cb_sf b) p0 dx dy SOUTH) fz (source_fw m1 rays p0 / length_in m1 rays p0) xs = Some (psi, xo, yo, fz) /\
  (psi < 1)%R /\ (xo > 1)%R.
Proof.
  destruct (slope 2 ltac:(lra)) as (S1 & S2 & S3 & S4). set (len := (1 / (2 * cos (atan 2)))%R). assert (L : (0 < len)%R) by (apply Rdiv_lt_0_compat; lra). destruct (flat_swept len L) as (e & Sw). destruct (flat_run len e) as (b & Eb & B1 & B2 & B3 & B4 & B5 & B6 & B7). destruct (flat_factors 2 len b ltac:(lra) L B1 B2 B3 B4 B5 B6 B7) as (st' & res' & Ep & N1 & _).
  destruct (flat_facts len e) as [F1 F2].
  assert (Avg : (forall s, s = WEST \/ s = EAST \/ s = SOUTH \/ s = NORTH -> face_avg m1 (flat_env 2) (cb_sf b) p0 1 2 s = 1)%R).
  { intros s Hs. unfold face_avg, flat_env. cbn [ce_sp ce_ang adir]. change (alpha (dir_angles (atan 2) (PI / 2))) with (atan 2). replace (sin (atan 2) / cos (atan 2))%R with 2%R by (rewrite S3; field; lra). replace (sin (atan 2) / sin (atan 2))%R with 1%R by (field; lra). rewrite (Rabs_right 2), (Rabs_right 1) by lra. rewrite B1.
    assert (Fc : forall t, t = WEST \/ t = EAST \/ t = SOUTH \/ t = NORTH -> face_cur m1 [0; 1; 1; 1; 1]%R p0 t = 1%R) by (intros t [-> |[-> |[-> | ->]]]; reflexivity). rewrite (Fc s Hs). destruct Hs as [-> |[-> |[-> | ->]]]; cbn [surface_to_normal]; field. }
  assert (C0 : (0 < cos (atan 2) < 1 / 2)%R) by (split; [lra|]; destruct (Rlt_le_dec (cos (atan 2)) (1 / 2)); [assumption|]; nra). set (c := cos (atan 2)) in *.
  assert (D : (0 < 1 + 5 * c)%R) by lra.
  exists (flat_rays len e), b, (flat_env 2), 1%R, 2%R, 1%R, st', res', (1 / (2 * 2))%R, (2 / 2)%R, 1%R, ((1 + 4 * c) / (1 + 5 * c))%R. eexists. eexists. exists 0%R.
  split; [constructor; [split; [exact fits_se|exact Sw]|constructor; [split; [exact fits_wn|exact Sw]|constructor]]|]. split; [exact Eb|]. do 5 (split; [reflexivity|]). do 3 (split; [reflexivity|]).
  split; [rewrite F1, sin_PI2; unfold len, flat_env; cbn [ce_sp]; rewrite S3; field; lra|]. split; [exact Ep|]. split; [exact N1|]. split; [exact Avg|].
  split; [rewrite B6, F1; unfold cell_at, atz, at0; cbn; field; lra|]. rewrite !Avg by auto. rewrite F1, F2.
  change (ox (dir_angles (atan 2) (PI / 2))) with (sin (PI / 2) * cos (atan 2))%R. change (oy (dir_angles (atan 2) (PI / 2))) with (sin (PI / 2) * sin (atan 2))%R. rewrite S3, sin_PI2. fold c. rewrite !Rmult_1_l. rewrite (Rabs_right c), (Rabs_right (2 * c)) by lra.
  unfold eval_cdd_2d. cbn zeta. rewrite !(rdiv_some _ (1 / (2 * 2) * 1)), !(rdiv_some _ (2 / 2 * 1)) by lra.
  assert (Q1 : (c / 1 / (1 / (2 * 2) * 1) + 2 * c / 2 / (2 / 2 * 1) + 1 = 1 + 5 * c)%R) by field. rewrite Q1. rewrite rdiv_some by lra. replace (2 * len / (2 * len) + 2 * (c / 1 * 1 + 2 * c / 2 * 1))%R with (1 + 4 * c)%R by (field; lra).
  assert (Ps : ((1 + 4 * c) / (1 + 5 * c) < 1)%R) by (apply (Rmult_lt_reg_r (1 + 5 * c)); [lra|]; unfold Rdiv; rewrite Rmult_assoc, Rinv_l by lra; lra).
  assert (Pl : (1 / 2 < (1 + 4 * c) / (1 + 5 * c))%R) by (apply (Rmult_lt_reg_r (1 + 5 * c)); [lra|]; unfold Rdiv; rewrite (Rmult_assoc (1 + 4 * c)), Rinv_l by lra; lra).
  split; [reflexivity|]. split; [exact Ps|]. set (q := ((1 + 4 * c) / (1 + 5 * c))%R) in *. lra.
Qed.
Print Assumptions C120_oblong_refuted.

(** A ray of six segments through the three cells (0,0), (1,0), (1,1) of a plane, with two regions. *)
Example C119_instance : exists d psi1 psi2 b b', mesh_ok cm2 /\ in_mesh cm2 q00 /\ ray_fits cm2 1 cray /\ swept d psi1 psi2 /\ data_fit d psi1 psi2 cray /\ sized cm2 b /\ cc_post_ray cm2 2 w1 d psi1 psi2 cray b = Some b' /\ rd_q d = [1; 3]%R /\ hd 0%R psi1 = 2%R.
Proof.
  set (segs := [(0%nat, 1%R); (1%nat, 2%R); (0%nat, 1%R); (1%nat, 1%R); (0%nat, (1 / 2)%R); (1%nat, 1%R)]). set (xs := [1; 2]%R). set (q := [1; 3]%R).
  assert (Hx : Forall (fun x => 0 < x)%R xs) by (unfold xs; repeat (constructor; [lra|]); constructor). assert (Hs : Forall (fun sg : nat * R => (fst sg + 0 < length xs)%nat /\ (0 < snd sg)%R) segs) by (unfold segs, xs; repeat (constructor; [cbn; split; [lia|lra]|]); constructor).
  destruct (etau_all xs 0 1 segs ltac:(lra) Hx Hs) as (es & Ee & Re & Me). assert (F2 : Forall2 (fun sg ie => seg_etau xs 0 1 sg = Some ie) segs es) by now apply all_some_map.
  destruct (track_def q es 2) as (d1 & p1 & T1); [intros i e I; destruct (Re i e I); exact H|]. destruct (track_def q (rev es) 5) as (d2 & p2 & T2); [intros i e I; apply in_rev in I; destruct (Re i e I); exact H|].
  destruct (track_shape _ _ _ _ _ T1) as (_ & L1 & H1). destruct (track_shape _ _ _ _ _ T2) as (_ & L2 & _). rewrite rev_length in L2. assert (Le : length es = 6%nat) by (rewrite <- (map_length fst es), Me; reflexivity).
  set (d := mkRD segs 0 xs xs q (map snd es) 1).
  assert (Df : data_fit d p1 (rev p2) cray). { unfold data_fit, d. cbn [rd_segs rd_etau rd_split rd_true rd_q rd_first]. rewrite map_length, rev_length. change (Z.to_nat (cr_nseg cray)) with 6%nat. split; [reflexivity|]. split; [lia|]. split; [lia|]. split; [exact Le|]. unfold segs, xs, q. repeat (constructor; [cbn; do 3 eexists; split; [reflexivity|]; split; [lra|]; split; reflexivity|]). constructor. }
  assert (Sw : swept d p1 (rev p2)). { split; [reflexivity|]. unfold d. cbn [rd_segs rd_etau rd_split rd_true rd_q rd_first rd_rst]. split; [clear - F2; induction F2 as [|sg [i e] s es E F IH]; cbn; [constructor|constructor; [eauto|exact IH]]|]. exists (mkRay 0 0 segs), 2%R, 5%R. eexists. split; [reflexivity|]. unfold sweep_ray. cbn [ray_segs]. rewrite Ee, T1, T2. split; [reflexivity|]. split; reflexivity. }
  assert (Ft : ray_fits cm2 1 cray). { unfold ray_fits, start_fw, start_bw. change (coarse_position cm2 (cr_cell_fw cray)) with q00. change (coarse_position cm2 (cr_cell_bw cray)) with q11. split; [cbn; lia|]. split; [cbn; repeat split; discriminate|]. split; [cbn; repeat (constructor; [cbn; lia|]); constructor|].
    split; [exists WEST; unfold entry_ok, in_mesh; cbn; repeat split; try lia; lra|]. split; [exists NORTH; unfold entry_ok, in_mesh; cbn; repeat split; try lia; lra|]. split; cbn; unfold in_mesh; cbn; repeat split; try lia; lra. }
  assert (Sz : sized cm2 (cc_zero cm2 (repeat 0%R (Z.to_nat (n_surf cm2))) (repeat 0%R (Z.to_nat (n_surf cm2))))) by (unfold sized, cc_zero; cbn [cb_sf cb_sb cb_vf cb_vb cb_n cb_tf cb_tb cb_cur cb_flx]; rewrite !repeat_length; repeat split).
  assert (M2 : mesh_ok cm2) by (unfold mesh_ok; cbn; lia). destruct (C119_defined cm2 2 w1 d p1 (rev p2) 1 cray _ M2 ltac:(cbn; lia) Ft Df Sz) as (b' & Eb & _).
  exists d, p1, (rev p2). do 2 eexists. split; [exact M2|]. split; [unfold in_mesh; cbn; lia|]. split; [exact Ft|]. split; [exact Sw|]. split; [exact Df|]. split; [exact Sz|]. split; [exact Eb|]. split; [reflexivity|exact H1].
Qed.

(** ** C121 *)
(** Angles done one after another, each with its environment and sums. *)
Fixpoint post_angles (m : Mesh) (l : list (CcEnv * CB)) (s : list (list Fac) * Fac) : option (list (list Fac) * Fac) :=
  match l with [] => Some s | (e, b) :: r => match post_angle m e b s with Some s' => post_angles m r s' | None => None end end.
(** The factors one angle writes: those of its two directions in the cells of its plane. *)
Definition writes (m : Mesh) (e : CcEnv) (a c : nat) : Prop := (a = ce_i1 e \/ a = ce_i2 e) /\ (ce_off e <= c < ce_off e + Z.to_nat (nx m * ny m))%nat.
Definition sq_changes (m : Mesh) (st st' : list (list Fac)) (j : nat) (l : list (CcEnv * CB)) : R :=
  lsum (fun eb => lsum (fun k => change2 st st' j (ce_i1 (fst eb)) (k + ce_off (fst eb))%nat + change2 st st' j (ce_i2 (fst eb)) (k + ce_off (fst eb))%nat)%R (seq 0 (Z.to_nat (nx m * ny m)))) l.

(** The residual of a group is the root of the sum of the squared changes of all factors written, for each of the three kinds;
    nothing else is changed. *)
Theorem C121_residual : forall m l st st' r', Forall (fun eb => ce_i1 (fst eb) <> ce_i2 (fst eb)) l ->
  ForallOrdPairs (fun x y => forall a c, writes m (fst x) a c -> ~ writes m (fst y) a c) l -> post_angles m l (st, zf) = Some (st', r') ->
  (forall j, (j < 3)%nat -> comp j (cc_residual r') = sqrt (sq_changes m st st' j l)) /\ (forall a c, (forall eb, In eb l -> ~ writes m (fst eb) a c) -> nth2 st' a c = nth2 st a c).
Proof.
  intros m l st st' r' Ni D H.
  assert (G : forall l st r st' r', Forall (fun eb => ce_i1 (fst eb) <> ce_i2 (fst eb)) l -> ForallOrdPairs (fun x y => forall a c, writes m (fst x) a c -> ~ writes m (fst y) a c) l -> post_angles m l (st, r) = Some (st', r') ->
    (forall j, comp j r' = comp j r + sq_changes m st st' j l)%R /\ (forall a c, (forall eb, In eb l -> ~ writes m (fst eb) a c) -> nth2 st' a c = nth2 st a c)).
  { clear. induction l as [|[e b] l IH]; intros st r st' r' Ni D H; cbn [post_angles] in H.
    - injection H as <- <-. split; [intros j; unfold sq_changes; cbn [lsum]; lra|reflexivity].
    - destruct (post_angle m e b (st, r)) as [[st1 r1]|] eqn:E; [|discriminate]. inversion Ni as [|? ? N1 N2]; subst. inversion D as [|? ? D1 D2]; subst. cbn [fst] in N1. destruct (cc_cells_inv m e b _ _ _ _ N1 E) as (_ & B & C). cbn [fst snd] in *. destruct (IH _ _ _ _ N2 D2 H) as (A1 & A2).
      assert (Fix : forall a c, writes m e a c -> nth2 st' a c = nth2 st1 a c). { intros a c W. apply A2. intros eb I. rewrite Forall_forall in D1. exact (D1 eb I a c W). }
      assert (Old : forall a c, ~ writes m e a c -> nth2 st1 a c = nth2 st a c). { intros a c W. apply B. unfold writes in W. destruct (Nat.eq_dec a (ce_i1 e)), (Nat.eq_dec a (ce_i2 e)); try lia. }
      split.
      + intros j. rewrite A1, C. unfold sq_changes. cbn [lsum fst].
        rewrite (lsum_ext (fun k => change2 st st1 j (ce_i1 e) (k + ce_off e)%nat + change2 st st1 j (ce_i2 e) (k + ce_off e)%nat)%R (fun k => change2 st st' j (ce_i1 e) (k + ce_off e)%nat + change2 st st' j (ce_i2 e) (k + ce_off e)%nat)%R).
        2:{ intros k Ik. apply in_seq in Ik. unfold change2, fac2. rewrite !Fix; [reflexivity| |]; unfold writes; (split; [auto|lia]). }
        match goal with |- (_ + ?a + ?b = _ + (?a + ?c))%R => assert (Q : b = c); [|rewrite Q; ring] end.
        apply lsum_ext. intros [e' b'] I. cbn [fst]. apply lsum_ext. intros k Ik. apply in_seq in Ik. rewrite Forall_forall in D1. pose proof (D1 _ I) as Dj. cbn [fst] in Dj.
        unfold change2, fac2. rewrite !(Old _ (k + ce_off e')%nat); [reflexivity| |]; intros W; apply (Dj _ _ W); unfold writes; (split; [auto|lia]).
      + intros a c W. rewrite A2 by (intros eb I; apply W; now right). apply Old. apply (W (e, b)). now left. }
  destruct (G l st zf st' r' Ni D H) as (A & B). split; [|exact B]. intros j J. assert (A' := A j). assert (Z0 : comp j zf = 0%R) by (destruct j as [|[|]]; reflexivity). rewrite Z0, Rplus_0_l in A'. rewrite <- A'. destruct r' as [[x y] z]. destruct j as [|[|[|]]]; [reflexivity|reflexivity|reflexivity|lia].
Qed.
Print Assumptions C121_residual.

Lemma lsum_zero_nonneg : forall {A} (f : A -> R) l, (forall x, In x l -> (0 <= f x)%R) -> lsum f l = 0%R -> forall x, In x l -> f x = 0%R.
Proof.
  intros A f. induction l as [|y l IH]; intros N H x I; [destruct I|]. cbn [lsum] in H. assert (P : forall l, (forall x, In x l -> (0 <= f x)%R) -> (0 <= lsum f l)%R) by (clear; intros l; induction l as [|a l IH]; intros N; cbn [lsum]; [lra|]; pose proof (N a (or_introl eq_refl)); pose proof (IH (fun x I => N x (or_intror I))); lra).
  pose proof (N y (or_introl eq_refl)). pose proof (P l (fun z Iz => N z (or_intror Iz))). destruct I as [<-|I]; [lra|]. apply IH; auto; [intros z Iz; apply N; now right|lra].
Qed.
Lemma change_nonneg : forall st st' j a c, (0 <= change2 st st' j a c)%R.
Proof. intros. unfold change2. match goal with |- (0 <= ?x * ?x)%R => pose proof (Rle_0_sqr x) as Q; exact Q end. Qed.
(** It vanishes exactly when no factor written has changed. *)
Theorem C121_zero : forall m l st st' r', Forall (fun eb => ce_i1 (fst eb) <> ce_i2 (fst eb)) l -> ForallOrdPairs (fun x y => forall a c, writes m (fst x) a c -> ~ writes m (fst y) a c) l -> post_angles m l (st, zf) = Some (st', r') ->
  (cc_residual r' = zf <-> forall a c, fac2 st' a c = fac2 st a c).
Proof.
  intros m l st st' r' Ni D H. destruct (C121_residual m l st st' r' Ni D H) as (A & B).
  assert (NN : forall j, (0 <= sq_changes m st st' j l)%R). { intros j. unfold sq_changes. assert (P : forall {A} (f : A -> R) l, (forall x, (0 <= f x)%R) -> (0 <= lsum f l)%R) by (clear; intros A f l N; induction l as [|a l IH]; cbn [lsum]; [lra|]; pose proof (N a); lra). apply P. intros eb. apply P. intros k. pose proof (change_nonneg st st' j (ce_i1 (fst eb)) (k + ce_off (fst eb))%nat). pose proof (change_nonneg st st' j (ce_i2 (fst eb)) (k + ce_off (fst eb))%nat). lra. }
  split.
  - intros Z a c. assert (Sq : forall j, (j < 3)%nat -> sq_changes m st st' j l = 0%R). { intros j J. apply sqrt_eq_0; [apply NN|]. rewrite <- (A j J), Z. destruct j as [|[|[|]]]; try reflexivity; lia. }
    assert (Dec : (exists eb, In eb l /\ writes m (fst eb) a c) \/ forall eb, In eb l -> ~ writes m (fst eb) a c).
    { clear. induction l as [|eb l [(x & I & W)|N]]; [right; intros ? []|left; exists x; split; [now right|exact W]|]. unfold writes. destruct (Nat.eq_dec a (ce_i1 (fst eb))), (Nat.eq_dec a (ce_i2 (fst eb))), (le_lt_dec (ce_off (fst eb)) c), (le_lt_dec (ce_off (fst eb) + Z.to_nat (nx m * ny m)) c);
      try (left; exists eb; split; [now left|unfold writes; lia]); right; intros x [<-|I]; try (unfold writes; lia); apply (N x I). }
    destruct Dec as [(eb & I & W1 & W2)|N]; [|unfold fac2; now rewrite B]. assert (C : forall j, (j < 3)%nat -> comp j (fac2 st' a c) = comp j (fac2 st a c)).
    { intros j J. specialize (Sq j J). unfold sq_changes in Sq. assert (P2 : forall k (eb : CcEnv * CB), (0 <= change2 st st' j (ce_i1 (fst eb)) (k + ce_off (fst eb))%nat + change2 st st' j (ce_i2 (fst eb)) (k + ce_off (fst eb))%nat)%R) by (intros k x; pose proof (change_nonneg st st' j (ce_i1 (fst x)) (k + ce_off (fst x))%nat); pose proof (change_nonneg st st' j (ce_i2 (fst x)) (k + ce_off (fst x))%nat); lra).
      assert (P : forall {A} (f : A -> R) l, (forall x, (0 <= f x)%R) -> (0 <= lsum f l)%R) by (clear; intros A f l N; induction l as [|x l IH]; cbn [lsum]; [lra|]; pose proof (N x); lra).
      pose proof (lsum_zero_nonneg _ l (fun x _ => P _ _ _ (fun k => P2 k x)) Sq eb I) as S1. cbn beta in S1. pose proof (lsum_zero_nonneg _ _ (fun k _ => P2 k eb) S1 (c - ce_off (fst eb))%nat ltac:(apply in_seq; lia)) as S2. cbn beta in S2. replace (c - ce_off (fst eb) + ce_off (fst eb))%nat with c in S2 by lia.
      pose proof (change_nonneg st st' j (ce_i1 (fst eb)) c). pose proof (change_nonneg st st' j (ce_i2 (fst eb)) c). assert (Q : change2 st st' j a c = 0%R) by (destruct W1 as [-> | ->]; lra). unfold change2 in Q. apply Rmult_integral in Q. destruct Q; lra. }
    pose proof (C 0%nat ltac:(lia)). pose proof (C 1%nat ltac:(lia)). pose proof (C 2%nat ltac:(lia)). destruct (fac2 st' a c) as [[x y] z], (fac2 st a c) as [[x' y'] z']. cbn [comp] in *. congruence.
  - intros Same. assert (S0 : forall j, sq_changes m st st' j l = 0%R). { intros j. unfold sq_changes. rewrite (lsum_ext _ (fun _ => 0%R)); [clear; induction l as [|x l IH]; cbn [lsum]; lra|]. intros eb _. rewrite (lsum_ext _ (fun _ => 0%R)); [generalize (seq 0 (Z.to_nat (nx m * ny m))) as s; clear; induction s as [|x l IH]; cbn [lsum]; lra|]. intros k _. unfold change2. rewrite !Same. ring. }
    pose proof (A 0%nat ltac:(lia)) as A0. pose proof (A 1%nat ltac:(lia)) as A1. pose proof (A 2%nat ltac:(lia)) as A2. rewrite S0, sqrt_0 in *. destruct (cc_residual r') as [[x y] z]. cbn [comp] in *. unfold zf. congruence.
Qed.
Print Assumptions C121_zero.

Example C121_instance : exists b st' res', post_angles m1 [(flat_env 1, b)] ([[zf]; [zf]], zf) = Some (st', res') /\ ForallOrdPairs (fun x y : CcEnv * CB => forall a c, writes m1 (fst x) a c -> ~ writes m1 (fst y) a c) [(flat_env 1, b)] /\ ce_i1 (flat_env 1) <> ce_i2 (flat_env 1) /\ comp 2 (cc_residual res') = sqrt 2.
Proof.
  destruct (flat_run 1 0) as (b & Eb & B1 & B2 & B3 & B4 & B5 & B6 & B7). destruct (flat_factors 1 1 b ltac:(lra) ltac:(lra) B1 B2 B3 B4 B5 B6 B7) as (st' & res' & Ep & N1 & N2). exists b, st', res'.
  assert (E : post_angles m1 [(flat_env 1, b)] ([[zf]; [zf]], zf) = Some (st', res')) by (cbn [post_angles]; now rewrite Ep). assert (O : ForallOrdPairs (fun x y : CcEnv * CB => forall a c, writes m1 (fst x) a c -> ~ writes m1 (fst y) a c) [(flat_env 1, b)]) by (constructor; constructor).
  split; [exact E|]. split; [exact O|]. assert (Ne : ce_i1 (flat_env 1) <> ce_i2 (flat_env 1)) by (cbn [flat_env ce_i1 ce_i2]; lia). split; [exact Ne|]. assert (Fo : Forall (fun eb : CcEnv * CB => ce_i1 (fst eb) <> ce_i2 (fst eb)) [(flat_env 1, b)]) by (constructor; [exact Ne|constructor]). rewrite (proj1 (C121_residual m1 _ _ _ _ Fo O E) 2%nat ltac:(lia)). unfold sq_changes. cbn [lsum fst seq Z.to_nat]. change (Z.to_nat (nx m1 * ny m1)) with 1%nat. cbn [seq lsum]. cbn [flat_env ce_i1 ce_i2 ce_off Nat.add]. unfold change2, fac2. rewrite N1, N2. cbn. f_equal. lra.
Qed.

(** ** C122 *)
Lemma lift_move : forall k q s, in_plane s -> move (lift k q) s = lift k (move q s).
Proof. intros k [x y z] s I. destruct s; try contradiction; reflexivity. Qed.
Lemma lift_in : forall m k q, 0 <= k < nz m -> in_mesh m q -> in_mesh m (lift k q).
Proof. intros m k [x y z] K Q. unfold in_mesh in *. cbn in *. lia. Qed.

Section Currents.
  Variables (m : Mesh) (plane : Z) (w : Wts).
  Hypothesis M : mesh_ok m.
  Hypothesis K : 0 <= plane < nz m.

  Lemma next_lift : forall q s steps sx W nseg dir i, in_mesh m q -> in_plane s -> path_ok m sx 1 W nseg dir steps (move q s) i -> at_cell m (next_cell m (coarse_cell m (lift plane q)) (Some s)) (lift plane (move q s)) steps.
  Proof.
    intros q s steps sx W nseg dir i Q I Po. destruct steps as [|[n t] steps]; [now left|]. right. destruct Po as (Q' & _). pose proof (lift_in m plane q K Q) as QL. unfold next_cell. pose proof (coarse_cell_bounds m _ QL). destruct (Z.ltb_spec (coarse_cell m (lift plane q)) 0); [lia|]. rewrite coarse_neighbor_spec by auto. rewrite lift_move by exact I. apply cell_or_none_in. now apply lift_in.
  Qed.
  Lemma walk_currents : forall d psi1 psi2 sx nseg recs cf cb cf' cb' qf qb jf jb b b', noop_last recs -> Forall (fun r => 0 <= rc_nfw r /\ 0 <= rc_nbw r) recs ->
    at_cell m cf qf (fw_steps recs) -> at_cell m cb qb (bw_steps recs) -> at_cell m cf' (lift plane qf) (fw_steps recs) -> at_cell m cb' (lift plane qb) (bw_steps recs) -> path_ok m sx 1 1 nseg 1 (fw_steps recs) qf jf -> path_ok m sx 1 (- (1)) nseg (-1) (bw_steps recs) qb jb -> pz qf = 0 -> pz qb = 0 ->
    cc_walk m w d psi1 psi2 (n_surf_plane m * plane) recs cf cb jf jb b = Some b' -> walk m (w_cx w) (w_cy w) psi1 psi2 recs cf' cb' jf jb (cb_cur b) = Some (cb_cur b').
  Proof.
    intros d psi1 psi2 sx nseg. induction recs as [|r recs IH]; intros cf cb cf' cb' qf qb jf jb b b' Nl Fc Af Ab Af' Ab' Pf Pb Zf Zb H; cbn [cc_walk walk] in *; [congruence|].
    destruct Nl as (N1 & N2 & Nl). inversion Fc as [|? ? [C1 C2] Fc']; subst.
    change (fw_steps (r :: recs)) with (head_step (rc_fw r) (rc_nfw r) ++ fw_steps recs) in *. change (bw_steps (r :: recs)) with (head_step (rc_bw r) (rc_nbw r) ++ bw_steps recs) in *.
    destruct (rec_fw _ _ _ _ _ _ _ _ _ _) as [[j1 b1]|] eqn:E1; [|discriminate]. destruct (rec_bw _ _ _ _ _ _ _ _ _ _) as [[j2 b2]|] eqn:E2; [|discriminate].
    destruct (rec_fw_inv m plane w d M psi1 sx nseg cf jf qf _ _ _ b j1 b1 Af Pf N1 C1 E1) as (q1 & A1 & P1 & _ & _ & _ & _ & _ & J1). destruct (rec_bw_inv m plane w d M psi2 sx nseg cb jb qb _ _ _ b1 j2 b2 Ab Pb N2 C2 E2) as (q2 & A2 & P2 & _ & _ & _ & _ & _ & _ & J2).
    assert (X1 : cross m (w_cx w) (w_cy w) 1 psi1 1 cf' jf (rc_fw r) (rc_nfw r) (cb_cur b) = Some (j1, cb_cur b1) /\ at_cell m (next_cell m cf' (rc_fw r)) (lift plane q1) (fw_steps recs) /\ pz q1 = 0).
    { unfold cross. destruct (rc_fw r) as [t|]; [|destruct J1 as (-> & -> & ->); split; [reflexivity|]; split; [rewrite (N1 eq_refl); now left|exact Zf]]. destruct J1 as (-> & -> & T). cbn [head_step app path_ok] in Pf, Af'. destruct Pf as (Q & I & _ & _ & Po). destruct Af' as [X| ->]; [discriminate|].
      rewrite coarse_surf_correct by (auto; now apply lift_in). destruct (face_shift m qf t plane M Q Zf I K) as [<- _]. replace (jf + 1 * rc_nfw r) with (jf + rc_nfw r) in * by ring. rewrite T. split; [reflexivity|]. split; [exact (next_lift _ _ _ _ _ _ _ _ Q I Po)|]. rewrite pz_move; auto. }
    assert (X2 : cross m (w_cx w) (w_cy w) (-1) psi2 (-1) cb' jb (rc_bw r) (rc_nbw r) (cb_cur b1) = Some (j2, cb_cur b2) /\ at_cell m (next_cell m cb' (rc_bw r)) (lift plane q2) (bw_steps recs) /\ pz q2 = 0).
    { unfold cross. destruct (rc_bw r) as [t|]; [|destruct J2 as (-> & -> & ->); split; [reflexivity|]; split; [rewrite (N2 eq_refl); now left|exact Zb]]. destruct J2 as (-> & -> & T). cbn [head_step app path_ok] in Pb, Ab'. destruct Pb as (Q & I & _ & _ & Po). destruct Ab' as [X| ->]; [discriminate|].
      rewrite coarse_surf_correct by (auto; now apply lift_in). destruct (face_shift m qb t plane M Q Zb I K) as [<- _]. replace (jb + -1 * rc_nbw r) with (jb - rc_nbw r) in * by ring. rewrite T. split; [reflexivity|]. split; [exact (next_lift _ _ _ _ _ _ _ _ Q I Po)|]. rewrite pz_move; auto. }
    destruct X1 as (-> & U1 & U2), X2 as (-> & U3 & U4). exact (IH _ _ _ _ q1 q2 _ _ _ _ Nl Fc' A1 A2 U1 U3 P1 P2 U2 U4 H).
  Qed.
End Currents.

(** The coarse currents are those the plain current worker tallies for the ray. *)
Theorem C122_currents : forall m plane w d psi1 psi2 sx ray b b', mesh_ok m -> 0 <= plane < nz m -> ray_fits m sx ray -> cc_post_ray m plane w d psi1 psi2 ray b = Some b' ->
  post_ray m plane (w_cx w) (w_cy w) psi1 psi2 ray (cb_cur b) = Some (cb_cur b').
Proof.
  intros m plane w d psi1 psi2 sx ray b b' M K (Hn & Nl & Fc & (sf & Ef) & (sb & Eb) & Pf & Pb) H. unfold cc_post_ray in H. cbn zeta in H.
  destruct (lift_entry m _ _ _ _ _ _ _ plane M K Ef) as (_ & Cf & Sf & Nf & _). destruct (lift_entry m _ _ _ _ _ _ _ plane M K Eb) as (_ & Cb & Sb & Nb & _).
  destruct (lift_entry m _ _ _ _ _ _ _ 0 M ltac:(lia) Ef) as (Qf & Cf0 & Sf0 & Nf0 & _). destruct (lift_entry m _ _ _ _ _ _ _ 0 M ltac:(lia) Eb) as (Qb & Cb0 & Sb0 & Nb0 & _).
  destruct Ef as (_ & If & _ & _ & Zf & _). destruct Eb as (_ & Ib & _ & _ & Zb & _).
  assert (Lf : lift 0 (start_fw m ray) = start_fw m ray) by (destruct (start_fw m ray) as [x y z]; cbn in *; now subst z).
  assert (Lb : lift 0 (start_bw m ray) = start_bw m ray) by (destruct (start_bw m ray) as [x y z]; cbn in *; now subst z).
  rewrite Lf in Qf, Cf0, Sf0. rewrite Lb in Qb, Cb0, Sb0. rewrite Z.mul_0_r, Z.add_0_r in Cf0, Sf0, Nf0, Cb0, Sb0, Nb0. rewrite Nf0, Nb0, Sf0, Sb0 in H.
  destruct (put_fw _ _ _ _ _ _ _) as [b1|] eqn:E1; [|discriminate]. destruct (put_bw _ _ _ _ _ _ _) as [b2|] eqn:E2; [|discriminate].
  destruct (put_fw_inv m plane w M psi1 _ _ _ _ _ Qf If E1) as (_ & _ & _ & _ & _ & _ & _ & _ & _ & T1). destruct (put_bw_inv m plane w M psi2 _ _ _ _ _ Qb Ib E2) as (_ & _ & _ & _ & _ & _ & _ & _ & _ & T2).
  unfold post_ray. cbn zeta. rewrite Nf, Nb. rewrite <- Sf0 in T1. rewrite <- Sb0 in T2. rewrite T1, T2.
  eapply (walk_currents m plane w M K d psi1 psi2 sx (cr_nseg ray) _ _ _ _ _ (start_fw m ray) (start_bw m ray)); eauto; now right.
Qed.
Print Assumptions C122_currents.

(** The surface fluxes are not: fluxes in the backward direction are subtracted, so that where the flux is one in all directions
    the surface flux comes out as zero. *)
Theorem C122_surface_flux_refuted : exists d ray b b' flx, ray_fits m1 1 ray /\ swept d [1; 1]%R [1; 1]%R /\ cb_flx b = repeat 0%R 6 /\
  cc_post_ray m1 0 w1 d [1; 1]%R [1; 1]%R ray b = Some b' /\ plain_flux m1 0 (w_fx w1) (w_fy w1) [1; 1]%R [1; 1]%R ray (cb_flx b) = Some flx /\
  flx = [0; 0; 2; 2; 0; 0]%R /\ cb_flx b' = repeat 0%R 6.
Proof.
  destruct (flat_swept 1 ltac:(lra)) as (e & Sw).
  assert (S1 : seg_fw (flat_d 1 e) [1; 1]%R 0 = Some (1%R, 1%R, 1%R)) by (unfold seg_fw, psi_at, flat_d; cbn -[rdiv IZR Rmult Rminus Rplus]; change (Pos.to_nat 1) with 1%nat; cbn [nth_error]; rewrite rdiv_some by lra; repeat f_equal; lra).
  assert (S2 : seg_bw (flat_d 1 e) [1; 1]%R 0 = Some (1%R, 1%R, 1%R)) by (unfold seg_bw, psi_at, flat_d; cbn -[rdiv IZR Rmult Rminus Rplus]; change (Pos.to_nat 1) with 1%nat; cbn [nth_error]; rewrite rdiv_some by lra; repeat f_equal; lra).
  exists (flat_d 1 e), ray_se, (cc_zero m1 (repeat 0%R 6) (repeat 0%R 6)). do 2 eexists. split; [exact fits_se|]. split; [exact Sw|]. split; [reflexivity|]. split.
  { cbv -[seg_fw seg_bw Rplus Rmult Ropp IZR flat_d]. repeat (rewrite ?S1, ?S2; cbv -[seg_fw seg_bw Rplus Rmult Ropp IZR flat_d]). reflexivity. }
  split; [cbv -[Rplus Rmult Ropp IZR]; reflexivity|]. cbn [cb_flx]. split; cbn [repeat]; repeat (f_equal; try lra).
Qed.
Print Assumptions C122_surface_flux_refuted.
(** The conditions hold for the ray of C119. *)
Example C122_instance : exists d psi1 psi2 b b', mesh_ok cm2 /\ 0 <= 2 < nz cm2 /\ ray_fits cm2 1 cray /\ cc_post_ray cm2 2 w1 d psi1 psi2 cray b = Some b' /\ hd 0%R psi1 = 2%R.
Proof. destruct C119_instance as (d & p1 & p2 & b & b' & M & _ & F & _ & _ & _ & E & _ & H). exists d, p1, p2, b, b'. split; [exact M|]. split; [cbn; lia|]. auto. Qed.
