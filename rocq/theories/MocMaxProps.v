(** C153: bounds on everything a MoC sweep computes, for any boundary conditions, threads and order of rays. *)
From Coq Require Import List Bool Reals ZArith Arith Lia Lra Permutation.
From Verif Require Import RUtil ListUtil McModel MeshModel AngModel AngProofs BcModel BcProofs StdAlg StdAlgProofs CoreModel CoreProofs ExpModel ExpProps MocModel MocProofs MocProps VolModel VolProps.
Import ListNotations.
Open Scope nat_scope.

(** ** What the rays cover *)
(** Length of the rays inside region [i]. *)
Definition ray_len (first i : nat) (r : Ray) : R := lsum (fun sg => if i =? fst sg + first then snd sg else 0%R) (ray_segs r).
Definition len_in (first i : nat) (rays : list Ray) : R := lsum (ray_len first i) rays.
(** Volume the rays of the angles from [iang] on give region [i], weighted by the quadrature: weight times spacing times height times
    length.  Angles and their reverses share rays, so rays that tile the plane exactly give twice the volume of the region. *)
Definition angle_vol (e : MocEnv) (first : nat) (h : R) (iang : nat) (rays : list (nat * Ray)) (i : nat) : R :=
  (at0 (map weight (me_quad e)) iang * at0 (me_space e) iang * h * len_in first i (map snd rays))%R.
Fixpoint swept_angles (e : MocEnv) (first : nat) (h : R) (iang : nat) (angs : list (list (nat * Ray))) (i : nat) : R :=
  match angs with
  | [] => 0%R
  | rays :: rest => (angle_vol e first h iang rays i + swept_angles e first h (S iang) rest i)%R
  end.
Definition swept (e : MocEnv) (ps : list PlaneIn) (i : nat) : R := lsum (fun p => swept_angles e (pi_first p) (pi_height p) 0 (pi_rays p) i) ps.

(** ** One ray *)
Definition tau_in (i : nat) (es : list (nat * R)) : R := lsum (fun ie => if i =? fst ie then snd ie else 0%R) es.
Lemma tau_nonneg : forall i es, (forall j e, In (j, e) es -> (0 <= e <= 1)%R) -> (0 <= tau_in i es)%R.
Proof.
  intros i es H. unfold tau_in. induction es as [|[j e] es IH]; cbn [lsum fst snd]; [lra|]. pose proof (H j e (or_introl eq_refl)). specialize (IH (fun j' e' I => H j' e' (or_intror I))). destruct (i =? j); lra.
Qed.
Lemma track_pay : forall q i b wt lo hi es psi ds ps, (0 <= wt)%R -> nth_error q i = Some b -> track q es psi = Some (ds, ps) -> (lo <= psi <= hi)%R ->
  (forall j e, In (j, e) es -> (0 <= e <= 1)%R) -> (forall j c, nth_error q j = Some c -> (lo <= c <= hi)%R) ->
  (wt * tau_in i es * (lo - b) <= pay wt ds i <= wt * tau_in i es * (hi - b))%R.
Proof.
  intros q i b wt lo hi es. induction es as [|[j e] es IH]; intros psi ds ps W B T P E Q; cbn [track] in T.
  - injection T as <- <-. unfold pay, tau_in. cbn. lra.
  - destruct (nth_error q j) as [c|] eqn:Ec; [|discriminate]. destruct (track q es _) as [[d p]|] eqn:T'; [|discriminate]. injection T as <- <-.
    destruct (E j e (or_introl eq_refl)) as [E0 E1]. pose proof (Q j c Ec) as C.
    assert (P' : (lo <= psi - (psi - c) * e <= hi)%R) by (split; nra).
    specialize (IH _ _ _ W B T' P' (fun j' e' I => E j' e' (or_intror I)) Q). unfold pay, tau_in in *. cbn [lsum fst snd]. destruct (Nat.eqb_spec i j) as [<-|_]; [|lra].
    rewrite B in Ec. injection Ec as <-. set (t := lsum _ es) in *. set (y := lsum _ d) in *. assert (0 <= wt * e)%R by (apply Rmult_le_pos; lra).
    assert (wt * e * (lo - b) <= (psi - b) * e * wt <= wt * e * (hi - b))%R by (split; nra). lra.
Qed.
Lemma etau_small : forall xstr first rst sg i e x, (0 < rst)%R -> (0 < snd sg)%R -> seg_etau xstr first rst sg = Some (i, e) -> nth_error xstr i = Some x -> (0 < x)%R ->
  i = fst sg + first /\ (e <= x * snd sg * rst)%R.
Proof.
  intros xstr first rst sg i e x Hr Hs E X Px. unfold seg_etau in E. destruct (nth_error xstr (fst sg + first)) as [y|] eqn:Ey; [|discriminate].
  destruct (moc_exp (- y * snd sg * rst)) as [v|] eqn:Ev; [|discriminate]. injection E as <- <-. split; [reflexivity|]. rewrite X in Ey. injection Ey as <-.
  assert (T : (0 < x * snd sg * rst)%R) by (apply Rmult_lt_0_compat; [now apply Rmult_lt_0_compat|assumption]).
  unfold moc_exp in Ev. destruct (C63_error table_size (-10) 0 (- x * snd sg * rst)) as (r & Er & B & _); [unfold table_size; lia|lra|lra|]. rewrite Er in Ev. injection Ev as <-.
  pose proof (exp_ineq1_le (- x * snd sg * rst)%R). lra.
Qed.
Lemma tau_small : forall xstr first rst i x segs es, (0 < rst)%R -> nth_error xstr i = Some x -> (0 < x)%R -> Forall (fun sg : nat * R => 0 < snd sg)%R segs ->
  Forall2 (fun sg ie => seg_etau xstr first rst sg = Some ie) segs es -> (tau_in i es <= x * rst * lsum (fun sg => if i =? fst sg + first then snd sg else 0%R) segs)%R.
Proof.
  intros xstr first rst i x segs es Hr X Px Hs F. unfold tau_in. induction F as [|sg [j e] segs es E F IH]; cbn [lsum fst snd]; [lra|]. inversion Hs; subst. specialize (IH ltac:(assumption)).
  assert (J : j = fst sg + first) by (unfold seg_etau in E; destruct (nth_error xstr (fst sg + first)) as [y|]; [|discriminate E]; destruct (moc_exp (- y * snd sg * rst)); [|discriminate E]; congruence). subst j.
  destruct (Nat.eqb_spec i (fst sg + first)) as [I|_]; [|lra]. rewrite <- I in E. destruct (etau_small _ _ _ _ _ _ _ Hr H1 E X Px) as [_ B]. lra.
Qed.

Lemma bdry_some : forall b g a s, nth_error (sizes b) a = Some s -> exists o, get_boundary b g a = Some (size_total s, o).
Proof.
  intros b g a s N. unfold get_boundary. rewrite N. destruct (nth_error (BcModel.offsets 0 (sizes b)) a) as [o|] eqn:E; [eauto|].
  apply nth_error_None in E. rewrite BcProofs.offsets_length in E. assert (a < length (sizes b)) by (apply nth_error_Some; congruence). lia.
Qed.
Lemma face_bdry : forall b g a n i k, slot b g a n i k -> exists z o j, get_boundary b g a = Some (z, o) /\ j < z /\ k = o + j.
Proof.
  intros b g a n i k (size & off & Gf & Hi & ->). unfold get_face in Gf. unfold get_boundary.
  destruct (nth_error (sizes b) a) as [s|] eqn:Es; [|discriminate]. destruct (nth_error (BcModel.offsets 0 (sizes b)) a) as [o|] eqn:Eo; [|discriminate]. injection Gf as <- <-.
  assert (G : forall l k a s o, nth_error l a = Some s -> nth_error (BcModel.offsets k l) a = Some o -> sy o = sx o + sx s /\ sz o = sx o + sx s + sy s).
  { induction l as [|t l IH]; intros k [|a'] s' o' H1 H2; try discriminate; cbn in H1, H2; [|eauto]. injection H1 as <-. injection H2 as <-. auto. }
  destruct (G _ _ _ _ _ Es Eo) as [G1 G2]. do 2 eexists. exists (face_size o n - sx o + i). split; [reflexivity|]. unfold size_total. destruct n; cbn [face_size] in *; lia.
Qed.

Section Bounded.
  Variables (e : MocEnv) (q : list R) (lo hi : R) (nreg nt : nat).
  Let b := me_in e.
  Let g := me_group e.
  Hypothesis K : bc_ok b.
  Hypothesis So : sizes (me_out e) = sizes b.
  Hypothesis Su : all_supported b.
  Hypothesis Vac : forall s, types b s = VACUUM -> (lo <= 0 <= hi)%R.
  Hypothesis Ng : Forall no_gap (sizes b).
  Hypothesis Hg : g < n_group b.
  Hypothesis Len : length (sizes b) = 4 * n_oct b.
  Hypothesis Q : forall iang, me_q e iang = q.
  Hypothesis Ql : length q = nreg.
  Hypothesis Qb : forall j c, nth_error q j = Some c -> (lo <= c <= hi)%R.
  Hypothesis Xl : length (me_xstr e) = nreg.
  Hypothesis Xp : Forall (fun x => 0 < x)%R (me_xstr e).
  Hypothesis Sl : length (me_space e) <= length (me_quad e).
  Hypothesis Sp : Forall (fun s => 0 <= s)%R (me_space e).
  Hypothesis Wp : Forall (fun a => 0 <= weight a /\ 0 < rsintheta (adir a) /\ rsintheta (adir a) * sin (theta (adir a)) = 1)%R (me_quad e).

  Definition inb (v : R) : Prop := (lo <= v <= hi)%R.
  Definition some_inb (o : option R) : Prop := exists v, o = Some v /\ inb v.
  Definition bnd_group (d : list R) : Prop := forall a n i k, slot b g a n i k -> some_inb (nth_error d k).
  Definition bnd_angle (a : nat) (d : list R) : Prop := forall n i k, slot b 0 a n i k -> some_inb (nth_error d k).
  Definition others (d d' : list R) : Prop := forall g' a n i k, slot b g' a n i k -> g' <> g -> nth_error d' k = nth_error d k.

  Lemma new_inb : forall t old out, supported t -> (t = VACUUM -> inb 0) -> some_inb old -> some_inb out -> some_inb (new_value t old out).
  Proof. intros t old out [->|[->| ->]] V O U; cbn [new_value]; auto. exists 0%R. split; [reflexivity|now apply V]. Qed.
  Lemma update_bnd : forall out a d, sizes out = sizes b -> length (data out) = total (sizes b) -> a < length (sizes b) -> length d = n_group b * total (sizes b) -> bnd_group d -> bnd_angle a (data out) ->
    exists d', update_angle b out g a d = Ok d' /\ length d' = length d /\ bnd_group d' /\ others d d'.
  Proof.
    intros out a d So' Lo Ha Ld Fl Fa. destruct (update_angle_ok b out g a d K So' Lo Su Ha Hg Ld Ng) as (d' & E & L & P). exists d'. split; [exact E|]. split; [exact L|]. split.
    - intros a' n i k Sx. rewrite (P _ _ _ _ _ Sx). unfold updated. rewrite Nat.eqb_refl. cbn [andb]. destruct (refl_n_spec b a n K Ha) as (j & _ & Rj & Rj'). rewrite Rj.
      destruct (Nat.eqb_spec a' j) as [->|]; [|apply (Fl _ _ _ _ Sx)]. pose proof Sx as Sx0. destruct Sx as (size & off & Gf & Hi & ->). destruct (get_face_inv _ _ _ _ _ _ Gf) as (s' & o' & Es' & Eo' & -> & ->).
      unfold type_at. assert (Hj : j < length (sizes b)) by (apply nth_error_Some; congruence).
      destruct (nth_error (quad b) j) as [an|] eqn:Eq; [|apply nth_error_None in Eq; pose proof (ok_quad b K); lia].
      destruct (get_face_some b 0 a n Ha) as (sz & of0 & G0). rewrite G0. apply new_inb; [apply Su|apply Vac|apply (Fl _ _ _ _ Sx0)|]. apply (Fa n i). exists sz, of0. split; [exact G0|]. split; [|reflexivity].
      destruct (get_face_inv _ _ _ _ _ _ G0) as (s0 & o0 & Es0 & _ & -> & _). destruct (ok_mirror b K j a n s' Es') as (s'' & Es'' & Efs); auto; [lia|]. rewrite Es0 in Es''. injection Es'' as <-. lia.
    - intros g' a' n i k Sx Ne. rewrite (P _ _ _ _ _ Sx). unfold updated. destruct (Nat.eqb_spec g' g); [contradiction|]. reflexivity.
  Qed.

  (** Change of the deposit in region [i], at most [m] of it reached by rays. *)
  Definition between (i : nat) (dl m : R) : Prop := exists w c, nth_error q i = Some c /\ (0 <= w <= m)%R /\ (w * (lo - c) <= dl <= w * (hi - c))%R.
  Lemma between_plus : forall i d1 m1 d2 m2, between i d1 m1 -> between i d2 m2 -> between i (d1 + d2)%R (m1 + m2)%R.
  Proof. intros i d1 m1 d2 m2 (w1 & c1 & C1 & W1 & B1) (w2 & c2 & C2 & W2 & B2). rewrite C1 in C2. injection C2 as <-. exists (w1 + w2)%R, c1. split; [exact C1|]. split; lra. Qed.
  Lemma between_zero : forall i, i < nreg -> between i 0%R 0%R.
  Proof. intros i H. destruct (nth_error q i) as [c|] eqn:E; [|apply nth_error_None in E; lia]. exists 0%R, c. split; [exact E|]. split; lra. Qed.
  Lemma between_ext : forall i d1 m1 d2 m2, d1 = d2 -> m1 = m2 -> between i d1 m1 -> between i d2 m2.
  Proof. intros i d1 m1 d2 m2 <- <- Z. exact Z. Qed.

  Lemma ray_bnd : forall first wt rst in1 in2 r, (0 <= wt)%R -> (0 < rst)%R -> ray_sound nreg first r -> inb in1 -> inb in2 -> exists o, sweep_ray (me_xstr e) q first rst in1 in2 r = Some o /\
    (forall d, In d (ro_fw o ++ ro_bw o) -> fst d < nreg) /\ inb (last (ro_psi1 o) 0%R) /\ inb (hd 0%R (ro_psi2 o)) /\
    forall i x, nth_error (me_xstr e) i = Some x -> between i (pay wt (ro_fw o ++ ro_bw o) i) (2 * wt * rst * x * ray_len first i r)%R.
  Proof.
    intros first wt rst in1 in2 r Hw Hr Hs B1 B2. assert (Hs' : Forall (fun sg => fst sg + first < length (me_xstr e) /\ (0 < snd sg)%R) (ray_segs r)) by (rewrite Xl; exact Hs).
    destruct (sweep_ray_def (me_xstr e) q first rst in1 in2 r) as (o & E & D); [congruence|exact Hr|exact Xp|exact Hs'|]. exists o. split; [exact E|]. split; [intros d I; rewrite <- Xl; auto|].
    destruct (sweep_ray_inv _ _ _ _ _ _ _ _ E) as (es & p2 & F & T1 & T2 & E2). destruct (etau_all (me_xstr e) first rst (ray_segs r) Hr Xp Hs') as (es' & Ee & Re & _).
    assert (es' = es) as ->. { clear - F Ee. revert es' Ee. induction F as [|sg ie segs es E F IH]; intros es' Ee; cbn [map all_some] in Ee; [now injection Ee as <-|]. rewrite E in Ee. destruct (all_some _) eqn:X; [|discriminate]. injection Ee as <-. f_equal. now apply IH. }
    assert (Rev : forall j v, In (j, v) (rev es) -> (0 <= v <= 1)%R) by (intros j v I; apply in_rev in I; apply (Re j v I)).
    pose proof (track_bounds _ _ _ _ _ lo hi T1 B1 (fun j v I => conj (proj2 (Re j v I)) (fun c => Qb j c))) as P1. pose proof (track_bounds _ _ _ _ _ lo hi T2 B2 (fun j v I => conj (Rev j v I) (fun c => Qb j c))) as P2.
    destruct (track_shape _ _ _ _ _ T1) as (_ & L1 & _). destruct (track_shape _ _ _ _ _ T2) as (_ & L2 & _).
    assert (LI : forall ps : list R, ps <> [] -> Forall (fun p => (lo <= p <= hi)%R) ps -> inb (last ps 0%R)).
    { intros ps N Fp. destruct (exists_last N) as (l & a & ->). rewrite last_last. apply Forall_app in Fp. destruct Fp as [_ Fp]. now inversion Fp. }
    split; [apply LI; [intros X; rewrite X in L1; discriminate|exact P1]|]. split; [rewrite E2, hd_rev; apply LI; [intros X; rewrite X in L2; discriminate|exact P2]|].
    intros i x Ex. assert (Px : (0 < x)%R) by (rewrite Forall_forall in Xp; apply Xp; eapply nth_error_In; eauto).
    destruct (nth_error q i) as [c|] eqn:Ec; [|apply nth_error_None in Ec; assert (i < length (me_xstr e)) by (apply nth_error_Some; congruence); lia].
    exists (wt * tau_in i es + wt * tau_in i (rev es))%R, c. split; [exact Ec|].
    assert (Tr : tau_in i (rev es) = tau_in i es) by (unfold tau_in; apply lsum_rev). rewrite Tr.
    pose proof (tau_nonneg i es (fun j v I => proj2 (Re j v I))) as T0.
    assert (T3 := tau_small (me_xstr e) first rst i x (ray_segs r) es Hr Ex Px ltac:(eapply Forall_impl; [|exact Hs]; intros sg [_ Y]; exact Y) F). change (lsum _ (ray_segs r)) with (ray_len first i r) in T3. set (len := ray_len first i r) in *.
    split; [assert (wt * tau_in i es <= wt * (x * rst * len))%R by (apply Rmult_le_compat_l; assumption); assert (0 <= wt * tau_in i es)%R by (apply Rmult_le_pos; assumption); lra|].
    pose proof (track_pay q i c wt lo hi es in1 _ _ Hw Ec T1 B1 (fun j v I => proj2 (Re j v I)) Qb) as Y1. pose proof (track_pay q i c wt lo hi (rev es) in2 _ _ Hw Ec T2 B2 Rev Qb) as Y2. rewrite Tr in Y2.
    unfold pay in *. rewrite lsum_app. lra.
  Qed.

  Lemma angle_bnd : forall first h iang rays din s done, (0 <= h)%R -> iang < length (me_space e) -> iang < 4 * n_oct b -> Forall (fun tr => fst tr < nt) rays -> rays_cover e iang (map snd rays) ->
    Forall (ray_sound nreg first) (map snd rays) -> length din = n_group b * total (sizes b) -> bnd_group din -> store_ok nreg (total (sizes b)) nt s -> (forall a, In a done -> bnd_angle a (st_out s)) ->
    exists d' s', sweep_angle e first h iang rays din s = Ok (d', s') /\ length d' = length din /\ bnd_group d' /\ others din d' /\ store_ok nreg (total (sizes b)) nt s' /\
      (forall a, In a (iang :: rev_ang (n_oct b) iang :: done) -> bnd_angle a (st_out s')) /\
      forall i x, nth_error (me_xstr e) i = Some x -> between i (tot (st_t s') i - tot (st_t s) i)%R
        (2 * PI * x * angle_vol e first h iang rays i)%R.
  Proof.
    intros first h iang rays din s done Hh His Hi Ht Cov Snd Ld Fl Os Dn. unfold sweep_angle.
    pose proof (fun cx Ec => fit_slots e h iang cx _ Ec (cover_fit _ _ _ Cov) Hi) as ND. destruct Cov as (s1 & s2 & N1 & N2 & L1 & L2 & P1 & P2).
    destruct (rev_ang_spec _ _ Hi) as [_ R2]. fold b in N2. set (i2 := rev_ang (n_oct b) iang) in *. rewrite So in N1, N2.
    destruct (bdry_some b g _ _ N1) as (oi1 & B1). destruct (bdry_some b g _ _ N2) as (oi2 & B2).
    destruct (bdry_some b 0 _ _ N1) as (oo1 & B3). destruct (bdry_some b 0 _ _ N2) as (oo2 & B4). fold b in B1, B2, B3, B4.
    destruct (nth_error (me_quad e) iang) as [an|] eqn:Ea; [|apply nth_error_None in Ea; lia]. destruct (nth_error (me_space e) iang) as [sp|] eqn:Es; [|apply nth_error_None in Es; lia].
    pose proof (proj1 (Forall_forall _ _) Wp an (nth_error_In _ _ Ea)) as (W0 & W1 & W2). pose proof (proj1 (Forall_forall _ _) Sp sp (nth_error_In _ _ Es)) as W3. cbn beta in W3.
    assert (Sn : (0 <= sin (theta (adir an)))%R) by (assert (0 < / rsintheta (adir an))%R by (now apply Rinv_0_lt_compat); replace (sin (theta (adir an))) with (/ rsintheta (adir an))%R; [lra|]; apply (Rmult_eq_reg_l (rsintheta (adir an))); [rewrite W2; field; lra|lra]).
    pose proof PI_RGT_0 as PP.
    assert (exists cx, ang_ctx e h iang = Some cx /\ ac_in1 cx = oi1 /\ ac_in2 cx = oi2 /\ ac_out1 cx = oo1 /\ ac_out2 cx = oo2 /\ (0 < ac_rst cx)%R /\ (0 <= ac_wt cx)%R /\ (ac_wt cx * ac_rst cx = PI * (weight an * sp * h))%R) as (cx & Ec & C1 & C2 & C3 & C4 & Cr & Cw & Cp).
    { unfold ang_ctx. fold b. fold i2. fold g. rewrite !(get_boundary_out e So). fold b. rewrite B1, B2, B3, B4, Ea, Es. eexists. split; [reflexivity|]. cbn [ac_in1 ac_in2 ac_out1 ac_out2 ac_rst ac_wt]. do 4 (split; [reflexivity|]). split; [exact W1|]. split.
      - apply Rmult_le_pos; [|lra]. apply Rmult_le_pos; [|exact Sn]. apply Rmult_le_pos; [|exact Hh]. now apply Rmult_le_pos.
      - transitivity (weight an * sp * h * PI * (rsintheta (adir an) * sin (theta (adir an))))%R; [ring|]. rewrite W2. ring. }
    specialize (ND cx Ec). rewrite Ec. cbn [of_opt rbind]. subst oi1 oi2 oo1 oo2. rewrite L1 in B1, B3. rewrite L2 in B2, B4. rewrite Q.
    assert (Bc : forall r, In r (map snd rays) -> ray_bc1 r < length (map snd rays) /\ ray_bc2 r < length (map snd rays)).
    { intros r I. split; [apply (in_map ray_bc1) in I; apply (Permutation_in _ P1) in I|apply (in_map ray_bc2) in I; apply (Permutation_in _ P2) in I]; apply in_seq in I; lia. }
    assert (Ray : forall r, In r (map snd rays) -> exists o, ray_res (me_xstr e) q first cx din r = Some o /\ (forall d, In d (ro_fw o ++ ro_bw o) -> fst d < nreg) /\ inb (last (ro_psi1 o) 0%R) /\ inb (hd 0%R (ro_psi2 o)) /\
      forall i x, nth_error (me_xstr e) i = Some x -> between i (pay (ac_wt cx) (ro_fw o ++ ro_bw o) i) (2 * ac_wt cx * ac_rst cx * x * ray_len first i r)%R).
    { intros r I. destruct (Bc r I) as [C1 C2]. unfold ray_res.
      assert (some_inb (nth_error din (ac_in1 cx + ray_bc1 r))) as (v1 & D1 & V1). { destruct (boundary_slot _ _ _ _ _ (ray_bc1 r) B1 ltac:(lia)) as (n & j & Sx). apply (Fl _ _ _ _ Sx). }
      assert (some_inb (nth_error din (ac_in2 cx + ray_bc2 r))) as (v2 & D2 & V2). { destruct (boundary_slot _ _ _ _ _ (ray_bc2 r) B2 ltac:(lia)) as (n & j & Sx). apply (Fl _ _ _ _ Sx). }
      rewrite D1, D2. rewrite Forall_forall in Snd. apply ray_bnd; auto. }
    assert (Slots : forall r, In r (map snd rays) -> slot1 cx r < total (sizes b) /\ slot2 cx r < total (sizes b)).
    { intros r I. destruct (Bc r I) as [C1 C2]. unfold slot1, slot2.
      assert (Hn : forall a n i k, slot b 0 a n i k -> k < total (sizes b)).
      { intros a n i k (sz & of & Gf & Hz & ->). assert (slot (mkBC 1 (sizes b) (types b) (n_oct b) (quad b) []) 0 a n i (of + i)) as Sx by (exists sz, of; split; auto).
        pose proof (slot_range _ _ _ _ _ _ Sx ltac:(cbn; lia)) as Y. cbn in Y. lia. }
      split; [destruct (boundary_slot _ _ _ _ _ (ray_bc2 r) B3 ltac:(lia)) as (n & j & Sx)|destruct (boundary_slot _ _ _ _ _ (ray_bc1 r) B4 ltac:(lia)) as (n & j & Sx)]; apply (Hn _ _ _ _ Sx). }
    assert (AllOk : forall r, In r (map snd rays) -> ray_ok (me_xstr e) q first cx din nreg (total (sizes b)) r).
    { intros r I. destruct (Ray r I) as (o & Eo & Do & _). destruct (Slots r I). exists o. split; [exact Eo|]. split; [exact Do|auto]. }
    destruct (sweep_rays_ok _ _ _ _ _ _ _ _ rays s Os Ht AllOk ND) as (sa & Er & Ob & Tb & Kb & Vb). rewrite Er. cbn [of_opt rbind].
    assert (Put : forall k, In k (all_slots cx (map snd rays)) -> some_inb (nth_error (st_out sa) k)).
    { intros k I. unfold all_slots in I. apply in_app_or in I. destruct I as [I|I]; apply in_map_iff in I; destruct I as (r & <- & Ir); destruct (Ray r Ir) as (o & Eo & _ & U1 & U2 & _); destruct (Vb r o Ir Eo) as [V1 V2]; [exists (last (ro_psi1 o) 0%R)|exists (hd 0%R (ro_psi2 o))]; auto. }
    assert (Fa1 : bnd_angle iang (st_out sa)).
    { intros n i k Sx. destruct (face_bdry b _ _ _ _ _ Sx) as (z & o & j & X & Hj & ->). fold b in X. rewrite B3 in X. injection X as <- <-. apply Put. unfold all_slots. apply in_or_app. left.
      assert (In j (map ray_bc2 (map snd rays))) as I. { eapply Permutation_in; [apply Permutation_sym; exact P2|]. apply in_seq. lia. }
      apply in_map_iff in I. destruct I as (r & <- & Ir). apply in_map_iff. exists r. auto. }
    assert (Fa2 : bnd_angle i2 (st_out sa)).
    { intros n i k Sx. destruct (face_bdry b _ _ _ _ _ Sx) as (z & o & j & X & Hj & ->). fold b in X. rewrite B4 in X. injection X as <- <-. apply Put. unfold all_slots. apply in_or_app. right.
      assert (In j (map ray_bc1 (map snd rays))) as I. { eapply Permutation_in; [apply Permutation_sym; exact P1|]. apply in_seq. lia. }
      apply in_map_iff in I. destruct I as (r & <- & Ir). apply in_map_iff. exists r. auto. }
    assert (Fd : forall a, In a (iang :: i2 :: done) -> bnd_angle a (st_out sa)).
    { intros a [<-|[<-|I]]; auto. intros n i k Sx. destruct (in_dec Nat.eq_dec k (all_slots cx (map snd rays))) as [J|J]; [now apply Put|]. rewrite (Kb k J). apply (Dn a I n i k Sx). }
    assert (Tot : forall i x, nth_error (me_xstr e) i = Some x -> between i (tot (st_t sa) i - tot (st_t s) i)%R (2 * PI * x * angle_vol e first h iang rays i)%R).
    { intros i x Ex. assert (Hn : i < nreg) by (rewrite <- Xl; apply nth_error_Some; congruence). unfold angle_vol, at0. rewrite (nth_error_nth _ _ 0%R (map_nth_error weight _ _ Ea)), (nth_error_nth _ _ 0%R Es).
      apply (between_ext i (lsum (fun r => ray_pay (me_xstr e) q first cx din r i) (map snd rays)) (2 * (ac_wt cx * ac_rst cx) * x * len_in first i (map snd rays))%R); [rewrite Tb; ring|rewrite Cp; ring|].
      unfold len_in. revert Ray. generalize (map snd rays) as l. induction l as [|r l IH]; intros Ray; cbn [lsum]; [apply (between_ext i 0%R 0%R); [reflexivity|ring|now apply between_zero]|].
      destruct (Ray r (or_introl eq_refl)) as (o & Eo & _ & _ & _ & Bt). specialize (IH (fun r' I => Ray r' (or_intror I))). pose proof (between_plus _ _ _ _ _ (Bt i x Ex) IH) as Z. revert Z. apply between_ext; [|ring]. unfold ray_pay at 2. rewrite Eo. reflexivity. }
    assert (Lo : length (st_out sa) = total (sizes b)) by apply Ob. fold b g. fold i2. destruct (me_gs e).
    - destruct (update_bnd (with_data (me_out e) (st_out sa)) iang din So Lo ltac:(lia) Ld Fl Fa1) as (d1 & U1 & L3 & F3 & O3). rewrite U1. cbn [rbind].
      destruct (update_bnd (with_data (me_out e) (st_out sa)) i2 d1 So Lo ltac:(lia) ltac:(congruence) F3 Fa2) as (d2 & U2 & L4 & F4 & O4). rewrite U2. cbn [rbind].
      exists d2, sa. split; [reflexivity|]. split; [congruence|]. split; [exact F4|]. split; [|auto]. intros g' a n i k Sx Ne. rewrite (O4 _ _ _ _ _ Sx Ne). apply (O3 _ _ _ _ _ Sx Ne).
    - exists din, sa. split; [reflexivity|]. split; [reflexivity|]. split; [exact Fl|]. split; [|auto]. intros g' a n i k _ _. reflexivity.
  Qed.

  Lemma angles_bnd : forall first h angs iang din s done, (0 <= h)%R -> iang + length angs <= length (me_space e) -> iang + length angs <= 4 * n_oct b -> Forall (Forall (fun tr => fst tr < nt)) angs ->
    (forall j rays, nth_error angs j = Some rays -> rays_cover e (iang + j) (map snd rays)) -> Forall (fun rays => Forall (ray_sound nreg first) (map snd rays)) angs ->
    length din = n_group b * total (sizes b) -> bnd_group din -> store_ok nreg (total (sizes b)) nt s -> (forall a, In a done -> bnd_angle a (st_out s)) ->
    exists d' s', sweep_angles e first h iang angs din s = Ok (d', s') /\ length d' = length din /\ bnd_group d' /\ others din d' /\ store_ok nreg (total (sizes b)) nt s' /\
      (forall a, In a done \/ (exists j, iang <= j < iang + length angs /\ (a = j \/ a = rev_ang (n_oct b) j)) -> bnd_angle a (st_out s')) /\
      forall i x, nth_error (me_xstr e) i = Some x -> between i (tot (st_t s') i - tot (st_t s) i)%R (2 * PI * x * swept_angles e first h iang angs i)%R.
  Proof.
    intros first h angs. induction angs as [|rays angs IH]; intros iang din s done Hh Ls L Ht Cov Snd Ld Fl Os Dn; cbn [sweep_angles swept_angles].
    - exists din, s. split; [reflexivity|]. split; [reflexivity|]. split; [exact Fl|]. split; [intros g' a n i k _ _; reflexivity|]. split; [exact Os|]. split; [intros a [I|(j & J & _)]; [now apply Dn|cbn in J; lia]|].
      intros i x Ex. apply (between_ext i 0%R 0%R); [lra|ring|]. apply between_zero. rewrite <- Xl. apply nth_error_Some. congruence.
    - cbn [length] in L, Ls. apply Forall_cons_iff in Ht. destruct Ht as [Ht1 Ht2]. apply Forall_cons_iff in Snd. destruct Snd as [Sn1 Sn2].
      assert (C0 : rays_cover e iang (map snd rays)) by (specialize (Cov 0 rays eq_refl); now rewrite Nat.add_0_r in Cov).
      destruct (angle_bnd first h iang rays din s done Hh ltac:(lia) ltac:(lia) Ht1 C0 Sn1 Ld Fl Os Dn) as (d1 & s1 & E1 & L1 & F1 & O1 & T1 & D1 & B1). rewrite E1. cbn [rbind].
      destruct (IH (S iang) d1 s1 (iang :: rev_ang (n_oct b) iang :: done) Hh ltac:(lia) ltac:(lia) Ht2) as (d2 & s2 & E2 & L2 & F2 & O2 & T2 & D2 & B2); auto; [|congruence|].
      { intros j r Ej. replace (S iang + j) with (iang + S j) by lia. now apply Cov. }
      exists d2, s2. split; [exact E2|]. split; [congruence|]. split; [exact F2|]. split; [intros g' a n i k Sx Ne; rewrite (O2 _ _ _ _ _ Sx Ne); apply (O1 _ _ _ _ _ Sx Ne)|]. split; [exact T2|]. split.
      + intros a H. apply D2. destruct H as [I|(j & J & Ja)]; [left; right; right; exact I|]. cbn [length] in J. destruct (Nat.eq_dec j iang) as [->|Nj]; [left; destruct Ja as [->| ->]; [left|right; left]; reflexivity|].
        right. exists j. split; [lia|exact Ja].
      + intros i x Ex. pose proof (between_plus _ _ _ _ _ (B1 i x Ex) (B2 i x Ex)) as Z. revert Z. apply between_ext; ring.
  Qed.

  (** A plane whose rays and boundary data a sweep can handle. *)
  Definition plane_bnd (p : PlaneIn) : Prop := (0 <= pi_height p)%R /\ length (pi_rays p) <= length (me_space e) /\ length (pi_rays p) <= 4 * n_oct b /\ (me_gs e = false -> length (pi_rays p) = 2 * n_oct b) /\
    Forall (Forall (fun tr => fst tr < nt)) (pi_rays p) /\ (forall j rays, nth_error (pi_rays p) j = Some rays -> rays_cover e j (map snd rays)) /\
    Forall (fun rays => Forall (ray_sound nreg (pi_first p)) (map snd rays)) (pi_rays p) /\ length (pi_in p) = n_group b * total (sizes b) /\ length (pi_out p) = total (sizes b) /\ bnd_group (pi_in p).
  (** What the sweep leaves behind: data of the same shape, in bounds for this group and unchanged for the others; what leaves along an angle
      that was swept, forwards or backwards, is in bounds too. *)
  Definition after (p : PlaneIn) (d : list R * list R) : Prop := length (fst d) = length (pi_in p) /\ length (snd d) = length (pi_out p) /\ bnd_group (fst d) /\ others (pi_in p) (fst d) /\
    forall j, j < length (pi_rays p) -> bnd_angle j (snd d) /\ bnd_angle (rev_ang (n_oct b) j) (snd d).

  Lemma group_bnd : forall out d, length out = total (sizes b) -> length d = n_group b * total (sizes b) -> bnd_group d -> (forall a, a < 4 * n_oct b -> bnd_angle a out) ->
    exists d', update_group b (with_data (me_out e) out) g d = Ok d' /\ length d' = length d /\ bnd_group d' /\ others d d'.
  Proof.
    intros out d Lo Ld Fl Fa. destruct (update_group_ok b (with_data (me_out e) out) g d K So Lo Su Hg Ng Ld) as (d' & E & L & P1 & P2). exists d'. split; [exact E|]. split; [exact L|]. split.
    - intros a' n i k Sx. destruct (P2 _ _ _ _ Sx) as (a & t & ko & Ra & Ty & So' & ->). unfold type_at in Ty. destruct (nth_error (quad b) a') as [an|]; [|discriminate]. injection Ty as <-.
      apply new_inb; [apply Su|apply Vac|apply (Fl _ _ _ _ Sx)|]. apply (Fa a) with (n := n) (i := i); [|exact So'].
      destruct So' as (sz & of & Gf & _). destruct (get_face_inv _ _ _ _ _ _ Gf) as (s' & o' & Es' & _). rewrite <- Len. apply nth_error_Some. congruence.
    - intros g' a n i k Sx Ne. apply (P1 _ _ _ _ _ Sx Ne).
  Qed.

  Lemma planes_bnd : forall ps ts, Forall plane_bnd ps -> ts_ok nreg nt ts -> exists bs ts', sweep_planes e ps ts = Ok (bs, ts') /\ Forall2 after ps bs /\ ts_ok nreg nt ts' /\
    forall i x, nth_error (me_xstr e) i = Some x -> between i (tot ts' i - tot ts i)%R (2 * PI * x * swept e ps i)%R.
  Proof.
    induction ps as [|p ps IH]; intros ts Fp Ts; cbn [sweep_planes].
    - exists [], ts. split; [reflexivity|]. split; [constructor|]. split; [exact Ts|]. intros i x Ex. apply (between_ext i 0%R 0%R); [ring|unfold swept; cbn; ring|]. apply between_zero. rewrite <- Xl. apply nth_error_Some. congruence.
    - apply Forall_cons_iff in Fp. destruct Fp as [(H0 & H1 & H1' & Hgs & H2 & H3 & H3' & H4 & H5 & H6) Fp'].
      destruct (angles_bnd (pi_first p) (pi_height p) (pi_rays p) 0 (pi_in p) (mkSt (pi_out p) ts) [] H0 ltac:(lia) ltac:(lia) H2 H3 H3' H4 H6 ltac:(split; [exact H5|exact Ts]) ltac:(intros a [])) as (d & s & E1 & L1 & F1 & O1 & T1 & D1 & B1). rewrite E1. cbn [rbind].
      assert (exists d', (if me_gs e then Ok d else update_group (me_in e) (with_data (me_out e) (st_out s)) (me_group e) d) = Ok d' /\ length d' = length d /\ bnd_group d' /\ others d d') as (d' & Ed & Ld & Fd & Od).
      { destruct (me_gs e); [exists d; split; [reflexivity|]; split; [reflexivity|]; split; [exact F1|]; intros g' a n i k _ _; reflexivity|]. apply group_bnd; [apply T1|congruence|exact F1|].
        intros a Ha. apply D1. right. specialize (Hgs eq_refl). rewrite Hgs. destruct (Nat.lt_ge_cases a (2 * n_oct b)) as [C|C]; [exists a; split; [lia|now left]|].
        exists (a - 2 * n_oct b). split; [lia|]. right. unfold rev_ang, reverse2. rewrite Z.mod_small by lia. lia. }
      rewrite Ed. cbn [rbind]. destruct (IH (st_t s) Fp') as (bs1 & ts1 & E2 & G1 & G3 & G4); [split; apply T1|]. rewrite E2. cbn [rbind]. do 2 eexists. split; [reflexivity|]. split; [|split; [exact G3|]].
      + constructor; [|exact G1]. split; [cbn; congruence|]. split; [cbn; rewrite H5; apply T1|]. split; [exact Fd|]. split; [intros g' a n i k Sx Ne; cbn [fst]; rewrite (Od _ _ _ _ _ Sx Ne); apply (O1 _ _ _ _ _ Sx Ne)|]. intros j Hj. cbn [snd]. split; apply D1; right; exists j; (split; [lia|auto]).
      + intros i x Ex. pose proof (between_plus _ _ _ _ _ (B1 i x Ex) (G4 i x Ex)) as Z. cbn [st_t] in Z. revert Z. apply between_ext; [ring|]. unfold swept. cbn [lsum]. ring.
  Qed.
End Bounded.

Lemma finish_def : forall acc xstr vol q, length xstr = length acc -> length vol = length acc -> length q = length acc -> Forall (fun x => 0 < x)%R xstr -> Forall (fun v => 0 < v)%R vol -> exists f, finish acc xstr vol q = Some f.
Proof.
  induction acc as [|a acc IH]; intros [|x xs] [|v vs] [|c q] L1 L2 L3 P1 P2; try discriminate; [now exists []|]. cbn [finish]. inversion P1; inversion P2; subst.
  destruct (Reqb_spec (x * v) 0) as [Z|_]; [assert (0 < x * v)%R by (now apply Rmult_lt_0_compat); lra|]. destruct (IH xs vs q) as (f & ->); auto. eauto.
Qed.

(** C153.  Everything bounds what goes in bounds what comes out: if the source, and the flux entering over the boundary, lie between [lo] and [hi]
    (with 0 between them if some side is a vacuum), and the rays do not cover more of any region than there is, the sweep succeeds, every scalar
    flux lies between 4 pi [lo] and 4 pi [hi], and so does the flux the boundary condition makes ready for the next sweep between [lo] and [hi];
    what leaves along every swept angle does as well; other groups are left alone. *)
Theorem C153_bounds : forall e q lo hi nreg nt ps, bc_ok (me_in e) -> sizes (me_out e) = sizes (me_in e) -> all_supported (me_in e) -> (forall s, types (me_in e) s = VACUUM -> (lo <= 0 <= hi)%R) ->
  Forall no_gap (sizes (me_in e)) -> me_group e < n_group (me_in e) -> length (sizes (me_in e)) = 4 * n_oct (me_in e) -> (forall iang, me_q e iang = q) -> length q = nreg -> Forall (fun c => lo <= c <= hi)%R q ->
  length (me_xstr e) = nreg -> Forall (fun x => 0 < x)%R (me_xstr e) -> length (me_vol e) = nreg -> Forall (fun v => 0 < v)%R (me_vol e) ->
  length (me_space e) <= length (me_quad e) -> Forall (fun s => 0 <= s)%R (me_space e) ->
  Forall (fun a => 0 <= weight a /\ 0 < rsintheta (adir a) /\ rsintheta (adir a) * sin (theta (adir a)) = 1)%R (me_quad e) ->
  Forall (plane_bnd e lo hi nreg nt) ps -> (forall i, i < nreg -> (swept e ps i <= 2 * at0 (me_vol e) i)%R) ->
  exists f bs, sweep1g e nt nreg ps = Ok (f, bs) /\ length f = nreg /\ Forall (fun v => 4 * PI * lo <= v <= 4 * PI * hi)%R f /\ Forall2 (after e lo hi) ps bs.
Proof.
  intros e q lo hi nreg nt ps K So Su Vac Ng Hg Len Q Ql Qb Xl Xp Vl Vp Sl Sp Wp Fp Fill. unfold sweep1g.
  assert (Qb' : forall j c, nth_error q j = Some c -> (lo <= c <= hi)%R) by (intros j c E; rewrite Forall_forall in Qb; apply Qb; eapply nth_error_In; eauto).
  destruct (planes_bnd e q lo hi nreg nt K So Su Vac Ng Hg Len Q Ql Qb' Xl Xp Sl Sp Wp ps _ Fp (ts_zero nreg nt)) as (bs & ts & E & F & [T1 T2] & B). rewrite E. cbn [rbind].
  destruct (sum_threads_spec nreg ts T2) as [Ls As]. rewrite Q. destruct (finish_def (sum_threads nreg ts) (me_xstr e) (me_vol e) q) as (f & Ef); [lia|lia|lia|exact Xp|exact Vp|]. rewrite Ef. cbn [of_opt rbind].
  exists f, bs. split; [reflexivity|]. destruct (finish_spec _ _ _ _ _ Ef) as [Lf P]. split; [lia|]. split; [|exact F]. apply Forall_forall. intros v I. apply In_nth_error in I. destruct I as (i & Ei).
  assert (Hi : i < nreg) by (rewrite <- Ls, <- Lf; apply nth_error_Some; congruence). destruct (P i ltac:(lia)) as (x & w & c & Ex & Ew & Ec & Nz & Ev). rewrite Ei in Ev. injection Ev as ->.
  assert (Px : (0 < x)%R) by (rewrite Forall_forall in Xp; apply Xp; eapply nth_error_In; eauto). assert (Pw : (0 < w)%R) by (rewrite Forall_forall in Vp; apply Vp; eapply nth_error_In; eauto).
  specialize (Fill i Hi). unfold at0 in Fill at 1. rewrite (nth_error_nth _ _ 0%R Ew) in Fill. destruct (B i x Ex) as (m & c' & Ec' & M & D). rewrite Ec in Ec'. injection Ec' as <-. rewrite tot_zero in D. rewrite As. set (t := tot ts i) in *.
  pose proof (Qb' i c Ec) as C. pose proof PI_RGT_0 as PP. assert (Pxw : (0 < x * w)%R) by (now apply Rmult_lt_0_compat).
  assert (M' : (0 <= m <= 4 * PI * (x * w))%R). { split; [lra|]. apply (Rle_trans _ _ _ (proj2 M)). replace (4 * PI * (x * w))%R with (2 * PI * x * (2 * w))%R by ring. apply Rmult_le_compat_l; [|exact Fill]. apply Rmult_le_pos; lra. }
  unfold FPI. replace (t / (x * w) + c * (4 * PI))%R with ((t + c * (4 * PI * (x * w))) / (x * w))%R by (field; split; lra). set (y := (4 * PI * (x * w))%R) in *.
  assert (L : (lo * y <= t + c * y <= hi * y)%R) by (split; nra).
  split; [replace (4 * PI * lo)%R with (lo * y / (x * w))%R by (unfold y; field; split; lra)|replace (4 * PI * hi)%R with (hi * y / (x * w))%R by (unfold y; field; split; lra)]; unfold Rdiv; (apply Rmult_le_compat_r; [left; now apply Rinv_0_lt_compat|lra]).
Qed.
Print Assumptions C153_bounds.

(** ** The default volume correction keeps the rays within the regions *)
Lemma len_track : forall first k rays, len_in first (first + k) rays = track_len (map ray_segs rays) k.
Proof.
  intros first k rays. unfold len_in, track_len. induction rays as [|r rays IH]; [reflexivity|]. cbn [lsum map concat]. rewrite lsum_app, IH. f_equal. unfold ray_len. apply lsum_ext. intros sg _.
  destruct (Nat.eqb_spec (first + k) (fst sg + first)), (Nat.eqb_spec (fst sg) k); try reflexivity; lia.
Qed.
Lemma len_none : forall first i n rays, segs_ok n (map ray_segs rays) -> ~ (first <= i < first + n) -> len_in first i rays = 0%R.
Proof.
  intros first i n rays Ok N. unfold len_in. apply lsum_zero. intros r I. unfold ray_len. apply lsum_zero. intros sg J. destruct (Nat.eqb_spec i (fst sg + first)) as [->|]; [|reflexivity]. exfalso. apply N.
  destruct (Ok sg) as [X _]; [|lia]. apply in_concat. exists (ray_segs r). split; [now apply in_map|exact J].
Qed.
Lemma rescaled_ok : forall g n raw, segs_ok n raw -> (forall i, crossed raw i -> (0 < g i)%R) -> segs_ok n (rescaled g raw).
Proof.
  intros g n raw Ok P sg I. unfold rescaled in I. rewrite <- concat_map in I. apply in_map_iff in I. destruct I as (s0 & <- & I). cbn [fst snd]. destruct (Ok s0 I) as [A B]. split; [exact A|]. apply Rmult_lt_0_compat; [exact B|]. apply P. exists s0. auto.
Qed.
(** A plane of [n] regions whose rays, angle by angle, are the outcome of the FLAT correction to the areas [tv]. *)
Definition plane_corrected (e : MocEnv) (p : PlaneIn) (n : nat) : Prop := (0 <= pi_height p)%R /\ (lsum (at0 (map weight (me_quad e))) (seq 0 (length (pi_rays p))) <= 2)%R /\
  exists tv, length tv = n /\ (forall k, k < n -> (0 < at0 tv k)%R /\ (pi_height p * at0 tv k = at0 (me_vol e) (pi_first p + k))%R) /\
  forall j rays, nth_error (pi_rays p) j = Some rays -> exists sp raw, nth_error (me_space e) j = Some sp /\ (0 < sp)%R /\ segs_ok n raw /\ correct_flat sp n tv raw = Some (map ray_segs (map snd rays)).

Lemma corrected_angles : forall e first h n tv i, (0 <= h)%R -> Forall (fun a => 0 <= weight a)%R (me_quad e) -> length tv = n -> (forall k, k < n -> (0 < at0 tv k)%R) -> forall angs iang,
  (forall j rays, nth_error angs j = Some rays -> exists sp raw, nth_error (me_space e) (iang + j) = Some sp /\ (0 < sp)%R /\ segs_ok n raw /\ correct_flat sp n tv raw = Some (map ray_segs (map snd rays))) ->
  (~ (first <= i < first + n) -> swept_angles e first h iang angs i = 0%R) /\
  (first <= i < first + n -> (swept_angles e first h iang angs i <= lsum (at0 (map weight (me_quad e))) (seq iang (length angs)) * (h * at0 tv (i - first)))%R).
Proof.
  intros e first h n tv i Hh Wp Lt Tp. induction angs as [|rays angs IH]; intros iang H; cbn [swept_angles length seq lsum]; [split; intros; [reflexivity|lra]|].
  destruct (IH (S iang)) as [I1 I2]; [intros j r Ej; replace (S iang + j) with (iang + S j) by lia; now apply (H (S j) r)|]. clear IH.
  destruct (H 0 rays eq_refl) as (sp & raw & Es & Ps & Ok & Cf). rewrite Nat.add_0_r in Es. destruct (C29_flat sp n tv raw Ps Lt Ok) as (g & Cg & Pg). rewrite Cf in Cg. injection Cg as Cg.
  assert (Gp : forall k, crossed raw k -> (0 < g k)%R). { intros k Ck. destruct Ck as (sg & I & <-). destruct (Ok sg I) as [X _]. destruct (nth_error tv (fst sg)) as [t|] eqn:Et; [|apply nth_error_None in Et; lia]. apply (Pg (fst sg) t); [exists sg; auto|exact Et|].
    specialize (Tp (fst sg) X). unfold at0 in Tp. now rewrite (nth_error_nth _ _ _ Et) in Tp. }
  assert (Ep : at0 (me_space e) iang = sp) by (unfold at0; now apply nth_error_nth). unfold angle_vol. rewrite Ep. split; intros Hi.
  - rewrite I1 by exact Hi. rewrite (len_none first i n) by (auto; rewrite Cg; now apply rescaled_ok). ring.
  - specialize (I2 Hi). set (w := at0 (map weight (me_quad e)) iang) in *. set (k := i - first) in *. replace i with (first + k) at 1 by lia. rewrite len_track, Cg.
    assert (W0 : (0 <= w)%R). { unfold w, at0. destruct (nth_error (map weight (me_quad e)) iang) as [v|] eqn:Ev; [|rewrite nth_overflow by (now apply nth_error_None); lra]. rewrite (nth_error_nth _ _ _ Ev). apply nth_error_In, in_map_iff in Ev. destruct Ev as (a & <- & Ia). rewrite Forall_forall in Wp. now apply Wp. }
    assert (T : (sp * track_len (rescaled g raw) k <= at0 tv k)%R).
    { pose proof (Tp k ltac:(lia)) as Tk. destruct (nth_error tv k) as [t|] eqn:Et; [|apply nth_error_None in Et; lia]. assert (Eat : at0 tv k = t) by (unfold at0; now apply nth_error_nth). rewrite Eat in *.
      destruct (in_dec Nat.eq_dec k (map fst (concat raw))) as [I|I].
      - apply in_map_iff in I. destruct I as (sg & E & I). destruct (Pg k t) as [-> _]; [exists sg; auto|exact Et|lra].
      - rewrite track_rescaled. assert (Z : track_len raw k = 0%R); [|rewrite Z; lra]. unfold track_len. apply lsum_zero. intros sg J. destruct (Nat.eqb_spec (fst sg) k) as [E|]; [|reflexivity]. exfalso. apply I. apply in_map_iff. exists sg. auto. }
    assert (w * sp * h * track_len (rescaled g raw) k <= w * (h * at0 tv k))%R; [|lra]. replace (w * sp * h * track_len (rescaled g raw) k)%R with (w * (h * (sp * track_len (rescaled g raw) k)))%R by ring.
    apply Rmult_le_compat_l; [exact W0|]. apply Rmult_le_compat_l; [exact Hh|exact T].
Qed.

(** C153: the rays of planes with regions of their own, corrected to the areas of the regions as happens by default, meet the condition of
    [C153_bounds]. *)
Theorem C153_corrected : forall e pns, Forall (fun a => 0 <= weight a)%R (me_quad e) -> (forall i, (0 <= at0 (me_vol e) i)%R) -> (forall p n, In (p, n) pns -> plane_corrected e p n) ->
  NoDup (concat (map (fun pn => seq (pi_first (fst pn)) (snd pn)) pns)) -> forall i, (swept e (map fst pns) i <= 2 * at0 (me_vol e) i)%R.
Proof.
  intros e pns Wp Vp Hp Nd i. assert (Q : (~ In i (concat (map (fun pn => seq (pi_first (fst pn)) (snd pn)) pns)) -> swept e (map fst pns) i = 0%R) /\ (swept e (map fst pns) i <= 2 * at0 (me_vol e) i)%R); [|apply Q].
  unfold swept. specialize (Vp i). induction pns as [|[p n] pns IH]; cbn [map lsum concat fst snd] in *; [split; intros; [reflexivity|lra]|].
  assert (Nd2 : NoDup (concat (map (fun pn => seq (pi_first (fst pn)) (snd pn)) pns))) by (clear - Nd; induction (seq (pi_first p) n) as [|a l IHl]; [exact Nd|]; inversion Nd; auto). destruct (IH (fun p' n' I => Hp p' n' (or_intror I)) Nd2) as [I1 I2]. destruct (Hp p n (or_introl eq_refl)) as (Hh & Hw & tv & Lt & Tp & Ha).
  destruct (corrected_angles e (pi_first p) (pi_height p) n tv i Hh Wp Lt (fun k Hk => proj1 (Tp k Hk)) (pi_rays p) 0 Ha) as [A1 A2]. split.
  - intros N. rewrite A1 by (intros X; apply N; apply in_or_app; left; apply in_seq; lia). rewrite I1 by (intros X; apply N; apply in_or_app; right; exact X). lra.
  - destruct (in_dec Nat.eq_dec i (seq (pi_first p) n)) as [I|I].
    + assert (N : ~ In i (concat (map (fun pn => seq (pi_first (fst pn)) (snd pn)) pns))). { intros X. clear - Nd I X. apply in_split in I. destruct I as (l1 & l2 & E). rewrite E in Nd. rewrite <- app_assoc in Nd. apply NoDup_remove_2 in Nd. apply Nd. apply in_or_app. right. apply in_or_app. right. exact X. }
      rewrite (I1 N). apply in_seq in I. specialize (A2 I). destruct (Tp (i - pi_first p) ltac:(lia)) as [Tq Tv]. replace (pi_first p + (i - pi_first p)) with i in Tv by lia. rewrite Tv in A2.
      assert (lsum (at0 (map weight (me_quad e))) (seq 0 (length (pi_rays p))) * at0 (me_vol e) i <= 2 * at0 (me_vol e) i)%R by (apply Rmult_le_compat_r; assumption). lra.
    + rewrite A1 by (intros X; apply I; apply in_seq; lia). lra.
Qed.
Print Assumptions C153_corrected.

(** A plane of two regions with a vacuum all round, one angle per octant and two rays per angle, filling both regions exactly. *)
Definition mx_a : Angle := mkAngle (mkDir (3 / 5) (4 / 5) 0 1 (PI / 2) 1) 1.
Definition mx_bc : BC := mkBC 1 (repeat (mkSize 1 1 0) 4) (fun _ => VACUUM) 1 (repeat mx_a 4) [].
Definition mx_env (gs : bool) (vol : list R) : MocEnv := mkME mx_bc mx_bc 0 [1; 2]%R vol (fun _ => [2; 5]%R) (repeat mx_a 4) [1; 1]%R gs.
Definition mx_rays : list (nat * Ray) := [(0, mkRay 0 1 [(0, 1%R); (1, (1 / 2)%R)]); (1, mkRay 1 0 [(1, (1 / 2)%R)])].
Definition mx_plane : PlaneIn := mkPI 0 1 [mx_rays; mx_rays] (repeat 1%R 8) (repeat 0%R 8).

Lemma mx_bc_ok : bc_ok mx_bc.
Proof.
  constructor; [cbn; lia|cbn; lia|cbn; lia|]. intros a a' n s Es Rf H. assert (La : a < 4) by (apply (nth_error_Some (sizes mx_bc)); congruence).
  do 4 (destruct a as [|a]; [destruct n; cbn in Es, Rf, H; injection Es as <-; injection Rf as <-; cbn in H; try lia; eexists; split; reflexivity|]). lia.
Qed.
Lemma mx_slots : forall g a n i k (v : R), slot mx_bc g a n i k -> g < 1 -> nth_error (repeat v 8) k = Some v.
Proof.
  intros g a n i k v Sx Hg. pose proof (slot_range _ _ _ _ _ _ Sx Hg) as B. cbn in B. rewrite (nth_error_nth' _ 0%R) by (rewrite repeat_length; lia). f_equal. apply (repeat_spec 8 v). apply nth_In. rewrite repeat_length. lia.
Qed.
Lemma mx_bnd : forall gs vol, Forall (plane_bnd (mx_env gs vol) 0 5 2 2) [mx_plane].
Proof.
  intros gs vol. constructor; [|constructor]. split; [cbn; lra|]. split; [cbn; lia|]. split; [cbn; lia|]. split; [reflexivity|]. split; [repeat constructor|]. split; [|split; [repeat constructor; cbn; lra || lia|]].
  - intros j rays E. assert (rays = mx_rays /\ j < 2) as [-> Hj] by (destruct j as [|[|j]]; cbn in E; [injection E as <-; split; auto|injection E as <-; split; auto|destruct j; discriminate]).
    exists (mkSize 1 1 0), (mkSize 1 1 0). destruct j as [|[|j]]; [| |lia]; cbn; repeat split; auto using perm_swap; apply perm_swap.
  - split; [reflexivity|]. split; [reflexivity|]. intros a n i k Sx. exists 1%R. split; [apply (mx_slots _ _ _ _ _ _ Sx); cbn; lia|unfold inb; lra].
Qed.
Example C153_instance : forall gs, (swept (mx_env gs [1; 1]%R) [mx_plane] 0 = 2)%R /\ (swept (mx_env gs [1; 1]%R) [mx_plane] 1 = 2)%R /\
  exists f0 f1 bs, sweep1g (mx_env gs [1; 1]%R) 2 2 [mx_plane] = Ok ([f0; f1], bs) /\ (0 <= f0 <= 4 * PI * 5)%R /\ (0 <= f1 <= 4 * PI * 5)%R.
Proof.
  intros gs. assert (S0 : (swept (mx_env gs [1; 1]%R) [mx_plane] 0 = 2)%R) by (unfold swept, mx_plane, mx_rays, angle_vol, len_in, ray_len, at0; cbn; unfold angle_vol, len_in, ray_len, at0; cbn; lra).
  assert (S1 : (swept (mx_env gs [1; 1]%R) [mx_plane] 1 = 2)%R) by (unfold swept, mx_plane, mx_rays, angle_vol, len_in, ray_len, at0; cbn; unfold angle_vol, len_in, ray_len, at0; cbn; lra).
  split; [exact S0|]. split; [exact S1|].
  destruct (C153_bounds (mx_env gs [1; 1]%R) [2; 5]%R 0 5 2 2 [mx_plane]) as (f & bs & E & L & F & _).
  - apply mx_bc_ok.
  - reflexivity.
  - intros s. left. reflexivity.
  - intros s _. lra.
  - apply Forall_forall; intros s Hs; apply repeat_spec in Hs; subst; split; cbn; lia.
  - cbn; lia.
  - reflexivity.
  - reflexivity.
  - reflexivity.
  - repeat constructor; lra.
  - reflexivity.
  - repeat constructor; lra.
  - reflexivity.
  - repeat constructor; lra.
  - cbn; lia.
  - repeat constructor; lra.
  - apply Forall_forall. intros a Ia. apply repeat_spec in Ia. subst a. cbn [mx_a weight adir rsintheta theta]. rewrite sin_PI2. lra.
  - apply mx_bnd.
  - intros [|[|i]] Hi; [rewrite S0|rewrite S1|lia]; unfold at0; cbn; lra.
  - destruct f as [|f0 [|f1 [|? ?]]]; try discriminate. exists f0, f1, bs. inversion F as [|? ? F0 F']; subst. inversion F' as [|? ? F1 _]; subst. split; [exact E|]. lra.
Qed.
Example C153_corrected_instance : forall gs, plane_corrected (mx_env gs [1; 1]%R) mx_plane 2 /\ forall i, (swept (mx_env gs [1; 1]%R) [mx_plane] i <= 2 * at0 [1; 1]%R i)%R.
Proof.
  intros gs. assert (P : plane_corrected (mx_env gs [1; 1]%R) mx_plane 2).
  { split; [cbn; lra|]. split; [unfold at0; cbn; lra|]. exists [1; 1]%R. split; [reflexivity|]. split; [intros [|[|k]] Hk; [| |lia]; unfold at0; cbn; lra|].
    intros j rays E. exists 1%R, (map ray_segs (map snd mx_rays)). assert (rays = mx_rays /\ j < 2) as [-> Hj] by (destruct j as [|[|j]]; cbn in E; [injection E as <-; split; auto|injection E as <-; split; auto|destruct j; discriminate]).
    split; [destruct j as [|[|j]]; [reflexivity|reflexivity|lia]|]. split; [lra|].
    assert (Ok : segs_ok 2 (map ray_segs (map snd mx_rays))) by (intros sg I; cbn in I; destruct I as [<-|[<-|[<-|[]]]]; cbn; (split; [lia|lra])). split; [exact Ok|].
    destruct (C29_flat 1 2 [1; 1]%R _ ltac:(lra) eq_refl Ok) as (g & -> & Pg).
    destruct (Pg 0 1%R) as [G0 _]; [exists (0, 1%R); cbn; auto|reflexivity|]. destruct (Pg 1 1%R) as [G1 _]; [exists (1, (1 / 2)%R); cbn; auto|reflexivity|]. rewrite track_rescaled in G0, G1. unfold track_len in G0, G1. cbn in G0, G1.
    assert (E0 : g 0 = 1%R) by lra. assert (E1 : g 1 = 1%R) by lra. cbn. rewrite E0, E1, !Rmult_1_r. reflexivity. }
  split; [exact P|]. apply (C153_corrected (mx_env gs [1; 1]%R) [(mx_plane, 2)]).
  - repeat constructor; cbn; lra.
  - intros [|[|i]]; unfold at0; cbn; try lra. destruct i; lra.
  - intros p n [[= <- <-]|[]]. exact P.
  - cbn. repeat constructor; cbn; intuition lia.
Qed.

(** C154 refuted: without the correction rays may cover more of a region than there is, and a sweep from a nonnegative source and nonnegative
    incoming fluxes then makes a negative flux. *)
Definition my_env (vol : list R) : MocEnv := mkME mx_bc mx_bc 0 [1]%R vol (fun _ => [1]%R) (repeat mx_a 4) [1; 1]%R false.
Definition my_rays : list (nat * Ray) := [(0, mkRay 0 1 [(0, 1%R)]); (0, mkRay 1 0 [(0, 1%R)])].
Definition my_plane : PlaneIn := mkPI 0 1 [my_rays; my_rays] (repeat 0%R 8) (repeat 0%R 8).
Lemma my_exp : exists r, moc_exp (- (1) * 1 * 1) = Some r /\ (r <= 1 / 2)%R.
Proof.
  unfold moc_exp. destruct (C63_error table_size (-10) 0 (- (1) * 1 * 1)) as (r & Er & B); [unfold table_size; lia|lra|lra|]. exists r. split; [exact Er|].
  replace (- (1) * 1 * 1)%R with (-1)%R in B by ring. cbv zeta in B. replace (INR table_size) with 10000%R in B by (unfold table_size; rewrite INR_IZR_INZ; f_equal; rewrite Z2Nat.id; lia).
  replace ((0 - -10) / 10000)%R with (/ 1000)%R in B by field. set (h := (/ 1000)%R) in B. assert (Hh : (h = 1 / 1000)%R) by (unfold h; lra).
  assert (E1 : (exp h <= 1 / (1 - h))%R). { pose proof (exp_ineq1_le (- h)) as X. pose proof (exp_pos h). rewrite exp_Ropp in X. apply (Rmult_le_reg_r (1 - h)); [lra|]. replace (1 / (1 - h) * (1 - h))%R with (exp h * / exp h)%R by (field; split; lra). apply Rmult_le_compat_l; lra. }
  assert (E2 : (exp (-1) <= 4 / 9)%R). { pose proof (exp_ineq1_le (1 / 2)) as X. assert (Y : (exp 1 = exp (1 / 2) * exp (1 / 2))%R) by (rewrite <- exp_plus; f_equal; lra). assert (9 / 4 <= exp 1)%R by (rewrite Y; nra).
    replace (-1)%R with (- (1))%R by lra. rewrite exp_Ropp. replace (4 / 9)%R with (/ (9 / 4))%R by lra. apply Rinv_le_contravar; lra. }
  pose proof (exp_pos (-1)) as E0. assert (E3 : (1 / (1 - h) = 1000 / 999)%R) by (rewrite Hh; field). rewrite E3, Hh in *. assert ((exp (1 / 1000) - 1 - 1 / 1000) * exp (-1) <= 1 / 500 * 1)%R by (apply Rmult_le_compat; [|lra|lra|lra]; pose proof (exp_ineq1_le (1 / 1000)); lra). lra.
Qed.
Lemma my_bnd : forall vol, Forall (plane_bnd (my_env vol) 0 1 1 1) [my_plane].
Proof.
  intros vol. constructor; [|constructor]. split; [cbn; lra|]. split; [cbn; lia|]. split; [cbn; lia|]. split; [reflexivity|]. split; [repeat constructor|]. split; [|split; [repeat constructor; cbn; lra || lia|]].
  - intros j rays E. assert (rays = my_rays /\ j < 2) as [-> Hj] by (destruct j as [|[|j]]; cbn in E; [injection E as <-; split; auto|injection E as <-; split; auto|destruct j; discriminate]).
    exists (mkSize 1 1 0), (mkSize 1 1 0). destruct j as [|[|j]]; [| |lia]; cbn; repeat split; auto using perm_swap; apply perm_swap.
  - split; [reflexivity|]. split; [reflexivity|]. intros a n i k Sx. exists 0%R. split; [apply (mx_slots _ _ _ _ _ _ Sx); cbn; lia|unfold inb; lra].
Qed.
Theorem C154_refuted : exists e q nreg nt ps, bc_ok (me_in e) /\ sizes (me_out e) = sizes (me_in e) /\ all_supported (me_in e) /\ Forall no_gap (sizes (me_in e)) /\ me_group e < n_group (me_in e) /\
  length (sizes (me_in e)) = 4 * n_oct (me_in e) /\ (forall iang, me_q e iang = q) /\ length q = nreg /\ Forall (fun c => 0 <= c)%R q /\ length (me_xstr e) = nreg /\ Forall (fun x => 0 < x)%R (me_xstr e) /\
  length (me_vol e) = nreg /\ Forall (fun v => 0 < v)%R (me_vol e) /\ length (me_space e) <= length (me_quad e) /\ Forall (fun s => 0 <= s)%R (me_space e) /\
  Forall (fun a => 0 <= weight a /\ 0 < rsintheta (adir a) /\ rsintheta (adir a) * sin (theta (adir a)) = 1)%R (me_quad e) /\ Forall (plane_bnd e 0 1 nreg nt) ps /\
  exists f bs, sweep1g e nt nreg ps = Ok (f, bs) /\ exists v, In v f /\ (v < 0)%R.
Proof.
  exists (my_env [1 / 2]%R), [1]%R, 1, 1, [my_plane]. split; [apply mx_bc_ok|]. split; [reflexivity|]. split; [intros s; left; reflexivity|].
  split; [apply Forall_forall; intros s Hs; apply repeat_spec in Hs; subst; split; cbn; lia|]. split; [cbn; lia|]. split; [reflexivity|]. split; [reflexivity|]. split; [reflexivity|]. split; [repeat constructor; lra|].
  split; [reflexivity|]. split; [repeat constructor; lra|]. split; [reflexivity|]. split; [repeat constructor; lra|]. split; [cbn; lia|]. split; [repeat constructor; lra|].
  assert (W : Forall (fun a => 0 <= weight a /\ 0 < rsintheta (adir a) /\ rsintheta (adir a) * sin (theta (adir a)) = 1)%R (me_quad (my_env [1 / 2]%R))) by (apply Forall_forall; intros a Ia; apply repeat_spec in Ia; subst a; cbn [mx_a weight adir rsintheta theta]; rewrite sin_PI2; lra).
  split; [exact W|]. split; [apply my_bnd|].
  destruct (planes_bnd (my_env [1 / 2]%R) [1]%R 0 1 1 1 mx_bc_ok eq_refl) with (ps := [my_plane]) (ts := [[0]]%R) as (bs & ts & E & _).
  1: intros s; left; reflexivity. 1: intros s _; lra. 1: apply Forall_forall; intros s Hs; apply repeat_spec in Hs; subst; split; cbn; lia. 1: cbn; lia. 1: reflexivity. 1: reflexivity. 1: reflexivity.
  1: intros [|[|j]] c X; cbn in X; try discriminate; injection X as <-; lra. 1: reflexivity. 1: repeat constructor; lra. 1: cbn; lia. 1: repeat constructor; lra. 1: exact W. 1: apply my_bnd. 1: apply (ts_zero 1 1).
  unfold sweep1g. cbn [repeat]. rewrite E. cbn [rbind]. destruct my_exp as (r & Er & Br).
  cbn [sweep_planes] in E. destruct (sweep_angles _ _ _ _ _ _ _) as [[din s]| |] eqn:Es; [|discriminate|discriminate]. cbn [rbind] in E. destruct (if me_gs _ then _ else _) as [d'| |]; [|discriminate|discriminate]. cbn [rbind] in E. injection E as <- <-.
  cbv -[Rplus Rmult Rminus Ropp Rdiv Rinv IZR moc_exp PI sin] in Es. do 3 (rewrite ?Er in Es; cbv -[Rplus Rmult Rminus Ropp Rdiv Rinv IZR moc_exp PI sin] in Es). injection Es as _ <-. cbn [st_t st_out].
  unfold sum_threads. cbn [fold_left repeat add_lists my_env me_xstr me_vol me_q finish]. destruct (Reqb_spec (1 * (1 / 2)) 0) as [X|_]; [lra|]. cbn [of_opt rbind]. do 2 eexists. split; [reflexivity|]. eexists. split; [left; reflexivity|].
  rewrite sin_PI2. unfold FPI. pose proof PI_RGT_0 as PP. match goal with |- (?v < 0)%R => replace v with (4 * PI * (1 - 4 * (1 - r)))%R by field end. nra.
Qed.
Print Assumptions C154_refuted.
