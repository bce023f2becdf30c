(** Proofs about how much of the flux that enters over the boundary a MoC sweep lets through, and about iterations with reflecting boundaries. *)
From Coq Require Import List Bool Reals ZArith Arith Lia Lra Permutation.
From Verif Require Import RUtil ListUtil McModel MeshModel AngModel AngProofs BcModel BcProofs StdAlg StdAlgProofs CoreModel CoreProofs ExpModel ExpProps MocModel MocProofs MocProps VolModel VolProps MocMaxProps.
Import ListNotations.
Open Scope nat_scope.

(** What is left of a flux after the attenuations [es]. *)
Fixpoint attn (es : list (nat * R)) : R := match es with [] => 1%R | (_, e) :: r => ((1 - e) * attn r)%R end.
Lemma attn_app : forall a b, attn (a ++ b) = (attn a * attn b)%R.
Proof. induction a as [|[i e] a IH]; intros b; cbn [attn app]; [ring|]. rewrite IH. ring. Qed.
Lemma attn_rev : forall a, attn (rev a) = attn a.
Proof. induction a as [|[i e] a IH]; [reflexivity|]. cbn [rev attn]. rewrite attn_app, IH. cbn [attn]. ring. Qed.
Lemma attn_range : forall es, (forall j e, In (j, e) es -> (0 <= e <= 1)%R) -> (0 <= attn es <= 1)%R.
Proof. induction es as [|[j e] es IH]; intros H; cbn [attn]; [lra|]. pose proof (H j e (or_introl eq_refl)). specialize (IH (fun j' e' I => H j' e' (or_intror I))). split; [apply Rmult_le_pos; lra|nra]. Qed.
(** What a ray lets through of a flux that enters it. *)
Definition ray_att (xstr : list R) (first : nat) (rst : R) (r : Ray) : R := match all_some (map (seg_etau xstr first rst) (ray_segs r)) with Some es => attn es | None => 1%R end.

Lemma track_fade : forall q Q es psi ds ps B, (0 <= Q <= B)%R -> track q es psi = Some (ds, ps) -> (Rabs psi <= B)%R -> (forall j e, In (j, e) es -> (0 <= e <= 1)%R) -> (forall j c, nth_error q j = Some c -> (Rabs c <= Q)%R) ->
  (Rabs (last ps 0) <= Q + attn es * (B - Q))%R.
Proof.
  intros q Q. induction es as [|[j e] es IH]; intros psi ds ps B HB T Hp He Hq; cbn [track] in T.
  - injection T as <- <-. cbn [last attn]. lra.
  - destruct (nth_error q j) as [c|] eqn:Ec; [|discriminate]. destruct (track q es _) as [[d p]|] eqn:T'; [|discriminate]. injection T as <- <-. destruct (He j e (or_introl eq_refl)) as [E0 E1]. pose proof (Hq j c Ec) as C.
    destruct (track_shape _ _ _ _ _ T') as (_ & L & _). destruct p as [|a p]; [discriminate|]. change (last (psi :: a :: p) 0%R) with (last (a :: p) 0%R).
    assert (Hp' : (Rabs (psi - (psi - c) * e) <= Q + (1 - e) * (B - Q))%R).
    { replace (psi - (psi - c) * e)%R with ((1 - e) * psi + e * c)%R by ring. eapply Rle_trans; [apply Rabs_triang|]. rewrite !Rabs_mult, (Rabs_pos_eq (1 - e)), (Rabs_pos_eq e) by lra. assert ((1 - e) * Rabs psi <= (1 - e) * B)%R by (apply Rmult_le_compat_l; lra). assert (e * Rabs c <= e * Q)%R by (apply Rmult_le_compat_l; lra). lra. }
    assert (HB' : (0 <= Q <= Q + (1 - e) * (B - Q))%R) by (assert (0 <= (1 - e) * (B - Q))%R by (apply Rmult_le_pos; lra); lra).
    specialize (IH _ _ _ _ HB' T' Hp' (fun j' e' I => He j' e' (or_intror I)) Hq). cbn [attn]. replace (Q + (1 - e) * attn es * (B - Q))%R with (Q + attn es * (Q + (1 - e) * (B - Q) - Q))%R by ring. exact IH.
Qed.

(** ** Every segment takes something *)
Lemma moc_exp_lt : forall v r, (v < 0)%R -> moc_exp v = Some r -> (r < 1)%R.
Proof.
  intros v r Hv E. unfold moc_exp in E. assert (HN : 1 <= table_size) by (unfold table_size; lia). destruct (Rlt_le_dec v (-10)) as [L|L].
  - unfold exp_linear in E. rewrite (Rltb_true v (-10)) in E by exact L. cbn [orb] in E. injection E as <-. rewrite <- exp_0. apply exp_increasing. exact Hv.
  - destruct (interp_cell table_size (-10) 0 v HN ltac:(lra) ltac:(lra)) as (i & Hi & Sp & _ & Ci & X). unfold exp_linear in E. rewrite !Rltb_false in E by lra. cbn [orb] in E. rewrite X in E. injection E as <-.
    assert (SN : (INR table_size * exp_space table_size (-10) 0 = 0 - -10)%R) by (unfold exp_space; field; apply not_0_INR; lia). set (s := exp_space table_size (-10) 0) in *. set (x := (-10 + IZR i * s)%R) in *. rewrite plus_IZR in Ci.
    assert (Xs : (x + s <= 0)%R). { assert (IZR (i + 1) <= INR table_size)%R by (rewrite INR_IZR_INZ; apply IZR_le; lia). rewrite plus_IZR in *. unfold x. nra. }
    assert (C : (exp x < exp (x + s))%R) by (apply exp_increasing; lra). assert (D : (exp (x + s) <= 1)%R) by (rewrite <- exp_0; destruct Xs as [Xs| ->]; [apply Rlt_le, exp_increasing; lra|lra]).
    assert (F : ((v - x) * (1 / s) < 1)%R) by (apply (Rmult_lt_reg_r s); [lra|]; replace ((v - x) * (1 / s) * s)%R with (v - x)%R by (field; lra); unfold x; lra).
    replace ((exp (x + s) - exp x) * (v - x) * (1 / s))%R with ((exp (x + s) - exp x) * ((v - x) * (1 / s)))%R by ring. set (z := ((v - x) * (1 / s))%R) in *. assert ((exp (x + s) - exp x) * z < (exp (x + s) - exp x) * 1)%R by (apply Rmult_lt_compat_l; lra). lra.
Qed.
Lemma ray_att_lt : forall xstr nreg first rst r, length xstr = nreg -> Forall (fun x => 0 < x)%R xstr -> (0 < rst)%R -> ray_sound nreg first r -> ray_segs r <> [] -> (ray_att xstr first rst r < 1)%R.
Proof.
  intros xstr nreg first rst r Xl Xp Hr Hs Hn. unfold ray_att. unfold ray_sound in Hs. destruct (ray_segs r) as [|sg segs]; [contradiction|]. clear Hn. rewrite <- Xl in Hs.
  destruct (etau_all xstr first rst (sg :: segs) Hr Xp Hs) as (es & E & Re & _). rewrite E. cbn [map all_some] in E. destruct (seg_etau xstr first rst sg) as [[i e]|] eqn:Es; [|discriminate]. destruct (all_some _) as [es'|] eqn:Es'; [|discriminate]. injection E as <-. cbn [attn].
  assert (Ra : (0 <= attn es' <= 1)%R) by (apply attn_range; intros j v I; exact (proj2 (Re j v (or_intror I)))). inversion Hs as [|? ? [H1 H2] _]; subst. unfold seg_etau in Es. destruct (nth_error xstr (fst sg + first)) as [x|] eqn:Ex; [|discriminate]. destruct (moc_exp _) as [v|] eqn:Ev; [|discriminate]. injection Es as <- <-.
  assert (Px : (0 < x)%R) by (rewrite Forall_forall in Xp; apply Xp; eapply nth_error_In; eauto). assert (T : (0 < x * snd sg * rst)%R) by (apply Rmult_lt_0_compat; [now apply Rmult_lt_0_compat|assumption]). assert (V : (v < 1)%R) by (apply (moc_exp_lt _ _) with (2 := Ev); lra). pose proof (proj2 (Re _ _ (or_introl eq_refl))) as Z. replace (1 - (1 - v))%R with v by ring. assert (v * attn es' <= v * 1)%R by (apply Rmult_le_compat_l; lra). lra.
Qed.
Lemma below_one : forall l : list R, Forall (fun v => v < 1)%R l -> exists th, (0 <= th < 1)%R /\ Forall (fun v => v <= th)%R l.
Proof.
  induction l as [|v l IH]; intros F; [exists 0%R; split; [lra|constructor]|]. inversion F; subst. destruct IH as (th & T & Ft); [assumption|]. exists (Rmax v th). pose proof (Rmax_l v th). pose proof (Rmax_r v th). split; [split; [lra|]; apply Rmax_lub_lt; lra|]. constructor; [assumption|]. eapply Forall_impl; [|exact Ft]. cbn. intros; lra.
Qed.

(** ** A sweep of one group: flux that enters within [-B, B] and sources within [-Q, Q] *)
Section Fade.
  Variables (e : MocEnv) (q : list R) (Q B th : R) (nreg nt : nat).
  Let b := me_in e.
  Let g := me_group e.
  Hypothesis K : bc_ok b.
  Hypothesis So : sizes (me_out e) = sizes b.
  Hypothesis Su : all_supported b.
  Hypothesis Ng : Forall no_gap (sizes b).
  Hypothesis Hg : g < n_group b.
  Hypothesis Len : length (sizes b) = 4 * n_oct b.
  Hypothesis Hq : forall iang, me_q e iang = q.
  Hypothesis Ql : length q = nreg.
  Hypothesis Hb : (0 <= Q <= B)%R.
  Hypothesis Qb : forall j c, nth_error q j = Some c -> (Rabs c <= Q)%R.
  Hypothesis Ht01 : (0 <= th <= 1)%R.
  Hypothesis Xl : length (me_xstr e) = nreg.
  Hypothesis Xp : Forall (fun x => 0 < x)%R (me_xstr e).
  Hypothesis Sl : length (me_space e) <= length (me_quad e).
  Hypothesis Sp : Forall (fun s => 0 <= s)%R (me_space e).
  Hypothesis Wp : Forall (fun a => 0 <= weight a /\ 0 < rsintheta (adir a) /\ rsintheta (adir a) * sin (theta (adir a)) = 1)%R (me_quad e).
  Let C : R := (Q + th * (B - Q))%R.
  Lemma C_range : (0 <= C <= B)%R.
  Proof. unfold C. assert (0 <= th * (B - Q))%R by (apply Rmult_le_pos; lra). split; nra. Qed.
  (** The prescribed fluxes. *)
  Variable pr : nat -> R.
  Hypothesis Pr : forall a n i k, slot b g a n i k -> type_at b a n = Some PRESCRIBED -> (Rabs (pr k) <= C)%R.

  Definition low (o : option R) : Prop := exists v, o = Some v /\ (Rabs v <= C)%R.
  Definition low_angle (a : nat) (d : list R) : Prop := forall n i k, slot b 0 a n i k -> low (nth_error d k).
  Definition pres_is (d : list R) : Prop := forall a n i k, slot b g a n i k -> type_at b a n = Some PRESCRIBED -> nth_error d k = Some (pr k).
  (** The incoming fluxes that come from angle [a]. *)
  Definition ready (a : nat) (d : list R) : Prop := forall n j i k, refl_n b a n = Some j -> slot b g j n i k -> low (nth_error d k).
  Lemma low_zero : low (Some 0%R).
  Proof. exists 0%R. split; [reflexivity|]. rewrite Rabs_R0. apply C_range. Qed.
  Lemma low_pres : forall d a n i k, pres_is d -> slot b g a n i k -> type_at b a n = Some PRESCRIBED -> low (nth_error d k).
  Proof. intros d a n i k H Sx Ty. rewrite (H a n i k Sx Ty). exists (pr k). split; [reflexivity|]. exact (Pr a n i k Sx Ty). Qed.
  Lemma low_inb : forall o, low o -> some_inb (- B) B o.
  Proof. intros o (v & -> & H). exists v. split; [reflexivity|]. pose proof C_range. unfold inb. pose proof (Rle_abs v). pose proof (Rle_abs (- v)). rewrite Rabs_Ropp in *. lra. Qed.
  Lemma low_angle_bnd : forall a d, low_angle a d -> bnd_angle e (- B) B a d.
  Proof. intros a d H n i k Sx. apply low_inb. exact (H n i k Sx). Qed.

  Lemma update_fade : forall out a d d', sizes out = sizes b -> length (data out) = total (sizes b) -> a < length (sizes b) -> length d = n_group b * total (sizes b) -> pres_is d -> low_angle a (data out) -> update_angle b out g a d = Ok d' ->
    pres_is d' /\ ready a d' /\ (forall a0, ready a0 d -> ready a0 d').
  Proof.
    intros out a d d' So' Lo Ha Ld Pz Fa E'. destruct (update_angle_ok b out g a d K So' Lo Su Ha Hg Ld Ng) as (d0 & E & _ & Pp). rewrite E' in E. injection E as <-.
    assert (U : forall a' n i k, slot b g a' n i k -> nth_error d' k = nth_error d k \/ low (nth_error d' k)).
    { intros a' n i k Sx. rewrite (Pp _ _ _ _ _ Sx). unfold updated. rewrite Nat.eqb_refl. cbn [andb]. destruct (refl_n_spec b a n K Ha) as (j & _ & Rj & Rj'). rewrite Rj. destruct (Nat.eqb_spec a' j) as [->|]; [|now left]. pose proof Sx as Sx0. destruct Sx as (size & off & Gf & Hi & ->). destruct (get_face_inv _ _ _ _ _ _ Gf) as (s' & o' & Es' & Eo' & -> & ->).
      assert (Hj : j < length (sizes b)) by (apply nth_error_Some; congruence). destruct (type_at b j n) as [t|] eqn:Ty; [|unfold type_at in Ty; destruct (nth_error (quad b) j) as [an|] eqn:Eq; [discriminate|]; apply nth_error_None in Eq; pose proof (ok_quad b K); lia].
      destruct (get_face_some b 0 a n Ha) as (sz & of0 & G0). rewrite G0. assert (Sup : supported t) by (unfold type_at in Ty; destruct (nth_error (quad b) j); [|discriminate]; injection Ty as <-; apply Su).
      destruct Sup as [->|[->| ->]]; cbn [new_value]; [right; exact low_zero| |now left]. right. apply (Fa n i). exists sz, of0. split; [exact G0|]. split; [|reflexivity].
      destruct (get_face_inv _ _ _ _ _ _ G0) as (s0 & o0 & Es0 & _ & -> & _). destruct (ok_mirror b K j a n s' Es') as (s'' & Es'' & Efs); auto; [lia|]. rewrite Es0 in Es''. injection Es'' as <-. lia. }
    assert (P' : pres_is d').
    { intros a' n i k Sx Ty. rewrite (Pp _ _ _ _ _ Sx). unfold updated. rewrite Nat.eqb_refl. cbn [andb]. destruct (refl_n b a n) as [j|]; [|now apply (Pz a' n i)]. destruct (Nat.eqb_spec a' j) as [->|]; [|now apply (Pz a' n i)]. rewrite Ty. destruct (get_face_some b 0 a n Ha) as (sz & of0 & ->). cbn [new_value]. now apply (Pz j n i). }
    split; [exact P'|]. split.
    - intros n j i k Rj Sx. rewrite (Pp _ _ _ _ _ Sx). unfold updated. rewrite Nat.eqb_refl. cbn [andb]. rewrite Rj, Nat.eqb_refl. pose proof Sx as Sx0. destruct Sx as (size & off & Gf & Hi & ->). destruct (get_face_inv _ _ _ _ _ _ Gf) as (s' & o' & Es' & Eo' & -> & ->).
      assert (Hj : j < length (sizes b)) by (apply nth_error_Some; congruence). destruct (type_at b j n) as [t|] eqn:Ty; [|unfold type_at in Ty; destruct (nth_error (quad b) j) as [an|] eqn:Eq; [discriminate|]; apply nth_error_None in Eq; pose proof (ok_quad b K); lia].
      destruct (get_face_some b 0 a n Ha) as (sz & of0 & G0). rewrite G0. assert (Sup : supported t) by (unfold type_at in Ty; destruct (nth_error (quad b) j); [|discriminate]; injection Ty as <-; apply Su).
      destruct (refl_n_spec b a n K Ha) as (j' & _ & Rj2 & Rj'). rewrite Rj in Rj2. injection Rj2 as <-.
      destruct Sup as [->|[->| ->]]; cbn [new_value]; [exact low_zero| |exact (low_pres d j n i _ Pz Sx0 Ty)]. apply (Fa n i). exists sz, of0. split; [exact G0|]. split; [|reflexivity].
      destruct (get_face_inv _ _ _ _ _ _ G0) as (s0 & o0 & Es0 & _ & -> & _). destruct (ok_mirror b K j a n s' Es') as (s'' & Es'' & Efs); auto; [lia|]. rewrite Es0 in Es''. injection Es'' as <-. lia.
    - intros a0 R0 n j i k Rj Sx. destruct (U j n i k Sx) as [->|L]; [now apply (R0 n j i k)|exact L].
  Qed.
  Lemma group_fade : forall out d d', length out = total (sizes b) -> length d = n_group b * total (sizes b) -> pres_is d -> (forall a, a < 4 * n_oct b -> low_angle a out) -> update_group b (with_data (me_out e) out) g d = Ok d' ->
    pres_is d' /\ forall a n i k, slot b g a n i k -> low (nth_error d' k).
  Proof.
    intros out d d' Lo Ld Pz Fa E'. destruct (update_group_ok b (with_data (me_out e) out) g d K So Lo Su Hg Ng Ld) as (d0 & E & _ & _ & P2). rewrite E' in E. injection E as <-. split.
    - intros a' n i k Sx Ty. destruct (P2 _ _ _ _ Sx) as (a & t & ko & Ra & Ty' & So' & ->). rewrite Ty in Ty'. injection Ty' as <-. cbn [new_value]. now apply (Pz a' n i).
    - intros a' n i k Sx. destruct (P2 _ _ _ _ Sx) as (a & t & ko & Ra & Ty & So' & ->). assert (Sup : supported t) by (unfold type_at in Ty; destruct (nth_error (quad b) a'); [|discriminate]; injection Ty as <-; apply Su).
      destruct Sup as [->|[->| ->]]; cbn [new_value]; [exact low_zero| |exact (low_pres d a' n i k Pz Sx Ty)]. apply (Fa a) with (n := n) (i := i); [|exact So'].
      destruct So' as (sz & of & Gf & _). destruct (get_face_inv _ _ _ _ _ _ Gf) as (s' & o' & Es' & _). rewrite <- Len. apply nth_error_Some. congruence.
  Qed.

  Lemma ray_fade : forall first rst in1 in2 r o, (0 < rst)%R -> ray_sound nreg first r -> (ray_att (me_xstr e) first rst r <= th)%R -> (Rabs in1 <= B)%R -> (Rabs in2 <= B)%R -> sweep_ray (me_xstr e) q first rst in1 in2 r = Some o ->
    (Rabs (last (ro_psi1 o) 0) <= C)%R /\ (Rabs (hd 0%R (ro_psi2 o)) <= C)%R.
  Proof.
    intros first rst in1 in2 r o Hr Hs Ha B1 B2 E. assert (Hs' : Forall (fun sg => fst sg + first < length (me_xstr e) /\ (0 < snd sg)%R) (ray_segs r)) by (rewrite Xl; exact Hs).
    destruct (etau_all (me_xstr e) first rst (ray_segs r) Hr Xp Hs') as (es & Ee & Re & _). unfold ray_att in Ha. rewrite Ee in Ha. unfold sweep_ray in E. rewrite Ee in E. destruct (track q es in1) as [[d1 p1]|] eqn:T1; [|discriminate]. destruct (track q (rev es) in2) as [[d2 p2]|] eqn:T2; [|discriminate]. injection E as <-. cbn [ro_psi1 ro_psi2].
    assert (Rev : forall j v, In (j, v) (rev es) -> (0 <= v <= 1)%R) by (intros j v I; apply in_rev in I; apply (Re j v I)).
    pose proof (track_fade q Q es in1 _ _ B Hb T1 B1 (fun j v I => proj2 (Re j v I)) Qb) as F1. pose proof (track_fade q Q (rev es) in2 _ _ B Hb T2 B2 Rev Qb) as F2. rewrite attn_rev in F2. rewrite hd_rev. unfold C. assert (attn es * (B - Q) <= th * (B - Q))%R by (apply Rmult_le_compat_r; lra). split; lra.
  Qed.

  (** The rays of an angle let through no more than [th]. *)
  Definition thin (first iang : nat) (rays : list (nat * Ray)) : Prop := forall an, nth_error (me_quad e) iang = Some an -> Forall (fun r => ray_att (me_xstr e) first (rsintheta (adir an)) r <= th)%R (map snd rays).
  Lemma angle_fade : forall first h iang rays din s done d' s', (0 <= h)%R -> iang < length (me_space e) -> iang < 4 * n_oct b -> Forall (fun tr => fst tr < nt) rays -> rays_cover e iang (map snd rays) ->
    Forall (ray_sound nreg first) (map snd rays) -> thin first iang rays -> length din = n_group b * total (sizes b) -> bnd_group e (- B) B din -> pres_is din -> store_ok nreg (total (sizes b)) nt s -> (forall a, In a done -> low_angle a (st_out s)) ->
    (me_gs e = true -> forall a, In a done -> ready a din) -> sweep_angle e first h iang rays din s = Ok (d', s') ->
    pres_is d' /\ (forall a, In a (iang :: rev_ang (n_oct b) iang :: done) -> low_angle a (st_out s')) /\ (me_gs e = true -> forall a, In a (iang :: rev_ang (n_oct b) iang :: done) -> ready a d').
  Proof.
    intros first h iang rays din s done d' s' Hh His Hi Ht Cov Snd Thin Ld Fl Pz Os Dn Rd Esw. unfold sweep_angle in Esw.
    pose proof (fun cx Ec => fit_slots e h iang cx _ Ec (cover_fit _ _ _ Cov) Hi) as ND. destruct Cov as (s1 & s2 & N1 & N2 & L1 & L2 & P1 & P2).
    destruct (rev_ang_spec _ _ Hi) as [_ R2]. fold b in N2. set (i2 := rev_ang (n_oct b) iang) in *. rewrite So in N1, N2.
    destruct (bdry_some b g _ _ N1) as (oi1 & B1). destruct (bdry_some b g _ _ N2) as (oi2 & B2).
    destruct (bdry_some b 0 _ _ N1) as (oo1 & B3). destruct (bdry_some b 0 _ _ N2) as (oo2 & B4). fold b in B1, B2, B3, B4.
    destruct (nth_error (me_quad e) iang) as [an|] eqn:Ea; [|apply nth_error_None in Ea; lia]. destruct (nth_error (me_space e) iang) as [sp|] eqn:Es; [|apply nth_error_None in Es; lia].
    pose proof (proj1 (Forall_forall _ _) Wp an (nth_error_In _ _ Ea)) as (W0 & W1 & W2). specialize (Thin an Ea).
    assert (exists cx, ang_ctx e h iang = Some cx /\ ac_in1 cx = oi1 /\ ac_in2 cx = oi2 /\ ac_out1 cx = oo1 /\ ac_out2 cx = oo2 /\ ac_rst cx = rsintheta (adir an)) as (cx & Ec & C1 & C2 & C3 & C4 & Cr).
    { unfold ang_ctx. fold b. fold i2. fold g. rewrite !(get_boundary_out e So). fold b. rewrite B1, B2, B3, B4, Ea, Es. eexists. split; [reflexivity|]. cbn [ac_in1 ac_in2 ac_out1 ac_out2 ac_rst]. auto. }
    specialize (ND cx Ec). rewrite Ec in Esw. cbn [of_opt rbind] in Esw. subst oi1 oi2 oo1 oo2. rewrite L1 in B1, B3. rewrite L2 in B2, B4. rewrite Hq in Esw.
    assert (Bc : forall r, In r (map snd rays) -> ray_bc1 r < length (map snd rays) /\ ray_bc2 r < length (map snd rays)).
    { intros r I. split; [apply (in_map ray_bc1) in I; apply (Permutation_in _ P1) in I|apply (in_map ray_bc2) in I; apply (Permutation_in _ P2) in I]; apply in_seq in I; lia. }
    assert (Ray : forall r, In r (map snd rays) -> exists o, ray_res (me_xstr e) q first cx din r = Some o /\ (forall d, In d (ro_fw o ++ ro_bw o) -> fst d < nreg) /\ (Rabs (last (ro_psi1 o) 0) <= C)%R /\ (Rabs (hd 0%R (ro_psi2 o)) <= C)%R).
    { intros r I. destruct (Bc r I) as [C1 C2]. unfold ray_res.
      assert (some_inb (- B) B (nth_error din (ac_in1 cx + ray_bc1 r))) as (v1 & D1 & V1). { destruct (boundary_slot _ _ _ _ _ (ray_bc1 r) B1 ltac:(lia)) as (n & j & Sx). apply (Fl _ _ _ _ Sx). }
      assert (some_inb (- B) B (nth_error din (ac_in2 cx + ray_bc2 r))) as (v2 & D2 & V2). { destruct (boundary_slot _ _ _ _ _ (ray_bc2 r) B2 ltac:(lia)) as (n & j & Sx). apply (Fl _ _ _ _ Sx). }
      rewrite D1, D2. rewrite Forall_forall in Snd, Thin. assert (Hs' : Forall (fun sg => fst sg + first < length (me_xstr e) /\ (0 < snd sg)%R) (ray_segs r)) by (rewrite Xl; exact (Snd r I)).
      destruct (sweep_ray_def (me_xstr e) q first (ac_rst cx) v1 v2 r) as (o & E & D); [congruence|rewrite Cr; exact W1|exact Xp|exact Hs'|]. exists o. split; [exact E|]. split; [intros d J; rewrite <- Xl; auto|].
      apply (ray_fade first (ac_rst cx) v1 v2 r o); [rewrite Cr; exact W1|now apply Snd|rewrite Cr; now apply Thin|apply Rabs_le; unfold inb in V1; lra|apply Rabs_le; unfold inb in V2; lra|exact E]. }
    assert (Slots : forall r, In r (map snd rays) -> slot1 cx r < total (sizes b) /\ slot2 cx r < total (sizes b)).
    { intros r I. destruct (Bc r I) as [C1 C2]. unfold slot1, slot2.
      assert (Hn : forall a n i k, slot b 0 a n i k -> k < total (sizes b)).
      { intros a n i k (sz & of & Gf & Hz & ->). assert (slot (mkBC 1 (sizes b) (types b) (n_oct b) (quad b) []) 0 a n i (of + i)) as Sx by (exists sz, of; split; auto).
        pose proof (slot_range _ _ _ _ _ _ Sx ltac:(cbn; lia)) as Y. cbn in Y. lia. }
      split; [destruct (boundary_slot _ _ _ _ _ (ray_bc2 r) B3 ltac:(lia)) as (n & j & Sx)|destruct (boundary_slot _ _ _ _ _ (ray_bc1 r) B4 ltac:(lia)) as (n & j & Sx)]; apply (Hn _ _ _ _ Sx). }
    assert (AllOk : forall r, In r (map snd rays) -> ray_ok (me_xstr e) q first cx din nreg (total (sizes b)) r).
    { intros r I. destruct (Ray r I) as (o & Eo & Do & _). destruct (Slots r I). exists o. split; [exact Eo|]. split; [exact Do|auto]. }
    destruct (sweep_rays_ok _ _ _ _ _ _ _ _ rays s Os Ht AllOk ND) as (sa & Er & Ob & Tb & Kb & Vb). rewrite Er in Esw. cbn [of_opt rbind] in Esw.
    assert (Put : forall k, In k (all_slots cx (map snd rays)) -> low (nth_error (st_out sa) k)).
    { intros k I. unfold all_slots in I. apply in_app_or in I. destruct I as [I|I]; apply in_map_iff in I; destruct I as (r & <- & Ir); destruct (Ray r Ir) as (o & Eo & _ & U1 & U2); destruct (Vb r o Ir Eo) as [V1 V2]; [exists (last (ro_psi1 o) 0%R)|exists (hd 0%R (ro_psi2 o))]; auto. }
    assert (Fa1 : low_angle iang (st_out sa)).
    { intros n i k Sx. destruct (face_bdry b _ _ _ _ _ Sx) as (z & o & j & X & Hj & ->). fold b in X. rewrite B3 in X. injection X as <- <-. apply Put. unfold all_slots. apply in_or_app. left.
      assert (In j (map ray_bc2 (map snd rays))) as I. { eapply Permutation_in; [apply Permutation_sym; exact P2|]. apply in_seq. lia. }
      apply in_map_iff in I. destruct I as (r & <- & Ir). apply in_map_iff. exists r. auto. }
    assert (Fa2 : low_angle i2 (st_out sa)).
    { intros n i k Sx. destruct (face_bdry b _ _ _ _ _ Sx) as (z & o & j & X & Hj & ->). fold b in X. rewrite B4 in X. injection X as <- <-. apply Put. unfold all_slots. apply in_or_app. right.
      assert (In j (map ray_bc1 (map snd rays))) as I. { eapply Permutation_in; [apply Permutation_sym; exact P1|]. apply in_seq. lia. }
      apply in_map_iff in I. destruct I as (r & <- & Ir). apply in_map_iff. exists r. auto. }
    assert (Fd : forall a, In a (iang :: i2 :: done) -> low_angle a (st_out sa)).
    { intros a [<-|[<-|I]]; auto. intros n i k Sx. destruct (in_dec Nat.eq_dec k (all_slots cx (map snd rays))) as [J|J]; [now apply Put|]. rewrite (Kb k J). apply (Dn a I n i k Sx). }
    assert (Lo : length (st_out sa) = total (sizes b)) by apply Ob. fold b g in Esw. fold i2 in Esw. destruct (me_gs e).
    - assert (Vac : forall t, types (me_in e) t = VACUUM -> (- B <= 0 <= B)%R) by (intros; lra).
      assert (Qb' : forall j c, nth_error q j = Some c -> (- B <= c <= B)%R). { intros j c E. specialize (Qb j c E). pose proof (Rle_abs c). pose proof (Rle_abs (- c)). rewrite Rabs_Ropp in *. lra. }
      assert (Hi1 : iang < length (sizes b)) by lia. assert (Hi2 : i2 < length (sizes b)) by lia.
      destruct (update_bnd e q (- B) B nreg K Su Vac Ng Hg Len Hq Ql Qb' Xl Sl (with_data (me_out e) (st_out sa)) iang din So Lo Hi1 Ld Fl (low_angle_bnd _ _ Fa1)) as (d1 & U1 & L3 & F3 & O3). fold b g in U1. rewrite U1 in Esw. cbn [rbind] in Esw.
      destruct (update_bnd e q (- B) B nreg K Su Vac Ng Hg Len Hq Ql Qb' Xl Sl (with_data (me_out e) (st_out sa)) i2 d1 So Lo Hi2 (eq_trans L3 Ld) F3 (low_angle_bnd _ _ Fa2)) as (d2 & U2 & L4 & F4 & O4). fold b g in U2. rewrite U2 in Esw. cbn [rbind] in Esw. injection Esw as <- <-.
      destruct (update_fade (with_data (me_out e) (st_out sa)) iang din d1 So Lo Hi1 Ld Pz Fa1 U1) as (Pz1 & Y1 & Z1). destruct (update_fade (with_data (me_out e) (st_out sa)) i2 d1 d2 So Lo Hi2 (eq_trans L3 Ld) Pz1 Fa2 U2) as (Pz2 & Y2 & Z2).
      split; [exact Pz2|]. split; [exact Fd|]. intros _ a [<-|[<-|I]]; [now apply Z2|exact Y2|]. apply Z2, Z1. now apply Rd.
    - injection Esw as <- <-. split; [exact Pz|]. split; [exact Fd|]. discriminate.
  Qed.

  Lemma angles_fade : forall first h angs iang din s done d' s', (0 <= h)%R -> iang + length angs <= length (me_space e) -> iang + length angs <= 4 * n_oct b -> Forall (Forall (fun tr => fst tr < nt)) angs ->
    (forall j rays, nth_error angs j = Some rays -> rays_cover e (iang + j) (map snd rays) /\ thin first (iang + j) rays) -> Forall (fun rays => Forall (ray_sound nreg first) (map snd rays)) angs ->
    length din = n_group b * total (sizes b) -> bnd_group e (- B) B din -> pres_is din -> store_ok nreg (total (sizes b)) nt s -> (forall a, In a done -> low_angle a (st_out s)) -> (me_gs e = true -> forall a, In a done -> ready a din) ->
    sweep_angles e first h iang angs din s = Ok (d', s') ->
    pres_is d' /\ forall a, In a done \/ (exists j, iang <= j < iang + length angs /\ (a = j \/ a = rev_ang (n_oct b) j)) -> low_angle a (st_out s') /\ (me_gs e = true -> ready a d').
  Proof.
    intros first h angs. induction angs as [|rays angs IH]; intros iang din s done d' s' Hh Ls L Ht Cov Snd Ld Fl Pz Os Dn Rd Esw; cbn [sweep_angles] in Esw.
    - injection Esw as <- <-. split; [exact Pz|]. intros a [I|(j & J & _)]; [split; [now apply Dn|intros G; now apply Rd]|cbn in J; lia].
    - cbn [length] in L, Ls. apply Forall_cons_iff in Ht. destruct Ht as [Ht1 Ht2]. apply Forall_cons_iff in Snd. destruct Snd as [Sn1 Sn2].
      destruct (Cov 0 rays eq_refl) as [C0 T0]. rewrite Nat.add_0_r in C0, T0. assert (Vac : forall t, types (me_in e) t = VACUUM -> (- B <= 0 <= B)%R) by (intros; lra).
      assert (Qb' : forall j c, nth_error q j = Some c -> (- B <= c <= B)%R). { intros j c E. specialize (Qb j c E). pose proof (Rle_abs c). pose proof (Rle_abs (- c)). rewrite Rabs_Ropp in *. lra. }
      destruct (angle_bnd e q (- B) B nreg nt K So Su Vac Ng Hg Len Hq Ql Qb' Xl Xp Sl Sp Wp first h iang rays din s [] Hh ltac:(lia) ltac:(fold b; lia) Ht1 C0 Sn1 Ld Fl Os ltac:(intros a [])) as (d1 & s1 & E1 & L1 & F1 & _ & T1 & _ & _). rewrite E1 in Esw. cbn [rbind] in Esw.
      destruct (angle_fade first h iang rays din s done d1 s1 Hh ltac:(lia) ltac:(lia) Ht1 C0 Sn1 T0 Ld Fl Pz Os Dn Rd E1) as (Pz1 & D1 & R1).
      destruct (IH (S iang) d1 s1 (iang :: rev_ang (n_oct b) iang :: done) d' s' Hh ltac:(lia) ltac:(lia) Ht2) as (Pz2 & D2); auto; [|unfold b in *; congruence|].
      { intros j r Ej. replace (S iang + j) with (iang + S j) by lia. now apply Cov. }
      split; [exact Pz2|]. intros a H. apply D2. destruct H as [I|(j & J & Ja)]; [left; right; right; exact I|]. cbn [length] in J. destruct (Nat.eq_dec j iang) as [->|Nj]; [left; destruct Ja as [->| ->]; [left|right; left]; reflexivity|].
      right. exists j. split; [lia|exact Ja].
  Qed.

  (** A plane all of whose angles are swept, with rays that let through no more than [th]. *)
  Definition plane_thin (p : PlaneIn) : Prop := length (pi_rays p) = 2 * n_oct b /\ (forall j rays, nth_error (pi_rays p) j = Some rays -> thin (pi_first p) j rays) /\ pres_is (pi_in p).
  Definition faded (d : list R * list R) : Prop := pres_is (fst d) /\ forall a n i k, slot b g a n i k -> low (nth_error (fst d) k).
  Lemma all_angles : forall a, a < 4 * n_oct b -> exists j, 0 <= j < 0 + 2 * n_oct b /\ (a = j \/ a = rev_ang (n_oct b) j).
  Proof.
    intros a Ha. destruct (Nat.lt_ge_cases a (2 * n_oct b)) as [G|G]; [exists a; split; [lia|now left]|].
    exists (a - 2 * n_oct b). split; [lia|]. right. unfold rev_ang, reverse2. rewrite Z.mod_small by lia. lia.
  Qed.
  Lemma plane_fade : forall p ts d s d', plane_bnd e (- B) B nreg nt p -> plane_thin p -> ts_ok nreg nt ts -> sweep_angles e (pi_first p) (pi_height p) 0 (pi_rays p) (pi_in p) (mkSt (pi_out p) ts) = Ok (d, s) ->
    (if me_gs e then Ok d else update_group (me_in e) (with_data (me_out e) (st_out s)) (me_group e) d) = Ok d' -> faded (d', st_out s) /\ ts_ok nreg nt (st_t s).
  Proof.
    intros p ts d s d' (H0 & H1 & H1' & Hgs & H2 & H3 & H3' & H4 & H5 & H6) (F1 & F2 & F3) Ts E1 Ed.
    assert (Vac : forall t, types (me_in e) t = VACUUM -> (- B <= 0 <= B)%R) by (intros; lra).
    assert (Qb' : forall j c, nth_error q j = Some c -> (- B <= c <= B)%R). { intros j c E. specialize (Qb j c E). pose proof (Rle_abs c). pose proof (Rle_abs (- c)). rewrite Rabs_Ropp in *. lra. }
    destruct (angles_bnd e q (- B) B nreg nt K So Su Vac Ng Hg Len Hq Ql Qb' Xl Xp Sl Sp Wp (pi_first p) (pi_height p) (pi_rays p) 0 (pi_in p) (mkSt (pi_out p) ts) [] H0 ltac:(lia) ltac:(fold b; lia) H2 H3 H3' H4 H6 ltac:(split; [exact H5|exact Ts]) ltac:(intros a [])) as (d0 & s0 & E0 & L1 & _ & _ & T1 & _ & _).
    rewrite E1 in E0. injection E0 as <- <-.
    assert (St0 : store_ok nreg (total (sizes b)) nt (mkSt (pi_out p) ts)) by (split; [exact H5|exact Ts]). assert (Cv : forall j rays, nth_error (pi_rays p) j = Some rays -> rays_cover e (0 + j) (map snd rays) /\ thin (pi_first p) (0 + j) rays) by (intros j rays Ej; split; [now apply H3|now apply F2]).
    destruct (angles_fade (pi_first p) (pi_height p) (pi_rays p) 0 (pi_in p) (mkSt (pi_out p) ts) [] d s H0 H1 H1' H2 Cv H3' H4 H6 F3 St0 ltac:(intros a []) ltac:(intros _ a []) E1) as (Pz & D).
    rewrite F1 in D. split; [|split; apply T1]. unfold faded. cbn [fst]. destruct (me_gs e) eqn:Egs.
    - injection Ed as <-. split; [exact Pz|]. intros a n i k Sx. assert (Ha : a < length (sizes b)) by (destruct Sx as (sz & of & Gf & _); destruct (get_face_inv _ _ _ _ _ _ Gf) as (s' & o' & Es' & _); apply nth_error_Some; congruence).
      destruct (refl_n_spec b a n K Ha) as (j & _ & Rj & Rj'). assert (Hj : j < length (sizes b)). { destruct Sx as (sz & of & Gf & Hi & _). destruct (get_face_inv _ _ _ _ _ _ Gf) as (s' & o' & Es' & _ & -> & _). destruct (ok_mirror b K a j n s' Es' Rj ltac:(lia)) as (s2 & Es2 & _). apply nth_error_Some. congruence. }
      apply (proj2 (D j (or_intror (all_angles j ltac:(lia)))) eq_refl n a i k Rj' Sx).
    - apply (group_fade (st_out s) d d'); [apply T1|unfold b in *; congruence|exact Pz|intros a Ha; apply D; right; now apply all_angles|exact Ed].
  Qed.
End Fade.

Section Planes.
  Variables (e : MocEnv) (q : list R) (Q B th : R) (nreg nt : nat).
  Let b := me_in e.
  Let g := me_group e.
  Hypothesis K : bc_ok b.
  Hypothesis So : sizes (me_out e) = sizes b.
  Hypothesis Su : all_supported b.
  Hypothesis Ng : Forall no_gap (sizes b).
  Hypothesis Hg : g < n_group b.
  Hypothesis Len : length (sizes b) = 4 * n_oct b.
  Hypothesis Hq : forall iang, me_q e iang = q.
  Hypothesis Ql : length q = nreg.
  Hypothesis Hb : (0 <= Q <= B)%R.
  Hypothesis Qb : forall j c, nth_error q j = Some c -> (Rabs c <= Q)%R.
  Hypothesis Ht01 : (0 <= th <= 1)%R.
  Hypothesis Xl : length (me_xstr e) = nreg.
  Hypothesis Xp : Forall (fun x => 0 < x)%R (me_xstr e).
  Hypothesis Sl : length (me_space e) <= length (me_quad e).
  Hypothesis Sp : Forall (fun s => 0 <= s)%R (me_space e).
  Hypothesis Wp : Forall (fun a => 0 <= weight a /\ 0 < rsintheta (adir a) /\ rsintheta (adir a) * sin (theta (adir a)) = 1)%R (me_quad e).
  (** [pr]: the prescribed fluxes of a plane. *)
  Lemma planes_fade : forall (pr : PlaneIn -> nat -> R) ps ts bs ts', (forall p a n i k, In p ps -> slot b g a n i k -> type_at b a n = Some PRESCRIBED -> (Rabs (pr p k) <= Q + th * (B - Q))%R) ->
    Forall (plane_bnd e (- B) B nreg nt) ps -> Forall (fun p => plane_thin e th (pr p) p) ps -> ts_ok nreg nt ts -> sweep_planes e ps ts = Ok (bs, ts') -> Forall2 (fun p d => faded e Q B th (pr p) d) ps bs.
  Proof.
    intros pr. induction ps as [|p ps IH]; intros ts bs ts' Hp Fp Ft Ts Esw; cbn [sweep_planes] in Esw; [injection Esw as <- <-; constructor|].
    apply Forall_cons_iff in Fp. destruct Fp as [Fp Fp']. apply Forall_cons_iff in Ft. destruct Ft as [Ft Ft'].
    destruct (sweep_angles _ _ _ _ _ _ _) as [[d s]| |] eqn:E1; try discriminate. cbn [rbind] in Esw.
    destruct (if me_gs e then Ok d else _) as [d'| |] eqn:Ed; try discriminate. cbn [rbind] in Esw. destruct (sweep_planes e ps (st_t s)) as [[bs1 ts1]| |] eqn:E2; try discriminate. cbn [rbind] in Esw. injection Esw as <- <-.
    destruct (plane_fade e q Q B th nreg nt K So Su Ng Hg Len Hq Ql Hb Qb Ht01 Xl Xp Sl Sp Wp (pr p) (fun a n i k => Hp p a n i k (or_introl eq_refl)) p ts d s d' Fp Ft Ts E1 Ed) as [Fd T1].
    constructor; [exact Fd|]. apply (IH (st_t s) bs1 ts1); auto. intros p' a n i k I. apply Hp. now right.
  Qed.
End Planes.
