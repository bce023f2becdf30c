(** Reciprocity of the MoC sweep, from one ray to a whole sweep: the flux that the first source makes where the second one is, and the other way
    round, differ only by what crosses the boundary. *)
From Coq Require Import List Bool Reals ZArith Arith Lia Lra Permutation.
From Verif Require Import RUtil ListUtil McModel MeshModel AngModel BcModel BcProofs StdAlg CoreModel CoreProofs ScatModel ScatProofs ScatProps MatModel ExpModel MocModel MocProofs MocProps XsModel HomProps SrcModel SrcProps SolModel SolProps MgModel MgProps MgInnerProps SnGroupProps EigProps EigSnProps MocMaxProps MocEigProps InfProps MocBalProps.
Import ListNotations.
Open Scope nat_scope.

(** ** One ray *)
Lemma track_snoc : forall q es i e b d p, track q (es ++ [(i, e)]) b = Some (d, p) -> exists d0 p0 qb, track q es b = Some (d0, p0) /\ nth_error q i = Some qb /\ d = d0 ++ [(i, (last p0 0 - qb) * e)%R] /\ last p 0%R = (last p0 0 - (last p0 0 - qb) * e)%R.
Proof.
  intros q es i e. induction es as [|[j f] es IH]; intros b d p H; cbn [app track] in H |- *.
  - destruct (nth_error q i) as [qb|]; [|discriminate]. injection H as <- <-. exists [], [b], qb. auto.
  - destruct (nth_error q j) as [qj|]; [|discriminate]. destruct (track q (es ++ [(i, e)]) _) as [[ds ps]|] eqn:T; [|discriminate]. injection H as <- <-. destruct (IH _ _ _ T) as (d0 & p0 & qb & E1 & E2 & -> & E4). rewrite E1.
    eexists _, _, qb. split; [reflexivity|]. split; [exact E2|]. pose proof (track_shape _ _ _ _ _ E1) as (_ & L1 & _). pose proof (track_shape _ _ _ _ _ T) as (_ & L2 & _).
    assert (X : forall (x : R) l, l <> [] -> last (x :: l) 0%R = last l 0%R) by (intros x [|y l] N; [congruence|reflexivity]). rewrite !X; [auto| |]; intros ->; discriminate.
Qed.
Definition weighed (q : list R) (ds : list (nat * R)) : R := lsum (fun d => at0 q (fst d) * snd d)%R ds.
Lemma track_recip : forall q1 q2 es a b d1 p1 d2 p2, track q1 es a = Some (d1, p1) -> track q2 (rev es) b = Some (d2, p2) -> (weighed q2 d1 - weighed q1 d2 = a * last p2 0 - last p1 0 * b)%R.
Proof.
  intros q1 q2. unfold weighed. induction es as [|[i e] es IH]; intros a b d1 p1 d2 p2 T1 T2; cbn [rev track] in T1, T2.
  - injection T1 as <- <-. injection T2 as <- <-. cbn. ring.
  - destruct (nth_error q1 i) as [x1|] eqn:X1; [|discriminate]. destruct (track q1 es _) as [[ds ps]|] eqn:T; [|discriminate]. injection T1 as <- <-.
    destruct (track_snoc _ _ _ _ _ _ _ T2) as (d0 & p0 & x2 & E1 & X2 & -> & ->). specialize (IH _ _ _ _ _ _ T E1). pose proof (track_shape _ _ _ _ _ T) as (_ & L & _).
    assert (X : last (a :: ps) 0%R = last ps 0%R) by (destruct ps; [discriminate|reflexivity]). rewrite X, lsum_app. cbn [lsum fst snd]. unfold at0 in *. rewrite (nth_error_nth _ _ 0%R X1), (nth_error_nth _ _ 0%R X2) in *. lra.
Qed.
Lemma ray_recip : forall xstr q1 q2 first rst i1 j1 i2 j2 ray o1 o2, sweep_ray xstr q1 first rst i1 j1 ray = Some o1 -> sweep_ray xstr q2 first rst i2 j2 ray = Some o2 ->
  (weighed q2 (ro_fw o1 ++ ro_bw o1) - weighed q1 (ro_fw o2 ++ ro_bw o2) = (i1 * hd 0 (ro_psi2 o2) + j1 * last (ro_psi1 o2) 0) - (i2 * hd 0 (ro_psi2 o1) + j2 * last (ro_psi1 o1) 0))%R.
Proof.
  intros xstr q1 q2 first rst i1 j1 i2 j2 ray o1 o2 H1 H2. unfold sweep_ray in H1, H2. destruct (all_some _) as [es|]; [|discriminate].
  destruct (track q1 es i1) as [[a1 p1]|] eqn:A1; [|discriminate]. destruct (track q1 (rev es) j1) as [[b1 r1]|] eqn:B1; [|discriminate]. injection H1 as <-.
  destruct (track q2 es i2) as [[a2 p2]|] eqn:A2; [|discriminate]. destruct (track q2 (rev es) j2) as [[b2 r2]|] eqn:B2; [|discriminate]. injection H2 as <-. cbn [ro_fw ro_bw ro_psi1 ro_psi2]. rewrite !hd_rev.
  pose proof (track_recip q1 q2 es i1 j2 _ _ _ _ A1 B2) as X. pose proof (track_recip q2 q1 es i2 j1 _ _ _ _ A2 B1) as Y. unfold weighed in *. rewrite !lsum_app. lra.
Qed.
Lemma pay_weighed : forall q wt ds n, (forall d, In d ds -> fst d < n) -> rsum (fun i => at0 q i * pay wt ds i)%R n = (weighed q ds * wt)%R.
Proof.
  intros q wt ds n H. unfold pay, weighed. rewrite (rsum_ext _ (fun i => lsum (fun d => if i =? fst d then at0 q (fst d) * snd d * wt else 0)%R ds)).
  - rewrite (lsum_swap_rsum (fun d i => if i =? fst d then (at0 q (fst d) * snd d * wt)%R else 0%R)). rewrite <- lsum_scal. apply lsum_ext. intros d I. apply rsum_delta. auto.
  - intros i Hi. clear H. induction ds as [|d ds IH]; cbn [lsum]; [ring|]. rewrite Rmult_plus_distr_l, IH. destruct (Nat.eqb_spec i (fst d)) as [->|_]; ring.
Qed.

(** ** One angle *)
(** What comes in along angle [a] times what leaves in the opposite direction at the same place. *)
Definition pair_flow (b : BC) (g a : nat) (din dout : list R) : R :=
  match get_boundary b g a, get_boundary b 0 (rev_ang (n_oct b) a) with Some (z, o), Some (_, o') => rsum (fun j => at0 din (o + j) * at0 dout (o' + j))%R z | _, _ => 0%R end.
Definition pair_net (b : BC) (g j : nat) (din1 out1 din2 out2 : list R) : R :=
  let r := rev_ang (n_oct b) j in ((pair_flow b g j din1 out2 + pair_flow b g r din1 out2) - (pair_flow b g j din2 out1 + pair_flow b g r din2 out1))%R.
Definition gap (q1 q2 : list R) (n : nat) (t1 t2 : list (list R)) : R := rsum (fun i => at0 q2 i * tot t1 i - at0 q1 i * tot t2 i)%R n.

Lemma angle_recip0 : forall xstr q1 q2 first c bin1 bin2 nreg nt rays s1 s2 s1' s2', length (st_t s1) = nt -> Forall (fun t => length t = nreg) (st_t s1) -> length (st_t s2) = nt -> Forall (fun t => length t = nreg) (st_t s2) -> Forall (fun tr => fst tr < nt) rays ->
  NoDup (all_slots c (map snd rays)) -> sweep_rays xstr q1 first c bin1 rays s1 = Some s1' -> sweep_rays xstr q2 first c bin2 rays s2 = Some s2' ->
  (gap q1 q2 nreg (st_t s1') (st_t s2') = gap q1 q2 nreg (st_t s1) (st_t s2) + ac_wt c * lsum (fun r =>
     (at0 bin1 (ac_in1 c + ray_bc1 r) * at0 (st_out s2') (ac_out2 c + ray_bc1 r) + at0 bin1 (ac_in2 c + ray_bc2 r) * at0 (st_out s2') (ac_out1 c + ray_bc2 r)) -
     (at0 bin2 (ac_in1 c + ray_bc1 r) * at0 (st_out s1') (ac_out2 c + ray_bc1 r) + at0 bin2 (ac_in2 c + ray_bc2 r) * at0 (st_out s1') (ac_out1 c + ray_bc2 r))) (map snd rays))%R.
Proof.
  intros xstr q1 q2 first c bin1 bin2 nreg nt rays s1 s2 s1' s2' L1 L2 L3 L4 Ht ND E1 E2.
  assert (Run : forall q bin s s', length (st_t s) = nt -> Forall (fun t => length t = nreg) (st_t s) -> sweep_rays xstr q first c bin rays s = Some s' ->
    (forall r, In r (map snd rays) -> ray_ok xstr q first c bin nreg (length (st_out s)) r) /\ (forall i, tot (st_t s') i = (tot (st_t s) i + lsum (fun r => ray_pay xstr q first c bin r i) (map snd rays))%R) /\
    (forall r o, In r (map snd rays) -> ray_res xstr q first c bin r = Some o -> nth_error (st_out s') (slot1 c r) = Some (last (ro_psi1 o) 0%R) /\ nth_error (st_out s') (slot2 c r) = Some (hd 0%R (ro_psi2 o)))).
  { intros q bin s s' A B E. assert (Os : store_ok nreg (length (st_out s)) nt s) by (split; [reflexivity|auto]).
    assert (AllOk : forall r, In r (map snd rays) -> ray_ok xstr q first c bin nreg (length (st_out s)) r).
    { destruct (all_ray_ok_dec xstr q first c bin nreg (length (st_out s)) (map snd rays)) as [G|(r & I & N)]; auto. rewrite (sweep_rays_bad _ _ _ _ _ _ _ _ _ _ r Os Ht I N) in E. discriminate. }
    destruct (sweep_rays_ok _ _ _ _ _ _ _ _ rays s Os Ht AllOk ND) as (sb & Eb & Ob & Tb & _ & Vb). rewrite E in Eb. injection Eb as <-. auto. }
  destruct (Run q1 bin1 s1 s1' L1 L2 E1) as (K1 & T1 & V1). destruct (Run q2 bin2 s2 s2' L3 L4 E2) as (K2 & T2 & V2). unfold gap.
  rewrite (rsum_ext _ (fun i => (at0 q2 i * tot (st_t s1) i - at0 q1 i * tot (st_t s2) i) + lsum (fun r => at0 q2 i * ray_pay xstr q1 first c bin1 r i - at0 q1 i * ray_pay xstr q2 first c bin2 r i) (map snd rays))%R).
  2:{ intros i _. rewrite T1, T2. generalize (map snd rays). induction l as [|r l IH]; cbn [lsum]; lra. }
  rewrite rsum_plus, lsum_swap_rsum. f_equal. rewrite Rmult_comm, <- lsum_scal. apply lsum_ext. intros r I. destruct (K1 r I) as (o1 & Eo1 & D1 & _). destruct (K2 r I) as (o2 & Eo2 & D2 & _). destruct (V1 r o1 I Eo1) as [V11 V12]. destruct (V2 r o2 I Eo2) as [V21 V22].
  rewrite (rsum_ext _ (fun i => at0 q2 i * pay (ac_wt c) (ro_fw o1 ++ ro_bw o1) i + (-1) * (at0 q1 i * pay (ac_wt c) (ro_fw o2 ++ ro_bw o2) i))%R) by (intros; unfold ray_pay; rewrite Eo1, Eo2; ring).
  rewrite rsum_plus, rsum_scal, !pay_weighed by assumption. unfold ray_res in Eo1, Eo2.
  destruct (nth_error bin1 (ac_in1 c + ray_bc1 r)) as [i1|] eqn:X1; [|discriminate]. destruct (nth_error bin1 (ac_in2 c + ray_bc2 r)) as [j1|] eqn:Y1; [|discriminate].
  destruct (nth_error bin2 (ac_in1 c + ray_bc1 r)) as [i2|] eqn:X2; [|discriminate]. destruct (nth_error bin2 (ac_in2 c + ray_bc2 r)) as [j2|] eqn:Y2; [|discriminate].
  pose proof (ray_recip _ _ _ _ _ _ _ _ _ _ _ _ Eo1 Eo2) as Rr. unfold slot1 in V11, V21. unfold slot2 in V12, V22. unfold at0.
  rewrite (nth_error_nth _ _ _ X1), (nth_error_nth _ _ _ X2), (nth_error_nth _ _ _ Y1), (nth_error_nth _ _ _ Y2), (nth_error_nth _ _ _ V11), (nth_error_nth _ _ _ V12), (nth_error_nth _ _ _ V21), (nth_error_nth _ _ _ V22).
  rewrite <- Rr. ring.
Qed.

Lemma rev_le : forall n i, i < 2 * n -> rev_ang n i = i + 2 * n.
Proof. intros n i H. unfold rev_ang, reverse2. rewrite Z.mod_small by lia. lia. Qed.
Lemma rev_ge : forall n i, 0 < n -> 2 * n <= i < 4 * n -> rev_ang n i = i - 2 * n.
Proof. intros n i Hn H. unfold rev_ang, reverse2. replace (Z.of_nat i + Z.of_nat n * 2)%Z with (Z.of_nat i - Z.of_nat n * 2 + 1 * (Z.of_nat n * 4))%Z by lia. rewrite Z.mod_add by lia. rewrite Z.mod_small by lia. lia. Qed.
Lemma rev_rev : forall n i, 0 < n -> i < 4 * n -> rev_ang n (rev_ang n i) = i.
Proof. intros n i Hn Hi. destruct (Nat.lt_ge_cases i (2 * n)) as [C|C]; [rewrite (rev_le n i C), rev_ge by lia|rewrite (rev_ge n i Hn ltac:(lia)), rev_le by lia]; lia. Qed.

Lemma slot_at : forall b g a d d', (forall n i k, slot b g a n i k -> nth_error d' k = nth_error d k) -> forall z o j, get_boundary b g a = Some (z, o) -> j < z -> at0 d' (o + j) = at0 d (o + j).
Proof.
  intros b g a d d' H z o j E Hj. destruct (boundary_slot _ _ _ _ _ _ E Hj) as (n & i & Sx). specialize (H n i _ Sx). unfold at0. destruct (nth_error d (o + j)) as [v|] eqn:E1.
  - rewrite (nth_error_nth _ _ 0%R H), (nth_error_nth _ _ 0%R E1). reflexivity.
  - apply nth_error_None in H, E1. now rewrite !nth_overflow by assumption.
Qed.
Lemma pair_in : forall b g a din din' out, (forall n i k, slot b g a n i k -> nth_error din' k = nth_error din k) -> pair_flow b g a din' out = pair_flow b g a din out.
Proof.
  intros b g a din din' out H. unfold pair_flow. destruct (get_boundary b g a) as [[z o]|] eqn:E; [|reflexivity]. destruct (get_boundary b 0 _) as [[z' o']|]; [|reflexivity]. apply rsum_ext. intros j Hj. now rewrite (slot_at _ _ _ _ _ H _ _ _ E Hj).
Qed.
(** Sizes: an angle and its reverse have the same number of boundary values. *)
Definition rev_total (b : BC) : Prop := forall a s s', nth_error (sizes b) a = Some s -> nth_error (sizes b) (rev_ang (n_oct b) a) = Some s' -> size_total s' = size_total s.
Lemma bdry_sz : forall b g a z o, get_boundary b g a = Some (z, o) -> exists s, nth_error (sizes b) a = Some s /\ z = size_total s.
Proof. intros b g a z o H. unfold get_boundary in H. destruct (nth_error (sizes b) a) as [s|]; [|discriminate]. destruct (nth_error (BcModel.offsets 0 (sizes b)) a); [|discriminate]. injection H as <- _. eauto. Qed.
Lemma pair_out : forall b g a din out out', rev_total b -> (forall n i k, slot b 0 (rev_ang (n_oct b) a) n i k -> nth_error out' k = nth_error out k) -> pair_flow b g a din out' = pair_flow b g a din out.
Proof.
  intros b g a din out out' Rt H. unfold pair_flow. destruct (get_boundary b g a) as [[z o]|] eqn:E; [|reflexivity]. destruct (get_boundary b 0 _) as [[z' o']|] eqn:E'; [|reflexivity].
  destruct (bdry_sz _ _ _ _ _ E) as (s & Es & ->). destruct (bdry_sz _ _ _ _ _ E') as (s' & Es' & ->). pose proof (Rt _ _ _ Es Es') as X. apply rsum_ext. intros j Hj. now rewrite (slot_at _ _ _ _ _ H _ _ j E' ltac:(lia)).
Qed.

Section Recip.
  Variables (bi bo : BC) (g : nat) (xstr vol : list R) (quad0 : list Angle) (space : list R) (gs : bool) (q1 q2 : list R) (nreg nt : nat).
  Definition renv (q : list R) : MocEnv := mkME bi bo g xstr vol (fun _ => q) quad0 space gs.
  Let rv := rev_ang (n_oct bi).
  Hypothesis K : bc_ok bi.
  Hypothesis So : sizes bo = sizes bi.
  Hypothesis Su : all_supported bi.
  Hypothesis Ng : Forall no_gap (sizes bi).
  Hypothesis Hg : g < n_group bi.
  Hypothesis Len : length (sizes bi) = 4 * n_oct bi.
  Hypothesis Rt : rev_total bi.
  Notation wt h j := (angle_wt (renv q1) h j).

  Lemma cover_same : forall q q' iang rays, rays_cover (renv q) iang rays -> rays_cover (renv q') iang rays.
  Proof. intros q q' iang rays H. exact H. Qed.

  Lemma angle_recip : forall first h iang rays d1 d2 s1 s2 d1' s1' d2' s2', iang < 4 * n_oct bi -> Forall (fun tr => fst tr < nt) rays -> rays_cover (renv q1) iang (map snd rays) ->
    store_ok nreg (BcProofs.total (sizes bi)) nt s1 -> store_ok nreg (BcProofs.total (sizes bi)) nt s2 ->
    sweep_angle (renv q1) first h iang rays d1 s1 = Ok (d1', s1') -> sweep_angle (renv q2) first h iang rays d2 s2 = Ok (d2', s2') ->
    (gap q1 q2 nreg (st_t s1') (st_t s2') = gap q1 q2 nreg (st_t s1) (st_t s2) + wt h iang * pair_net bi g iang d1 (st_out s1') d2 (st_out s2'))%R.
  Proof.
    intros first h iang rays d1 d2 s1 s2 d1' s1' d2' s2' Hi Ht Cov O1 O2 H1 H2. unfold sweep_angle in H1, H2. change (ang_ctx (renv q2) h iang) with (ang_ctx (renv q1) h iang) in H2.
    destruct (ang_ctx (renv q1) h iang) as [cx|] eqn:Ec; [|discriminate]. cbn [of_opt rbind] in H1, H2. cbn [me_xstr me_q renv] in H1, H2.
    destruct (sweep_rays xstr q1 first cx d1 rays s1) as [t1|] eqn:Er1; [|discriminate]. destruct (sweep_rays xstr q2 first cx d2 rays s2) as [t2|] eqn:Er2; [|discriminate]. cbn [of_opt rbind] in H1, H2.
    assert (T : t1 = s1' /\ t2 = s2').
    { split; [clear H2; rename H1 into H|clear H1; rename H2 into H]; cbn [me_gs renv] in H; (destruct gs; [|now injection H]); (destruct (update_angle _ _ _ iang _) as [x| |]; [|discriminate|discriminate]); cbn [rbind] in H; (destruct (update_angle _ _ _ _ x) as [y| |]; [|discriminate|discriminate]); cbn [rbind] in H; now injection H. }
    destruct T as [<- <-]. clear H1 H2.
    pose proof (fit_slots (renv q1) h iang cx _ Ec (cover_fit _ _ _ Cov) Hi) as ND. destruct Cov as (z1 & z2 & N1 & N2 & L1 & L2 & P1 & P2). cbn [me_out me_in renv] in N1, N2. rewrite So in N1, N2. fold rv in N2.
    destruct (bdry_some bi g _ _ N1) as (oi1 & B1). destruct (bdry_some bi g _ _ N2) as (oi2 & B2). destruct (bdry_some bi 0 _ _ N1) as (oo1 & B3). destruct (bdry_some bi 0 _ _ N2) as (oo2 & B4).
    assert (Cx : ac_wt cx = wt h iang /\ ac_in1 cx = oi1 /\ ac_in2 cx = oi2 /\ ac_out1 cx = oo1 /\ ac_out2 cx = oo2).
    { unfold ang_ctx in Ec. cbn [me_in me_group renv] in Ec. fold rv in Ec. rewrite !(get_boundary_out (renv q1) So) in Ec. cbn [me_in renv] in Ec. rewrite B1, B2, B3, B4 in Ec. unfold angle_wt. cbn [me_quad me_space renv] in *. destruct (nth_error quad0 iang); [|discriminate]. destruct (nth_error space iang); [|discriminate]. injection Ec as <-. auto. }
    destruct Cx as (Cw & C1 & C2 & C3 & C4).
    rewrite (angle_recip0 xstr q1 q2 first cx d1 d2 nreg nt rays s1 s2 t1 t2 (proj1 (proj2 O1)) (proj2 (proj2 O1)) (proj1 (proj2 O2)) (proj2 (proj2 O2)) Ht ND Er1 Er2). rewrite Cw. f_equal. f_equal.
    unfold pair_net. cbn zeta. fold rv. unfold pair_flow. fold rv. assert (RR : rv (rv iang) = iang) by (apply rev_rev; [apply (ok_oct bi K)|exact Hi]). rewrite RR, B1, B2, B3, B4, C1, C2, C3, C4, L1, L2.
    rewrite <- (lsum_perm_seq (fun j => at0 d1 (oi1 + j) * at0 (st_out t2) (oo2 + j))%R ray_bc1 _ _ P1), <- (lsum_perm_seq (fun j => at0 d1 (oi2 + j) * at0 (st_out t2) (oo1 + j))%R ray_bc2 _ _ P2),
      <- (lsum_perm_seq (fun j => at0 d2 (oi1 + j) * at0 (st_out t1) (oo2 + j))%R ray_bc1 _ _ P1), <- (lsum_perm_seq (fun j => at0 d2 (oi2 + j) * at0 (st_out t1) (oo1 + j))%R ray_bc2 _ _ P2).
    generalize (map snd rays). induction l as [|r l IH]; cbn [lsum]; [ring|]. rewrite IH. ring.
  Qed.

  Lemma angles_recip : forall first h angs iang d1 d2 s1 s2 d1' s1' d2' s2', iang + length angs <= 2 * n_oct bi -> Forall (Forall (fun tr => fst tr < nt)) angs ->
    (forall j rays, nth_error angs j = Some rays -> rays_cover (renv q1) (iang + j) (map snd rays)) -> length d1 = n_group bi * BcProofs.total (sizes bi) -> length d2 = n_group bi * BcProofs.total (sizes bi) ->
    store_ok nreg (BcProofs.total (sizes bi)) nt s1 -> store_ok nreg (BcProofs.total (sizes bi)) nt s2 ->
    sweep_angles (renv q1) first h iang angs d1 s1 = Ok (d1', s1') -> sweep_angles (renv q2) first h iang angs d2 s2 = Ok (d2', s2') ->
    exists ins1 ins2, (forall j a n i k, slot bi g a n i k -> nth_error (ins1 j) k = nth_error d1 k \/ nth_error (ins1 j) k = nth_error d1' k) /\ (forall j a n i k, slot bi g a n i k -> nth_error (ins2 j) k = nth_error d2 k \/ nth_error (ins2 j) k = nth_error d2' k) /\
      (gap q1 q2 nreg (st_t s1') (st_t s2') = gap q1 q2 nreg (st_t s1) (st_t s2) + lsum (fun j => wt h j * pair_net bi g j (ins1 j) (st_out s1') (ins2 j) (st_out s2')) (seq iang (length angs)))%R.
  Proof.
    intros first h angs. induction angs as [|rays angs IH]; intros iang d1 d2 s1 s2 d1' s1' d2' s2' Hi Ht Cov Ld1 Ld2 O1 O2 H1 H2; cbn [sweep_angles] in H1, H2.
    - injection H1 as <- <-. injection H2 as <- <-. exists (fun _ => d1), (fun _ => d2). cbn. split; [auto|]. split; [auto|]. ring.
    - cbn [length] in Hi. apply Forall_cons_iff in Ht. destruct Ht as [Ht1 Ht2]. assert (C0 : rays_cover (renv q1) iang (map snd rays)) by (specialize (Cov 0 rays eq_refl); now rewrite Nat.add_0_r in Cov).
      destruct (sweep_angle (renv q1) first h iang rays d1 s1) as [[e1 t1]| |] eqn:E1; [|discriminate|discriminate]. destruct (sweep_angle (renv q2) first h iang rays d2 s2) as [[e2 t2]| |] eqn:E2; [|discriminate|discriminate]. cbn [rbind] in H1, H2.
      assert (Cov' : forall j r, nth_error angs j = Some r -> rays_cover (renv q1) (S iang + j) (map snd r)) by (intros j r Ej; replace (S iang + j) with (iang + S j) by lia; now apply Cov).
      assert (Run : forall q d s d' s' e t, length d = n_group bi * BcProofs.total (sizes bi) -> store_ok nreg (BcProofs.total (sizes bi)) nt s -> sweep_angle (renv q) first h iang rays d s = Ok (e, t) -> sweep_angles (renv q) first h (S iang) angs e t = Ok (d', s') ->
        length e = length d /\ store_ok nreg (BcProofs.total (sizes bi)) nt t /\ (forall a n i k, slot bi 0 a n i k -> a = iang \/ a = rv iang -> nth_error (st_out s') k = nth_error (st_out t) k) /\
        (forall a n i k, slot bi g a n i k -> nth_error e k = nth_error d k \/ nth_error e k = nth_error d' k)).
      { intros q d s d' s' e t Ld Os Ea Eb. destruct (angle_gain (renv q) nreg nt K So Su Ng Hg Len first h iang rays d s e t ltac:(cbn; lia) Ht1 (cover_same q1 q _ _ C0) Ld Os Ea) as (Ot & Le & _ & U1 & _).
        destruct (angles_gain (renv q) nreg nt K So Su Ng Hg Len first h angs (S iang) e t d' s' ltac:(cbn; lia) Ht2 (fun j r Ej => cover_same q1 q _ _ (Cov' j r Ej)) ltac:(cbn [me_in renv]; congruence) Ot Eb) as (_ & _ & K2 & U2 & _). cbn [me_in me_group me_gs renv] in *. fold rv in U1.
        assert (Old : forall a, a = iang \/ a = rv iang -> ~ touched (renv q) (S iang) (length angs) a).
        { intros a Ha (j & J & Ej). cbn [me_in renv] in Ej. unfold rv in Ha. rewrite (rev_le _ j) in Ej by lia. rewrite (rev_le _ iang) in Ha by lia. lia. }
        split; [exact Le|]. split; [exact Ot|]. split; [intros a n i k Sx Ha; apply (K2 a n i k Sx); now apply Old|].
        intros a' n i k Sx. assert (Ha : a' < length (sizes bi)) by (destruct Sx as (z & o & Gf & _); destruct (get_face_inv _ _ _ _ _ _ Gf) as (w & o' & Ew & _); apply nth_error_Some; congruence).
        destruct (refl_n_spec bi a' n K Ha) as (a & _ & Ra & _). pose proof (U1 g a' n i k a Sx Ra) as A3. destruct (U2 g a' n i k a Sx Ra) as [_ A2].
        destruct (Nat.eqb_spec a iang) as [Y|Y]; [right; symmetry; apply A2; right; right; apply Old; now left|]. destruct (Nat.eqb_spec a (rv iang)) as [Z|Z]; [right; symmetry; apply A2; right; right; apply Old; now right|].
        left. rewrite A3. cbn [orb]. rewrite andb_false_r. reflexivity. }
      destruct (Run q1 d1 s1 d1' s1' e1 t1 Ld1 O1 E1 H1) as (Le1 & Ot1 & Keep1 & Ins1). destruct (Run q2 d2 s2 d2' s2' e2 t2 Ld2 O2 E2 H2) as (Le2 & Ot2 & Keep2 & Ins2).
      destruct (IH (S iang) e1 e2 t1 t2 d1' s1' d2' s2' ltac:(lia) Ht2 Cov' ltac:(congruence) ltac:(congruence) Ot1 Ot2 H1 H2) as (i1 & i2 & I1 & I2 & G).
      exists (fun j => if j =? iang then d1 else i1 j), (fun j => if j =? iang then d2 else i2 j). split; [|split].
      + intros j a n i k Sx. destruct (j =? iang); [now left|]. destruct (I1 j a n i k Sx) as [X|X]; [|now right]. rewrite X. now apply (Ins1 a n i).
      + intros j a n i k Sx. destruct (j =? iang); [now left|]. destruct (I2 j a n i k Sx) as [X|X]; [|now right]. rewrite X. now apply (Ins2 a n i).
      + cbn [length seq]. rewrite G, (angle_recip first h iang rays d1 d2 s1 s2 e1 t1 e2 t2 ltac:(lia) Ht1 C0 O1 O2 E1 E2). cbn [lsum]. rewrite Nat.eqb_refl.
        assert (Nn : pair_net bi g iang d1 (st_out s1') d2 (st_out s2') = pair_net bi g iang d1 (st_out t1) d2 (st_out t2)).
        { unfold pair_net. cbn zeta. fold rv. assert (RR : rv (rv iang) = iang) by (apply rev_rev; [apply (ok_oct bi K)|lia]).
          rewrite (pair_out bi g iang d1 (st_out t2) (st_out s2') Rt), (pair_out bi g (rv iang) d1 (st_out t2) (st_out s2') Rt), (pair_out bi g iang d2 (st_out t1) (st_out s1') Rt), (pair_out bi g (rv iang) d2 (st_out t1) (st_out s1') Rt); [reflexivity| | | |]; fold rv; rewrite ?RR; intros n i k Sx; eauto. }
        rewrite Nn. rewrite (lsum_ext (fun j => wt h j * pair_net bi g j (if j =? iang then d1 else i1 j) (st_out s1') (if j =? iang then d2 else i2 j) (st_out s2'))%R (fun j => wt h j * pair_net bi g j (i1 j) (st_out s1') (i2 j) (st_out s2'))%R); [ring|].
        intros j J. apply in_seq in J. destruct (Nat.eqb_spec j iang); [lia|reflexivity].
  Qed.

  (** Two planes with the same rays. *)
  Definition same_geo (p1 p2 : PlaneIn) : Prop := pi_first p1 = pi_first p2 /\ pi_height p1 = pi_height p2 /\ pi_rays p1 = pi_rays p2.
  (** The boundary terms of a plane whose incoming values a sweep leaves as they are. *)
  Definition plane_pair (p1 p2 : PlaneIn) (o1 o2 : list R) : R := lsum (fun j => wt (pi_height p1) j * pair_net bi g j (pi_in p1) o1 (pi_in p2) o2)%R (seq 0 (2 * n_oct bi)).
  Definition settled (p : PlaneIn) (d : list R * list R) : Prop := forall a n i k, slot bi g a n i k -> nth_error (fst d) k = nth_error (pi_in p) k.

  Lemma planes_recip : forall ps1 ps2 ts1 ts2 bs1 ts1' bs2 ts2', Forall2 same_geo ps1 ps2 -> Forall (plane_full (renv q1) nt) ps1 -> Forall (plane_full (renv q1) nt) ps2 -> ts_ok nreg nt ts1 -> ts_ok nreg nt ts2 ->
    sweep_planes (renv q1) ps1 ts1 = Ok (bs1, ts1') -> sweep_planes (renv q2) ps2 ts2 = Ok (bs2, ts2') -> Forall2 settled ps1 bs1 -> Forall2 settled ps2 bs2 ->
    (gap q1 q2 nreg ts1' ts2' = gap q1 q2 nreg ts1 ts2 + lsum (fun x => plane_pair (fst (fst x)) (snd (fst x)) (snd (fst (snd x))) (snd (snd (snd x)))) (combine (combine ps1 ps2) (combine bs1 bs2)))%R.
  Proof.
    intros ps1 ps2 ts1 ts2 bs1 ts1' bs2 ts2' Sg. revert ts1 ts2 bs1 ts1' bs2 ts2'. induction Sg as [|p1 p2 ps1 ps2 (Gf & Gh & Gr) Sg IH]; intros ts1 ts2 bs1 ts1' bs2 ts2' F1 F2 T1 T2 H1 H2 St1 St2; cbn [sweep_planes] in H1, H2.
    - injection H1 as <- <-. injection H2 as <- <-. cbn. ring.
    - apply Forall_cons_iff in F1. destruct F1 as [(A1 & A2 & A3 & A4 & A5) F1]. apply Forall_cons_iff in F2. destruct F2 as [(_ & _ & _ & B4 & B5) F2]. cbn [me_in renv] in A1, A4, A5, B4, B5. rewrite <- Gf, <- Gh, <- Gr in H2.
      destruct (sweep_angles (renv q1) _ _ _ _ _ _) as [[d1 s1]| |] eqn:E1; [|discriminate|discriminate]. destruct (sweep_angles (renv q2) _ _ _ _ _ _) as [[d2 s2]| |] eqn:E2; [|discriminate|discriminate]. cbn [rbind] in H1, H2.
      assert (Os1 : store_ok nreg (BcProofs.total (sizes bi)) nt (mkSt (pi_out p1) ts1)) by (split; [exact A5|exact T1]). assert (Os2 : store_ok nreg (BcProofs.total (sizes bi)) nt (mkSt (pi_out p2) ts2)) by (split; [exact B5|exact T2]).
      destruct (angles_recip (pi_first p1) (pi_height p1) (pi_rays p1) 0 (pi_in p1) (pi_in p2) _ _ d1 s1 d2 s2 ltac:(lia) A2 A3 A4 B4 Os1 Os2 E1 E2) as (i1 & i2 & I1 & I2 & G).
      destruct (angles_gain (renv q1) nreg nt K So Su Ng Hg Len _ _ (pi_rays p1) 0 (pi_in p1) _ d1 s1 ltac:(cbn; lia) A2 A3 A4 Os1 E1) as (O1 & _ & _ & _ & J1 & _).
      destruct (angles_gain (renv q2) nreg nt K So Su Ng Hg Len _ _ (pi_rays p1) 0 (pi_in p2) _ d2 s2 ltac:(cbn; lia) A2 (fun j r Ej => cover_same q1 q2 _ _ (A3 j r Ej)) B4 Os2 E2) as (O2 & _ & _ & _ & J2 & _).
      cbn [me_gs me_in me_out me_group renv] in H1, H2, J1, J2.
      destruct (if gs then Ok d1 else update_group bi (with_data bo (st_out s1)) g d1) as [d1'| |] eqn:U1; [|discriminate|discriminate]. destruct (if gs then Ok d2 else update_group bi (with_data bo (st_out s2)) g d2) as [d2'| |] eqn:U2; [|discriminate|discriminate]. cbn [rbind] in H1, H2.
      destruct (sweep_planes (renv q1) ps1 (st_t s1)) as [[b1 t1]| |] eqn:E3; [|discriminate|discriminate]. destruct (sweep_planes (renv q2) ps2 (st_t s2)) as [[b2 t2]| |] eqn:E4; [|discriminate|discriminate]. cbn [rbind] in H1, H2. injection H1 as <- <-. injection H2 as <- <-.
      inversion St1 as [|? ? ? ? S1 Sr1]; subst. inversion St2 as [|? ? ? ? S2 Sr2]; subst. unfold settled in S1, S2. cbn [fst] in S1, S2.
      rewrite (IH (st_t s1) (st_t s2) b1 t1 b2 t2 F1 F2 (proj2 O1) (proj2 O2) E3 E4 Sr1 Sr2), G. cbn [combine lsum fst snd st_t]. rewrite Rplus_assoc. f_equal. f_equal. rewrite A1. unfold plane_pair.
      apply lsum_ext. intros j J. f_equal. assert (Q1 : forall a n i k, slot bi g a n i k -> nth_error (i1 j) k = nth_error (pi_in p1) k).
      { intros a n i k Sx. destruct (I1 j a n i k Sx) as [X|X]; [exact X|]. rewrite X. destruct gs; [injection U1 as <-; now apply (S1 a n i)|now rewrite J1]. }
      assert (Q2 : forall a n i k, slot bi g a n i k -> nth_error (i2 j) k = nth_error (pi_in p2) k).
      { intros a n i k Sx. destruct (I2 j a n i k Sx) as [X|X]; [exact X|]. rewrite X. destruct gs; [injection U2 as <-; now apply (S2 a n i)|now rewrite J2]. }
      unfold pair_net. cbn zeta. rewrite (pair_in bi g j (pi_in p1) (i1 j)), (pair_in bi g _ (pi_in p1) (i1 j)), (pair_in bi g j (pi_in p2) (i2 j)), (pair_in bi g _ (pi_in p2) (i2 j)); [reflexivity| | | |]; intros n i k Sx; eauto.
  Qed.
End Recip.
