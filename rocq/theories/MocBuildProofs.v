(** Lemmas on the rays and boundary sizes the MoC sweeper is given. *)
From Coq Require Import ZArith List Lia Bool Sorted Permutation Reals Lra.
From Verif Require Import RUtil ListUtil McModel XsModel SrcModel MgModel MeshModel MeshProofs AngModel AngProofs AngProps AqModel BcModel BcProofs StdAlg MatModel GeomModel CoreModel CoreProofs PmModel RatModel RayModel RayProofs RayTrModel RayProps MocModel MocProofs VolModel VolProps MocMaxProps MocBalProps MocSetModel MocSetProofs.
Import ListNotations.
Open Scope R_scope.

(** ** Octants *)

Lemma sin_of_cos : forall t z, 0 < sin t -> z = cos t \/ z = Rabs (cos t) \/ z = - Rabs (cos t) -> sin (acos z) = sin t.
Proof.
  intros t z S Z. assert (Q : z * z = cos t * cos t) by (destruct Z as [->|[->| ->]]; [ring| |]; unfold Rabs; destruct (Rcase_abs (cos t)); ring). destruct (COS_bound t) as [B1 B2].
  assert (B : -1 <= z <= 1) by (destruct Z as [->|[->| ->]]; [lra| |]; unfold Rabs; destruct (Rcase_abs (cos t)); lra). rewrite sin_acos by exact B. unfold Rsqr. rewrite Q.
  pose proof (sin2_cos2 t) as U. unfold Rsqr in U. replace (1 - cos t * cos t) with (sin t * sin t) by lra. apply sqrt_square. lra.
Qed.
(** The image of an angle in another octant. *)
Lemma octant_angle : forall a o b, 0 < sin (theta (adir a)) -> oz (adir a) = cos (theta (adir a)) -> to_octant a o = Some b ->
  weight b = weight a /\ sin (theta (adir b)) = sin (theta (adir a)) /\ rsintheta (adir b) = 1 / sin (theta (adir b)).
Proof.
  intros a o b S Z E. unfold to_octant in E. destruct (dir_octant (adir a) o) as [d|] eqn:Ed; [|discriminate]. injection E as <-. cbn [weight adir]. split; [reflexivity|].
  do 8 (destruct o as [|o]; [cbn [dir_octant] in Ed; injection Ed as <-; unfold dir_cosines; cbn [theta rsintheta]; split; [|reflexivity]; apply sin_of_cos; rewrite ?Z; auto|]). discriminate.
Qed.
Lemma expand_angle : forall l k b, Forall (fun a => 0 < sin (theta (adir a)) /\ oz (adir a) = cos (theta (adir a)) /\ rsintheta (adir a) = 1 / sin (theta (adir a))) l -> nth_error (expand l) k = Some b ->
  exists a, nth_error l (k mod length l) = Some a /\ weight b = weight a /\ sin (theta (adir b)) = sin (theta (adir a)) /\ rsintheta (adir b) = 1 / sin (theta (adir b)).
Proof.
  intros l k b F E. assert (Lk : (k < 8 * length l)%nat) by (rewrite <- expand_length; apply nth_error_Some; congruence). assert (L0 : (0 < length l)%nat) by lia.
  pose proof (Nat.div_mod k (length l) ltac:(lia)) as DM. pose proof (Nat.mod_upper_bound k (length l) ltac:(lia)) as MU. destruct (nth_error l (k mod length l)) as [a|] eqn:Ea; [|apply nth_error_None in Ea; lia].
  exists a. split; [reflexivity|]. assert (D8 : (k / length l < 8)%nat) by (apply Nat.div_lt_upper_bound; lia). pose proof (expand_nth l (k / length l) _ a D8 Ea) as X. replace (k / length l * length l + k mod length l)%nat with k in X by lia. rewrite E in X.
  rewrite Forall_forall in F. destruct (F a (nth_error_In _ _ Ea)) as (F1 & F2 & F3). destruct (k / length l)%nat as [|o]; [injection X as ->; auto|]. symmetry in X. exact (octant_angle a (S o) b F1 F2 X).
Qed.

(** ** Sizes of the boundaries *)

Definition size_of (N : Z * Z) : BcSize := mkSize (Z.to_nat (snd N)) (Z.to_nat (fst N)) 0.
Lemma rev_low : forall n i, (i < 2 * n)%nat -> rev_ang n i = (i + 2 * n)%nat.
Proof. intros n i H. unfold rev_ang, reverse2. rewrite Z.mod_small by lia. lia. Qed.
Lemma bc_sizes_spec : forall n counts m i l, length l = (4 * n)%nat -> (i + m <= 2 * n)%nat -> (2 * n <= length counts)%nat -> exists r, bc_sizes n counts (seq i m) l = Some r /\ length r = (4 * n)%nat /\
  forall k, (k < 2 * n)%nat -> (nth_error r k = if (i <=? k)%nat && (k <? i + m)%nat then option_map size_of (nth_error counts k) else nth_error l k) /\ (nth_error r (k + 2 * n) = if (i <=? k)%nat && (k <? i + m)%nat then option_map size_of (nth_error counts k) else nth_error l (k + 2 * n)).
Proof.
  intros n counts m. induction m as [|m IH]; intros i l L B C; cbn [seq bc_sizes].
  - exists l. split; [reflexivity|]. split; [exact L|]. intros k K. destruct (Nat.leb_spec i k); destruct (Nat.ltb_spec k (i + 0)); try lia; cbn [andb]; auto.
  - destruct (nth_error counts i) as [N|] eqn:EN; [|apply nth_error_None in EN; lia]. change (mkSize (Z.to_nat (snd N)) (Z.to_nat (fst N)) 0) with (size_of N).
    destruct (upd_some l i (size_of N) ltac:(lia)) as (l1 & E1). rewrite E1. destruct (upd_nth _ _ _ _ E1) as [L1 U1]. rewrite rev_low by lia. destruct (upd_some l1 (i + 2 * n) (size_of N) ltac:(lia)) as (l2 & E2). rewrite E2. destruct (upd_nth _ _ _ _ E2) as [L2 U2].
    destruct (IH (S i) l2 ltac:(lia) ltac:(lia) C) as (r & Er & Lr & P). exists r. split; [exact Er|]. split; [exact Lr|]. intros k K. destruct (P k K) as [P1 P2]. rewrite P1, P2, !U2, !U1.
    destruct (Nat.leb_spec (S i) k); destruct (Nat.leb_spec i k); try lia; destruct (Nat.ltb_spec k (S i + m)); destruct (Nat.ltb_spec k (i + S m)); try lia; cbn [andb]; try (split; reflexivity);
      repeat (match goal with |- context [Nat.eqb ?a ?b] => destruct (Nat.eqb_spec a b); try lia end); try (split; reflexivity); assert (k = i) by lia; subst k; rewrite EN; split; reflexivity.
Qed.

(** ** Rays of a plane *)

Definition seg_fine (n : nat) (sg : nat * R) : Prop := (fst sg < n)%nat /\ 0 < snd sg.
(** The rays made for the end points [ends]. *)
Definition ray_for (u : UPlane) (e : RayEnds) (r : Ray) : Prop := ray_bc1 r = Z.to_nat (re_in e) /\ ray_bc2 r = Z.to_nat (re_out e) /\ up_trace u (re_p1 e) (re_p2 e) = Some (ray_segs r) /\ Forall (seg_fine (length (up_areas u))) (ray_segs r).
Lemma make_rays : forall u n ends, (forall e, In e ends -> (0 <= re_in e < n)%Z /\ (0 <= re_out e < n)%Z /\ exists s, up_trace u (re_p1 e) (re_p2 e) = Some s /\ Forall (seg_fine (length (up_areas u))) s) ->
  exists rays, all_some (map (make_ray u n) ends) = Some rays /\ Forall2 (ray_for u) ends rays.
Proof.
  intros u n. induction ends as [|e ends IH]; intros H; [exists []; split; [reflexivity|constructor]|]. destruct IH as (rays & E & F); [intros; apply H; now right|]. destruct (H e (or_introl eq_refl)) as (A & B & s & Es & Fs).
  exists (mkRay (Z.to_nat (re_in e)) (Z.to_nat (re_out e)) s :: rays). cbn [map all_some]. unfold make_ray at 1. destruct (Z.ltb_spec (re_in e) 0); [lia|]. destruct (Z.leb_spec n (re_in e)); [lia|]. destruct (Z.ltb_spec (re_out e) 0); [lia|]. destruct (Z.leb_spec n (re_out e)); [lia|]. cbn [orb]. rewrite Es, E.
  split; [reflexivity|]. constructor; [|exact F]. repeat split; auto.
Qed.
Lemma bump_some : forall l i, (i < length l)%nat -> exists l', bump l i = Some l' /\ length l' = length l /\ forall j, nth j l' 0%nat = (nth j l 0 + if (j =? i)%nat then 1 else 0)%nat.
Proof.
  induction l as [|x l IH]; intros i H; cbn in H; [lia|]. destruct i as [|i]; cbn [bump].
  - exists (S x :: l). split; [reflexivity|]. split; [reflexivity|]. intros [|j]; cbn [nth Nat.eqb]; lia.
  - destruct (IH i ltac:(lia)) as (l' & -> & L & P). exists (x :: l'). split; [reflexivity|]. split; [cbn; lia|]. intros [|j]; cbn [nth Nat.eqb]; [lia|apply P].
Qed.
Lemma bump_all_some : forall is l, Forall (fun i => (i < length l)%nat) is -> exists l', bump_all is l = Some l' /\ length l' = length l /\ forall j, nth j l' 0%nat = (nth j l 0 + count_occ Nat.eq_dec is j)%nat.
Proof.
  induction is as [|i is IH]; intros l F; cbn [bump_all]; [exists l; split; [reflexivity|split; [reflexivity|intros; cbn; lia]]|]. apply Forall_cons_iff in F. destruct F as [Fi F].
  destruct (bump_some l i Fi) as (l1 & -> & L1 & P1). destruct (IH l1) as (l' & E & L' & P'); [rewrite L1; exact F|]. exists l'. split; [exact E|]. split; [lia|]. intros j. rewrite P', P1. cbn [count_occ]. destruct (Nat.eq_dec i j) as [->|Ne]; [rewrite Nat.eqb_refl; lia|]. destruct (Nat.eqb_spec j i); [congruence|lia].
Qed.

(** What the angle at place [k] needs: rays between the slots, and tracing works. *)
Definition angle_ready (ulp : R -> R -> bool) (d : CoreDims) (u : UPlane) (N : Z * Z) (a : Angle) (ends : list RayEnds) : Prop :=
  angle_rays ulp (cd_hx d) (cd_hy d) (fst N) (snd N) (spacing_of d N) (adir a) = Some ends /\ map re_in ends = zrange (fst N + snd N) /\ Permutation (map re_out ends) (zrange (fst N + snd N)) /\ (1 <= fst N)%Z /\ (1 <= snd N)%Z /\
  forall e, In e ends -> exists s, up_trace u (re_p1 e) (re_p2 e) = Some s /\ Forall (seg_fine (length (up_areas u))) s.
(** The rays of one angle as they come out. *)
Definition angle_done (u : UPlane) (N : Z * Z) (rays : list Ray) : Prop :=
  map ray_bc1 rays = seq 0 (Z.to_nat (fst N + snd N)) /\ Permutation (map ray_bc2 rays) (seq 0 (Z.to_nat (fst N + snd N))) /\ Forall (fun r => Forall (seg_fine (length (up_areas u))) (ray_segs r)) rays.

Lemma zrange_nat : forall n, map Z.to_nat (zrange n) = seq 0 (Z.to_nat n).
Proof. intros n. unfold zrange. rewrite map_map. rewrite <- (map_id (seq 0 (Z.to_nat n))) at 2. apply map_ext. intros i. lia. Qed.
Lemma in_zrange : forall n k, In k (zrange n) -> (0 <= k < n)%Z.
Proof. intros n k I. unfold zrange in I. apply in_map_iff in I. destruct I as (i & <- & I). apply in_seq in I. lia. Qed.
Lemma ready_done : forall ulp d u N a ends, angle_ready ulp d u N a ends -> exists rays, all_some (map (make_ray u (fst N + snd N)) ends) = Some rays /\ Forall2 (ray_for u) ends rays /\ angle_done u N rays.
Proof.
  intros ulp d u N a ends (_ & I & O & _ & _ & T). destruct (make_rays u (fst N + snd N) ends) as (rays & E & F).
  { intros e Ie. split; [apply in_zrange; rewrite <- I; now apply in_map|]. split; [|now apply T]. apply in_zrange. eapply Permutation_in; [exact O|]. now apply in_map. }
  exists rays. split; [exact E|]. split; [exact F|]. assert (E1 : map ray_bc1 rays = map Z.to_nat (map re_in ends) /\ map ray_bc2 rays = map Z.to_nat (map re_out ends) /\ Forall (fun r => Forall (seg_fine (length (up_areas u))) (ray_segs r)) rays).
  { clear - F. induction F as [|e r ends rays (A & B & _ & C) F (I1 & I2 & I3)]; [auto|]. cbn [map]. rewrite I1, I2, A, B. auto. }
  destruct E1 as (E1 & E2 & E3). split; [rewrite E1, I; apply zrange_nat|]. split; [rewrite E2, <- zrange_nat; now apply Permutation_map|exact E3].
Qed.
(** The regions the rays of an angle cross. *)
Definition seen (rays : list Ray) : list nat := map fst (flat_map ray_segs rays).
Lemma plane_rays_spec : forall ulp d u counts angs iang nf, length nf = length (up_areas u) ->
  (forall j a, nth_error angs j = Some a -> exists N ends, nth_error counts (iang + j) = Some N /\ angle_ready ulp d u N a ends) ->
  exists rays warn, plane_rays ulp d u counts iang angs nf = Got (rays, warn) /\ length rays = length angs /\ length warn = length angs /\
    (forall j rs, nth_error rays j = Some rs -> exists N a ends, nth_error counts (iang + j) = Some N /\ nth_error angs j = Some a /\ angle_ready ulp d u N a ends /\ Forall2 (ray_for u) ends rs /\ angle_done u N rs) /\
    (forall j w, nth_error warn j = Some w -> (w = true <-> exists i, (i < length nf)%nat /\ nth i nf 0%nat = 0%nat /\ forall rs, In rs (firstn (S j) rays) -> ~ In i (seen rs))).
Proof.
  intros ulp d u counts. induction angs as [|a angs IH]; intros iang nf L H.
  - exists [], []. cbn [plane_rays]. do 3 (split; [reflexivity|]). split; intros [|j] x E; discriminate.
  - destruct (H 0%nat a eq_refl) as (N & ends & EN & Rd). rewrite Nat.add_0_r in EN. destruct (ready_done ulp d u N a ends Rd) as (rs & Er & Fr & Dn). cbn [plane_rays]. rewrite EN. destruct Rd as (Ra & Rest) eqn:Q. rewrite Ra, Er. clear Q.
    destruct (bump_all_some (map fst (flat_map ray_segs rs)) nf) as (nf' & Eb & Lb & Pb).
    { apply Forall_forall. intros i Ii. apply in_map_iff in Ii. destruct Ii as (sg & <- & Is). apply in_flat_map in Is. destruct Is as (r & Ir & Is). destruct Dn as (_ & _ & D3). rewrite Forall_forall in D3. specialize (D3 r Ir). rewrite Forall_forall in D3. rewrite L. apply (D3 sg Is). }
    rewrite Eb. destruct (IH (S iang) nf' ltac:(lia)) as (rays & warn & E & L1 & L2 & P & W); [intros j b Ej; destruct (H (S j) b Ej) as (N' & e' & A & B); exists N', e'; split; [replace (S iang + j)%nat with (iang + S j)%nat by lia; exact A|exact B]|].
    rewrite E. cbn [bind fst snd]. exists (rs :: rays), (unseen nf' :: warn). split; [reflexivity|]. split; [cbn; lia|]. split; [cbn; lia|].
    assert (Z : forall i, nth i nf' 0%nat = 0%nat <-> nth i nf 0%nat = 0%nat /\ ~ In i (seen rs)). { intros i. rewrite Pb. fold (seen rs). pose proof (count_occ_not_In Nat.eq_dec (seen rs) i) as Co. split; [intros X; split; [lia|apply Co; lia]|intros [X Y]; apply Co in Y; lia]. }
    split.
    + intros [|j] r Ej; cbn [nth_error] in Ej.
      * injection Ej as <-. exists N, a, ends. rewrite Nat.add_0_r. split; [exact EN|]. split; [reflexivity|]. split; [split; [exact Ra|exact Rest]|]. auto.
      * destruct (P j r Ej) as (N' & a' & e' & A & B & C). exists N', a', e'. split; [replace (iang + S j)%nat with (S iang + j)%nat by lia; exact A|]. split; [exact B|exact C].
    + intros [|j] w Ej; cbn [nth_error] in Ej.
      * injection Ej as <-. unfold unseen. rewrite existsb_exists. split.
        -- intros (c & Ic & Ec). apply Nat.eqb_eq in Ec. subst c. apply (In_nth _ _ 0%nat) in Ic. destruct Ic as (i & Li & Ei). apply Z in Ei. exists i. split; [lia|]. split; [apply Ei|]. intros r Ir. cbn in Ir. destruct Ir as [<-|[]]. apply Ei.
        -- intros (i & Li & Ei & Si). exists 0%nat. split; [|reflexivity]. assert (X : nth i nf' 0%nat = 0%nat) by (apply Z; split; [exact Ei|apply Si; now left]). rewrite <- X. apply nth_In. lia.
      * rewrite (W j w Ej). split; intros (i & Li & Ei & Si); exists i.
        -- apply Z in Ei. split; [lia|]. split; [apply Ei|]. intros r Ir. cbn [firstn] in Ir. destruct Ir as [<-|Ir]; [apply Ei|]. now apply Si.
        -- split; [lia|]. split; [apply Z; split; [exact Ei|apply Si; now left]|]. intros r Ir. apply Si. cbn [firstn]. now right.
Qed.

(** ** Volume correction *)

(** Same slots, and segments still in range and positive. *)
Definition same_slots (r r' : Ray) : Prop := ray_bc1 r' = ray_bc1 r /\ ray_bc2 r' = ray_bc2 r.
Lemma with_segs_slots : forall rays segs, length segs = length rays -> Forall2 same_slots rays (with_segs rays segs) /\ map ray_segs (with_segs rays segs) = segs.
Proof.
  unfold with_segs. induction rays as [|r rays IH]; intros [|s segs] L; try discriminate; [split; [constructor|reflexivity]|]. cbn [combine map fst snd]. destruct (IH segs ltac:(now injection L)) as [F E]. split; [constructor; [split; reflexivity|exact F]|]. cbn [ray_segs]. now rewrite E.
Qed.
Definition rays_fine (n : nat) (rays : list Ray) : Prop := Forall (fun r => Forall (seg_fine n) (ray_segs r)) rays.
Lemma fine_ok : forall n rays, rays_fine n rays <-> segs_ok n (map ray_segs rays).
Proof.
  intros n rays. unfold rays_fine, segs_ok. rewrite Forall_forall. split.
  - intros H sg I. apply in_concat in I. destruct I as (l & Il & Is). apply in_map_iff in Il. destruct Il as (r & <- & Ir). specialize (H r Ir). rewrite Forall_forall in H. exact (H sg Is).
  - intros H r Ir. apply Forall_forall. intros sg Is. apply H. apply in_concat. exists (ray_segs r). split; [now apply in_map|exact Is].
Qed.
Lemma rescaled_ok : forall n g rays, segs_ok n rays -> (forall i, crossed rays i -> 0 < g i) -> segs_ok n (rescaled g rays).
Proof.
  intros n g rays H G sg I. unfold rescaled in I. rewrite <- concat_map in I. apply in_map_iff in I. destruct I as (s & <- & Is). cbn [fst snd]. destruct (H s Is) as [A B]. split; [exact A|]. apply Rmult_lt_0_compat; [exact B|]. apply G. exists s. auto.
Qed.
Lemma uncrossed : forall rays i, ~ crossed rays i -> track_len rays i = 0.
Proof.
  intros rays i H. unfold track_len, crossed in *. induction (concat rays) as [|s l IH]; [reflexivity|]. cbn [lsum]. destruct (Nat.eqb_spec (fst s) i) as [E|E]; [exfalso; apply H; exists s; split; [now left|exact E]|]. rewrite IH; [lra|]. intros (x & I & X). apply H. exists x. split; [now right|exact X].
Qed.
Lemma crossed_dec : forall rays i, crossed rays i \/ ~ crossed rays i.
Proof.
  intros rays i. unfold crossed. destruct (in_dec Nat.eq_dec i (map fst (concat rays))) as [I|I]; [left; apply in_map_iff in I; destruct I as (s & E & Is); eauto|right; intros (s & Is & E); apply I; apply in_map_iff; eauto].
Qed.
(** What the corrected rays of a plane cover of a region, weighted: at most the sum of the weights (for FLAT) or two (for ANGLE) times its area. *)
Definition covered (sw : list (R * R)) (rays : list (list Ray)) (i : nat) : R := lsum (fun x => snd (fst x) * fst (fst x) * track_len (map ray_segs (snd x)) i) (combine sw rays).
Lemma correct_spec : forall corr u sw rays, corr <> CorrNone -> length sw = length rays -> Forall (fun x => 0 < fst x /\ 0 < snd x) sw -> Forall (fun v => 0 < v) (up_areas u) -> Forall (rays_fine (length (up_areas u))) rays -> lsum (fun x => snd x) sw = 2 ->
  exists rays', correct_plane corr u sw rays = Some rays' /\ Forall2 (Forall2 same_slots) rays rays' /\ Forall (rays_fine (length (up_areas u))) rays' /\ forall i, (i < length (up_areas u))%nat -> covered sw rays' i <= 2 * at0 (up_areas u) i.
Proof.
  intros corr u sw rays Nc L Sw Ar Fn Wt. set (n := length (up_areas u)) in *. assert (At : forall i, (i < n)%nat -> exists t, nth_error (up_areas u) i = Some t /\ at0 (up_areas u) i = t /\ 0 < t).
  { intros i Hi. destruct (nth_error (up_areas u) i) as [t|] eqn:E; [|apply nth_error_None in E; unfold n in Hi; lia]. exists t. split; [reflexivity|]. split; [unfold at0; apply nth_error_nth; exact E|]. rewrite Forall_forall in Ar. apply Ar. eapply nth_error_In; exact E. }
  destruct corr; [| |congruence]; cbn [correct_plane]; fold n.
  - (* each angle for itself *)
    assert (G : forall sw rays, length sw = length rays -> Forall (fun x => 0 < fst x /\ 0 < snd x) sw -> Forall (rays_fine n) rays -> exists rays',
      all_some (map (fun x => match correct_flat (fst (fst x)) n (up_areas u) (map ray_segs (snd x)) with Some s => Some (with_segs (snd x) s) | None => None end) (combine sw rays)) = Some rays' /\ Forall2 (Forall2 same_slots) rays rays' /\ Forall (rays_fine n) rays' /\
      forall i, (i < n)%nat -> covered sw rays' i <= lsum (fun x => snd x) sw * at0 (up_areas u) i).
    { clear - At. induction sw as [|[sp w] sw IH]; intros [|rs rays] L Sw Fn; try discriminate.
      - exists []. split; [reflexivity|]. split; [constructor|]. split; [constructor|]. intros i Hi. unfold covered. cbn. lra.
      - apply Forall_cons_iff in Sw. destruct Sw as [[S1 S2] Sw]. cbn [fst snd] in S1, S2. apply Forall_cons_iff in Fn. destruct Fn as [F1 Fn]. destruct (IH rays ltac:(now injection L) Sw Fn) as (rays' & E & Sl & Fn' & Cv).
        pose proof (proj1 (fine_ok n rs) F1) as Ok. destruct (C29_flat sp n (up_areas u) (map ray_segs rs) S1 eq_refl Ok) as (g & Eg & Pg). destruct (with_segs_slots rs (rescaled g (map ray_segs rs))) as [W1 W2]; [unfold rescaled; rewrite !map_length; reflexivity|].
        exists (with_segs rs (rescaled g (map ray_segs rs)) :: rays'). cbn [combine map all_some fst snd]. rewrite Eg, E. split; [reflexivity|]. split; [constructor; assumption|].
        assert (Gp : forall i, crossed (map ray_segs rs) i -> 0 < g i). { intros i C. assert (Hi : (i < n)%nat) by (destruct C as (s & Is & <-); apply (Ok s Is)). destruct (At i Hi) as (t & Et & _ & Pt). apply (Pg i t C Et). exact Pt. }
        split; [constructor; [apply fine_ok; rewrite W2; now apply rescaled_ok|exact Fn']|]. intros i Hi. unfold covered. cbn [combine lsum fst snd]. fold (covered sw rays' i). specialize (Cv i Hi). rewrite W2. destruct (At i Hi) as (t & Et & Ea & Pt).
        assert (X : sp * track_len (rescaled g (map ray_segs rs)) i <= t). { destruct (crossed_dec (map ray_segs rs) i) as [C|C]; [destruct (Pg i t C Et) as [-> _]; lra|]. rewrite track_rescaled, (uncrossed _ _ C). lra. }
        rewrite Ea in Cv |- *. replace (w * sp * track_len (rescaled g (map ray_segs rs)) i) with (w * (sp * track_len (rescaled g (map ray_segs rs)) i)) by ring. assert (w * (sp * track_len (rescaled g (map ray_segs rs)) i) <= w * t) by (apply Rmult_le_compat_l; lra). lra. }
    destruct (G sw rays L Sw Fn) as (rays' & E & Sl & Fn' & Cv). exists rays'. split; [exact E|]. split; [exact Sl|]. split; [exact Fn'|]. intros i Hi. rewrite <- Wt. now apply Cv.
  - (* all angles together *)
    set (angs := map (fun x => (fst x, map ray_segs (snd x))) (combine sw rays)). assert (Oka : forall a, In a angs -> 0 < fst (fst a) /\ 0 < snd (fst a) /\ segs_ok n (snd a)).
    { intros a Ia. unfold angs in Ia. apply in_map_iff in Ia. destruct Ia as ([sx rs] & <- & Ix). cbn [fst snd]. pose proof (in_combine_l _ _ _ _ Ix) as I1. pose proof (in_combine_r _ _ _ _ Ix) as I2. rewrite Forall_forall in Sw, Fn. destruct (Sw sx I1). split; [assumption|]. split; [assumption|]. apply fine_ok. now apply Fn. }
    destruct (C29_angle n (up_areas u) angs eq_refl Oka) as (g & Eg & Pg). rewrite Eg. eexists. split; [reflexivity|].
    assert (Gp : forall i, (exists a, In a angs /\ crossed (snd a) i) -> 0 < g i). { intros i (a & Ia & C). assert (Hi : (i < n)%nat) by (destruct C as (s & Is & <-); destruct (Oka a Ia) as (_ & _ & Ok); apply (Ok s Is)). destruct (At i Hi) as (t & Et & _ & Pt). apply (Pg i t (ex_intro _ a (conj Ia C)) Et). exact Pt. }
    assert (Sh : forall (sw : list (R * R)) rays, length sw = length rays -> map (fun x => with_segs (fst x) (snd (snd x))) (combine rays (map (fun a => (fst a, rescaled g (snd a))) (map (fun x => (fst x, map ray_segs (snd x))) (combine sw rays)))) = map (fun rs => with_segs rs (rescaled g (map ray_segs rs))) rays).
    { clear. induction sw as [|x sw IH]; intros [|rs rays] L; try discriminate; [reflexivity|]. cbn [combine map fst snd]. now rewrite (IH rays ltac:(now injection L)). }
    unfold angs. rewrite (Sh sw rays L). split; [|split].
    + clear. induction rays as [|rs rays IH]; [constructor|]. cbn [map]. constructor; [|exact IH]. apply with_segs_slots. unfold rescaled. rewrite !map_length. reflexivity.
    + apply Forall_forall. intros rs' I. apply in_map_iff in I. destruct I as (rs & <- & Ir). apply fine_ok. rewrite (proj2 (with_segs_slots rs (rescaled g (map ray_segs rs)) ltac:(unfold rescaled; rewrite !map_length; reflexivity))). apply rescaled_ok; [apply fine_ok; rewrite Forall_forall in Fn; now apply Fn|].
      intros i C. apply Gp. apply In_nth_error in Ir. destruct Ir as (j & Ej). assert (Lj : (j < length sw)%nat) by (rewrite L; apply nth_error_Some; congruence). destruct (nth_error sw j) as [s|] eqn:Es; [|apply nth_error_None in Es; lia].
      exists (s, map ray_segs rs). split; [|exact C]. unfold angs. apply in_map_iff. exists (s, rs). split; [reflexivity|]. clear - Es Ej. revert rays j Es Ej. induction sw as [|x sw IH]; intros [|y rays] [|j] Es Ej; try discriminate; cbn in Es, Ej |- *; [injection Es as ->; injection Ej as ->; now left|right; eauto].
    + intros i Hi. destruct (At i Hi) as (t & Et & Ea & Pt). rewrite Ea.
      assert (X : covered sw (map (fun rs => with_segs rs (rescaled g (map ray_segs rs))) rays) i = 2 * angle_len (map (fun a => (fst a, rescaled g (snd a))) angs) i).
      { unfold covered, angle_len, angs. clear - L. revert rays L. induction sw as [|[sp w] sw IH]; intros [|rs rays] L; try discriminate; [cbn; lra|]. cbn [combine map lsum fst snd]. rewrite (IH rays ltac:(now injection L)). rewrite (proj2 (with_segs_slots rs (rescaled g (map ray_segs rs)) ltac:(unfold rescaled; rewrite !map_length; reflexivity))). field. }
      rewrite X. assert (Y : angle_len (map (fun a => (fst a, rescaled g (snd a))) angs) i <= t); [|lra].
      assert (Dc : (exists a, In a angs /\ crossed (snd a) i) \/ forall a, In a angs -> ~ crossed (snd a) i). { clear. induction angs as [|a l IH]; [right; intros a []|]. destruct (crossed_dec (snd a) i) as [C|C]; [left; exists a; split; [now left|exact C]|]. destruct IH as [(b & Ib & Cb)|Nn]; [left; exists b; split; [now right|exact Cb]|]. right. intros b [<-|Ib]; auto. }
      destruct Dc as [C|C]; [destruct (Pg i t C Et) as [-> _]; lra|]. unfold angle_len. rewrite lsum_map. cbn [fst snd]. rewrite (lsum_ext _ (fun _ => 0)); [|intros a Ia; cbn beta iota; cbn [fst snd]; rewrite track_rescaled; pose proof (uncrossed _ _ (C a Ia)) as U; unfold Segs in *; rewrite U; ring].
      clear - Pt. induction angs; cbn [lsum]; lra.
Qed.
