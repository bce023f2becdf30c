(** C27, C28: one sweep of the method of characteristics. *)
From Coq Require Import List Lia Bool Reals ZArith Lra Permutation.
From Verif Require Import RUtil ListUtil McModel MeshModel AngModel BcModel BcProofs StdAlg CoreModel CoreProofs ExpModel ExpProps MocModel MocProofs.
Import ListNotations.
Open Scope nat_scope.

(** ** C27 *)

(** Relative error allowed by the exponential table (see C63). *)
Definition table_err : R := (exp (10 / INR table_size) - 1 - 10 / INR table_size)%R.
(** [psis] solves the characteristic equation along [segs]: over a segment of length l in a region with cross section x and
    source b, the flux p becomes b + (p - b) E with E the attenuation exp(-x l / sin theta), up to the table's error. *)
Definition follows (xstr q : list R) (first : nat) (rst : R) (segs : list (nat * R)) (psis : list R) : Prop :=
  forall k sg, nth_error segs k = Some sg -> exists x b p p' E,
    nth_error xstr (fst sg + first) = Some x /\ nth_error q (fst sg + first) = Some b /\ nth_error psis k = Some p /\ nth_error psis (S k) = Some p' /\
    (p' = b + (p - b) * E)%R /\ (let t := exp (- (x * snd sg * rst)) in 0 <= E - t <= table_err * t)%R.
(** Rays whose segments have positive length and lie in regions that exist. *)
Definition good_ray (n first : nat) (ray : Ray) : Prop := Forall (fun sg => fst sg + first < n /\ (0 < snd sg)%R) (ray_segs ray).

Lemma track_follows : forall xstr first rst, (0 < rst)%R -> Forall (fun x => 0 < x)%R xstr -> forall q segs es psi ds ps, Forall (fun sg : nat * R => 0 < snd sg)%R segs ->
  Forall2 (fun sg ie => seg_etau xstr first rst sg = Some ie) segs es -> track q es psi = Some (ds, ps) -> follows xstr q first rst segs ps.
Proof.
  intros xstr first rst Hr Hx q segs. rewrite Forall_forall in Hx. induction segs as [|sg segs IH]; intros es psi ds ps Hs F T; inversion F as [|? [i e] ? es' E F']; subst; [intros [|k] s X; discriminate|].
  cbn [track] in T. destruct (nth_error q i) as [b|] eqn:Eb; [|discriminate]. destruct (track q es' _) as [[d p]|] eqn:T'; [|discriminate]. injection T as <- <-. inversion Hs as [|? ? H1 H2]; subst.
  intros [|k] s X; [|exact (IH _ _ _ _ H2 F' T' k s X)]. injection X as <-. unfold seg_etau in E. destruct (nth_error xstr (fst sg + first)) as [x|] eqn:Ex; [|discriminate].
  destruct (moc_exp (- x * snd sg * rst)%R) as [E0|] eqn:Ee; [|discriminate]. injection E as <- <-. assert (0 < x)%R by (apply Hx; eapply nth_error_In; eauto).
  destruct (track_shape _ _ _ _ _ T') as (_ & L & Hd). destruct p as [|p0 p]; [discriminate|]. cbn in Hd. subst p0.
  do 2 eexists. exists psi. do 2 eexists. split; [reflexivity|]. split; [exact Eb|]. split; [reflexivity|]. split; [reflexivity|]. split; [instantiate (1 := E0); ring|].
  unfold moc_exp in Ee. destruct (C63_error table_size (-10) 0 (- x * snd sg * rst)%R) as (r & Er & B & _); [unfold table_size; lia|lra|assert (0 < x * snd sg * rst)%R by (apply Rmult_lt_0_compat; nra); lra|].
  rewrite Er in Ee. injection Ee as <-. unfold table_err. cbn zeta in *. replace (0 - -10)%R with 10%R in B by ring. replace (- (x * snd sg * rst))%R with (- x * snd sg * rst)%R by ring. exact B.
Qed.

(** A ray with positive cross sections and segment lengths is swept without undefined behaviour; in each direction the flux
    starts from the incoming value and follows the characteristic equation. *)
Theorem C27_characteristics : forall xstr q first rst in1 in2 ray, length q = length xstr -> (0 < rst)%R -> Forall (fun x => 0 < x)%R xstr -> good_ray (length xstr) first ray ->
  exists o, sweep_ray xstr q first rst in1 in2 ray = Some o /\
    hd 0%R (ro_psi1 o) = in1 /\ follows xstr q first rst (ray_segs ray) (ro_psi1 o) /\
    last (ro_psi2 o) 0%R = in2 /\ follows xstr q first rst (rev (ray_segs ray)) (rev (ro_psi2 o)) /\
    length (ro_psi1 o) = S (length (ray_segs ray)) /\ length (ro_psi2 o) = S (length (ray_segs ray)).
Proof.
  intros xstr q first rst in1 in2 ray Lq Hr Hx G. destruct (sweep_ray_def xstr q first rst in1 in2 ray Lq Hr Hx G) as (o & E & _). exists o. split; [exact E|].
  destruct (sweep_ray_inv _ _ _ _ _ _ _ _ E) as (es & p2 & F & T1 & T2 & E2). destruct (track_shape _ _ _ _ _ T1) as (_ & L1 & H1). destruct (track_shape _ _ _ _ _ T2) as (_ & L2 & H2).
  assert (Hs : Forall (fun sg : nat * R => 0 < snd sg)%R (ray_segs ray)) by (eapply Forall_impl; [|exact G]; intros sg [_ X]; exact X).
  assert (Lf : length (ray_segs ray) = length es) by (clear - F; induction F; cbn; auto).
  split; [exact H1|]. split; [eapply track_follows; eauto|]. rewrite E2, last_rev, rev_involutive. split; [exact H2|]. split; [|rewrite rev_length, L1, L2, rev_length; lia].
  eapply track_follows; eauto; [now apply Forall_rev|]. clear - F. induction F; cbn; [constructor|]. apply Forall2_app; auto.
Qed.
Print Assumptions C27_characteristics.

(** Whatever is taken from the ray is given to the regions it crosses: the changes add up to the incoming minus the outgoing
    flux, in each direction, and each belongs to the region of its segment. *)
Theorem C27_conservation : forall xstr q first rst in1 in2 ray o, sweep_ray xstr q first rst in1 in2 ray = Some o ->
  map fst (ro_fw o) = map (fun sg => fst sg + first) (ray_segs ray) /\ map fst (ro_bw o) = map (fun sg => fst sg + first) (rev (ray_segs ray)) /\
  lsum snd (ro_fw o) = (in1 - last (ro_psi1 o) 0)%R /\ lsum snd (ro_bw o) = (in2 - hd 0 (ro_psi2 o))%R.
Proof.
  intros xstr q first rst in1 in2 ray o H. destruct (ray_conserves _ _ _ _ _ _ _ _ H) as [S1 S2].
  destruct (sweep_ray_inv _ _ _ _ _ _ _ _ H) as (es & p2 & F & T1 & T2 & E2). destruct (track_shape _ _ _ _ _ T1) as (-> & _). destruct (track_shape _ _ _ _ _ T2) as (-> & _).
  assert (M : map fst es = map (fun sg => fst sg + first) (ray_segs ray)).
  { clear - F. induction F as [|sg [i e] segs es E F IH]; [reflexivity|]. cbn. rewrite IH. f_equal. unfold seg_etau in E. destruct (nth_error _ _); [|discriminate]. destruct (moc_exp _); [|discriminate]. now injection E as <- <-. }
  split; [exact M|]. split; [now rewrite !map_rev, M|]. auto.
Qed.
Print Assumptions C27_conservation.

(** Fluxes along a ray stay between the smallest and the largest of the incoming flux and the sources it meets; in
    particular they are never negative when those are not. *)
Theorem C27_bounds : forall xstr q first rst in1 in2 ray lo hi, length q = length xstr -> (0 < rst)%R -> Forall (fun x => 0 < x)%R xstr -> good_ray (length xstr) first ray ->
  Forall (fun b => lo <= b <= hi)%R q -> (lo <= in1 <= hi)%R -> (lo <= in2 <= hi)%R ->
  exists o, sweep_ray xstr q first rst in1 in2 ray = Some o /\ Forall (fun p => lo <= p <= hi)%R (ro_psi1 o) /\ Forall (fun p => lo <= p <= hi)%R (ro_psi2 o).
Proof.
  intros xstr q first rst in1 in2 ray lo hi Lq Hr Hx G Hq H1 H2. destruct (sweep_ray_def xstr q first rst in1 in2 ray Lq Hr Hx G) as (o & E & _). exists o. split; [exact E|].
  destruct (sweep_ray_inv _ _ _ _ _ _ _ _ E) as (es & p2 & F & T1 & T2 & E2). destruct (etau_all xstr first rst (ray_segs ray) Hr Hx G) as (es' & Ee & Re & _).
  assert (es' = es) as ->. { clear - F Ee. revert es' Ee. induction F as [|sg ie segs es E F IH]; intros es' Ee; cbn [map all_some] in Ee; [now injection Ee as <-|]. rewrite E in Ee. destruct (all_some _) eqn:X; [|discriminate]. injection Ee as <-. f_equal. now apply IH. }
  rewrite Forall_forall in Hq. assert (Hb : forall i b, nth_error q i = Some b -> (lo <= b <= hi)%R) by (intros i b Eb; apply Hq; eapply nth_error_In; eauto).
  split; [apply (track_bounds _ _ _ _ _ lo hi T1); auto; intros i e I; split; [apply (Re i e I)|intros b; apply Hb]|].
  rewrite E2. apply Forall_rev. apply (track_bounds _ _ _ _ _ lo hi T2); auto. intros i e I. apply in_rev in I. split; [apply (Re i e I)|intros b; apply Hb].
Qed.
Print Assumptions C27_bounds.

(** All rays of an angle: the total deposited in the regions is the weight times (sum of incoming - sum of outgoing fluxes),
    whichever threads swept them. *)
Theorem C27_angle_balance : forall xstr q first c bin nreg nt rays s s', length (st_t s) = nt -> Forall (fun t => length t = nreg) (st_t s) -> Forall (fun tr => fst tr < nt) rays ->
  NoDup (map (fun r => ac_out1 c + ray_bc2 r) (map snd rays) ++ map (fun r => ac_out2 c + ray_bc1 r) (map snd rays)) ->
  sweep_rays xstr q first c bin rays s = Some s' ->
  (rsum (tot (st_t s')) nreg = rsum (tot (st_t s)) nreg + ac_wt c * lsum (fun r =>
     (at0 bin (ac_in1 c + ray_bc1 r) - at0 (st_out s') (ac_out1 c + ray_bc2 r)) + (at0 bin (ac_in2 c + ray_bc2 r) - at0 (st_out s') (ac_out2 c + ray_bc1 r))) (map snd rays))%R.
Proof.
  intros xstr q first c bin nreg nt rays s s' L1 L2 Ht ND E. set (nout := length (st_out s)).
  assert (Os : store_ok nreg nout nt s) by (split; [reflexivity|auto]).
  assert (AllOk : forall r, In r (map snd rays) -> ray_ok xstr q first c bin nreg nout r).
  { destruct (all_ray_ok_dec xstr q first c bin nreg nout (map snd rays)) as [G|(r & I & N)]; auto. rewrite (sweep_rays_bad _ _ _ _ _ _ _ _ _ _ r Os Ht I N) in E. discriminate. }
  destruct (sweep_rays_ok _ _ _ _ _ _ _ _ rays s Os Ht AllOk ND) as (sb & Eb & Ob & Tb & _ & Vb). rewrite E in Eb. injection Eb as <-.
  rewrite (rsum_ext _ (fun i => (tot (st_t s) i + lsum (fun r => ray_pay xstr q first c bin r i) (map snd rays))%R)) by (intros; apply Tb).
  rewrite rsum_plus, lsum_swap_rsum. f_equal. rewrite Rmult_comm, <- lsum_scal. apply lsum_ext. intros r I. destruct (AllOk r I) as (o & Eo & Do & _). destruct (Vb r o I Eo) as [V1 V2].
  rewrite (rsum_ext _ (pay (ac_wt c) (ro_fw o ++ ro_bw o))) by (intros; unfold ray_pay; now rewrite Eo).
  rewrite pay_total by exact Do. rewrite lsum_app. unfold ray_res in Eo. destruct (nth_error bin (ac_in1 c + ray_bc1 r)) as [i1|] eqn:X1; [|discriminate]. destruct (nth_error bin (ac_in2 c + ray_bc2 r)) as [i2|] eqn:X2; [|discriminate].
  destruct (ray_conserves _ _ _ _ _ _ _ _ Eo) as [-> ->]. unfold slot1 in V1. unfold slot2 in V2. unfold at0.
  now rewrite (nth_error_nth _ _ _ X1), (nth_error_nth _ _ _ X2), (nth_error_nth _ _ _ V1), (nth_error_nth _ _ _ V2).
Qed.
Print Assumptions C27_angle_balance.

(** The same for a whole angle of a plane of height [h]: the weight is quadrature weight times ray spacing times plane height
    times sin(theta) times pi, the boundary values are those of the angle and of its reverse. *)
Theorem C27_angle_weight : forall e first h iang rays din s d' s' nreg nt, length (st_t s) = nt -> Forall (fun t => length t = nreg) (st_t s) -> Forall (fun tr => fst tr < nt) rays ->
  sweep_angle e first h iang rays din s = Ok (d', s') -> exists a sp n1 n2 n3 n4 i1 i2 o1 o2, let r := Z.to_nat (reverse2 (Z.of_nat (n_oct (me_in e))) (Z.of_nat iang)) in
  nth_error (me_quad e) iang = Some a /\ nth_error (me_space e) iang = Some sp /\ get_boundary (me_in e) (me_group e) iang = Some (n1, i1) /\ get_boundary (me_in e) (me_group e) r = Some (n2, i2) /\
  get_boundary (me_out e) 0 iang = Some (n3, o1) /\ get_boundary (me_out e) 0 r = Some (n4, o2) /\
  (NoDup (map (fun r => o1 + ray_bc2 r) (map snd rays) ++ map (fun r => o2 + ray_bc1 r) (map snd rays)) ->
   (rsum (tot (st_t s')) nreg = rsum (tot (st_t s)) nreg + weight a * sp * h * sin (theta (adir a)) * PI * lsum (fun r =>
     (at0 din (i1 + ray_bc1 r) - at0 (st_out s') (o1 + ray_bc2 r)) + (at0 din (i2 + ray_bc2 r) - at0 (st_out s') (o2 + ray_bc1 r))) (map snd rays))%R).
Proof.
  intros e first h iang rays din s d' s' nreg nt L1 L2 Ht H. unfold sweep_angle in H. destruct (ang_ctx e h iang) as [c|] eqn:Ec; [|discriminate]. cbn [of_opt rbind] in H. destruct (sweep_rays (me_xstr e) (me_q e iang) first c din rays s) as [s1|] eqn:Es; [|discriminate]. cbn [of_opt rbind] in H.
  assert (s1 = s'). { destruct (me_gs e); [|congruence]. destruct (update_angle _ _ _ iang din) as [d1| |]; [|discriminate|discriminate]. cbn [rbind] in H. destruct (update_angle _ _ _ _ d1) as [d2| |]; [|discriminate|discriminate]. cbn [rbind] in H. congruence. }
  subst s1. unfold ang_ctx in Ec. fold (rev_ang (n_oct (me_in e)) iang).
  destruct (nth_error (me_quad e) iang) as [a|]; [|discriminate]. destruct (nth_error (me_space e) iang) as [sp|]; [|discriminate]. destruct (get_boundary (me_in e) (me_group e) iang) as [[n1 i1]|]; [|discriminate].
  destruct (get_boundary (me_in e) (me_group e) (rev_ang (n_oct (me_in e)) iang)) as [[n2 i2]|] eqn:B2; [|discriminate]. destruct (get_boundary (me_out e) 0 iang) as [[n3 o1]|]; [|discriminate]. destruct (get_boundary (me_out e) 0 (rev_ang (n_oct (me_in e)) iang)) as [[n4 o2]|] eqn:B4; [|discriminate]. injection Ec as <-.
  exists a, sp, n1, n2, n3, n4, i1, i2, o1, o2. cbv zeta. do 6 (split; [first [reflexivity|exact B2|exact B4]|]). exact (fun ND => C27_angle_balance _ _ _ (mkAC (weight a * sp * h * sin (theta (adir a)) * PI)%R (rsintheta (adir a)) i1 i2 o1 o2) _ nreg nt rays s s' L1 L2 Ht ND Es).
Qed.
Print Assumptions C27_angle_weight.

(** A whole sweep in a reflected medium whose source and boundary fluxes are all [c] leaves them so, and yields the scalar
    flux 4 pi c in every region: the sweep does not disturb the solution of an infinite homogeneous problem. *)
Theorem C27_infinite_medium : forall e c nreg nt ps, bc_ok (me_in e) -> sizes (me_out e) = sizes (me_in e) -> (forall s, types (me_in e) s = REFLECT) -> Forall no_gap (sizes (me_in e)) ->
  me_group e < n_group (me_in e) -> length (sizes (me_in e)) = 4 * n_oct (me_in e) -> me_gs e = true -> (forall iang, me_q e iang = repeat c nreg) ->
  length (me_xstr e) = nreg -> Forall (fun x => 0 < x)%R (me_xstr e) -> length (me_vol e) = nreg -> Forall (fun v => 0 < v)%R (me_vol e) ->
  length (me_space e) <= length (me_quad e) -> Forall (fun a => 0 < rsintheta (adir a))%R (me_quad e) -> Forall (plane_flat e c nreg nt) ps ->
  exists bs, sweep1g e nt nreg ps = Ok (repeat (4 * PI * c)%R nreg, bs) /\ length bs = length ps /\ Forall (fun d => flat_group (me_in e) (me_group e) (fst d) c) bs.
Proof.
  intros e c nreg nt ps K So Ty Ng Hg Len Gs Q Xl Xp Vl Vp Sl St Fp. unfold sweep1g.
  destruct (planes_flat e c nreg nt K So Ty Ng Hg Len Gs Q Xl Xp Sl St ps _ Fp (ts_zero nreg nt)) as (bs & ts & E & F & L & [T1 T2] & Tz). rewrite E. cbn [rbind].
  destruct (sum_threads_spec nreg ts T2) as [Ls As]. assert (Z : sum_threads nreg ts = repeat 0%R nreg).
  { apply at0_ext; [now rewrite repeat_length|]. intros i. now rewrite As, Tz, tot_zero, at0_repeat. }
  rewrite Z, Q. assert (G : forall n xs vs, length xs = n -> length vs = n -> Forall (fun x => 0 < x)%R xs -> Forall (fun v => 0 < v)%R vs -> finish (repeat 0%R n) xs vs (repeat c n) = Some (repeat (4 * PI * c)%R n)).
  { induction n as [|n IH]; intros xs vs Lx Lv Px Pv; [reflexivity|]. destruct xs as [|x xs]; [discriminate|]. destruct vs as [|v vs]; [discriminate|]. inversion Px; inversion Pv; subst. cbn in Lx, Lv. cbn [repeat finish].
    destruct (Reqb_spec (x * v) 0) as [X|X]; [assert (0 < x * v)%R by (apply Rmult_lt_0_compat; auto); lra|]. rewrite IH by (auto; lia). do 2 f_equal. unfold FPI. field. split; lra. }
  rewrite G by auto. cbn [of_opt rbind]. exists bs. auto.
Qed.
Print Assumptions C27_infinite_medium.

(** A plane of two regions with one angle per octant and two rays per angle, reflected on all sides. *)
Definition ex_a : Angle := mkAngle (mkDir (2 / 3) (1 / 3) (2 / 3) 1 1 (3 / 2)) 1.
Definition ex_bc : BC := mkBC 1 (repeat (mkSize 1 1 0) 4) (fun _ => REFLECT) 1 (repeat ex_a 4) [].
Definition ex_env : MocEnv := mkME ex_bc ex_bc 0 [1%R; 2%R] [1%R; (1 / 2)%R] (fun _ => [3%R; 3%R]) (repeat ex_a 4) [1%R; 1%R] true.
Definition ex_r1 : Ray := mkRay 0 1 [(0, 1%R); (1, (1 / 2)%R)].
Definition ex_r2 : Ray := mkRay 1 0 [(1, (1 / 3)%R)].
Definition ex_plane (rays : list (nat * Ray)) : PlaneIn := mkPI 0 1 [rays; rays] (repeat 3%R 8) (repeat 0%R 8).

Lemma ex_cover : forall iang, iang < 2 -> rays_cover ex_env iang [ex_r1; ex_r2].
Proof.
  intros iang H. exists (mkSize 1 1 0), (mkSize 1 1 0). destruct iang as [|[|iang]]; [| |lia]; cbn; repeat split; auto using perm_swap; apply perm_swap.
Qed.

Lemma ex_bc_ok : bc_ok ex_bc.
Proof.
  constructor; [cbn; lia|cbn; lia|cbn; lia|]. intros a a' n s Es R H. assert (La : a < 4) by (apply (nth_error_Some (sizes ex_bc)); congruence).
  do 4 (destruct a as [|a]; [destruct n; cbn in Es, R, H; injection Es as <-; injection R as <-; cbn in H; try lia; eexists; split; reflexivity|]). lia.
Qed.

Example C27_instance : good_ray 2 0 ex_r1 /\
  (bc_ok (me_in ex_env) /\ Forall no_gap (sizes (me_in ex_env)) /\ Forall (plane_flat ex_env 3 2 2) [ex_plane [(0, ex_r1); (1, ex_r2)]]) /\
  exists bs, sweep1g ex_env 2 2 [ex_plane [(0, ex_r1); (1, ex_r2)]] = Ok ([(4 * PI * 3)%R; (4 * PI * 3)%R], bs).
Proof.
  assert (G : good_ray 2 0 ex_r1) by (repeat constructor; cbn; lra || lia).
  assert (N : Forall no_gap (sizes (me_in ex_env))) by (apply Forall_forall; intros s Hs; apply repeat_spec in Hs; subst; split; cbn; lia).
  assert (P : Forall (plane_flat ex_env 3 2 2) [ex_plane [(0, ex_r1); (1, ex_r2)]]).
  { constructor; [|constructor]. split; [cbn; lia|]. split; [cbn; lia|]. split; [repeat constructor|]. split; [|split].
    - intros [|[|j]] rays E; cbn in E; try (injection E as <-; apply ex_cover; lia). destruct j; discriminate.
    - repeat constructor; cbn; lra || lia.
    - split; [reflexivity|]. split; [reflexivity|]. intros a n i k Sl. pose proof (slot_range _ _ _ _ _ _ Sl ltac:(cbn; lia)) as R. cbn in R.
      change (pi_in (ex_plane [(0, ex_r1); (1, ex_r2)])) with (repeat 3%R 8). rewrite (nth_error_nth' _ 0%R) by (rewrite repeat_length; lia). f_equal. apply (repeat_spec 8 3%R). apply nth_In. rewrite repeat_length. lia. }
  split; [exact G|]. split; [split; [apply ex_bc_ok|auto]|].
  destruct (C27_infinite_medium ex_env 3 2 2 [ex_plane [(0, ex_r1); (1, ex_r2)]]) as (bs & E & _); auto; try (cbn; lia).
  - apply ex_bc_ok.
  - repeat constructor; lra.
  - repeat constructor; lra.
  - repeat constructor; cbn; lra.
  - exists bs. exact E.
Qed.

(** ** C28 *)
(** How rays are shared out among threads, how many threads there are and in which order rays are swept does not change the
    outcome of the sweep (in exact arithmetic): same flux and boundary values, and undefined behaviour or an exception only
    if in both. *)
Theorem C28_schedule_independent : forall e nreg n1 n2 p1 p2, Forall2 (same_plane n1 n2) p1 p2 -> Forall (plane_fit e) p1 -> sweep1g e n1 nreg p1 = sweep1g e n2 nreg p2.
Proof.
  intros e nreg n1 n2 p1 p2 F Fit. unfold sweep1g.
  pose proof (sweep_planes_sim e nreg n1 n2 p1 p2 _ _ F Fit (ts_zero nreg n1) (ts_zero nreg n2) ltac:(intros i; now rewrite !tot_zero)) as H.
  destruct (sweep_planes e p1 _) as [[b1 t1]| |], (sweep_planes e p2 _) as [[b2 t2]| |]; cbn in H; try contradiction; try reflexivity. cbn [rbind].
  destruct H as (-> & [A1 A2] & [B1 B2] & T). destruct (sum_threads_spec nreg t1 A2) as [L1 S1]. destruct (sum_threads_spec nreg t2 B2) as [L2 S2].
  replace (sum_threads nreg t2) with (sum_threads nreg t1); [reflexivity|]. apply at0_ext; [congruence|]. intros i. rewrite S1, S2. apply T.
Qed.
Print Assumptions C28_schedule_independent.

Example C28_instance : plane_fit ex_env (ex_plane [(0, ex_r1); (1, ex_r2)]) /\ same_plane 2 3 (ex_plane [(0, ex_r1); (1, ex_r2)]) (ex_plane [(2, ex_r2); (2, ex_r1)]) /\
  sweep1g ex_env 2 2 [ex_plane [(0, ex_r1); (1, ex_r2)]] = sweep1g ex_env 3 2 [ex_plane [(2, ex_r2); (2, ex_r1)]].
Proof.
  assert (F : plane_fit ex_env (ex_plane [(0, ex_r1); (1, ex_r2)])).
  { split; [cbn; lia|]. intros [|[|j]] rays E; cbn in E; try (injection E as <-; apply cover_fit, ex_cover; lia). destruct j; discriminate. }
  assert (S1 : same_plane 2 3 (ex_plane [(0, ex_r1); (1, ex_r2)]) (ex_plane [(2, ex_r2); (2, ex_r1)])).
  { split; [reflexivity|]. split; [reflexivity|]. split; [reflexivity|]. split; [reflexivity|]. assert (X : same_rays 2 3 [(0, ex_r1); (1, ex_r2)] [(2, ex_r2); (2, ex_r1)]) by (split; [repeat constructor|split; [repeat constructor|apply perm_swap]]). constructor; [exact X|constructor; [exact X|constructor]]. }
  split; [exact F|]. split; [exact S1|]. apply C28_schedule_independent; [constructor; [exact S1|constructor]|constructor; [exact F|constructor]].
Qed.
