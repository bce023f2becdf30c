(** The MoC sweep is linear in source and boundary fluxes: lemmas for C170-C172. *)
From Coq Require Import List Bool Reals ZArith Arith Lia Lra.
From Verif Require Import RUtil ListUtil McModel MeshModel AngModel BcModel StdAlg CoreModel ExpModel MocModel.
Import ListNotations.
Open Scope nat_scope.

(** [Lin c a b d]: element by element, d is a plus c times b; [LinL] for lists of lists and [LinD] for lists of changes of regions. *)
Inductive Lin (c : R) : list R -> list R -> list R -> Prop :=
| Lin_nil : Lin c [] [] []
| Lin_cons : forall x y a b d, Lin c a b d -> Lin c (x :: a) (y :: b) ((x + c * y)%R :: d).
Inductive LinL (c : R) : list (list R) -> list (list R) -> list (list R) -> Prop :=
| LinL_nil : LinL c [] [] []
| LinL_cons : forall x y z a b d, Lin c x y z -> LinL c a b d -> LinL c (x :: a) (y :: b) (z :: d).
Inductive LinD (c : R) : list (nat * R) -> list (nat * R) -> list (nat * R) -> Prop :=
| LinD_nil : LinD c [] [] []
| LinD_cons : forall i x y a b d, LinD c a b d -> LinD c ((i, x) :: a) ((i, y) :: b) ((i, (x + c * y)%R) :: d).

Section Lin.
Variable c : R.
Notation L := (Lin c).
Notation LL := (LinL c).
Notation LD := (LinD c).

Lemma lin_len : forall a b d, L a b d -> length b = length a /\ length d = length a.
Proof. induction 1; cbn; lia. Qed.
Lemma lin_nth : forall a b d i x y, L a b d -> nth_error a i = Some x -> nth_error b i = Some y -> nth_error d i = Some (x + c * y)%R.
Proof. intros a b d i x y H. revert i. induction H; intros [|i] E1 E2; cbn in *; try discriminate; [congruence|auto]. Qed.
Lemma lin_exists : forall a b, length b = length a -> exists d, L a b d.
Proof. induction a as [|x a IH]; intros [|y b] E; cbn in E; try lia; [exists []; constructor|]. destruct (IH b) as (d & H); [lia|]. exists ((x + c * y)%R :: d). now constructor. Qed.
Lemma lin_app : forall a b d a' b' d', L a b d -> L a' b' d' -> L (a ++ a') (b ++ b') (d ++ d').
Proof. induction 1; intros; cbn; [assumption|constructor; auto]. Qed.
Lemma lin_rev : forall a b d, L a b d -> L (rev a) (rev b) (rev d).
Proof. induction 1; cbn; [constructor|]. apply lin_app; [assumption|repeat constructor]. Qed.
Lemma lin_firstn : forall n a b d, L a b d -> L (firstn n a) (firstn n b) (firstn n d).
Proof. induction n as [|n IH]; intros a b d H; [constructor|]. destruct H; cbn; constructor; auto. Qed.
Lemma lin_skipn : forall n a b d, L a b d -> L (skipn n a) (skipn n b) (skipn n d).
Proof. induction n as [|n IH]; intros a b d H; [assumption|]. destruct H; cbn; [constructor|auto]. Qed.
Lemma lin_zero : forall n, L (repeat 0%R n) (repeat 0%R n) (repeat 0%R n).
Proof. induction n as [|n IH]; cbn; [constructor|]. assert (E : 0%R = (0 + c * 0)%R) by ring. pose proof (Lin_cons c 0%R 0%R _ _ _ IH) as K. now rewrite <- E in K. Qed.
Lemma lin_hd : forall a b d, L a b d -> hd 0%R d = (hd 0%R a + c * hd 0%R b)%R.
Proof. intros a b d []; cbn; ring. Qed.
Lemma lin_last : forall a b d, L a b d -> last d 0%R = (last a 0%R + c * last b 0%R)%R.
Proof. induction 1 as [|x y a b d H IH]; [cbn; ring|]. destruct H; [reflexivity|]. exact IH. Qed.
Lemma lin_set : forall a b d i x y a' b', L a b d -> set_nth a i x = Some a' -> set_nth b i y = Some b' -> exists d', set_nth d i (x + c * y)%R = Some d' /\ L a' b' d'.
Proof.
  intros a b d i x y a' b' H. revert i a' b'. induction H as [|u v a b d H IH]; intros [|i] a' b' E1 E2; cbn in *; try discriminate.
  - injection E1 as <-. injection E2 as <-. eexists. split; [reflexivity|now constructor].
  - destruct (set_nth a i x) as [p|] eqn:P1; [|discriminate]. destruct (set_nth b i y) as [q|] eqn:P2; [|discriminate]. injection E1 as <-. injection E2 as <-. destruct (IH i p q P1 P2) as (d' & E & K). rewrite E. eexists. split; [reflexivity|now constructor].
Qed.
Lemma linl_set : forall a b d i x y z a' b', LL a b d -> L x y z -> set_nth a i x = Some a' -> set_nth b i y = Some b' -> exists d', set_nth d i z = Some d' /\ LL a' b' d'.
Proof.
  intros a b d i x y z a' b' H Hx. revert i a' b'. induction H as [|u v w a b d Hu H IH]; intros [|i] a' b' E1 E2; cbn in *; try discriminate.
  - injection E1 as <-. injection E2 as <-. eexists. split; [reflexivity|now constructor].
  - destruct (set_nth a i x) as [p|] eqn:P1; [|discriminate]. destruct (set_nth b i y) as [q|] eqn:P2; [|discriminate]. injection E1 as <-. injection E2 as <-. destruct (IH i p q P1 P2) as (d' & E & K). rewrite E. eexists. split; [reflexivity|now constructor].
Qed.
Lemma linl_nth : forall a b d i x y, LL a b d -> nth_error a i = Some x -> nth_error b i = Some y -> exists z, nth_error d i = Some z /\ L x y z.
Proof. intros a b d i x y H. revert i. induction H; intros [|i] E1 E2; cbn in *; try discriminate; [injection E1 as <-; injection E2 as <-; eauto|eauto]. Qed.
Lemma linl_zero : forall n k, LL (repeat (repeat 0%R n) k) (repeat (repeat 0%R n) k) (repeat (repeat 0%R n) k).
Proof. induction k; cbn; constructor; [apply lin_zero|assumption]. Qed.
Lemma lin_add_at : forall a b d i x y a' b', L a b d -> add_at a i x = Some a' -> add_at b i y = Some b' -> exists d', add_at d i (x + c * y)%R = Some d' /\ L a' b' d'.
Proof.
  intros a b d i x y a' b' H. revert i a' b'. induction H as [|u v a b d H IH]; intros [|i] a' b' E1 E2; cbn in *; try discriminate.
  - injection E1 as <-. injection E2 as <-. eexists. split; [reflexivity|]. replace (u + c * v + (x + c * y))%R with (u + x + c * (v + y))%R by ring. now constructor.
  - destruct (add_at a i x) as [p|] eqn:P1; [|discriminate]. destruct (add_at b i y) as [q|] eqn:P2; [|discriminate]. injection E1 as <-. injection E2 as <-. destruct (IH i p q P1 P2) as (d' & E & K). rewrite E. eexists. split; [reflexivity|now constructor].
Qed.
Lemma linD_app : forall a b d a' b' d', LD a b d -> LD a' b' d' -> LD (a ++ a') (b ++ b') (d ++ d').
Proof. induction 1; intros; cbn; [assumption|constructor; auto]. Qed.
Lemma lin_deposit : forall wt p q r a b d a' b', LD p q r -> L a b d -> deposit wt p a = Some a' -> deposit wt q b = Some b' -> exists d', deposit wt r d = Some d' /\ L a' b' d'.
Proof.
  intros wt p q r a b d a' b' H. revert a b d. induction H as [|i x y p q r H IH]; intros a b d K E1 E2; cbn [deposit] in *.
  - injection E1 as <-. injection E2 as <-. eauto.
  - destruct (add_at a i _) as [u|] eqn:P1; [|discriminate]. destruct (add_at b i _) as [v|] eqn:P2; [|discriminate]. destruct (lin_add_at _ _ _ _ _ _ _ _ K P1 P2) as (w & E & K').
    replace (x * wt + c * (y * wt))%R with ((x + c * y) * wt)%R in E by ring. rewrite E. eauto.
Qed.
Lemma lin_track : forall q1 q2 q3 es p1 p2 d1 d2 s1 s2, L q1 q2 q3 -> track q1 es p1 = Some (d1, s1) -> track q2 es p2 = Some (d2, s2) ->
  exists d3 s3, track q3 es (p1 + c * p2)%R = Some (d3, s3) /\ LD d1 d2 d3 /\ L s1 s2 s3.
Proof.
  intros q1 q2 q3 es p1 p2 d1 d2 s1 s2 H. revert p1 p2 d1 d2 s1 s2. induction es as [|[i e] es IH]; intros p1 p2 d1 d2 s1 s2 E1 E2; cbn [track] in *.
  - injection E1 as <- <-. injection E2 as <- <-. do 2 eexists. split; [reflexivity|]. split; repeat constructor.
  - destruct (nth_error q1 i) as [b1|] eqn:N1; [|discriminate]. destruct (nth_error q2 i) as [b2|] eqn:N2; [|discriminate]. rewrite (lin_nth _ _ _ _ _ _ H N1 N2).
    destruct (track q1 es _) as [[u1 v1]|] eqn:T1; [|discriminate]. destruct (track q2 es _) as [[u2 v2]|] eqn:T2; [|discriminate]. injection E1 as <- <-. injection E2 as <- <-.
    destruct (IH _ _ _ _ _ _ T1 T2) as (d3 & s3 & E & D & S3). set (pp := (p1 + c * p2)%R). set (df := ((pp - (b1 + c * b2)) * e)%R).
    assert (Q : (pp - df = p1 - (p1 - b1) * e + c * (p2 - (p2 - b2) * e))%R) by (unfold df, pp; ring). rewrite Q, E. do 2 eexists. split; [reflexivity|]. split; [|now constructor].
    replace df with ((p1 - b1) * e + c * ((p2 - b2) * e))%R by (unfold df, pp; ring). now constructor.
Qed.
Lemma lin_ray : forall xstr q1 q2 q3 first rst i1 i2 j1 j2 ray o1 o2, L q1 q2 q3 -> sweep_ray xstr q1 first rst i1 j1 ray = Some o1 -> sweep_ray xstr q2 first rst i2 j2 ray = Some o2 ->
  exists o3, sweep_ray xstr q3 first rst (i1 + c * i2)%R (j1 + c * j2)%R ray = Some o3 /\ LD (ro_fw o1) (ro_fw o2) (ro_fw o3) /\ LD (ro_bw o1) (ro_bw o2) (ro_bw o3) /\ L (ro_psi1 o1) (ro_psi1 o2) (ro_psi1 o3) /\ L (ro_psi2 o1) (ro_psi2 o2) (ro_psi2 o3).
Proof.
  intros xstr q1 q2 q3 first rst i1 i2 j1 j2 ray o1 o2 H E1 E2. unfold sweep_ray in *. destruct (all_some _) as [es|]; [|discriminate].
  destruct (track q1 es i1) as [[a1 b1]|] eqn:T1; [|discriminate]. destruct (track q1 (rev es) j1) as [[a2 b2]|] eqn:T2; [|discriminate]. destruct (track q2 es i2) as [[a3 b3]|] eqn:T3; [|discriminate]. destruct (track q2 (rev es) j2) as [[a4 b4]|] eqn:T4; [|discriminate].
  injection E1 as <-. injection E2 as <-. destruct (lin_track _ _ _ _ _ _ _ _ _ _ H T1 T3) as (d & s & E & D & S1). destruct (lin_track _ _ _ _ _ _ _ _ _ _ H T2 T4) as (d' & s' & E' & D' & S1').
  rewrite E, E'. eexists. split; [reflexivity|]. cbn [ro_fw ro_bw ro_psi1 ro_psi2]. repeat split; auto. now apply lin_rev.
Qed.
(** Storage of three sweeps. *)
Definition LinS (s1 s2 s3 : Store) : Prop := L (st_out s1) (st_out s2) (st_out s3) /\ LL (st_t s1) (st_t s2) (st_t s3).
Lemma lin_ray_step : forall xstr q1 q2 q3 first k b1 b2 b3 tr s1 s2 s3 r1 r2, L q1 q2 q3 -> L b1 b2 b3 -> LinS s1 s2 s3 ->
  ray_step xstr q1 first k b1 tr s1 = Some r1 -> ray_step xstr q2 first k b2 tr s2 = Some r2 -> exists r3, ray_step xstr q3 first k b3 tr s3 = Some r3 /\ LinS r1 r2 r3.
Proof.
  intros xstr q1 q2 q3 first k b1 b2 b3 [tid ray] s1 s2 s3 r1 r2 Hq Hb [Ho Ht] E1 E2. unfold ray_step in *.
  destruct (nth_error b1 (ac_in1 k + ray_bc1 ray)) as [u1|] eqn:A1; [|discriminate]. destruct (nth_error b1 (ac_in2 k + ray_bc2 ray)) as [v1|] eqn:A2; [|discriminate]. destruct (nth_error (st_t s1) tid) as [t1|] eqn:A3; [|discriminate].
  destruct (nth_error b2 (ac_in1 k + ray_bc1 ray)) as [u2|] eqn:B1; [|discriminate]. destruct (nth_error b2 (ac_in2 k + ray_bc2 ray)) as [v2|] eqn:B2; [|discriminate]. destruct (nth_error (st_t s2) tid) as [t2|] eqn:B3; [|discriminate].
  rewrite (lin_nth _ _ _ _ _ _ Hb A1 B1), (lin_nth _ _ _ _ _ _ Hb A2 B2). destruct (linl_nth _ _ _ _ _ _ Ht A3 B3) as (t3 & -> & Kt).
  destruct (sweep_ray xstr q1 _ _ _ _ _) as [o1|] eqn:S1; [|discriminate]. destruct (sweep_ray xstr q2 _ _ _ _ _) as [o2|] eqn:S2; [|discriminate].
  destruct (lin_ray _ _ _ _ _ _ _ _ _ _ _ _ _ Hq S1 S2) as (o3 & -> & F & B & P1 & P2).
  destruct (deposit (ac_wt k) (ro_fw o1 ++ _) t1) as [x1|] eqn:D1; [|discriminate]. destruct (deposit (ac_wt k) (ro_fw o2 ++ _) t2) as [x2|] eqn:D2; [|discriminate].
  destruct (lin_deposit _ _ _ _ _ _ _ _ _ (linD_app _ _ _ _ _ _ F B) Kt D1 D2) as (x3 & -> & Kx).
  destruct (set_nth (st_out s1) _ _) as [y1|] eqn:C1; [|discriminate]. destruct (set_nth (st_out s2) _ _) as [y2|] eqn:C2; [|discriminate]. destruct (lin_set _ _ _ _ _ _ _ _ Ho C1 C2) as (y3 & Y & Ky). rewrite (lin_last _ _ _ P1), Y.
  destruct (set_nth y1 _ _) as [z1|] eqn:G1; [|discriminate]. destruct (set_nth y2 _ _) as [z2|] eqn:G2; [|discriminate]. destruct (lin_set _ _ _ _ _ _ _ _ Ky G1 G2) as (z3 & Z & Kz). rewrite (lin_hd _ _ _ P2), Z.
  destruct (set_nth (st_t s1) _ _) as [w1|] eqn:W1; [|discriminate]. destruct (set_nth (st_t s2) _ _) as [w2|] eqn:W2; [|discriminate]. destruct (linl_set _ _ _ _ _ _ _ _ _ Ht Kx W1 W2) as (w3 & -> & Kw).
  injection E1 as <-. injection E2 as <-. eexists. split; [reflexivity|]. now split.
Qed.
Lemma lin_rays : forall xstr q1 q2 q3 first k b1 b2 b3 rays s1 s2 s3 r1 r2, L q1 q2 q3 -> L b1 b2 b3 -> LinS s1 s2 s3 ->
  sweep_rays xstr q1 first k b1 rays s1 = Some r1 -> sweep_rays xstr q2 first k b2 rays s2 = Some r2 -> exists r3, sweep_rays xstr q3 first k b3 rays s3 = Some r3 /\ LinS r1 r2 r3.
Proof.
  intros xstr q1 q2 q3 first k b1 b2 b3 rays. induction rays as [|r rays IH]; intros s1 s2 s3 r1 r2 Hq Hb Hs E1 E2; cbn [sweep_rays] in *.
  - injection E1 as <-. injection E2 as <-. eauto.
  - destruct (ray_step xstr q1 _ _ _ _ _) as [a1|] eqn:S1; [|discriminate]. destruct (ray_step xstr q2 _ _ _ _ _) as [a2|] eqn:S2; [|discriminate]. destruct (lin_ray_step _ _ _ _ _ _ _ _ _ _ _ _ _ _ _ Hq Hb Hs S1 S2) as (a3 & -> & K). eauto.
Qed.

(** Boundary updates. *)
Lemma lin_write : forall a b d off u v w a' b', L a b d -> L u v w -> write_range a off u = Some a' -> write_range b off v = Some b' -> exists d', write_range d off w = Some d' /\ L a' b' d'.
Proof.
  intros a b d off u v w a' b' H K E1 E2. unfold write_range in *. destruct (lin_len _ _ _ H) as [L1 L2]. destruct (lin_len _ _ _ K) as [K1 K2]. rewrite L2, K2. rewrite L1, K1 in E2. destruct (off + length u <=? length a); [|discriminate].
  injection E1 as <-. injection E2 as <-. eexists. split; [reflexivity|]. apply lin_app; [now apply lin_firstn|]. apply lin_app; [assumption|now apply lin_skipn].
Qed.
Lemma lin_read : forall a b d off n a' b', L a b d -> read_range a off n = Some a' -> read_range b off n = Some b' -> exists d', read_range d off n = Some d' /\ L a' b' d'.
Proof.
  intros a b d off n a' b' H E1 E2. unfold read_range in *. destruct (lin_len _ _ _ H) as [L1 L2]. rewrite L2. rewrite L1 in E2. destruct (off + n <=? length a); [|discriminate]. injection E1 as <-. injection E2 as <-. eexists. split; [reflexivity|]. apply lin_firstn. now apply lin_skipn.
Qed.
Lemma lin_face : forall t d1 d2 d3 o1 o2 o3 i o n r1 r2, L d1 d2 d3 -> L o1 o2 o3 -> apply_face t d1 o1 i o n = Ok r1 -> apply_face t d2 o2 i o n = Ok r2 -> exists r3, apply_face t d3 o3 i o n = Ok r3 /\ L r1 r2 r3.
Proof.
  intros t d1 d2 d3 o1 o2 o3 i o n r1 r2 Hd Ho E1 E2. destruct t; cbn [apply_face] in *; try discriminate.
  - destruct (read_range o1 o n) as [u|] eqn:U; [|discriminate]. destruct (read_range o2 o n) as [v|] eqn:V; [|discriminate]. destruct (lin_read _ _ _ _ _ _ _ Ho U V) as (w & -> & K).
    destruct (write_range d1 i u) as [a|] eqn:A; [|discriminate]. destruct (write_range d2 i v) as [b|] eqn:B; [|discriminate]. injection E1 as <-. injection E2 as <-. destruct (lin_write _ _ _ _ _ _ _ _ _ Hd K A B) as (d' & -> & K'). eauto.
  - destruct (write_range d1 i _) as [a|] eqn:A; [|discriminate]. destruct (write_range d2 i _) as [b|] eqn:B; [|discriminate]. injection E1 as <-. injection E2 as <-. destruct (lin_write _ _ _ _ _ _ _ _ _ Hd (lin_zero n) A B) as (d' & -> & K). eauto.
  - injection E1 as <-. injection E2 as <-. eauto.
Qed.
Lemma lin_faces : forall b bo o1 o2 o3 g a norms d1 d2 d3 r1 r2, L o1 o2 o3 -> L d1 d2 d3 -> update_faces b (with_data bo o1) g a norms d1 = Ok r1 -> update_faces b (with_data bo o2) g a norms d2 = Ok r2 ->
  exists r3, update_faces b (with_data bo o3) g a norms d3 = Ok r3 /\ L r1 r2 r3.
Proof.
  intros b bo o1 o2 o3 g a norms. induction norms as [|n norms IH]; intros d1 d2 d3 r1 r2 Ho Hd E1 E2; cbn [update_faces with_data sizes data] in *.
  - injection E1 as <-. injection E2 as <-. eauto.
  - destruct (nth_error (sizes b) a) as [s|]; [|discriminate]. destruct (reflect _ _ n) as [ia|]; [|discriminate]. destruct (face_size s n =? 0); [injection E1 as <-; injection E2 as <-; eauto|].
    destruct (nth_error (quad b) _) as [an|]; [|discriminate]. destruct (nth_error (BcModel.offsets 0 (sizes b)) _) as [oi|]; [|discriminate]. destruct (nth_error (BcModel.offsets 0 (sizes bo)) a) as [oo|]; [|discriminate].
    destruct (apply_face _ d1 _ _ _ _) as [x1| |] eqn:F1; try discriminate. destruct (apply_face _ d2 _ _ _ _) as [x2| |] eqn:F2; try discriminate. destruct (lin_face _ _ _ _ _ _ _ _ _ _ _ _ Hd Ho F1 F2) as (x3 & -> & K). eauto.
Qed.
Lemma lin_upd_angles : forall b bo o1 o2 o3 g angs d1 d2 d3 r1 r2, L o1 o2 o3 -> L d1 d2 d3 -> update_angles b (with_data bo o1) g angs d1 = Ok r1 -> update_angles b (with_data bo o2) g angs d2 = Ok r2 ->
  exists r3, update_angles b (with_data bo o3) g angs d3 = Ok r3 /\ L r1 r2 r3.
Proof.
  intros b bo o1 o2 o3 g angs. induction angs as [|a angs IH]; intros d1 d2 d3 r1 r2 Ho Hd E1 E2; cbn [update_angles] in *.
  - injection E1 as <-. injection E2 as <-. eauto.
  - destruct (update_angle b _ g a d1) as [x1| |] eqn:F1; try discriminate. destruct (update_angle b _ g a d2) as [x2| |] eqn:F2; try discriminate. destruct (lin_faces _ _ _ _ _ _ _ _ _ _ _ _ _ Ho Hd F1 F2) as (x3 & E & K). unfold update_angle in *. rewrite E. eauto.
Qed.

(** One group. *)
Variables (bi bo : BC) (g : nat) (xstr vol : list R) (quad0 : list Angle) (space : list R) (gs : bool).
Definition env3 (q : nat -> list R) : MocEnv := mkME bi bo g xstr vol q quad0 space gs.
Variables (q1 q2 q3 : nat -> list R).
Hypothesis Hq : forall i, L (q1 i) (q2 i) (q3 i).
Lemma lin_angle : forall first h iang rays d1 d2 d3 s1 s2 s3 x1 r1 x2 r2, L d1 d2 d3 -> LinS s1 s2 s3 ->
  sweep_angle (env3 q1) first h iang rays d1 s1 = Ok (x1, r1) -> sweep_angle (env3 q2) first h iang rays d2 s2 = Ok (x2, r2) ->
  exists x3 r3, sweep_angle (env3 q3) first h iang rays d3 s3 = Ok (x3, r3) /\ L x1 x2 x3 /\ LinS r1 r2 r3.
Proof.
  intros first h iang rays d1 d2 d3 s1 s2 s3 x1 r1 x2 r2 Hd Hs E1 E2. unfold sweep_angle in *. change (ang_ctx (env3 q2) h iang) with (ang_ctx (env3 q1) h iang) in E2. change (ang_ctx (env3 q3) h iang) with (ang_ctx (env3 q1) h iang).
  destruct (ang_ctx (env3 q1) h iang) as [k|]; [|discriminate]. cbn [of_opt rbind env3 me_in me_out me_group me_xstr me_q me_gs] in *.
  destruct (sweep_rays xstr (q1 iang) _ _ _ _ _) as [y1|] eqn:S1; [|discriminate]. destruct (sweep_rays xstr (q2 iang) _ _ _ _ _) as [y2|] eqn:S2; [|discriminate]. destruct (lin_rays _ _ _ _ _ _ _ _ _ _ _ _ _ _ _ (Hq iang) Hd Hs S1 S2) as (y3 & -> & K). cbn [of_opt rbind] in *.
  destruct gs; [|injection E1 as <- <-; injection E2 as <- <-; eauto].
  destruct (update_angle bi _ g iang d1) as [u1| |] eqn:U1; try discriminate. destruct (update_angle bi _ g iang d2) as [u2| |] eqn:U2; try discriminate. cbn [rbind] in *.
  destruct (lin_faces _ _ _ _ _ _ _ _ _ _ _ _ _ (proj1 K) Hd U1 U2) as (u3 & U3 & Ku). unfold update_angle at 1. rewrite U3. cbn [rbind].
  destruct (update_angle bi _ g _ u1) as [v1| |] eqn:V1; try discriminate. destruct (update_angle bi _ g _ u2) as [v2| |] eqn:V2; try discriminate. cbn [rbind] in *. injection E1 as <- <-. injection E2 as <- <-.
  destruct (lin_faces _ _ _ _ _ _ _ _ _ _ _ _ _ (proj1 K) Ku V1 V2) as (v3 & V3 & Kv). unfold update_angle. rewrite V3. cbn [rbind]. eauto.
Qed.
Lemma lin_angles : forall first h angs iang d1 d2 d3 s1 s2 s3 x1 r1 x2 r2, L d1 d2 d3 -> LinS s1 s2 s3 ->
  sweep_angles (env3 q1) first h iang angs d1 s1 = Ok (x1, r1) -> sweep_angles (env3 q2) first h iang angs d2 s2 = Ok (x2, r2) ->
  exists x3 r3, sweep_angles (env3 q3) first h iang angs d3 s3 = Ok (x3, r3) /\ L x1 x2 x3 /\ LinS r1 r2 r3.
Proof.
  intros first h angs. induction angs as [|rays angs IH]; intros iang d1 d2 d3 s1 s2 s3 x1 r1 x2 r2 Hd Hs E1 E2; cbn [sweep_angles] in *.
  - injection E1 as <- <-. injection E2 as <- <-. eauto.
  - destruct (sweep_angle (env3 q1) _ _ _ _ _ _) as [[u1 y1]| |] eqn:S1; try discriminate. destruct (sweep_angle (env3 q2) _ _ _ _ _ _) as [[u2 y2]| |] eqn:S2; try discriminate. cbn [rbind] in *.
    destruct (lin_angle _ _ _ _ _ _ _ _ _ _ _ _ _ _ Hd Hs S1 S2) as (u3 & y3 & -> & Ku & Ky). cbn [rbind]. eauto.
Qed.
(** Three sets of planes with the same rays. *)
Inductive LinP : list PlaneIn -> list PlaneIn -> list PlaneIn -> Prop :=
| LinP_nil : LinP [] [] []
| LinP_cons : forall f h r i1 o1 i2 o2 i3 o3 ps1 ps2 ps3, L i1 i2 i3 -> L o1 o2 o3 -> LinP ps1 ps2 ps3 -> LinP (mkPI f h r i1 o1 :: ps1) (mkPI f h r i2 o2 :: ps2) (mkPI f h r i3 o3 :: ps3).
(** Three sets of boundary data. *)
Inductive LinB : list (list R * list R) -> list (list R * list R) -> list (list R * list R) -> Prop :=
| LinB_nil : LinB [] [] []
| LinB_cons : forall i1 o1 i2 o2 i3 o3 b1 b2 b3, L i1 i2 i3 -> L o1 o2 o3 -> LinB b1 b2 b3 -> LinB ((i1, o1) :: b1) ((i2, o2) :: b2) ((i3, o3) :: b3).
Lemma lin_planes : forall ps1 ps2 ps3 t1 t2 t3 b1 r1 b2 r2, LinP ps1 ps2 ps3 -> LL t1 t2 t3 -> sweep_planes (env3 q1) ps1 t1 = Ok (b1, r1) -> sweep_planes (env3 q2) ps2 t2 = Ok (b2, r2) ->
  exists b3 r3, sweep_planes (env3 q3) ps3 t3 = Ok (b3, r3) /\ LinB b1 b2 b3 /\ LL r1 r2 r3.
Proof.
  intros ps1 ps2 ps3 t1 t2 t3 b1 r1 b2 r2 H. revert t1 t2 t3 b1 r1 b2 r2. induction H as [|f h r i1 o1 i2 o2 i3 o3 ps1 ps2 ps3 Hi Ho H IH]; intros t1 t2 t3 b1 r1 b2 r2 Ht E1 E2; cbn [sweep_planes pi_first pi_height pi_rays pi_in pi_out] in *.
  - injection E1 as <- <-. injection E2 as <- <-. do 2 eexists. split; [reflexivity|]. split; [constructor|assumption].
  - destruct (sweep_angles (env3 q1) _ _ _ _ _ _) as [[u1 y1]| |] eqn:S1; try discriminate. destruct (sweep_angles (env3 q2) _ _ _ _ _ _) as [[u2 y2]| |] eqn:S2; try discriminate. cbn [rbind] in *.
    destruct (lin_angles _ _ _ _ _ _ _ (mkSt o1 t1) (mkSt o2 t2) (mkSt o3 t3) _ _ _ _ Hi (conj Ho Ht) S1 S2) as (u3 & y3 & -> & Ku & Ky1 & Ky2). cbn [rbind].
    assert (X : exists v1 v2 v3, (if me_gs (env3 q1) then Ok u1 else update_group (me_in (env3 q1)) (with_data (me_out (env3 q1)) (st_out y1)) (me_group (env3 q1)) u1) = Ok v1 /\
      (if me_gs (env3 q2) then Ok u2 else update_group (me_in (env3 q2)) (with_data (me_out (env3 q2)) (st_out y2)) (me_group (env3 q2)) u2) = Ok v2 /\
      (if me_gs (env3 q3) then Ok u3 else update_group (me_in (env3 q3)) (with_data (me_out (env3 q3)) (st_out y3)) (me_group (env3 q3)) u3) = Ok v3 /\ L v1 v2 v3).
    { cbn [env3 me_gs me_in me_out me_group] in *. destruct gs; [exists u1, u2, u3; auto|]. destruct (update_group bi _ g u1) as [v1| |] eqn:U1; try discriminate. destruct (update_group bi _ g u2) as [v2| |] eqn:U2; try discriminate.
      destruct (lin_upd_angles _ _ _ _ _ _ _ _ _ _ _ _ Ky1 Ku U1 U2) as (v3 & V3 & Kv). exists v1, v2, v3. unfold update_group. auto. }
    destruct X as (v1 & v2 & v3 & V1 & V2 & V3 & Kv). rewrite V1 in E1. rewrite V2 in E2. rewrite V3. cbn [rbind] in *.
    destruct (sweep_planes (env3 q1) ps1 _) as [[c1 w1]| |] eqn:P1; try discriminate. destruct (sweep_planes (env3 q2) ps2 _) as [[c2 w2]| |] eqn:P2; try discriminate. cbn [rbind] in *. injection E1 as <- <-. injection E2 as <- <-.
    destruct (IH _ _ _ _ _ _ _ Ky2 P1 P2) as (c3 & w3 & -> & Kc & Kw). cbn [rbind]. do 2 eexists. split; [reflexivity|]. split; [now constructor|assumption].
Qed.
Lemma lin_add_lists : forall a b d a' b' d', L a b d -> L a' b' d' -> L (add_lists a a') (add_lists b b') (add_lists d d').
Proof. intros a b d a' b' d' H. revert a' b' d'. induction H as [|x y a b d H IH]; intros a' b' d' K; [constructor|]. destruct K as [|u v a' b' d' K]; cbn; [constructor|]. replace (x + c * y + (u + c * v))%R with (x + u + c * (y + v))%R by ring. constructor. auto. Qed.
Lemma lin_threads : forall n t1 t2 t3, LL t1 t2 t3 -> L (sum_threads n t1) (sum_threads n t2) (sum_threads n t3).
Proof. intros n t1 t2 t3 H. unfold sum_threads. generalize (lin_zero n). generalize (repeat 0%R n) at 1 4. generalize (repeat 0%R n) at 1 3. generalize (repeat 0%R n). induction H as [|x y z a b d Hx H IH]; intros u v w K; cbn; [assumption|]. apply IH. now apply lin_add_lists. Qed.
Lemma lin_finish : forall a1 a2 a3 p1 p2 p3 f1 f2, L a1 a2 a3 -> L p1 p2 p3 -> finish a1 xstr vol p1 = Some f1 -> finish a2 xstr vol p2 = Some f2 -> exists f3, finish a3 xstr vol p3 = Some f3 /\ L f1 f2 f3.
Proof.
  intros a1 a2 a3 p1 p2 p3 f1 f2 H. revert p1 p2 p3 f1 f2. generalize xstr as xs. generalize vol as vs. induction H as [|x y a b d H IH]; intros vs xs p1 p2 p3 f1 f2 K E1 E2; cbn [finish] in *.
  - injection E1 as <-. injection E2 as <-. exists []. split; [reflexivity|constructor].
  - destruct xs as [|u xs]; [discriminate|]. destruct vs as [|v vs]; [discriminate|]. destruct K as [|r s p1 p2 p3 K]; [discriminate|]. destruct (Reqb_spec (u * v) 0) as [|Nz]; [discriminate|].
    destruct (finish a xs vs p1) as [g1|] eqn:F1; [|discriminate]. destruct (finish b xs vs p2) as [g2|] eqn:F2; [|discriminate]. injection E1 as <-. injection E2 as <-. destruct (IH _ _ _ _ _ _ _ K F1 F2) as (g3 & -> & Kg). eexists. split; [reflexivity|].
    replace ((x + c * y) / (u * v) + (r + c * s) * FPI)%R with (x / (u * v) + r * FPI + c * (y / (u * v) + s * FPI))%R by (unfold Rdiv; ring). now constructor.
Qed.
Lemma lin_sweep1g : forall nt n ps1 ps2 ps3 f1 b1 f2 b2, LinP ps1 ps2 ps3 -> sweep1g (env3 q1) nt n ps1 = Ok (f1, b1) -> sweep1g (env3 q2) nt n ps2 = Ok (f2, b2) ->
  exists f3 b3, sweep1g (env3 q3) nt n ps3 = Ok (f3, b3) /\ L f1 f2 f3 /\ LinB b1 b2 b3.
Proof.
  intros nt n ps1 ps2 ps3 f1 b1 f2 b2 H E1 E2. unfold sweep1g in *. destruct (sweep_planes (env3 q1) ps1 _) as [[c1 w1]| |] eqn:P1; try discriminate. destruct (sweep_planes (env3 q2) ps2 _) as [[c2 w2]| |] eqn:P2; try discriminate. cbn [rbind] in *.
  destruct (lin_planes _ _ _ _ _ _ _ _ _ _ H (linl_zero n nt) P1 P2) as (c3 & w3 & -> & Kc & Kw). cbn [rbind env3 me_xstr me_vol me_q] in *.
  destruct (finish (sum_threads n w1) xstr vol (q1 0)) as [x1|] eqn:F1; [|discriminate]. destruct (finish (sum_threads n w2) xstr vol (q2 0)) as [x2|] eqn:F2; [|discriminate]. cbn [of_opt rbind] in *. injection E1 as <- <-. injection E2 as <- <-.
  destruct (lin_finish _ _ _ _ _ _ _ _ (lin_threads n _ _ _ Kw) (Hq 0) F1 F2) as (x3 & -> & Kx). cbn [of_opt rbind]. eauto.
Qed.
End Lin.
