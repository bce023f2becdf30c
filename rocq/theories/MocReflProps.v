(** C185-C186: MoC calculations with reflecting boundaries converge. *)
From Coq Require Import List Bool Reals ZArith Arith Lia Lra Permutation.
From Verif Require Import RUtil ListUtil McModel MeshModel AngModel BcModel BcProofs StdAlg CoreModel CoreProofs ScatModel ScatProofs MatModel ExpModel MocModel MocProofs MocProps XsModel SrcModel HomProps SrcProps SolModel SolProps MgModel MgProps MgInnerProps SnGroupProps EigProps MocMaxProps MocEigProps MocLinProofs MocConvProps FixModel FixProofs FixProps MocReflProofs.
Import ListNotations.
Open Scope nat_scope.

(** Rays follow every angle, and every ray crosses some region. *)
Definition crossed (m : MocStatic) : Prop := forall f h rays, In (f, h, rays) (ms_planes m) -> length rays = 2 * n_oct (ms_in m) /\ Forall (fun rs => Forall (fun tr => ray_segs (snd tr) <> []) rs) rays.
(** The incoming fluxes of group [g] over sides with a prescribed flux. *)
Definition pres_same (m : MocStatic) (g : nat) (ds1 ds2 : list (list R * list R)) : Prop :=
  Forall2 (fun d1 d2 => forall a n i k, slot (ms_in m) g a n i k -> type_at (ms_in m) a n = Some PRESCRIBED -> at0 (fst d1) k = at0 (fst d2) k) ds1 ds2.

Lemma planes_lin_at : forall m ds1 ds2, length ds1 = length (ms_planes m) -> length ds2 = length (ms_planes m) -> Forall (bdry_shape m) ds1 -> Forall (bdry_shape m) ds2 ->
  exists ds3, length ds3 = length (ms_planes m) /\ Forall (bdry_shape m) ds3 /\ LinP (-1) (planes_of m ds1) (planes_of m ds2) (planes_of m ds3) /\
    (forall (Z : nat -> Prop) lo hi, Forall2 (fun d1 d2 => forall k, Z k -> (lo <= at0 (fst d1) k - at0 (fst d2) k <= hi)%R) ds1 ds2 -> Forall (fun d => forall k, Z k -> (lo <= at0 (fst d) k <= hi)%R) ds3).
Proof.
  intros m. unfold planes_of. generalize (ms_planes m) as pl. induction pl as [|[[f h] r] pl IH]; intros [|[i1 o1] ds1] [|[i2 o2] ds2] L1 L2 F1 F2; try discriminate.
  - exists []. split; [reflexivity|]. split; [constructor|]. split; [constructor|]. constructor.
  - apply Forall_cons_iff in F1. destruct F1 as [[A1 A2] F1]. apply Forall_cons_iff in F2. destruct F2 as [[B1 B2] F2]. cbn [fst snd] in *.
    destruct (IH ds1 ds2) as (ds3 & L3 & F3 & P3 & N3); [now injection L1|now injection L2|assumption|assumption|].
    destruct (lin_exists (-1) i1 i2) as (i3 & Hi); [congruence|]. destruct (lin_exists (-1) o1 o2) as (o3 & Ho); [congruence|].
    exists ((i3, o3) :: ds3). split; [cbn; now rewrite L3|]. split; [constructor; [|assumption]; split; cbn [fst snd]; [now rewrite (proj2 (lin_len _ _ _ _ Hi))|now rewrite (proj2 (lin_len _ _ _ _ Ho))]|].
    split; [cbn; now constructor|]. intros Z lo hi N. inversion N as [|? ? ? ? N1 N2]; subst. constructor; [|now apply N3]. intros k Sx. cbn [fst]. rewrite (lin_at0 _ _ _ _ _ Hi). specialize (N1 k Sx). cbn [fst] in N1. lra.
Qed.
Lemma linB_at : forall (Z : nat -> Prop) lo hi b1 b2 b3, LinB (-1) b1 b2 b3 -> Forall (fun d => forall k, Z k -> (lo <= at0 (fst d) k <= hi)%R) b3 -> Forall2 (fun d1 d2 => forall k, Z k -> (lo <= at0 (fst d1) k - at0 (fst d2) k <= hi)%R) b1 b2.
Proof.
  intros Z lo hi b1 b2 b3 H. induction H as [|i1 o1 i2 o2 i3 o3 b1 b2 b3 Hi Ho H IH]; intros F; [constructor|]. apply Forall_cons_iff in F. destruct F as [F1 F]. constructor; [|now apply IH]. intros k Sx. specialize (F1 k Sx). cbn [fst] in *. rewrite (lin_at0 _ _ _ _ _ Hi) in F1. lra.
Qed.
Lemma F2_right : forall {A B} (P : A -> B -> Prop) (Q : B -> Prop) l1 l2, (forall a b, P a b -> Q b) -> Forall2 P l1 l2 -> Forall Q l2.
Proof. intros A B P Q l1 l2 H F. induction F; constructor; eauto. Qed.
Lemma F2_impl : forall {A B} (P Q : A -> B -> Prop) l1 l2, (forall a b, P a b -> Q a b) -> Forall2 P l1 l2 -> Forall2 Q l1 l2.
Proof. intros A B P Q l1 l2 H F. induction F; constructor; auto. Qed.

Section Thin.
Variables (m : MocStatic) (ng : nat) (sct : XReg -> nat -> nat -> R).
Hypothesis P : moc_problem m ng sct.
Hypothesis Cr : crossed m.
(** No ray lets through more than [th], in any group. *)
Definition thin_all (th : R) : Prop := forall g q f h rays j rs, g < ng -> In (f, h, rays) (ms_planes m) -> nth_error rays j = Some rs -> thin (env_of m g q) th f j rs.
Lemma thin_some : exists th, (0 <= th < 1)%R /\ thin_all th.
Proof.
  destruct (below_one (flat_map (fun g => flat_map (fun p : nat * R * list (list (nat * Ray)) => flat_map (fun an => flat_map (fun rs => map (fun tr : nat * Ray => ray_att (ms_xstr m g) (fst (fst p)) (rsintheta (adir an)) (snd tr)) rs) (snd p)) (ms_quad m)) (ms_planes m)) (seq 0 ng))) as (th & T & F).
  - apply Forall_forall. intros v I. apply in_flat_map in I. destruct I as (g & Ig & I). apply in_seq in Ig. apply in_flat_map in I. destruct I as ([[f h] rays] & Ip & I). cbn [fst snd] in I. apply in_flat_map in I. destruct I as (an & Ia & I). apply in_flat_map in I. destruct I as (rs & Ir & I). apply in_map_iff in I. destruct I as (tr & <- & It).
    destruct (mp_xstr m ng sct P g ltac:(lia)) as [X1 X2]. pose proof (proj1 (Forall_forall _ _) (mp_quad m ng sct P) an Ia) as (_ & W & _). destruct (mp_planes m ng sct P f h rays Ip) as (_ & _ & _ & _ & _ & _ & A7). pose proof (proj1 (Forall_forall _ _) A7 rs Ir) as S7. cbn beta in S7. rewrite Forall_forall in S7.
    destruct (Cr f h rays Ip) as [_ C2]. pose proof (proj1 (Forall_forall _ _) C2 rs Ir) as C3. cbn beta in C3. rewrite Forall_forall in C3. apply (ray_att_lt _ (ms_nreg m)); auto. apply S7. now apply in_map.
  - exists th. split; [exact T|]. intros g q f h rays j rs Hg Ip Ej an Ea. cbn [env_of me_quad me_xstr] in *. apply Forall_forall. intros r I. rewrite Forall_forall in F. apply F. apply in_map_iff in I. destruct I as (tr & <- & It).
    apply in_flat_map. exists g. split; [apply in_seq; lia|]. apply in_flat_map. exists (f, h, rays). split; [exact Ip|]. cbn [fst snd]. apply in_flat_map. exists an. split; [eapply nth_error_In; eauto|]. apply in_flat_map. exists rs. split; [eapply nth_error_In; eauto|].
    apply (in_map (fun tr : nat * Ray => ray_att (ms_xstr m g) f (rsintheta (adir an)) (snd tr))). exact It.
Qed.

Lemma abs_in : forall x M, (Rabs x <= M)%R -> (- M <= x <= M)%R.
Proof. intros x M H. pose proof (Rle_abs x). pose proof (Rle_abs (- x)). rewrite Rabs_Ropp in *. lra. Qed.
Lemma sweep_fade : forall th g q Q B ds f bs, (0 <= th <= 1)%R -> thin_all th -> g < ng -> length q = ms_nreg m -> (0 <= Q <= B)%R -> (forall i, i < ms_nreg m -> (- Q <= at0 q i <= Q)%R) -> length ds = length (ms_planes m) -> Forall (bdry_shape m) ds ->
  Forall (fun d => forall a n i k, slot (ms_in m) g a n i k -> (- B <= at0 (fst d) k <= B)%R) ds -> Forall (fun d => forall a n i k, slot (ms_in m) g a n i k -> type_at (ms_in m) a n = Some PRESCRIBED -> at0 (fst d) k = 0%R) ds ->
  sweep1g (env_of m g q) (ms_nt m) (ms_nreg m) (planes_of m ds) = Ok (f, bs) ->
  Forall (fun d => forall a n i k, slot (ms_in m) g a n i k -> (- (Q + th * (B - Q)) <= at0 (fst d) k <= Q + th * (B - Q))%R /\ (type_at (ms_in m) a n = Some PRESCRIBED -> at0 (fst d) k = 0%R)) bs.
Proof.
  intros th g q Q B ds f bs Ht Th Hg Lq HB Bq Ld Fs Fb Fz E. pose proof (planes_ok m ng sct P g q (- B) B ds Hg Fs Fb) as Fp. destruct (mp_xstr m ng sct P g Hg) as [X1 X2]. destruct (mp_vol m ng sct P) as [V1 V2]. destruct (mp_space m ng sct P) as [S1 S2].
  unfold sweep1g in E. destruct (sweep_planes _ _ _) as [[bs0 ts]| |] eqn:Esw; try discriminate. cbn [rbind] in E. destruct (finish _ _ _ _) as [f0|]; [|discriminate]. cbn [of_opt rbind] in E. injection E as <- <-.
  assert (Ft : Forall (fun p => plane_thin (env_of m g q) th (fun _ => 0%R) p) (planes_of m ds)).
  { unfold planes_of. apply Forall_forall. intros p I. apply in_map_iff in I. destruct I as ([[[f1 h] rays] d] & <- & I). apply in_combine_l in I as I1. apply in_combine_r in I as I2. cbn [fst snd plane_in]. split; [exact (proj1 (Cr f1 h rays I1))|]. split.
    - intros j rs Ej. cbn [pi_first pi_rays] in *. exact (Th g q f1 h rays j rs Hg I1 Ej).
    - cbn [pi_in]. intros a n i k Sx Ty. cbn [env_of me_in me_group] in *. rewrite Forall_forall in Fz, Fs. pose proof (Fz d I2 a n i k Sx Ty) as Z. assert (K : k < length (fst d)). { rewrite (proj1 (Fs d I2)). apply (slot_range _ _ _ _ _ _ Sx). rewrite (mp_ng m ng sct P). exact Hg. }
      change (nth_error (fst d) k = Some 0%R). rewrite (nth_error_nth' _ 0%R K). f_equal. exact Z. }
  pose proof (planes_fade (env_of m g q) q Q B th (ms_nreg m) (ms_nt m) (mp_bc m ng sct P) (mp_out m ng sct P) (mp_sup m ng sct P) (mp_gap m ng sct P)) as PF.
  assert (Hg' : me_group (env_of m g q) < n_group (me_in (env_of m g q))) by (cbn; rewrite (mp_ng m ng sct P); exact Hg).
  assert (Qb : forall j c, nth_error q j = Some c -> (Rabs c <= Q)%R). { intros j c Ec. apply Rabs_le. specialize (Bq j ltac:(rewrite <- Lq; apply nth_error_Some; congruence)). unfold at0 in Bq. now rewrite (nth_error_nth _ _ _ Ec) in Bq. }
  specialize (PF Hg' (mp_len m ng sct P) (fun _ => eq_refl) Lq HB Qb Ht X1 X2 S1 S2 (mp_quad m ng sct P) (fun _ _ => 0%R) (planes_of m ds)).
  assert (C0 : (0 <= Q + th * (B - Q))%R) by (assert (0 <= th * (B - Q))%R by (apply Rmult_le_pos; lra); lra). specialize (PF _ _ _ (fun _ _ _ _ _ _ _ _ => Rle_trans _ _ _ (Req_le _ _ Rabs_R0) C0) Fp Ft (ts_zero (ms_nreg m) (ms_nt m)) Esw). apply F2_right with (Q := faded (env_of m g q) Q B th (fun _ => 0%R)) in PF; [|auto].
  eapply Forall_impl; [|exact PF]. intros [d o] [Z1 Z2] a n i k Sx. cbn [fst] in *. destruct (Z2 a n i k Sx) as (v & Ev & Bv). split; [unfold at0; rewrite (nth_error_nth _ _ _ Ev); now apply abs_in|]. intros Ty. unfold at0. now rewrite (nth_error_nth _ _ _ (Z1 a n i k Sx Ty)).
Qed.
(** Two sweeps compared. *)
Lemma sweep_two : forall th g q1 q2 Q B ds1 ds2 f1 b1 f2 b2, (0 <= th <= 1)%R -> thin_all th -> g < ng -> length q1 = ms_nreg m -> length q2 = ms_nreg m -> length ds1 = length (ms_planes m) -> length ds2 = length (ms_planes m) -> Forall (bdry_shape m) ds1 -> Forall (bdry_shape m) ds2 ->
  (0 <= Q <= B)%R -> (forall i, i < ms_nreg m -> (- Q <= at0 q1 i - at0 q2 i <= Q)%R) -> near m g (- B) B ds1 ds2 -> pres_same m g ds1 ds2 ->
  sweep1g (env_of m g q1) (ms_nt m) (ms_nreg m) (planes_of m ds1) = Ok (f1, b1) -> sweep1g (env_of m g q2) (ms_nt m) (ms_nreg m) (planes_of m ds2) = Ok (f2, b2) ->
  (forall i, i < ms_nreg m -> (- (4 * PI * B) <= at0 f1 i - at0 f2 i <= 4 * PI * B)%R) /\ near m g (- (Q + th * (B - Q))) (Q + th * (B - Q)) b1 b2 /\ pres_same m g b1 b2.
Proof.
  intros th g q1 q2 Q B ds1 ds2 f1 b1 f2 b2 Ht Th Hg L1 L2 D1 D2 F1 F2 HB Bq N Ps E1 E2. destruct (planes_lin_at m ds1 ds2 D1 D2 F1 F2) as (ds3 & D3 & F3 & P3 & N3). destruct (lin_exists (-1) q1 q2) as (q3 & Hq); [congruence|].
  assert (Lq : length q3 = ms_nreg m) by (now rewrite (proj2 (lin_len _ _ _ _ Hq))).
  assert (Bq3 : forall i, i < ms_nreg m -> (- Q <= at0 q3 i <= Q)%R) by (intros i Hi; rewrite (lin_at0 _ _ _ _ _ Hq); specialize (Bq i Hi); lra).
  assert (N3' : Forall (fun d => forall a n i k, slot (ms_in m) g a n i k -> (- B <= at0 (fst d) k <= B)%R) ds3).
  { eapply Forall_impl; [|apply (N3 (fun k => exists a n i, slot (ms_in m) g a n i k))]; [intros d H a n i k Sx; apply H; eauto|]. eapply F2_impl; [|exact N]. intros d1 d2 H k (a & n & i & Sx). exact (H a n i k Sx). }
  assert (Z3 : Forall (fun d => forall a n i k, slot (ms_in m) g a n i k -> type_at (ms_in m) a n = Some PRESCRIBED -> at0 (fst d) k = 0%R) ds3).
  { eapply Forall_impl; [|apply (N3 (fun k => exists a n i, slot (ms_in m) g a n i k /\ type_at (ms_in m) a n = Some PRESCRIBED) 0%R 0%R)]; [intros d H a n i k Sx Ty; specialize (H k ltac:(eauto)); cbn beta in H; lra|]. eapply F2_impl; [|exact Ps]. intros d1 d2 H k (a & n & i & Sx & Ty). rewrite (H a n i k Sx Ty). lra. }
  destruct (sweep_bounds m ng sct P g q3 (- B) B ds3 Hg Lq) as (f3 & b3 & E3 & _ & Bf & _ & _ & _); [intros i Hi; specialize (Bq3 i Hi); lra|exact D3|exact F3|intros; lra|exact N3'|].
  pose proof (sweep_fade th g q3 Q B ds3 f3 b3 Ht Th Hg Lq HB Bq3 D3 F3 N3' Z3 E3) as Fd.
  destruct (C170_superposition (-1) (ms_in m) (ms_out m) g (ms_xstr m g) (ms_vol m) (ms_quad m) (ms_space m) (ms_gs m) (fun _ => q1) (fun _ => q2) (fun _ => q3) (ms_nt m) (ms_nreg m) _ _ _ f1 b1 f2 b2 (fun _ => Hq) P3 E1 E2) as (f & b & E & Kf & Kb).
  unfold env_of in E3. rewrite E3 in E. injection E as <- <-. split; [intros i Hi; specialize (Bf i Hi); rewrite (lin_at0 _ _ _ _ _ Kf) in Bf; lra|]. split.
  - assert (W : Forall2 (fun d1 d2 : list R * list R => forall k, (exists a n i, slot (ms_in m) g a n i k) -> (- (Q + th * (B - Q)) <= at0 (fst d1) k - at0 (fst d2) k <= Q + th * (B - Q))%R) b1 b2).
    { apply (linB_at _ _ _ _ _ _ Kb). eapply Forall_impl; [|exact Fd]. intros d H k (a & n & i & Sx). exact (proj1 (H a n i k Sx)). }
    eapply F2_impl; [|exact W]. intros d1 d2 H a n i k Sx. apply H. eauto.
  - assert (W : Forall2 (fun d1 d2 : list R * list R => forall k, (exists a n i, slot (ms_in m) g a n i k /\ type_at (ms_in m) a n = Some PRESCRIBED) -> (0 <= at0 (fst d1) k - at0 (fst d2) k <= 0)%R) b1 b2).
    { apply (linB_at _ _ _ _ _ _ Kb). eapply Forall_impl; [|exact Fd]. intros d H k (a & n & i & Sx & Ty). rewrite (proj2 (H a n i k Sx) Ty). lra. }
    eapply F2_impl; [|exact W]. intros d1 d2 H a n i k Sx Ty. specialize (H k ltac:(eauto)). cbn beta in H. lra.
Qed.

(** Prescribed fluxes, and those of other groups, stay as they are. *)
Lemma sweep_keep : forall g q ds f bs, g < ng -> length q = ms_nreg m -> length ds = length (ms_planes m) -> Forall (bdry_shape m) ds -> sweep1g (env_of m g q) (ms_nt m) (ms_nreg m) (planes_of m ds) = Ok (f, bs) ->
  pres_same m g bs ds /\ forall h, h <> g -> Forall2 (fun d1 d2 => forall a n i k, slot (ms_in m) h a n i k -> at0 (fst d1) k = at0 (fst d2) k) bs ds.
Proof.
  intros g q ds f bs Hg Lq Ld Fs E. destruct (abs_top (q ++ concat (map fst ds))) as (M & M0 & F). apply Forall_app in F. destruct F as [Fq Fd]. destruct thin_some as (th & T & Th).
  assert (Fb : Forall (fun d => forall a n i k, slot (ms_in m) g a n i k -> (- M <= at0 (fst d) k <= M)%R) ds).
  { apply Forall_forall. intros d I a n i k Sx. rewrite Forall_forall in Fd, Fs. apply Fd. apply in_concat. exists (fst d). split; [now apply in_map|]. apply nth_In. rewrite (proj1 (Fs d I)). apply (slot_range _ _ _ _ _ _ Sx). rewrite (mp_ng m ng sct P). exact Hg. }
  pose proof (planes_ok m ng sct P g q (- M) M ds Hg Fs Fb) as Fp. destruct (mp_xstr m ng sct P g Hg) as [X1 X2]. destruct (mp_vol m ng sct P) as [V1 V2]. destruct (mp_space m ng sct P) as [S1 S2].
  assert (Bq : Forall (fun c => - M <= c <= M)%R q) by exact Fq.
  assert (Hg' : me_group (env_of m g q) < n_group (me_in (env_of m g q))) by (cbn; rewrite (mp_ng m ng sct P); exact Hg).
  assert (Af : Forall2 (after (env_of m g q) (- M) M) (planes_of m ds) bs).
  { destruct (C153_bounds (env_of m g q) q (- M) M (ms_nreg m) (ms_nt m) (planes_of m ds) (mp_bc m ng sct P) (mp_out m ng sct P) (mp_sup m ng sct P)) as (f' & bs' & E' & _ & _ & Ab).
    { intros; lra. } { exact (mp_gap m ng sct P). } { exact Hg'. } { exact (mp_len m ng sct P). } { reflexivity. } { exact Lq. } { exact Bq. } { exact X1. } { exact X2. } { exact V1. } { exact V2. } { exact S1. } { exact S2. } { exact (mp_quad m ng sct P). } { exact Fp. }
    { intros i I. unfold planes_of. rewrite swept_bnd by exact Ld. now apply (mp_fill m ng sct P). }
    rewrite E in E'. injection E' as <- <-. exact Ab. }
  unfold sweep1g in E. destruct (sweep_planes _ _ _) as [[bs0 ts]| |] eqn:Esw; try discriminate. cbn [rbind] in E. destruct (finish _ _ _ _) as [f0|]; [|discriminate]. cbn [of_opt rbind] in E. injection E as <- <-.
  set (pr := fun (p : PlaneIn) k => at0 (pi_in p) k).
  assert (Ft : Forall (fun p => plane_thin (env_of m g q) 1 (pr p) p) (planes_of m ds)).
  { unfold planes_of. apply Forall_forall. intros p I. apply in_map_iff in I. destruct I as ([[[f1 h] rays] d] & <- & I). apply in_combine_l in I as I1. apply in_combine_r in I as I2. cbn [fst snd plane_in]. split; [exact (proj1 (Cr f1 h rays I1))|]. split.
    - intros j rs Ej. cbn [pi_first pi_rays] in *. intros an Ea. eapply Forall_impl; [|exact (Th g q f1 h rays j rs Hg I1 Ej an Ea)]. cbn. intros r Hr. lra.
    - intros a n i k Sx Ty. cbn [env_of me_in me_group] in *. rewrite Forall_forall in Fs. assert (K : k < length (fst d)). { rewrite (proj1 (Fs d I2)). apply (slot_range _ _ _ _ _ _ Sx). rewrite (mp_ng m ng sct P). exact Hg. }
      change (nth_error (fst d) k = Some (at0 (fst d) k)). now apply nth_error_nth'. }
  pose proof (planes_fade (env_of m g q) q M M 1 (ms_nreg m) (ms_nt m) (mp_bc m ng sct P) (mp_out m ng sct P) (mp_sup m ng sct P) (mp_gap m ng sct P)) as PF.
  assert (Qb : forall j c, nth_error q j = Some c -> (Rabs c <= M)%R). { intros j c Ec. apply Rabs_le. rewrite Forall_forall in Bq. apply Bq. eapply nth_error_In; eauto. }
  specialize (PF Hg' (mp_len m ng sct P) (fun _ => eq_refl) Lq ltac:(lra) Qb ltac:(lra) X1 X2 S1 S2 (mp_quad m ng sct P) pr (planes_of m ds)).
  assert (Pb : forall p a n i k, In p (planes_of m ds) -> slot (me_in (env_of m g q)) (me_group (env_of m g q)) a n i k -> type_at (me_in (env_of m g q)) a n = Some PRESCRIBED -> (Rabs (pr p k) <= M + 1 * (M - M))%R).
  { intros p a n i k I Sx _. unfold planes_of in I. apply in_map_iff in I. destruct I as ([[[f1 h] rays] d] & <- & I). apply in_combine_r in I as I2. rewrite Forall_forall in Fb. specialize (Fb d I2 a n i k Sx). change (Rabs (at0 (fst d) k) <= M + 1 * (M - M))%R. apply Rabs_le. lra. }
  specialize (PF _ _ _ Pb Fp Ft (ts_zero (ms_nreg m) (ms_nt m)) Esw). clear - PF Af Ld Fs. assert (HH : forall h, h <> g -> forall p d, after (env_of m g q) (- M) M p d -> forall a n i k, slot (ms_in m) h a n i k -> at0 (fst d) k = at0 (pi_in p) k).
  { intros h Hh p d (_ & _ & _ & O & _) a n i k Sx. unfold at0. pose proof (O h a n i k Sx Hh) as Z. destruct (nth_error (pi_in p) k) as [v|] eqn:Ev; [now rewrite (nth_error_nth _ _ _ Ev), (nth_error_nth _ _ _ Z)|]. apply nth_error_None in Ev, Z. now rewrite !nth_overflow. }
  unfold planes_of in *. clear Fs. revert ds bs0 Ld PF Af. generalize (ms_planes m) as pl. induction pl as [|pp pl IH]; intros [|d ds] bs Ld PF Af; try discriminate; cbn [combine map] in PF, Af.
  - inversion PF; subst. split; [constructor|intros; constructor].
  - inversion PF as [|? y ? bs' A PF' E1 E2]; subst. inversion Af as [|? y' ? bs'' A' Af' E1 E2]; subst. destruct (IH ds bs' ltac:(now injection Ld) PF' Af') as [I1 I2]. split.
    + constructor; [|exact I1]. intros a n i k Sx Ty. destruct A as [A _]. unfold at0. rewrite (nth_error_nth _ _ _ (A a n i k Sx Ty)). destruct pp as [[f1 h1] r1]. reflexivity.
    + intros h Hh. constructor; [|now apply I2]. intros a n i k Sx. rewrite (HH h Hh _ _ A' a n i k Sx). destruct pp as [[f1 h1] r1]. reflexivity.
Qed.

Hypothesis Ph : physical (ms_nreg m) ng sct (ms_xs m).
(** One inner iteration of group [g] in two runs; [Q] bounds the difference of the sources. *)
Lemma refl_inner : forall th g Q B src1 src2 s1 s2 s1' s2', (0 <= th <= 1)%R -> thin_all th -> g < ng -> length src1 = ms_nreg m -> length src2 = ms_nreg m -> moc_shape m ng s1 -> moc_shape m ng s2 -> (0 <= Q <= B)%R ->
  (forall x i, In x (ms_xs m) -> In i (xr_reg x) -> (Rabs ((at0 src1 i - at0 src2 i) + sct x g g * (phi (mg_flux s1) i g - phi (mg_flux s2) i g)) <= 4 * PI * Q * at0 (xr_tr x) g)%R) ->
  near m g (- B) B (mg_bnd s1) (mg_bnd s2) -> pres_same m g (mg_bnd s1) (mg_bnd s2) -> moc_inner m g src1 s1 = Some s1' -> moc_inner m g src2 s2 = Some s2' ->
  (forall i, i < ms_nreg m -> (Rabs (phi (mg_flux s1') i g - phi (mg_flux s2') i g) <= 4 * PI * B)%R) /\ near m g (- (Q + th * (B - Q))) (Q + th * (B - Q)) (mg_bnd s1') (mg_bnd s2') /\ pres_same m g (mg_bnd s1') (mg_bnd s2').
Proof.
  intros th g Q B src1 src2 s1 s2 s1' s2' Ht Th Hg L1 L2 F1 F2 HB Hs N Ps E1 E2. pose proof PI_RGT_0 as PP.
  destruct (inner_parts m ng sct P Ph g src1 s1 Hg L1 F1) as (q1 & f1 & b1 & t1 & K1 & Q1 & W1 & I1 & B1 & _ & O1). destruct (inner_parts m ng sct P Ph g src2 s2 Hg L2 F2) as (q2 & f2 & b2 & t2 & K2 & Q2 & W2 & I2 & B2 & _ & O2).
  rewrite E1 in I1. injection I1 as <-. rewrite E2 in I2. injection I2 as <-. destruct F1 as (_ & _ & Lb1 & Fb1). destruct F2 as (_ & _ & Lb2 & Fb2).
  destruct (sweep_two th g q1 q2 Q B (mg_bnd s1) (mg_bnd s2) f1 b1 f2 b2 Ht Th Hg K1 K2 Lb1 Lb2 Fb1 Fb2 HB) as (A1 & A2 & A3); auto.
  - intros i Hi. destruct (reg_of m ng sct Ph i Hi) as (x & Ix & Ii). rewrite (Q1 x i Ix Ii), (Q2 x i Ix Ii). pose proof (mp_tr m ng sct P x g Ix Hg) as T. specialize (Hs x i Ix Ii). set (tr := at0 (xr_tr x) g) in *. set (ss := sct x g g) in *.
    match goal with |- (_ <= ?t <= _)%R => replace t with ((at0 src1 i - at0 src2 i + ss * (phi (mg_flux s1) i g - phi (mg_flux s2) i g)) * / (tr * (4 * PI)))%R by (field; split; lra) end. set (y := (at0 src1 i - at0 src2 i + ss * (phi (mg_flux s1) i g - phi (mg_flux s2) i g))%R) in *.
    assert (Z : (0 < tr * (4 * PI))%R) by (apply Rmult_lt_0_compat; lra). apply abs_in. rewrite Rabs_mult, (Rabs_pos_eq (/ (tr * (4 * PI)))) by (left; now apply Rinv_0_lt_compat). apply (Rmult_le_reg_r (tr * (4 * PI))); [exact Z|]. replace (Rabs y * / (tr * (4 * PI)) * (tr * (4 * PI)))%R with (Rabs y) by (field; split; lra). lra.
  - rewrite B1, B2. split; [|split; assumption]. intros i Hi. rewrite (O1 i g Hi), (O2 i g Hi), Nat.eqb_refl. apply Rabs_le. exact (A1 i Hi).
Qed.
End Thin.

(** ** Fluxes and incoming boundary fluxes as one array *)
Section Arr.
Variables (m : MocStatic) (ng : nat) (sct : XReg -> nat -> nat -> R) (rho : R).
Hypothesis P : moc_problem m ng sct.
Hypothesis Hr : (0 < rho)%R.
Notation T := (BcProofs.total (sizes (ms_in m))).
Definition n_all : nat := ms_nreg m + length (ms_planes m) * T.
Definition in_at (ds : list (list R * list R)) (h j t : nat) : R := at0 (fst (nth j ds ([], []))) (T * h + t).
Definition rval (s : MocState) (i h : nat) : R := if i <? ms_nreg m then phi (mg_flux s) i h else (4 * PI / rho * in_at (mg_bnd s) h ((i - ms_nreg m) / T) ((i - ms_nreg m) mod T))%R.
Lemma slot_pos : forall h a n i k, slot (ms_in m) h a n i k -> exists t, t < T /\ k = T * h + t.
Proof. intros h a n i k (size & off & H & Hi & ->). destruct (get_face_inv _ _ _ _ _ _ H) as (s & o & E1 & E2 & -> & ->). destruct (offsets_bounds _ _ _ _ _ n E1 E2). exists (face_size o n + i). lia. Qed.
Lemma pos_slot : forall h t, h < ng -> t < T -> exists a n i, slot (ms_in m) h a n i (T * h + t).
Proof.
  intros h t Hh Ht. destruct (slot_cover (ms_in m) (T * h + t)) as (g & a & n & i & Hg & _ & Sx); [rewrite (mp_ng m ng sct P); nia|]. destruct (slot_pos _ _ _ _ _ Sx) as (t' & Ht' & E). assert (g = h) as -> by nia. eauto.
Qed.
Lemma near_in : forall h B ds1 ds2, h < ng -> length ds1 = length (ms_planes m) -> length ds2 = length (ms_planes m) -> (near m h (- B) B ds1 ds2 <-> forall j t, j < length (ms_planes m) -> t < T -> (Rabs (in_at ds1 h j t - in_at ds2 h j t) <= B)%R).
Proof.
  intros h B ds1 ds2 Hh. generalize (length (ms_planes m)) as n. intros n L1 L2. split.
  - intros N j t Hj Ht. destruct (pos_slot h t Hh Ht) as (a & nn & i & Sx). unfold in_at. revert n j L1 L2 Hj. induction N as [|d1 d2 l1 l2 N1 N IH]; intros n j L1 L2 Hj; cbn in L1, L2; [lia|]. destruct j as [|j]; cbn [nth]; [specialize (N1 _ _ _ _ Sx); apply Rabs_le; lra|]. apply (IH (pred n)); lia.
  - intros H. unfold near. revert n ds2 L1 L2 H. induction ds1 as [|d1 l1 IH]; intros n [|d2 l2] L1 L2 H; cbn in L1, L2; try lia; constructor.
    + intros a nn i k Sx. destruct (slot_pos _ _ _ _ _ Sx) as (t & Ht & ->). specialize (H 0 t ltac:(lia) Ht). unfold in_at in H. cbn [nth] in H. apply abs_in in H. lra.
    + apply (IH (pred n)); [lia|lia|]. intros j t Hj Ht. apply (H (S j) t); lia.
Qed.
Lemma rap_iff : forall h D s1 s2, h < ng -> moc_shape m ng s1 -> moc_shape m ng s2 ->
  ((forall i, i < n_all -> (Rabs (rval s1 i h - rval s2 i h) <= D)%R) <-> (forall i, i < ms_nreg m -> (Rabs (phi (mg_flux s1) i h - phi (mg_flux s2) i h) <= D)%R) /\ near m h (- (rho * D / (4 * PI))) (rho * D / (4 * PI)) (mg_bnd s1) (mg_bnd s2)).
Proof.
  intros h D s1 s2 Hh (_ & _ & L1 & _) (_ & _ & L2 & _). pose proof PI_RGT_0 as PP. rewrite (near_in h _ _ _ Hh L1 L2). unfold rval, n_all.
  assert (Sc : forall x y, (Rabs (4 * PI / rho * x - 4 * PI / rho * y) <= D <-> Rabs (x - y) <= rho * D / (4 * PI))%R).
  { intros x y. replace (4 * PI / rho * x - 4 * PI / rho * y)%R with (4 * PI / rho * (x - y))%R by ring. assert (Z : (0 < 4 * PI / rho)%R) by (apply Rdiv_lt_0_compat; lra). rewrite Rabs_mult, (Rabs_pos_eq (4 * PI / rho)) by lra. split; intros H.
    - apply (Rmult_le_reg_l (4 * PI / rho)); [exact Z|]. replace (4 * PI / rho * (rho * D / (4 * PI)))%R with D by (field; split; lra). exact H.
    - apply Rle_trans with (4 * PI / rho * (rho * D / (4 * PI)))%R; [apply Rmult_le_compat_l; lra|]. right. field. split; lra. }
  split.
  - intros H. split.
    + intros i Hi. specialize (H i ltac:(lia)). destruct (Nat.ltb_spec i (ms_nreg m)); [exact H|lia].
    + intros j t Hj Ht. specialize (H (ms_nreg m + (j * T + t)) ltac:(nia)). destruct (Nat.ltb_spec (ms_nreg m + (j * T + t)) (ms_nreg m)); [lia|]. replace (ms_nreg m + (j * T + t) - ms_nreg m) with (t + j * T) in H by lia. rewrite Nat.div_add, Nat.mod_add, Nat.div_small, Nat.mod_small in H by lia. cbn [Nat.add] in H. now apply Sc.
  - intros [H1 H2] i Hi. destruct (Nat.ltb_spec i (ms_nreg m)) as [Li|Li]; [now apply H1|]. apply Sc. assert (T0 : T <> 0) by nia. apply H2; [apply Nat.div_lt_upper_bound; [exact T0|nia]|now apply Nat.mod_upper_bound].
Qed.
End Arr.

Lemma near_mono : forall m g B B' ds1 ds2, (B <= B')%R -> near m g (- B) B ds1 ds2 -> near m g (- B') B' ds1 ds2.
Proof. intros m g B B' ds1 ds2 H N. eapply F2_impl; [|exact N]. intros d1 d2 Z a n i k Sx. specialize (Z a n i k Sx). lra. Qed.
Lemma F2_refl : forall {A} (Q : A -> A -> Prop) l, (forall a, Q a a) -> Forall2 Q l l.
Proof. intros A Q l H. induction l; constructor; auto. Qed.
Lemma F2_sym : forall {A} (Q : A -> A -> Prop) l1 l2, (forall a b, Q a b -> Q b a) -> Forall2 Q l1 l2 -> Forall2 Q l2 l1.
Proof. intros A Q l1 l2 H F. induction F; constructor; auto. Qed.
Lemma F2_trans : forall {A} (Q : A -> A -> Prop) l1 l2 l3, (forall a b c, Q a b -> Q b c -> Q a c) -> Forall2 Q l1 l2 -> Forall2 Q l2 l3 -> Forall2 Q l1 l3.
Proof. intros A Q l1 l2 l3 H F. revert l3. induction F; intros l3 G; inversion G; subst; constructor; eauto. Qed.
Lemma pres_refl : forall m g ds, pres_same m g ds ds.
Proof. intros m g ds. apply F2_refl. auto. Qed.
Lemma pres_sym : forall m g d1 d2, pres_same m g d1 d2 -> pres_same m g d2 d1.
Proof. intros m g d1 d2. apply F2_sym. intros a b H x n i k Sx Ty. symmetry. eauto. Qed.
Lemma pres_trans : forall m g d1 d2 d3, pres_same m g d1 d2 -> pres_same m g d2 d3 -> pres_same m g d1 d3.
Proof. intros m g d1 d2 d3. apply F2_trans. intros a b c H1 H2 x n i k Sx Ty. rewrite (H1 x n i k Sx Ty). eauto. Qed.

Section Rate.
Variables (m : MocStatic) (ng : nat) (sct : XReg -> nat -> nat -> R) (c th : R).
Hypothesis P : moc_problem m ng sct.
Hypothesis Ph : physical (ms_nreg m) ng sct (ms_xs m).
Hypothesis Cr : crossed m.
Hypothesis Hc : (0 <= c < 1)%R.
Hypothesis Ht : (0 <= th < 1)%R.
Hypothesis Th : thin_all m ng th.
Definition rho : R := ((1 + c) / 2)%R.
Definition kap : R := Rmax rho ((c + th * (rho - c)) / rho)%R.
Lemma rho_range : (0 < rho < 1 /\ c < rho)%R.
Proof. unfold rho. lra. Qed.
Lemma kap_range : (0 <= kap < 1 /\ rho <= kap /\ c + th * (rho - c) <= kap * rho)%R.
Proof.
  pose proof rho_range as (R1 & R2). unfold kap. pose proof (Rmax_l rho ((c + th * (rho - c)) / rho)) as M1. pose proof (Rmax_r rho ((c + th * (rho - c)) / rho)) as M2. assert (L : ((c + th * (rho - c)) / rho < 1)%R).
  { apply (Rmult_lt_reg_r rho); [lra|]. replace ((c + th * (rho - c)) / rho * rho)%R with (c + th * (rho - c))%R by (field; lra). assert (th * (rho - c) < 1 * (rho - c))%R by (apply Rmult_lt_compat_r; lra). lra. }
  split; [split; [lra|apply Rmax_lub_lt; lra]|]. split; [exact M1|]. apply Rle_trans with ((c + th * (rho - c)) / rho * rho)%R; [right; field; lra|]. apply Rmult_le_compat_r; lra.
Qed.
Lemma inner_keep : forall g src s s', g < ng -> length src = ms_nreg m -> moc_shape m ng s -> moc_inner m g src s = Some s' -> pres_same m g (mg_bnd s') (mg_bnd s) /\ (forall h, h <> g -> Forall2 (fun d1 d2 => forall a n i k, slot (ms_in m) h a n i k -> at0 (fst d1) k = at0 (fst d2) k) (mg_bnd s') (mg_bnd s)).
Proof.
  intros g src s s' Hg Ls F E. destruct (inner_parts m ng sct P Ph g src s Hg Ls F) as (q & f & b & t & Lq & _ & W & I & B & _). rewrite E in I. injection I as <-. rewrite B. destruct F as (_ & _ & Lb & Fb). exact (sweep_keep m ng sct P Cr g q (mg_bnd s) f b Hg Lq Lb Fb W).
Qed.
(** [n] inner iterations of group [g] in two runs, fluxes at most [M] apart and the sources by what the fluxes of other groups may make. *)
Lemma refl_inners : forall M g src1 src2 n s1 s2 s1' s2', (0 <= M)%R -> g < ng -> length src1 = ms_nreg m -> length src2 = ms_nreg m -> moc_shape m ng s1 -> moc_shape m ng s2 ->
  (forall x i, In x (ms_xs m) -> In i (xr_reg x) -> (Rabs (at0 src1 i - at0 src2 i) + sct x g g * M <= c * M * at0 (xr_tr x) g)%R) ->
  (forall i, i < ms_nreg m -> (Rabs (phi (mg_flux s1) i g - phi (mg_flux s2) i g) <= M)%R) -> near m g (- (rho * M / (4 * PI))) (rho * M / (4 * PI)) (mg_bnd s1) (mg_bnd s2) -> pres_same m g (mg_bnd s1) (mg_bnd s2) ->
  moc_inners m g src1 (S n) s1 = Some s1' -> moc_inners m g src2 (S n) s2 = Some s2' ->
  (forall i, i < ms_nreg m -> (Rabs (phi (mg_flux s1') i g - phi (mg_flux s2') i g) <= kap * M)%R) /\ near m g (- (rho * (kap * M) / (4 * PI))) (rho * (kap * M) / (4 * PI)) (mg_bnd s1') (mg_bnd s2') /\ pres_same m g (mg_bnd s1') (mg_bnd s2').
Proof.
  intros M g src1 src2 n. pose proof PI_RGT_0 as PP. pose proof rho_range as (R1 & R2). pose proof kap_range as (K1 & K2 & K3). induction n as [|n IH]; intros s1 s2 s1' s2' HM Hg L1 L2 F1 F2 Hs Hf N Ps E1 E2.
  1, 2: cbn [moc_inners] in E1, E2; destruct (inner_shape m ng sct P Ph g src1 s1 Hg L1 F1) as (t1 & T1 & G1 & _); destruct (inner_shape m ng sct P Ph g src2 s2 Hg L2 F2) as (t2 & T2 & G2 & _); rewrite T1 in E1; rewrite T2 in E2;
    assert (I4 : (0 < / (4 * PI))%R) by (apply Rinv_0_lt_compat; lra); set (Q := (c * M / (4 * PI))%R); set (B := (rho * M / (4 * PI))%R) in *;
    (assert (QB : (0 <= Q <= B)%R) by (unfold Q, B, Rdiv; split; [apply Rmult_le_pos; [apply Rmult_le_pos; lra|lra]|apply Rmult_le_compat_r; [lra|]; apply Rmult_le_compat_r; lra]));
    (destruct (refl_inner m ng sct P Cr Ph th g Q B src1 src2 s1 s2 t1 t2 ltac:(lra) Th Hg L1 L2 F1 F2 QB) as (A1 & A2 & A3); [|exact N|exact Ps|exact T1|exact T2|]).
  1, 3: intros x i Ix Ii; specialize (Hs x i Ix Ii); assert (Hi : i < ms_nreg m) by (destruct Ph as (M0 & _); exact (reg_bound _ _ _ _ M0 Ix Ii)); specialize (Hf i Hi); pose proof (mp_self m ng sct P x g Ix Hg) as Z; eapply Rle_trans; [apply Rabs_triang|]; rewrite Rabs_mult, (Rabs_pos_eq _ Z);
    (assert (sct x g g * Rabs (phi (mg_flux s1) i g - phi (mg_flux s2) i g) <= sct x g g * M)%R by (now apply Rmult_le_compat_l)); replace (4 * PI * Q)%R with (c * M)%R by (unfold Q; field; lra); lra.
  all: assert (B4 : (4 * PI * B = rho * M)%R) by (unfold B; field; lra); rewrite B4 in A1; assert (Le : (Q + th * (B - Q) <= rho * (kap * M) / (4 * PI))%R) by (replace (Q + th * (B - Q))%R with ((c + th * (rho - c)) * (M / (4 * PI)))%R by (unfold Q, B; field; lra); replace (rho * (kap * M) / (4 * PI))%R with (kap * rho * (M / (4 * PI)))%R by (field; lra); apply Rmult_le_compat_r; [unfold Rdiv; apply Rmult_le_pos; lra|exact K3]).
  - cbn [moc_inners] in E1, E2. injection E1 as <-. injection E2 as <-. split; [|split; [exact (near_mono _ _ _ _ _ _ Le A2)|exact A3]]. intros i Hi. specialize (A1 i Hi). assert (rho * M <= kap * M)%R by (apply Rmult_le_compat_r; lra). lra.
  - apply (IH t1 t2); auto.
    + intros i Hi. specialize (A1 i Hi). assert (rho * M <= 1 * M)%R by (apply Rmult_le_compat_r; lra). lra.
    + assert (Lb : (rho * (kap * M) / (4 * PI) <= B)%R) by (unfold B, Rdiv; apply Rmult_le_compat_r; [lra|]; apply Rmult_le_compat_l; [lra|]; assert (kap * M <= 1 * M)%R by (apply Rmult_le_compat_r; lra); lra). exact (near_mono _ _ _ _ _ _ (Rle_trans _ _ _ Le Lb) A2).
Qed.
End Rate.

(** ** One group *)
Definition bnd_same (m : MocStatic) (h : nat) (ds1 ds2 : list (list R * list R)) : Prop :=
  Forall2 (fun d1 d2 => forall a n i k, slot (ms_in m) h a n i k -> at0 (fst d1) k = at0 (fst d2) k) ds1 ds2.
Lemma bnd_refl : forall m h ds, bnd_same m h ds ds.
Proof. intros m h ds. apply F2_refl. auto. Qed.
Lemma bnd_trans : forall m h d1 d2 d3, bnd_same m h d1 d2 -> bnd_same m h d2 d3 -> bnd_same m h d1 d3.
Proof. intros m h d1 d2 d3. apply F2_trans. intros a b c H1 H2 x n i k Sx. rewrite (H1 x n i k Sx). eauto. Qed.
Lemma bnd_pres : forall m h d1 d2, bnd_same m h d1 d2 -> pres_same m h d1 d2.
Proof. intros m h d1 d2. apply F2_impl. intros a b H x n i k Sx _. eauto. Qed.
Lemma near_bnd : forall m h lo hi d1 d2 e1 e2, bnd_same m h e1 d1 -> bnd_same m h e2 d2 -> near m h lo hi d1 d2 -> near m h lo hi e1 e2.
Proof.
  intros m h lo hi d1 d2 e1 e2 H1 H2 N. unfold near in *. revert e1 e2 H1 H2. induction N as [|x y l1 l2 N1 N IH]; intros e1 e2 H1 H2; inversion H1 as [|u ? ? ? U1 U2]; inversion H2 as [|w ? ? ? W1 W2]; subst; constructor.
  - intros a n i k Sx. rewrite (U1 a n i k Sx), (W1 a n i k Sx). eauto.
  - now apply IH.
Qed.
Lemma near_zero : forall m h d1 d2, near m h 0 0 d1 d2 <-> bnd_same m h d1 d2.
Proof. intros m h d1 d2. split; intros H0; (eapply F2_impl; [|exact H0]); intros a b H x n i k Sx; specialize (H x n i k Sx); cbv beta in H; lra. Qed.

(** A state with given fluxes and incoming fluxes. *)
Section Made.
Variables (m : MocStatic) (ng : nat) (sct : XReg -> nat -> nat -> R) (rh : R).
Hypothesis P : moc_problem m ng sct.
Hypothesis Hr : (0 < rh)%R.
Notation T := (BcProofs.total (sizes (ms_in m))).
Definition put_in (lim : nat -> nat -> R) (s : MocState) : MocState :=
  mkMG (map (fun i => map (lim i) (seq 0 ng)) (seq 0 (ms_nreg m))) (mg_q s)
    (map (fun j => (map (fun k => ((rh / (4 * PI)) * lim (ms_nreg m + (j * T + k mod T))%nat (k / T)%nat)%R) (seq 0 (ng * T)), snd (nth j (mg_bnd s) ([], [])))) (seq 0 (length (ms_planes m)))).
Lemma map_seq_at : forall (f : nat -> R) n k, k < n -> at0 (map f (seq 0 n)) k = f k.
Proof. intros f n k H. unfold at0. rewrite (nth_indep _ _ (f 0)) by (now rewrite map_length, seq_length). rewrite map_nth, seq_nth by exact H. reflexivity. Qed.
Lemma put_shape : forall lim s, moc_shape m ng s -> moc_shape m ng (put_in lim s).
Proof.
  intros lim s (_ & A2 & A3 & A4). split; [apply shaped|]. split; [exact A2|]. split; [cbn; now rewrite map_length, seq_length|]. cbn [put_in mg_bnd]. apply Forall_forall. intros d I. apply in_map_iff in I. destruct I as (j & <- & Ij). apply in_seq in Ij. assert (B : bdry_shape m (nth j (mg_bnd s) ([], []))) by (rewrite Forall_forall in A4; apply A4, nth_In; lia).
  destruct B as [_ B2]. split; [|exact B2]. cbn [fst]. rewrite map_length, seq_length. rewrite (mp_ng m ng sct P). reflexivity.
Qed.
Lemma put_val : forall lim s i h, i < n_all m -> h < ng -> rval m rh (put_in lim s) i h = lim i h.
Proof.
  intros lim s i h Hi Hh. unfold rval, n_all in *. destruct (Nat.ltb_spec i (ms_nreg m)) as [L|L]; [now apply (proj2 (shaped lim (ms_nreg m) ng))|]. assert (T0 : T <> 0) by nia. pose proof PI_RGT_0.
  pose proof (Nat.div_mod (i - ms_nreg m) T T0) as Dm. pose proof (Nat.mod_upper_bound (i - ms_nreg m) T T0) as Mb. set (j := (i - ms_nreg m) / T) in *. set (t := (i - ms_nreg m) mod T) in *. assert (Hj : j < length (ms_planes m)) by nia.
  unfold in_at. cbn [put_in mg_bnd]. rewrite (nth_indep _ _ ((fun j => (map (fun k => (rh / (4 * PI) * lim (ms_nreg m + (j * T + k mod T))%nat (k / T)%nat)%R) (seq 0 (ng * T)), snd (nth j (mg_bnd s) ([], [])))) 0)) by (now rewrite map_length, seq_length). rewrite (map_nth (fun j => (map (fun k => (rh / (4 * PI) * lim (ms_nreg m + (j * T + k mod T))%nat (k / T)%nat)%R) (seq 0 (ng * T)), snd (nth j (mg_bnd s) ([], []))))). rewrite seq_nth by exact Hj. cbn [fst Nat.add].
  rewrite map_seq_at by nia. replace (T * h + t) with (t + h * T) by lia. rewrite Nat.mod_add, Nat.div_add, Nat.mod_small, Nat.div_small by lia. cbn [Nat.add]. replace (ms_nreg m + (j * T + t)) with i by lia. field. split; lra.
Qed.
(** Incoming fluxes of group [h] that stay as they are in a sequence of states are those of its limit. *)
Lemma put_pres : forall (lim : nat -> nat -> R) (sq : nat -> MocState) h k D s, h < ng -> (0 <= k < 1)%R -> (forall n, moc_shape m ng (sq n)) -> (forall n, pres_same m h (mg_bnd (sq n)) (mg_bnd (sq 0))) -> moc_shape m ng s -> (forall n i, i < n_all m -> (Rabs (rval m rh (sq n) i h - lim i h) <= k ^ n * D)%R) -> pres_same m h (mg_bnd (put_in lim s)) (mg_bnd (sq 0)).
Proof.
  intros lim sq h k D s Hh Hk Sh Pr Fs Hl. pose proof PI_RGT_0 as PP. destruct (put_shape lim s Fs) as (_ & _ & Lp & _). destruct (Sh 0) as (_ & _ & L0 & _).
  assert (Z : forall j a n i p, j < length (ms_planes m) -> slot (ms_in m) h a n i p -> type_at (ms_in m) a n = Some PRESCRIBED -> at0 (fst (nth j (mg_bnd (put_in lim s)) ([], []))) p = at0 (fst (nth j (mg_bnd (sq 0)) ([], []))) p).
  { intros j a n i p Hj Sx Ty. destruct (slot_pos m _ _ _ _ _ Sx) as (t & Ht & ->). set (ii := ms_nreg m + (j * T + t)). assert (Hi : ii < n_all m) by (unfold ii, n_all; nia).
    assert (V : forall s, rval m rh s ii h = (4 * PI / rh * at0 (fst (nth j (mg_bnd s) ([], []))) (T * h + t))%R).
    { intros z. unfold rval, ii, in_at. destruct (Nat.ltb_spec (ms_nreg m + (j * T + t)) (ms_nreg m)); [lia|]. replace (ms_nreg m + (j * T + t) - ms_nreg m) with (t + j * T) by lia. rewrite Nat.div_add, Nat.mod_add, Nat.div_small, Nat.mod_small by lia. reflexivity. }
    assert (E : (rval m rh (sq 0%nat) ii h - lim ii h = 0)%R).
    { apply (small_zero _ k D Hk). intros q. specialize (Hl q ii Hi). assert (Q : rval m rh (sq q) ii h = rval m rh (sq 0) ii h).
      { rewrite !V. f_equal. specialize (Pr q). destruct (Sh q) as (_ & _ & Lq & _). clear - Pr Sx Ty Hj Lq. unfold pres_same in Pr. revert Lq. generalize dependent (length (ms_planes m)). revert j. induction Pr as [|d1 d2 l1 l2 A B IH]; intros j N Hj L; [reflexivity|]. destruct j as [|j]; [exact (A a n i _ Sx Ty)|]. cbn [nth]. apply (IH j (pred N)); cbn in L; lia. }
      rewrite Q in Hl. exact Hl. }
    pose proof (put_val lim s ii h Hi Hh) as W. rewrite V in W, E. assert (N : (4 * PI / rh <> 0)%R) by (apply Rgt_not_eq; apply Rdiv_lt_0_compat; lra). apply (Rmult_eq_reg_l (4 * PI / rh)); [lra|exact N]. }
  clear - Z Lp L0. unfold pres_same. revert Z. generalize (mg_bnd (put_in lim s)) (mg_bnd (sq 0)) Lp L0. generalize (length (ms_planes m)) as N. intros N l1 l2. revert N l2. induction l1 as [|d1 l1 IH]; intros N [|d2 l2] La Lb Z; cbn in La, Lb; try lia; constructor.
  - intros a n i p Sx Ty. exact (Z 0 a n i p ltac:(lia) Sx Ty).
  - apply (IH (pred N)); [lia|lia|]. intros j a n i p Hj Sx Ty. exact (Z (S j) a n i p ltac:(lia) Sx Ty).
Qed.
End Made.

(** C185: inner iterations of one group, over any boundary conditions, with scattering inside the group below the total cross section in every region. *)
Section OneGroup.
Variables (m : MocStatic) (ng : nat) (sct : XReg -> nat -> nat -> R) (g : nat) (src : list R) (c th : R).
Hypothesis P : moc_problem m ng sct.
Hypothesis Ph : physical (ms_nreg m) ng sct (ms_xs m).
Hypothesis Cr : crossed m.
Hypothesis Hc : (0 <= c < 1)%R.
Hypothesis Ht : (0 <= th < 1)%R.
Hypothesis Th : thin_all m ng th.
Hypothesis Hg : g < ng.
Hypothesis Ls : length src = ms_nreg m.
Hypothesis Sc : forall x, In x (ms_xs m) -> (sct x g g <= c * at0 (xr_tr x) g)%R.
Notation rh := (rho c).
Notation kp := (kap c th).
Definition g_same (s t : MocState) : Prop := pres_same m g (mg_bnd s) (mg_bnd t).
Definition g_val (s : MocState) (i h : nat) : R := rval m rh s i g.
Lemma g_tot : forall s, moc_shape m ng s -> exists s', moc_inner m g src s = Some s' /\ moc_shape m ng s'.
Proof. intros s F. destruct (inner_shape m ng sct P Ph g src s Hg Ls F) as (s' & E & F' & _). eauto. Qed.
Lemma g_con : forall D s1 s2 s1' s2', (0 <= D)%R -> moc_shape m ng s1 -> moc_shape m ng s2 -> g_same s1 s2 -> wapart MocState g_val (n_all m) 1 (fun _ => 1%R) D s1 s2 ->
  moc_inner m g src s1 = Some s1' -> moc_inner m g src s2 = Some s2' -> wapart MocState g_val (n_all m) 1 (fun _ => 1%R) (kp * D) s1' s2' /\ g_same s1' s2'.
Proof.
  intros D s1 s2 s1' s2' HD F1 F2 Sm A E1 E2. pose proof (rho_range c Hc) as [[R1 _] _]. destruct (rap_iff m ng sct rh P R1 g D s1 s2 Hg F1 F2) as [I1 _]. destruct I1 as [A1 A2]; [intros i Hi; specialize (A i 0 Hi ltac:(lia)); cbv beta in A; rewrite Rmult_1_r in A; exact A|].
  destruct (refl_inners m ng sct c th P Ph Cr Hc Ht Th D g src src 0 s1 s2 s1' s2' HD Hg Ls Ls F1 F2) as (B1 & B2 & B3); auto.
  - intros x i Ix Ii. replace (at0 src i - at0 src i)%R with 0%R by ring. rewrite Rabs_R0, Rplus_0_l. replace (c * D * at0 (xr_tr x) g)%R with (c * at0 (xr_tr x) g * D)%R by ring. apply Rmult_le_compat_r; [exact HD|now apply Sc].
  - cbn [moc_inners]. now rewrite E1.
  - cbn [moc_inners]. now rewrite E2.
  - split; [|exact B3]. destruct (g_tot s1 F1) as (t1 & T1 & G1). rewrite E1 in T1. injection T1 as <-. destruct (g_tot s2 F2) as (t2 & T2 & G2). rewrite E2 in T2. injection T2 as <-.
    intros i h Hi _. rewrite Rmult_1_r. apply (proj2 (rap_iff m ng sct rh P R1 g (kp * D) s1' s2' Hg G1 G2)); auto.
Qed.
Lemma g_again : forall s s1 s2, moc_shape m ng s -> moc_inner m g src s = Some s1 -> moc_inner m g src s1 = Some s2 -> g_same s2 s1.
Proof. intros s s1 s2 F E1 E2. destruct (g_tot s F) as (t & T1 & F1). rewrite E1 in T1. injection T1 as <-. exact (proj1 (inner_keep m ng sct P Ph Cr g src s1 s2 Hg Ls F1 E2)). Qed.
Lemma g_refl : forall s, g_same s s.
Proof. intros s. apply pres_refl. Qed.
Lemma g_sym : forall s t, g_same s t -> g_same t s.
Proof. intros s t. apply pres_sym. Qed.
Lemma g_trans : forall s t u, g_same s t -> g_same t u -> g_same s u.
Proof. intros s t u. apply pres_trans. Qed.
Definition g_fixed (s : MocState) : Prop := exists s', moc_inner m g src s = Some s' /\ (forall i, i < ms_nreg m -> phi (mg_flux s') i g = phi (mg_flux s) i g) /\ bnd_same m g (mg_bnd s') (mg_bnd s).
Lemma g_zero : forall s t, moc_shape m ng s -> moc_shape m ng t -> ((forall i, i < n_all m -> rval m rh s i g = rval m rh t i g) <-> (forall i, i < ms_nreg m -> phi (mg_flux s) i g = phi (mg_flux t) i g) /\ bnd_same m g (mg_bnd s) (mg_bnd t)).
Proof.
  intros s t F1 F2. pose proof (rho_range c Hc) as [[R1 _] _]. pose proof PI_RGT_0. pose proof (rap_iff m ng sct rh P R1 g 0 s t Hg F1 F2) as Q. replace (rh * 0 / (4 * PI))%R with 0%R in Q by (field; lra). rewrite Ropp_0, near_zero in Q. assert (Z : forall x y : R, (Rabs (x - y) <= 0)%R <-> x = y).
  { intros x y. split; [intros H0; apply abs_in in H0; lra|intros ->; replace (y - y)%R with 0%R by ring; rewrite Rabs_R0; lra]. }
  split.
  - intros H0. destruct (proj1 Q) as [A B]; [intros i Hi; apply Z; auto|]. split; [intros i Hi; apply Z; auto|exact B].
  - intros [A B] i Hi. apply Z. apply (proj2 Q); [split; [|exact B]|exact Hi]. intros j Hj. apply Z. auto.
Qed.
Lemma g_converge : forall s, moc_shape m ng s -> exists (it : nat -> MocState) sol D, (forall n, moc_inners m g src n s = Some (it n)) /\ (0 <= D)%R /\ moc_shape m ng sol /\ g_same sol s /\ g_fixed sol /\
  (forall n, (forall i, i < ms_nreg m -> (Rabs (phi (mg_flux (it (S n))) i g - phi (mg_flux sol) i g) <= kp ^ n * D)%R) /\ near m g (- (kp ^ n * D)) (kp ^ n * D) (mg_bnd (it (S n))) (mg_bnd sol)) /\
  (forall t, moc_shape m ng t -> g_same t s -> g_fixed t -> (forall i, i < ms_nreg m -> phi (mg_flux t) i g = phi (mg_flux sol) i g) /\ bnd_same m g (mg_bnd t) (mg_bnd sol)).
Proof.
  intros s F. pose proof (rho_range c Hc) as [[R1 R2] _]. pose proof (kap_range c th Hc Ht) as [K _]. pose proof PI_RGT_0 as PP. pose proof PI2_3_2 as P3. unfold PI2 in P3. destruct (shrink_run MocState (moc_shape m ng) (moc_inner m g src) g_tot s F) as (it & I0 & Sh & St). assert (W1 : forall h, h < 1 -> (0 < (fun _ : nat => 1%R) h)%R) by (intros; lra).
  destruct (run_limit MocState (moc_shape m ng) (moc_inner m g src) g_same g_val (n_all m) 1 (fun _ => 1%R) kp K W1 g_tot g_con g_again g_refl g_sym g_trans it Sh St) as (lim & D & D0 & Hl).
  set (sol := put_in m ng rh (fun i _ => lim i 0%nat) (it 1)). pose proof (put_shape m ng sct rh P (fun i _ => lim i 0%nat) (it 1) (Sh 1)) as Fs. change (moc_shape m ng sol) in Fs. assert (Vs : forall i, i < n_all m -> rval m rh sol i g = lim i 0%nat) by (intros i Hi; exact (put_val m ng rh R1 (fun i _ => lim i 0%nat) (it 1) i g Hi Hg)).
  assert (Sm : g_same sol (it 1)).
  { apply (put_pres m ng sct rh P R1 (fun i _ => lim i 0%nat) (fun n => it (S n)) g kp D (it 1) Hg K); auto.
    - intros n. exact (run_sm1 MocState (moc_shape m ng) (moc_inner m g src) g_same g_again g_refl g_trans it Sh St n).
    - intros n i Hi. specialize (Hl n i 0 Hi ltac:(lia)). rewrite Rmult_1_r in Hl. exact Hl. }
  assert (S10 : g_same (it 1) s) by (rewrite <- I0; exact (proj1 (inner_keep m ng sct P Ph Cr g src (it 0) (it 1) Hg Ls (Sh 0) (St 0)))).
  exists it, sol, D. split; [|split; [exact D0|split; [exact Fs|split; [exact (g_trans _ _ _ Sm S10)|split; [|split]]]]].
  - induction n as [|n IH]; [cbn; now rewrite I0|]. rewrite inners_snoc, IH. apply St.
  - destruct (run_fixed MocState (moc_shape m ng) (moc_inner m g src) g_same g_val (n_all m) 1 (fun _ => 1%R) kp K W1 g_tot g_con g_again g_refl g_sym g_trans it Sh St lim D D0 Hl sol Fs Sm) as (t & E & V).
    + intros i h Hi Hh. assert (h = 0) as -> by lia. now apply Vs.
    + exists t. split; [exact E|]. destruct (g_tot sol Fs) as (t' & E' & Ft). rewrite E in E'. injection E' as <-. apply (g_zero t sol Ft Fs). intros i Hi. rewrite (Vs i Hi). exact (V i 0 Hi ltac:(lia)).
  - intros n. assert (B0 : (0 <= kp ^ n * D)%R) by (apply Rmult_le_pos; [apply pow_le; lra|exact D0]). destruct (proj1 (rap_iff m ng sct rh P R1 g (kp ^ n * D) (it (S n)) sol Hg (Sh (S n)) Fs)) as [A B].
    + intros i Hi. rewrite (Vs i Hi). specialize (Hl n i 0 Hi ltac:(lia)). rewrite Rmult_1_r in Hl. exact Hl.
    + split; [exact A|]. apply (near_mono _ _ (rh * (kp ^ n * D) / (4 * PI))); [|exact B]. apply (Rmult_le_reg_r (4 * PI)); [lra|]. replace (rh * (kp ^ n * D) / (4 * PI) * (4 * PI))%R with (rh * (kp ^ n * D))%R by (field; lra). rewrite (Rmult_comm rh). apply Rmult_le_compat_l; lra.
  - intros t Ft St1 (t' & E & V1 & V2). destruct (g_tot t Ft) as (t2 & E2 & Ft'). rewrite E in E2. injection E2 as <-. apply (g_zero t sol Ft Fs). intros i Hi. rewrite (Vs i Hi).
    apply (run_unique MocState (moc_shape m ng) (moc_inner m g src) g_same g_val (n_all m) 1 (fun _ => 1%R) kp K W1 g_tot g_con g_again g_refl g_sym g_trans it Sh St lim D Hl t t' Ft (g_trans _ _ _ St1 (g_sym _ _ S10)) E) with (g := 0); [|exact Hi|lia].
    intros j h Hj _. apply (proj2 (g_zero t' t Ft' Ft)); auto.
Qed.
End OneGroup.
Theorem C185_converge : forall m ng sct g c, moc_problem m ng sct -> physical (ms_nreg m) ng sct (ms_xs m) -> crossed m -> g < ng -> (0 <= c < 1)%R -> (forall x, In x (ms_xs m) -> (sct x g g <= c * at0 (xr_tr x) g)%R) ->
  exists k, (0 <= k < 1)%R /\ forall src s, length src = ms_nreg m -> moc_shape m ng s -> exists (it : nat -> MocState) sol D, (forall n, moc_inners m g src n s = Some (it n)) /\ (0 <= D)%R /\ moc_shape m ng sol /\ pres_same m g (mg_bnd sol) (mg_bnd s) /\ g_fixed m g src sol /\
    (forall n, (forall i, i < ms_nreg m -> (Rabs (phi (mg_flux (it (S n))) i g - phi (mg_flux sol) i g) <= k ^ n * D)%R) /\ near m g (- (k ^ n * D)) (k ^ n * D) (mg_bnd (it (S n))) (mg_bnd sol)) /\
    (forall t, moc_shape m ng t -> pres_same m g (mg_bnd t) (mg_bnd s) -> g_fixed m g src t -> (forall i, i < ms_nreg m -> phi (mg_flux t) i g = phi (mg_flux sol) i g) /\ bnd_same m g (mg_bnd t) (mg_bnd sol)).
Proof.
  intros m ng sct g c P Ph Cr Hg Hc Sc. destruct (thin_some m ng sct P Cr) as (th & Ht & Th). exists (kap c th). split; [apply (kap_range c th Hc Ht)|]. intros src s Ls F. exact (g_converge m ng sct g src c th P Ph Cr Hc Ht Th Hg Ls Sc s F).
Qed.
Print Assumptions C185_converge.

(** ** Whole fixed-source calculations *)
Definition fx_pres (m : MocStatic) (ng : nat) (s t : FxState) : Prop := forall h, h < ng -> pres_same m h (mg_bnd (snd (snd s))) (mg_bnd (snd (snd t))).
(** A solution: an iteration leaves its flux and its incoming fluxes as they are. *)
Definition fx_fixed (m : MocStatic) (ng : nat) (ext : option (list (list R))) (s : FxState) : Prop :=
  exists s', fx_step m ng ext s = Got s' /\ (forall i h, i < ms_nreg m -> h < ng -> phi (fx_flux s') i h = phi (fx_flux s) i h) /\ forall h, h < ng -> bnd_same m h (mg_bnd (snd (snd s'))) (mg_bnd (snd (snd s))).

Section Outer.
Variables (m : MocStatic) (ng : nat) (sct : XReg -> nat -> nat -> R) (ext : option (list (list R))) (v : nat -> R) (c th : R).
Hypothesis P : moc_problem m ng sct.
Hypothesis Ph : physical (ms_nreg m) ng sct (ms_xs m).
Hypothesis Cr : crossed m.
Hypothesis Hn : 1 <= ms_inner m.
Hypothesis Ex : ext_fits (ms_nreg m) ng ext.
Hypothesis Hc : (0 <= c < 1)%R.
Hypothesis Ht : (0 <= th < 1)%R.
Hypothesis Th : thin_all m ng th.
Hypothesis Dm : dominated m ng sct v c.
Notation rh := (rho c).
Notation kp := (kap c th).
Notation grps := (fss_groups MocState mg_flux (moc_sweep m) (ms_xs m) (ms_nreg m) ext None).
Lemma inners_keep : forall g src n s s', g < ng -> length src = ms_nreg m -> moc_shape m ng s -> moc_inners m g src n s = Some s' -> pres_same m g (mg_bnd s') (mg_bnd s) /\ forall h, h <> g -> bnd_same m h (mg_bnd s') (mg_bnd s).
Proof.
  intros g src. induction n as [|n IH]; intros s s' Hg Ls F E; cbn [moc_inners] in E; [injection E as <-; split; [apply pres_refl|intros; apply bnd_refl]|]. destruct (inner_shape m ng sct P Ph g src s Hg Ls F) as (t & Et & Ft & _). rewrite Et in E.
  destruct (inner_keep m ng sct P Ph Cr g src s t Hg Ls F Et) as [A1 A2]. destruct (IH t s' Hg Ls Ft E) as [B1 B2]. split; [exact (pres_trans _ _ _ _ _ B1 A1)|]. intros h Hh. exact (bnd_trans _ _ _ _ _ (B2 h Hh) (A2 h Hh)).
Qed.
Lemma grps_keep : forall cnt ig src sw src' sw', ig + cnt <= ng -> length src = ms_nreg m -> moc_shape m ng sw -> grps ig cnt (src, sw) = Some (src', sw') -> (forall h, h < ng -> pres_same m h (mg_bnd sw') (mg_bnd sw)) /\ forall h, h < ig -> bnd_same m h (mg_bnd sw') (mg_bnd sw).
Proof.
  induction cnt as [|k IH]; intros ig src sw src' sw' Hk Ls F E; cbn [fss_groups] in E; [injection E as <- <-; split; [intros; apply pres_refl|intros; apply bnd_refl]|]. destruct (grp_ok m ng sct ext P Ph Ex ig src sw ltac:(lia) Ls F) as (u & w & G & K & F1 & I1 & _). rewrite G in E.
  destruct (inners_keep ig u (ms_inner m) sw w ltac:(lia) K F I1) as [A1 A2]. destruct (IH (S ig) u w src' sw' ltac:(lia) K F1 E) as [B1 B2]. split.
  - intros h Hh. apply (pres_trans _ _ _ _ _ (B1 h Hh)). destruct (Nat.eq_dec h ig) as [->|N]; [exact A1|apply bnd_pres; auto].
  - intros h Hh. apply (bnd_trans _ _ _ _ _ (B2 h ltac:(lia))). apply A2. lia.
Qed.
Definition all_near (M : R) (s1 s2 : MocState) : Prop := (forall i h, i < ms_nreg m -> h < ng -> (Rabs (phi (mg_flux s1) i h - phi (mg_flux s2) i h) <= M * v h)%R) /\ forall h, h < ng -> near m h (- (rh * (M * v h) / (4 * PI))) (rh * (M * v h) / (4 * PI)) (mg_bnd s1) (mg_bnd s2).
Lemma grps_refl : forall M, (0 <= M)%R -> forall cnt ig src1 sw1 src2 sw2 src1' sw1' src2' sw2', ig + cnt <= ng -> length src1 = ms_nreg m -> length src2 = ms_nreg m -> moc_shape m ng sw1 -> moc_shape m ng sw2 -> (forall h, h < ng -> pres_same m h (mg_bnd sw1) (mg_bnd sw2)) -> all_near M sw1 sw2 ->
  grps ig cnt (src1, sw1) = Some (src1', sw1') -> grps ig cnt (src2, sw2) = Some (src2', sw2') ->
  forall h, ig <= h < ig + cnt -> (forall i, i < ms_nreg m -> (Rabs (phi (mg_flux sw1') i h - phi (mg_flux sw2') i h) <= kp * M * v h)%R) /\ near m h (- (rh * (kp * M * v h) / (4 * PI))) (rh * (kp * M * v h) / (4 * PI)) (mg_bnd sw1') (mg_bnd sw2').
Proof.
  intros M HM. pose proof (rho_range c Hc) as [[R1 R2] _]. pose proof (kap_range c th Hc Ht) as [K _]. pose proof PI_RGT_0 as PP. destruct Dm as [Hv Dom].
  induction cnt as [|k IH]; intros ig src1 sw1 src2 sw2 src1' sw1' src2' sw2' Hk L1 L2 F1 F2 Sm [A N] E1 E2 h Hh; [lia|]. cbn [fss_groups] in *.
  destruct (grp_ok m ng sct ext P Ph Ex ig src1 sw1 ltac:(lia) L1 F1) as (u1 & w1 & G1 & K1 & S1 & I1 & O1 & Q1). destruct (grp_ok m ng sct ext P Ph Ex ig src2 sw2 ltac:(lia) L2 F2) as (u2 & w2 & G2 & K2 & S2 & I2 & O2 & Q2). rewrite G1 in E1. rewrite G2 in E2. assert (Hig : ig < ng) by lia. pose proof (Hv ig Hig) as V.
  assert (MV : (0 <= M * v ig)%R) by (apply Rmult_le_pos; lra). assert (Eni : exists ni, ms_inner m = S ni) by (exists (pred (ms_inner m)); lia). destruct Eni as (ni & Eni). rewrite Eni in I1, I2.
  destruct (inners_keep ig u1 (S ni) sw1 w1 Hig K1 F1 I1) as [X1 Y1]. destruct (inners_keep ig u2 (S ni) sw2 w2 Hig K2 F2 I2) as [X2 Y2].
  destruct (refl_inners m ng sct c th P Ph Cr Hc Ht Th (M * v ig) ig u1 u2 ni sw1 sw2 w1 w2 MV Hig K1 K2 F1 F2) as (B1 & B2 & B3); auto.
  - intros x i Ix Ii. rewrite (Q1 x i Ix Ii), (Q2 x i Ix Ii). assert (Hi : i < ms_nreg m) by (destruct Ph as (M0 & _); exact (reg_bound _ _ _ _ M0 Ix Ii)).
    match goal with |- (Rabs ?t + _ <= _)%R => replace t with (rsum (fun h => if h =? ig then 0 else sct x ig h * phi (mg_flux sw1) i h) ng - rsum (fun h => if h =? ig then 0 else sct x ig h * phi (mg_flux sw2) i h) ng)%R by lra end. rewrite <- rsum_minus.
    assert (Bd : (Rabs (rsum (fun h => (if h =? ig then 0 else sct x ig h * phi (mg_flux sw1) i h) - (if h =? ig then 0 else sct x ig h * phi (mg_flux sw2) i h)) ng) <= rsum (fun h => M * (if (h =? ig)%nat then 0 else sct x ig h * v h)) ng)%R).
    { apply (rsum_abs m ng sct v c Hv Dom). intros j Hj. destruct (Nat.eqb_spec j ig) as [|Nj]; [rewrite Rminus_0_r, Rabs_R0; lra|]. destruct Ph as (_ & D & _). destruct (D x Ix) as (_ & Nn & _). pose proof (Nn ig j Hig Hj (fun e => Nj (eq_sym e))) as Z. replace (sct x ig j * phi (mg_flux sw1) i j - sct x ig j * phi (mg_flux sw2) i j)%R with (sct x ig j * (phi (mg_flux sw1) i j - phi (mg_flux sw2) i j))%R by ring.
      rewrite Rabs_mult, (Rabs_pos_eq _ Z). replace (M * (sct x ig j * v j))%R with (sct x ig j * (M * v j))%R by ring. apply Rmult_le_compat_l; [exact Z|]. now apply A. }
    rewrite rsum_scal in Bd. pose proof (Dom x ig Ix Hig) as Do. rewrite (rsum_split m ng sct v c Hv Dom _ ng ig Hig) in Do. assert (M * (sct x ig ig * v ig + rsum (fun h => if (h =? ig)%nat then 0 else sct x ig h * v h) ng) <= M * (c * at0 (xr_tr x) ig * v ig))%R by (apply Rmult_le_compat_l; [exact HM|]; lra). lra.
  - assert (KM : (kp * (M * v ig) <= M * v ig)%R) by (assert (kp * (M * v ig) <= 1 * (M * v ig))%R by (apply Rmult_le_compat_r; lra); lra). assert (N1 : all_near M w1 w2).
    { split.
      - intros i j Hi Hj. destruct (Nat.eq_dec j ig) as [->|Nj]; [|rewrite (O1 i j Hi Nj), (O2 i j Hi Nj); now apply A]. specialize (B1 i Hi). lra.
      - intros j Hj. destruct (Nat.eq_dec j ig) as [->|Nj]; [|apply (near_bnd m j _ _ (mg_bnd sw1) (mg_bnd sw2)); auto]. apply (near_mono _ _ (rh * (kp * (M * v ig)) / (4 * PI))); [|exact B2]. unfold Rdiv. apply Rmult_le_compat_r; [left; apply Rinv_0_lt_compat; lra|]. apply Rmult_le_compat_l; lra. }
    assert (Sm1 : forall j, j < ng -> pres_same m j (mg_bnd w1) (mg_bnd w2)).
    { intros j Hj. destruct (Nat.eq_dec j ig) as [->|Nj]; [exact B3|]. apply (pres_trans _ _ _ (mg_bnd sw1)); [apply bnd_pres; auto|]. apply (pres_trans _ _ _ (mg_bnd sw2)); [auto|]. apply pres_sym, bnd_pres; auto. }
    destruct (Nat.eq_dec h ig) as [->|Nh]; [|apply (IH (S ig) u1 w1 u2 w2 src1' sw1' src2' sw2'); auto; lia].
    destruct (grps_ok m ng sct ext P Ph Ex k (S ig) u1 w1 ltac:(lia) K1 S1) as (x1 & y1 & J1 & _ & _ & Z1). rewrite E1 in J1. injection J1 as <- <-. destruct (grps_ok m ng sct ext P Ph Ex k (S ig) u2 w2 ltac:(lia) K2 S2) as (x2 & y2 & J2 & _ & _ & Z2). rewrite E2 in J2. injection J2 as <- <-.
    replace (kp * M * v ig)%R with (kp * (M * v ig))%R by ring. split; [intros i Hi; rewrite Z1, Z2 by lia; now apply B1|].
    apply (near_bnd m ig _ _ (mg_bnd w1) (mg_bnd w2)); [apply (proj2 (grps_keep k (S ig) u1 w1 src1' sw1' ltac:(lia) K1 S1 E1)); lia|apply (proj2 (grps_keep k (S ig) u2 w2 src2' sw2' ltac:(lia) K2 S2 E2)); lia|exact B2].
Qed.
Definition f_val (s : FxState) : nat -> nat -> R := rval m rh (snd (snd s)).
Lemma f_near : forall M s1 s2, moc_shape m ng s1 -> moc_shape m ng s2 -> ((forall i h, i < n_all m -> h < ng -> (Rabs (rval m rh s1 i h - rval m rh s2 i h) <= M * v h)%R) <-> all_near M s1 s2).
Proof.
  intros M s1 s2 F1 F2. pose proof (rho_range c Hc) as [[R1 R2] _]. split.
  - intros H. split; [intros i h Hi Hh|intros h Hh]; destruct (proj1 (rap_iff m ng sct rh P R1 h (M * v h) s1 s2 Hh F1 F2)) as [A B]; auto.
  - intros [A B] i h Hi Hh. apply (proj2 (rap_iff m ng sct rh P R1 h (M * v h) s1 s2 Hh F1 F2)); auto.
Qed.
Lemma f_con : forall D s1 s2 s1' s2', (0 <= D)%R -> fx_shape m ng s1 -> fx_shape m ng s2 -> fx_pres m ng s1 s2 -> wapart FxState f_val (n_all m) ng v D s1 s2 ->
  fx_next m ng ext s1 = Some s1' -> fx_next m ng ext s2 = Some s2' -> wapart FxState f_val (n_all m) ng v (kp * D) s1' s2' /\ fx_pres m ng s1' s2'.
Proof.
  intros D s1 s2 s1' s2' HD F1 F2 Sm A E1 E2. destruct (next_total m ng sct ext P Ph Ex s1 F1) as (q1 & Q1 & H1). rewrite E1 in Q1. injection Q1 as <-. destruct (next_total m ng sct ext P Ph Ex s2 F2) as (q2 & Q2 & H2). rewrite E2 in Q2. injection Q2 as <-.
  apply next_step in E1. apply next_step in E2. destruct (step_parts m ng ext _ _ E1) as [G1 _]. destruct (step_parts m ng ext _ _ E2) as [G2 _].
  destruct s1 as [o1 [a1 b1]], s2 as [o2 [a2 b2]], s1' as [o1' [a1' b1']], s2' as [o2' [a2' b2']]. unfold fx_pres, wapart, f_val, fx_shape in *. cbn [snd fst] in *. destruct F1 as [La1 Fb1], F2 as [La2 Fb2], H1 as [_ H1], H2 as [_ H2].
  destruct (grps_keep ng 0 a1 b1 a1' b1' (le_n _) La1 Fb1 G1) as [K1 _]. destruct (grps_keep ng 0 a2 b2 a2' b2' (le_n _) La2 Fb2 G2) as [K2 _]. split.
  - apply (f_near (kp * D) b1' b2' H1 H2). assert (Q : forall h, 0 <= h < 0 + ng -> _) by exact (grps_refl D HD ng 0 a1 b1 a2 b2 a1' b1' a2' b2' (le_n _) La1 La2 Fb1 Fb2 Sm (proj1 (f_near D b1 b2 Fb1 Fb2) A) G1 G2). split; [intros i h Hi Hh|intros h Hh]; destruct (Q h ltac:(lia)) as [Q1 Q2]; auto.
  - intros h Hh. apply (pres_trans _ _ _ _ _ (K1 h Hh)). apply (pres_trans _ _ _ _ _ (Sm h Hh)). apply pres_sym; auto.
Qed.
Lemma f_keep : forall s s', fx_shape m ng s -> fx_next m ng ext s = Some s' -> fx_pres m ng s' s.
Proof. intros s s' F E. apply next_step in E. destruct (step_parts m ng ext _ _ E) as [G _]. destruct s as [o [a b]], s' as [o' [a' b']]. destruct F as [La Fb]. cbn [snd fst] in *. exact (proj1 (grps_keep ng 0 a b a' b' (le_n _) La Fb G)). Qed.
Lemma f_again : forall s s1 s2, fx_shape m ng s -> fx_next m ng ext s = Some s1 -> fx_next m ng ext s1 = Some s2 -> fx_pres m ng s2 s1.
Proof. intros s s1 s2 F E1 E2. destruct (next_total m ng sct ext P Ph Ex s F) as (q & Q & H). rewrite E1 in Q. injection Q as <-. now apply f_keep. Qed.
Lemma f_refl : forall s, fx_pres m ng s s.
Proof. intros s h _. apply pres_refl. Qed.
Lemma f_sym : forall s t, fx_pres m ng s t -> fx_pres m ng t s.
Proof. intros s t H h Hh. apply pres_sym; auto. Qed.
Lemma f_trans : forall s t u, fx_pres m ng s t -> fx_pres m ng t u -> fx_pres m ng s u.
Proof. intros s t u H1 H2 h Hh. apply (pres_trans _ _ _ _ _ (H1 h Hh) (H2 h Hh)). Qed.
Lemma f_zero : forall s t, moc_shape m ng s -> moc_shape m ng t -> ((forall i h, i < n_all m -> h < ng -> rval m rh s i h = rval m rh t i h) <-> (forall i h, i < ms_nreg m -> h < ng -> phi (mg_flux s) i h = phi (mg_flux t) i h) /\ forall h, h < ng -> bnd_same m h (mg_bnd s) (mg_bnd t)).
Proof.
  intros s t F1 F2. split.
  - intros H. split; [intros i h Hi Hh|intros h Hh]; destruct (proj1 (g_zero m ng sct h c P Hc Hh s t F1 F2)) as [A B]; auto.
  - intros [A B] i h Hi Hh. apply (proj2 (g_zero m ng sct h c P Hc Hh s t F1 F2)); auto.
Qed.
Lemma f_converge : forall s, fx_shape m ng s -> exists (it : nat -> FxState) sol D, it 0 = s /\ (forall n, fx_step m ng ext (it n) = Got (it (S n)) /\ fx_shape m ng (it n)) /\ (0 <= D)%R /\ fx_shape m ng sol /\ fx_pres m ng sol s /\ fx_fixed m ng ext sol /\
  (forall n, (forall i h, i < ms_nreg m -> h < ng -> (Rabs (phi (fx_flux (it (S n))) i h - phi (fx_flux sol) i h) <= kp ^ n * D * v h)%R) /\ forall h, h < ng -> near m h (- (kp ^ n * D * v h)) (kp ^ n * D * v h) (mg_bnd (snd (snd (it (S n))))) (mg_bnd (snd (snd sol)))) /\
  (forall t, fx_shape m ng t -> fx_pres m ng t s -> fx_fixed m ng ext t -> (forall i h, i < ms_nreg m -> h < ng -> phi (fx_flux t) i h = phi (fx_flux sol) i h) /\ forall h, h < ng -> bnd_same m h (mg_bnd (snd (snd t))) (mg_bnd (snd (snd sol)))).
Proof.
  intros s F. pose proof (rho_range c Hc) as [[R1 R2] _]. pose proof (kap_range c th Hc Ht) as [K _]. pose proof PI_RGT_0 as PP. pose proof PI2_3_2 as P3. unfold PI2 in P3. pose proof (proj1 Dm) as Hv. pose proof (next_total m ng sct ext P Ph Ex) as Tot.
  destruct (shrink_run FxState (fx_shape m ng) (fx_next m ng ext) Tot s F) as (it & I0 & Sh & St).
  destruct (run_limit FxState (fx_shape m ng) (fx_next m ng ext) (fx_pres m ng) f_val (n_all m) ng v kp K Hv Tot f_con f_again f_refl f_sym f_trans it Sh St) as (lim & D & D0 & Hl).
  set (sw := put_in m ng rh lim (snd (snd (it 1)))). set (sol := (fst (it 1), (fst (snd (it 1)), sw)) : FxState). pose proof (put_shape m ng sct rh P lim (snd (snd (it 1))) (proj2 (Sh 1))) as Fw. change (moc_shape m ng sw) in Fw. assert (Fs : fx_shape m ng sol) by (split; [exact (proj1 (Sh 1))|exact Fw]).
  assert (Vs : forall i h, i < n_all m -> h < ng -> f_val sol i h = lim i h) by (intros i h Hi Hh; exact (put_val m ng rh R1 lim (snd (snd (it 1))) i h Hi Hh)).
  assert (Sm : fx_pres m ng sol (it 1)).
  { intros h Hh. apply (put_pres m ng sct rh P R1 lim (fun n => snd (snd (it (S n)))) h kp (D * v h) (snd (snd (it 1))) Hh K).
    - intros n. apply (Sh (S n)).
    - intros n. exact (run_sm1 FxState (fx_shape m ng) (fx_next m ng ext) (fx_pres m ng) f_again f_refl f_trans it Sh St n h Hh).
    - apply (Sh 1).
    - intros n i Hi. specialize (Hl n i h Hi Hh). rewrite <- Rmult_assoc. exact Hl. }
  assert (S10 : fx_pres m ng (it 1) s) by (rewrite <- I0; exact (f_keep (it 0) (it 1) (Sh 0) (St 0))).
  exists it, sol, D. split; [exact I0|]. split; [intros n; split; [apply next_step, St|apply Sh]|]. split; [exact D0|]. split; [exact Fs|]. split; [exact (f_trans _ _ _ Sm S10)|]. split; [|split].
  - destruct (run_fixed FxState (fx_shape m ng) (fx_next m ng ext) (fx_pres m ng) f_val (n_all m) ng v kp K Hv Tot f_con f_again f_refl f_sym f_trans it Sh St lim D D0 Hl sol Fs Sm Vs) as (t & E & V).
    exists t. split; [now apply next_step|]. destruct (Tot sol Fs) as (t' & E' & Ft). rewrite E in E'. injection E' as <-. apply (f_zero (snd (snd t)) sw (proj2 Ft) Fw). intros i h Hi Hh. change (f_val t i h = f_val sol i h). rewrite (Vs i h Hi Hh). exact (V i h Hi Hh).
  - intros n. assert (B0 : (0 <= kp ^ n * D)%R) by (apply Rmult_le_pos; [apply pow_le; lra|exact D0]). destruct (proj1 (f_near (kp ^ n * D) (snd (snd (it (S n)))) sw (proj2 (Sh (S n))) Fw)) as [A B].
    + intros i h Hi Hh. change (Rabs (f_val (it (S n)) i h - f_val sol i h) <= kp ^ n * D * v h)%R. rewrite (Vs i h Hi Hh). exact (Hl n i h Hi Hh).
    + split; [exact A|]. intros h Hh. specialize (Hv h Hh). apply (near_mono _ _ (rh * (kp ^ n * D * v h) / (4 * PI))); [|exact (B h Hh)]. apply (Rmult_le_reg_r (4 * PI)); [lra|]. replace (rh * (kp ^ n * D * v h) / (4 * PI) * (4 * PI))%R with (rh * (kp ^ n * D * v h))%R by (field; lra). rewrite (Rmult_comm rh). apply Rmult_le_compat_l; [apply Rmult_le_pos|]; lra.
  - intros t Ft St1 (t' & E & V1 & V2). apply next_step in E. destruct (Tot t Ft) as (t2 & E2 & Ft'). rewrite E in E2. injection E2 as <-. apply (f_zero (snd (snd t)) sw (proj2 Ft) Fw). intros i h Hi Hh. change (f_val t i h = f_val sol i h). rewrite (Vs i h Hi Hh).
    apply (run_unique FxState (fx_shape m ng) (fx_next m ng ext) (fx_pres m ng) f_val (n_all m) ng v kp K Hv Tot f_con f_again f_refl f_sym f_trans it Sh St lim D Hl t t' Ft (f_trans _ _ _ St1 (f_sym _ _ S10)) E); [|exact Hi|exact Hh].
    intros j l Hj Hll. exact (proj2 (f_zero (snd (snd t')) (snd (snd t)) (proj2 Ft') (proj2 Ft)) (conj V1 V2) j l Hj Hll).
Qed.
End Outer.

(** C186: a fixed-source calculation over any boundary conditions converges, to the only solution with its prescribed incoming fluxes. *)
Theorem C186_converge : forall m ng sct ext v c, moc_problem m ng sct -> physical (ms_nreg m) ng sct (ms_xs m) -> crossed m -> 1 <= ms_inner m -> ext_fits (ms_nreg m) ng ext -> (0 <= c < 1)%R -> dominated m ng sct v c ->
  exists k, (0 <= k < 1)%R /\ forall s, fx_shape m ng s -> exists (it : nat -> FxState) sol D, it 0 = s /\ (forall n, fx_step m ng ext (it n) = Got (it (S n))) /\ (0 <= D)%R /\ fx_shape m ng sol /\ fx_pres m ng sol s /\ fx_fixed m ng ext sol /\
    (forall n, (forall i h, i < ms_nreg m -> h < ng -> (Rabs (phi (fx_flux (it (S n))) i h - phi (fx_flux sol) i h) <= k ^ n * D * v h)%R) /\ forall h, h < ng -> near m h (- (k ^ n * D * v h)) (k ^ n * D * v h) (mg_bnd (snd (snd (it (S n))))) (mg_bnd (snd (snd sol)))) /\
    (forall t, fx_shape m ng t -> fx_pres m ng t s -> fx_fixed m ng ext t -> (forall i h, i < ms_nreg m -> h < ng -> phi (fx_flux t) i h = phi (fx_flux sol) i h) /\ forall h, h < ng -> bnd_same m h (mg_bnd (snd (snd t))) (mg_bnd (snd (snd sol)))).
Proof.
  intros m ng sct ext v c P Ph Cr Hn Ex Hc Dm. destruct (thin_some m ng sct P Cr) as (th & Ht & Th). exists (kap c th). split; [apply (kap_range c th Hc Ht)|]. intros s F.
  destruct (f_converge m ng sct ext v c th P Ph Cr Hn Ex Hc Ht Th Dm s F) as (it & sol & D & A1 & A2 & A3 & A4 & A5 & A6 & A7 & A8). exists it, sol, D. split; [exact A1|]. split; [intros n; apply A2|]. auto 10.
Qed.
Print Assumptions C186_converge.

(** C186: and with enough iterations allowed it ends because the residual is below the tolerance. *)
Theorem C186_stops : forall m ng sct ext v c tol s, moc_problem m ng sct -> physical (ms_nreg m) ng sct (ms_xs m) -> crossed m -> 1 <= ms_inner m -> ext_fits (ms_nreg m) ng ext -> (0 <= c < 1)%R -> dominated m ng sct v c -> (0 < tol)%R -> fx_shape m ng s ->
  exists N, forall mx, N <= mx -> exists s' n, fx_solve m ng ext tol mx s = Got (s', n) /\ 1 <= n <= N /\ (fx_resid s' < tol)%R.
Proof.
  intros m ng sct ext v c0 tol s P Ph Cr Hn Ex Hc0 Dm Ht F. destruct (thin_some m ng sct P Cr) as (th & Hth & Th). destruct (f_converge m ng sct ext v c0 th P Ph Cr Hn Ex Hc0 Hth Th Dm s F) as (it & sol & D & I0 & St & D0 & _ & _ & _ & Hl0 & _). pose proof (kap_range c0 th Hc0 Hth) as [Hc _]. set (c := kap c0 th) in *. clearbody c. pose proof (fun n => proj1 (Hl0 n)) as Hl. destruct (vtop v ng) as (V & V0 & HV). pose proof (proj1 Dm) as Hv.
  set (B := (INR (ms_nreg m * ng) * (2 * D * V))%R). assert (B0 : (0 <= B)%R) by (unfold B; apply Rmult_le_pos; [apply pos_INR|]; apply Rmult_le_pos; lra).
  destruct (pow_lt_1_zero c) with (y := (tol / (B + 1))%R) as (k & Hk); [rewrite Rabs_pos_eq; lra|apply Rdiv_lt_0_compat; lra|]. specialize (Hk k (le_n _)). pose proof (pow_le c k (proj1 Hc)) as C0. rewrite Rabs_pos_eq in Hk by exact C0.
  assert (Sm : fx_small tol (it (S (S k))) = true).
  { unfold fx_small. apply Rltb_true. unfold fx_resid. destruct (step_parts m ng ext _ _ (proj1 (St (S k)))) as [_ Eo]. rewrite Eo. apply Rle_lt_trans with (INR (ms_nreg m * ng) * (2 * (c ^ k * D * V)))%R.
    - apply resid_top; [apply (proj2 (St (S (S k))))|apply (proj2 (St (S k)))|assert (0 <= c ^ k * D * V)%R by (repeat apply Rmult_le_pos; assumption); lra|].
      intros i g Hi Hg. pose proof (Hl (S k) i g Hi Hg) as A1. pose proof (Hl k i g Hi Hg) as A2. unfold fx_flux in *. set (z := phi (mg_flux (snd (snd sol))) i g) in *. pose proof (Hv g Hg) as W. specialize (HV g Hg).
      assert (A3 : (c ^ k * D * v g <= c ^ k * D * V)%R) by (apply Rmult_le_compat_l; [now apply Rmult_le_pos|exact HV]). assert (A4 : (c ^ S k * D * v g <= c ^ k * D * v g)%R). { cbn [pow]. assert (0 <= c ^ k * D * v g)%R by (apply Rmult_le_pos; [now apply Rmult_le_pos|lra]). nra. }
      match goal with |- (Rabs (?a - ?b) <= _)%R => replace (a - b)%R with ((a - z) + - (b - z))%R by ring end. eapply Rle_trans; [apply Rabs_triang|]. rewrite Rabs_Ropp. lra.
    - replace (INR (ms_nreg m * ng) * (2 * (c ^ k * D * V)))%R with (c ^ k * B)%R by (unfold B; ring). apply Rle_lt_trans with (c ^ k * (B + 1))%R; [apply Rmult_le_compat_l; lra|]. replace tol with (tol / (B + 1) * (B + 1))%R by (field; lra). apply Rmult_lt_compat_r; lra. }
  exists (S (S k)). intros mx Hm. destruct (loop_run m ng ext tol it (fun n => proj1 (St n)) mx 0) as (n & E & Bn & Pos & Hs & Hj). rewrite I0 in E. exists (it n), n. split; [exact E|]. assert (N1 : 0 < n) by (apply Pos; lia).
  assert (N2 : n <= S (S k)). { destruct (le_lt_dec n (S (S k))) as [|Q]; [assumption|]. specialize (Hj (S (S k)) ltac:(lia)). congruence. }
  split; [lia|]. assert (Sn : fx_small tol (it n) = true). { destruct (Nat.eq_dec n (S (S k))) as [->|Q]; [exact Sm|]. apply Hs. lia. } unfold fx_small in Sn. destruct (Rltb_spec (fx_resid (it n)) tol) as [Z|Z]; [exact Z|discriminate].
Qed.
Print Assumptions C186_stops.

(** Examples: the two regions of C171 and C180 with reflecting boundaries. *)
Lemma mr_crossed : forall gs, crossed (mr_static gs).
Proof. intros gs f h rays [E|[]]. injection E as <- <- <-. split; [reflexivity|]. repeat constructor; cbn; discriminate. Qed.
Lemma mr_shape : forall gs v, moc_shape (mr_static gs) 1 (mr_start v).
Proof. intros gs v. split; [split; [reflexivity|intros row [<-|[<-|[]]]; reflexivity]|]. split; [reflexivity|]. split; [reflexivity|]. constructor; [split; reflexivity|constructor]. Qed.
(** Two runs of inner iterations that start far apart tend to the same flux. *)
Example C185_instance : forall gs, moc_problem (mr_static gs) 1 (fun _ => mo_sc) /\ crossed (mr_static gs) /\ ~ open_bc (mr_static gs) /\
  exists k (it1 it2 : nat -> MocState) D, (0 <= k < 1)%R /\ (forall n, moc_inners (mr_static gs) 0 [1; 0]%R n (mr_start 1) = Some (it1 n)) /\ (forall n, moc_inners (mr_static gs) 0 [1; 0]%R n (mr_start 3) = Some (it2 n)) /\ forall n i, i < 2 -> (Rabs (phi (mg_flux (it1 (S n))) i 0 - phi (mg_flux (it2 (S n))) i 0) <= k ^ n * D)%R.
Proof.
  intros gs. pose proof (mr_problem gs) as P. pose proof (mr_crossed gs) as Cr. split; [exact P|]. split; [exact Cr|]. split; [intros Op; destruct (Op EAST) as [H|H]; discriminate|].
  destruct (C185_converge (mr_static gs) 1 (fun _ => mo_sc) 0 (1 / 2) P mo_physical Cr ltac:(lia) ltac:(lra)) as (k & Hk & H); [intros x [<-|[<-|[]]]; unfold mo_sc, at0; cbn; lra|].
  destruct (H [1; 0]%R (mr_start 1) eq_refl (mr_shape gs 1)) as (it1 & s1 & D1 & E1 & D10 & F1 & P1 & X1 & C1 & U1). destruct (H [1; 0]%R (mr_start 3) eq_refl (mr_shape gs 3)) as (it2 & s2 & D2 & E2 & D20 & F2 & P2 & X2 & C2 & _).
  assert (Ps : pres_same (mr_static gs) 0 (mg_bnd s2) (mg_bnd (mr_start 1))).
  { apply (pres_trans _ _ _ _ _ P2). constructor; [|constructor]. intros a n i q Sx Ty. unfold type_at in Ty. destruct (nth_error _ _) in Ty; [|discriminate]. cbn in Ty. discriminate. }
  destruct (U1 s2 F2 Ps X2) as [Q _]. exists k, it1, it2, (D1 + D2)%R. split; [exact Hk|]. split; [exact E1|]. split; [exact E2|]. intros n i Hi. destruct (C1 n) as [A1 _]. destruct (C2 n) as [A2 _]. specialize (A1 i Hi). specialize (A2 i Hi). rewrite (Q i Hi) in A2.
  set (z := phi (mg_flux s1) i 0) in *. replace (phi (mg_flux (it1 (S n))) i 0 - phi (mg_flux (it2 (S n))) i 0)%R with ((phi (mg_flux (it1 (S n))) i 0 - z) + - (phi (mg_flux (it2 (S n))) i 0 - z))%R by ring. eapply Rle_trans; [apply Rabs_triang|]. rewrite Rabs_Ropp, Rmult_plus_distr_l. lra.
Qed.
Definition mq_bc : BC := mkBC 2 (repeat (mkSize 1 1 0) 4) (fun _ => REFLECT) 1 (repeat mx_a 4) [].
Definition mq_static (gs : bool) : MocStatic := mkMS mq_bc mq_bc (fun _ => [1; 2]%R) [1; 1]%R (repeat mx_a 4) [1; 1]%R gs 2 2 3 [mf_x0; mf_x1] [(0, 1%R, [mx_rays; mx_rays])].
Lemma mq_problem : forall gs, moc_problem (mq_static gs) 2 (fun _ => mf_sc).
Proof.
  intros gs. destruct (mf_problem gs) as [A1 A2 A3 A4 A5 A6 A7 A8 A9 A10 A11 A12 A13 A14].
  constructor; [|reflexivity| |exact A4|exact A5|exact A6|exact A7|exact A8|exact A9|exact A10|exact A11|exact A12| |].
  - destruct mx_bc_ok as [B1 B2 B3 B4]. constructor; [exact B1|exact B2|exact B3|exact B4].
  - intros s. right. left. reflexivity.
  - intros f h rays I. exact (A13 f h rays I).
  - intros g q i Hi. exact (A14 g q i Hi).
Qed.
Lemma mq_crossed : forall gs, crossed (mq_static gs).
Proof. intros gs f h rays [E|[]]. injection E as <- <- <-. split; [reflexivity|]. repeat constructor; cbn; discriminate. Qed.
Example C186_instance : forall gs, moc_problem (mq_static gs) 2 (fun _ => mf_sc) /\ physical 2 2 (fun _ => mf_sc) [mf_x0; mf_x1] /\ crossed (mq_static gs) /\ ~ open_bc (mq_static gs) /\ dominated (mq_static gs) 2 (fun _ => mf_sc) (fun _ => 1%R) (3 / 4) /\
  exists k (it : nat -> FxState) sol D, (0 <= k < 1)%R /\ it 0 = mf_start 1 /\ (forall n, fx_step (mq_static gs) 2 (mf_ext 1) (it n) = Got (it (S n))) /\ fx_fixed (mq_static gs) 2 (mf_ext 1) sol /\ (forall n i g, i < 2 -> g < 2 -> (Rabs (phi (fx_flux (it (S n))) i g - phi (fx_flux sol) i g) <= k ^ n * D)%R) /\
    exists N, forall mx, N <= mx -> exists s' n, fx_solve (mq_static gs) 2 (mf_ext 1) (1 / 1000) mx (mf_start 1) = Got (s', n) /\ 1 <= n <= N /\ (fx_resid s' < 1 / 1000)%R.
Proof.
  intros gs. pose proof (mq_problem gs) as P. pose proof (mq_crossed gs) as Cr. pose proof mf_physical as Ph. pose proof (mf_dominated gs) as Dm. change (dominated (mq_static gs) 2 (fun _ => mf_sc) (fun _ => 1%R) (3 / 4)) in Dm. pose proof (mf_fits 1) as Ex. pose proof (mf_shape gs 1) as F. change (fx_shape (mq_static gs) 2 (mf_start 1)) in F.
  split; [exact P|]. split; [exact Ph|]. split; [exact Cr|]. split; [intros Op; destruct (Op EAST) as [H|H]; discriminate|]. split; [exact Dm|].
  destruct (C186_converge (mq_static gs) 2 _ (mf_ext 1) _ (3 / 4) P Ph Cr ltac:(cbn; lia) Ex ltac:(lra) Dm) as (k & Hk & H). destruct (H (mf_start 1) F) as (it & sol & D & I0 & St & _ & _ & _ & Fx & Cv & _). exists k, it, sol, D. split; [exact Hk|]. split; [exact I0|]. split; [exact St|]. split; [exact Fx|].
  split; [intros n i g Hi Hg; pose proof (proj1 (Cv n) i g Hi Hg) as Q; cbv beta in Q; rewrite Rmult_1_r in Q; exact Q|]. apply (C186_stops (mq_static gs) 2 (fun _ => mf_sc) (mf_ext 1) (fun _ => 1%R) (3 / 4) (1 / 1000) (mf_start 1) P Ph Cr); try lra; [cbn; lia|exact Ex|exact Dm|exact F].
Qed.
