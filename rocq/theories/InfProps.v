(** Properties of a whole eigenvalue calculation: C156 (a flux that is flat in space and balances in every material is a solution when nothing leaks out). *)
From Coq Require Import List Bool Reals ZArith Arith Lia Lra Permutation.
From Verif Require Import RUtil ListUtil AngModel BcModel McModel ScatModel MatModel XsModel SrcModel SolModel MocModel MgModel BcProofs HomProps MocProofs ScatProofs SrcProps SolProps VolProps MgProps MgInnerProps SnGroupProps EigProps MocMaxProps MocEigProps.
Import ListNotations.
Open Scope nat_scope.

(** In every material the collisions of the spectrum [F] are its fission neutrons, divided by [k], and its scattering: the balance of an infinite medium. *)
Definition medium (xs : list XReg) (ng : nat) (sct : XReg -> nat -> nat -> R) (F : nat -> R) (k : R) : Prop :=
  forall x g, In x xs -> g < ng -> (at0 (xr_tr x) g * F g = at0 (xr_ch x) g * (rsum (fun h => at0 (xr_nf x) h * F h) ng / k) + rsum (fun h => sct x g h * F h) ng)%R.
(** A sweeper that keeps [Flat]: states whose flux is [F] everywhere, swept with the source that balances [F]. *)
Definition keeps {Sw} (flux : Sw -> list (list R)) (sweep : nat -> list R -> Sw -> option Sw) (Fit Flat : Sw -> Prop) (nreg ng : nat) (sct : XReg -> nat -> nat -> R) (xs : list XReg) (F : nat -> R) : Prop :=
  (forall sw, Flat sw -> forall i g, i < nreg -> g < ng -> phi (flux sw) i g = F g) /\
  forall g src sw sw', g < ng -> length src = nreg -> Fit sw -> Flat sw -> (forall x i, In x xs -> In i (xr_reg x) -> at0 src i = (at0 (xr_tr x) g * F g - sct x g g * F g)%R) -> sweep g src sw = Some sw' -> Flat sw'.

Lemma rsum_but : forall (f : nat -> R) g n, g < n -> (rsum (fun h => if (h =? g)%nat then 0 else f h) n + f g = rsum f n)%R.
Proof.
  intros f g n. induction n as [|n IH]; intros H; [lia|]. cbn [rsum]. destruct (Nat.eqb_spec n g) as [->|N].
  - rewrite (rsum_ext (fun h => if (h =? g)%nat then 0%R else f h) f); [ring|]. intros h Hh. destruct (Nat.eqb_spec h g); [lia|reflexivity].
  - rewrite <- IH by lia. ring.
Qed.
Lemma sum_sq_same : forall n a, n <= length a -> sum_sq n a a = Some 0%R.
Proof. induction n as [|n IH]; intros [|x a] L; cbn in *; try lia; auto. rewrite IH by lia. f_equal. ring. Qed.

Section Flat.
Context {Sw : Type} (flux : Sw -> list (list R)) (sweep : nat -> list R -> Sw -> option Sw) (Fit Flat : Sw -> Prop) (nreg ng : nat) (sct : XReg -> nat -> nat -> R) (xs : list XReg) (vol : list R) (F : nat -> R) (k : R).
Context (G : good_sweeper flux sweep Fit nreg ng) (Ph : physical nreg ng sct xs) (Lv : length vol = nreg) (Pv : forall i, i < nreg -> (0 < at0 vol i)%R) (Kp : keeps flux sweep Fit Flat nreg ng sct xs F) (Md : medium xs ng sct F k) (K : (0 < k)%R).

Lemma flat_groups : forall fs, length fs = nreg -> (forall i, i < nreg -> (0 <= at0 fs i)%R) -> (forall x i, In x xs -> In i (xr_reg x) -> at0 fs i = (rsum (fun h => at0 (xr_nf x) h * F h) ng / k)%R) ->
  forall cnt ig src sw src' sw', ig + cnt <= ng -> length src = nreg -> Fit sw -> (forall i h, i < nreg -> h < ng -> (0 <= phi (flux sw) i h)%R) -> Flat sw -> fss_groups Sw flux sweep xs nreg None (Some fs) ig cnt (src, sw) = Some (src', sw') -> Flat sw'.
Proof.
  intros fs Lf Nf Vf. induction cnt as [|c IH]; intros ig src sw src' sw' Hc Ls Fs N Fl E; cbn [fss_groups] in E; [now injection E as <- <-|].
  destruct (group_made flux sweep Fit nreg ng sct xs G Ph fs ig src sw ltac:(lia) Ls Lf Fs N Nf) as (s1 & w1 & E1 & L1 & Es & F1 & N1 & _ & P1). rewrite E1 in E. apply (IH (S ig) s1 w1 src' sw'); auto; [lia|].
  apply (proj2 Kp ig s1 sw w1); auto; [lia|]. intros x i Ix Ii. destruct Ph as (M & _). pose proof (reg_bound xs nreg x i M Ix Ii) as Hi. rewrite (P1 x i Ix Ii), (Vf x i Ix Ii), (Md x ig Ix) by lia.
  rewrite <- (rsum_but (fun h => sct x ig h * F h)%R ig ng) by lia. rewrite (rsum_ext (fun h => if (h =? ig)%nat then 0%R else (sct x ig h * phi (flux sw) i h)%R) (fun h => if (h =? ig)%nat then 0%R else (sct x ig h * F h)%R)); [ring|].
  intros h Hh. destruct (h =? ig); [reflexivity|]. now rewrite (proj1 Kp sw Fl).
Qed.
Lemma flat_iter : forall s, sound flux Fit nreg ng xs vol s -> Flat (e_sw Sw s) -> e_k Sw s = k ->
  exists s', eigen_iter Sw flux sweep xs ng nreg vol s = Got s' /\ sound flux Fit nreg ng xs vol s' /\ Flat (e_sw Sw s') /\ e_k Sw s' = k /\ e_hist Sw s' = e_hist Sw s ++ [(k, 0, 0)%R].
Proof.
  intros s So Fl Ek. assert (So' := So). destruct So' as (Fs & Ls & Lf & Kp0 & N & Pp). assert (Ph' := Ph). destruct Ph' as (M & D & Cov & Pos). assert (Ff := proj1 G _ Fs).
  assert (Vx : forall fl x i, (forall i g, i < nreg -> g < ng -> phi fl i g = F g) -> In x xs -> In i (xr_reg x) -> rsum (fun h => at0 (xr_nf x) h * phi fl i h)%R ng = rsum (fun h => at0 (xr_nf x) h * F h)%R ng).
  { intros fl x i H Ix Ii. apply rsum_ext. intros h Hh. rewrite H; auto. now apply (reg_bound xs nreg x). }
  destruct (C51_fission_source nreg ng sct (e_k Sw s) xs (flux (e_sw Sw s)) (e_fs Sw s) ltac:(lra) M D Ff Lf) as (f1 & E1 & L1 & V1 & _). destruct (prod_source nreg ng sct xs vol Ph Lv Pv _ _ _ _ N Pp Kp0 Ff Lf E1) as (_ & N1 & T1).
  destruct (groups_made flux sweep Fit nreg ng sct xs vol G Ph Lv Pv f1 ng 0 (e_src Sw s) (e_sw Sw s) ltac:(lia) Ls L1 Fs N N1) as (src' & sw' & E2 & L2 & F2 & N2).
  assert (Fl' : Flat sw') by (apply (flat_groups f1 L1 N1) with (cnt := ng) (ig := 0) (src := e_src Sw s) (sw := e_sw Sw s) (src' := src'); auto; intros x i Ix Ii; rewrite (V1 x i Ix Ii), Ek, (Vx _ x i (proj1 Kp _ Fl) Ix Ii); reflexivity).
  assert (Pe : production xs ng (flux sw') vol = production xs ng (flux (e_sw Sw s)) vol) by (apply (production_ext xs ng _ _ vol nreg M); intros i g Hi Hg; now rewrite !(proj1 Kp)).
  destruct (step_made flux sweep Fit nreg ng sct xs vol G Ph Lv Pv s So) as [((fs & s1 & w1 & Q1 & Q2 & Q3) & _)|(_ & s' & E & So2 & Rt)]; [rewrite E1 in Q1; injection Q1 as <-; rewrite E2 in Q2; injection Q2 as <- <-; lra|].
  exists s'. split; [exact E|]. split; [exact So2|]. unfold eigen_iter, eigen_step in E. rewrite E1, E2, (C51_total_fission nreg ng sct xs _ vol M D (proj1 G _ F2) Lv), (C51_total_fission nreg ng sct xs _ vol M D Ff Lv) in E. destruct (Reqb_spec (production xs ng (flux (e_sw Sw s)) vol) 0) as [|_]; [lra|]. cbv zeta in E.
  rewrite Pe in E. replace (e_k Sw s * production xs ng (flux (e_sw Sw s)) vol / production xs ng (flux (e_sw Sw s)) vol)%R with k in E by (rewrite Ek; field; lra).
  destruct (C51_fission_source nreg ng sct k xs (flux sw') f1 ltac:(lra) M D (proj1 G _ F2) L1) as (f2 & E3 & L3 & V3 & _). rewrite E3 in E. cbn [e_fs e_fsp e_sw e_k e_hist] in E.
  assert (f2 = f1) as ->. { apply (nth_ext _ _ 0%R 0%R); [lia|]. intros i Hi. specialize (Cov i ltac:(lia)). apply in_concat in Cov. destruct Cov as (r & Ir & Ii). apply in_map_iff in Ir. destruct Ir as (x & <- & Ix). change (at0 f2 i = at0 f1 i). rewrite (V3 x i Ix Ii), (V1 x i Ix Ii), Ek, (Vx _ x i (proj1 Kp _ Fl) Ix Ii), (Vx _ x i (proj1 Kp _ Fl') Ix Ii). reflexivity. }
  destruct (normalize f1) as [[f c]|] eqn:En; [|discriminate]. assert (Lfn : length f = nreg) by (unfold normalize in En; destruct (Reqb _ _); [discriminate|]; injection En as <- _; now rewrite map_length). rewrite (sum_sq_same nreg f) in E by lia.
  destruct (Nat.eqb_spec (n_fissile xs) 0) as [|Nf]; [discriminate|]. injection E as <-. cbn [e_sw e_k e_hist]. split; [exact Fl'|]. split; [reflexivity|]. rewrite Ek. repeat f_equal; [unfold Rminus; now rewrite Rplus_opp_r, Rabs_R0|]. unfold Rdiv. now rewrite Rmult_0_l, sqrt_0.
Qed.
(** Any number of iterations. *)
Lemma flat_steps : forall j s, sound flux Fit nreg ng xs vol s -> Flat (e_sw Sw s) -> e_k Sw s = k ->
  exists s', steps (eigen_iter Sw flux sweep xs ng nreg vol) j s = Got s' /\ sound flux Fit nreg ng xs vol s' /\ Flat (e_sw Sw s') /\ e_k Sw s' = k /\ e_hist Sw s' = e_hist Sw s ++ repeat (k, 0, 0)%R j.
Proof.
  induction j as [|j IH]; intros s So Fl Ek; cbn [steps]; [exists s; rewrite app_nil_r; auto|]. destruct (flat_iter s So Fl Ek) as (s1 & E & S1 & F1 & K1 & H1). rewrite E. destruct (IH s1 S1 F1 K1) as (s2 & E2 & S2 & F2 & K2 & H2).
  exists s2. split; [exact E2|]. do 3 (split; [assumption|]). rewrite H2, H1, <- app_assoc. reflexivity.
Qed.
End Flat.

(** ** The MoC sweeper *)
(** A flux that is [F] everywhere, and boundary values to match: an angular flux of a 4 PI-th of it in every direction. *)
Definition moc_flat (m : MocStatic) (ng : nat) (F : nat -> R) (s : MocState) : Prop :=
  (forall i g, i < ms_nreg m -> g < ng -> phi (mg_flux s) i g = F g) /\ Forall (fun d => forall g a n i k, g < ng -> slot (ms_in m) g a n i k -> nth_error (fst d) k = Some (F g / (4 * PI))%R) (mg_bnd s).

Lemma moc_keeps_inner : forall m ng sct F, moc_problem m ng sct -> physical (ms_nreg m) ng sct (ms_xs m) -> (forall t, types (ms_in m) t <> VACUUM) ->
  forall g src s s', g < ng -> length src = ms_nreg m -> moc_state m ng s -> moc_flat m ng F s -> (forall x i, In x (ms_xs m) -> In i (xr_reg x) -> at0 src i = (at0 (xr_tr x) g * F g - sct x g g * F g)%R) -> moc_inner m g src s = Some s' -> moc_flat m ng F s'.
Proof.
  intros m ng sct F P Ph Nv g src s s' Hg Ls (Ff & Lq & Lb & Fb) [Fv Bv] Sv E. destruct Ph as (M & D & Cov & _). pose proof PI_RGT_0 as PP. unfold moc_inner in E.
  destruct (self_scatter_ok true (ms_nreg m) ng sct (ms_xs m) (mg_flux s) src g (mg_q s) M D Ff Ls Lq Hg) as (q & Eq & L & Pq & _); [intros _ x I; pose proof (mp_tr m ng sct P x g I Hg); lra|]. rewrite Eq in E.
  assert (Q : forall i, i < ms_nreg m -> at0 q i = (F g / (4 * PI))%R).
  { intros i Hi. specialize (Cov i Hi). apply in_concat in Cov. destruct Cov as (l & I & Ii). apply in_map_iff in I. destruct I as (x & <- & Ix). rewrite (Pq x i Ix Ii), (Sv x i Ix Ii), (Fv i g Hi Hg). pose proof (mp_tr m ng sct P x g Ix Hg) as T. field. split; lra. }
  set (c := (F g / (4 * PI))%R) in *. set (ps := map (fun pb => plane_in (fst pb) (snd pb)) (combine (ms_planes m) (mg_bnd s))) in *. change (mkME (ms_in m) (ms_out m) g (ms_xstr m g) (ms_vol m) (fun _ => q) (ms_quad m) (ms_space m) (ms_gs m)) with (env_of m g q) in E.
  assert (Fp : Forall (plane_bnd (env_of m g q) c c (ms_nreg m) (ms_nt m)) ps).
  { apply Forall_forall. intros p I. apply in_map_iff in I. destruct I as ([[[f h] rays] d] & <- & I). apply in_combine_l in I as I1. apply in_combine_r in I as I2. cbn [fst snd plane_in].
    destruct (mp_planes m ng sct P f h rays I1) as (A1 & A2 & A3 & A4 & A5 & A6 & A7). pose proof (proj1 (Forall_forall _ _) Fb d I2) as (B1 & B2 & _). pose proof (proj1 (Forall_forall _ _) Bv d I2) as B3. cbn beta in B3.
    unfold plane_bnd. cbn [pi_height pi_rays pi_first pi_in pi_out env_of me_in me_space me_gs fst snd]. do 5 (split; [assumption|]). split; [intros j rs Ej; now apply A6|]. do 3 (split; [assumption|]).
    intros a n i k Sx. cbn [env_of me_in me_group] in Sx. exists c. split; [exact (B3 g a n i k Hg Sx)|]. unfold inb. lra. }
  destruct (mp_xstr m ng sct P g Hg) as [X1 X2]. destruct (mp_vol m ng sct P) as [V1 V2]. destruct (mp_space m ng sct P) as [S1 S2].
  destruct (C153_bounds (env_of m g q) q c c (ms_nreg m) (ms_nt m) ps (mp_bc m ng sct P) (mp_out m ng sct P) (mp_sup m ng sct P)) as (f & bs & E1 & Lf & Bf & Ab).
  { intros t T. destruct (Nv t T). } { exact (mp_gap m ng sct P). } { cbn. rewrite (mp_ng m ng sct P). exact Hg. } { exact (mp_len m ng sct P). } { reflexivity. } { exact L. }
  { apply Forall_forall. intros v I. apply (In_nth _ _ 0%R) in I. destruct I as (i & I & <-). change (nth i q 0%R) with (at0 q i). rewrite Q by lia. lra. }
  { exact X1. } { exact X2. } { exact V1. } { exact V2. } { exact S1. } { exact S2. } { exact (mp_quad m ng sct P). } { exact Fp. }
  { intros i I. unfold ps. rewrite swept_bnd by exact Lb. now apply (mp_fill m ng sct P). }
  rewrite E1 in E. destruct (set_col g f (mg_flux s)) as [fl|] eqn:Ec; [|discriminate]. injection E as <-. destruct (set_col_spec _ _ _ _ Ec) as (C1 & C2 & C3 & C4). split; cbn [mg_flux mg_bnd].
  - intros i h Hi Hh. rewrite C4 by lia. destruct (Nat.eqb_spec h g) as [->|]; [|now apply Fv]. rewrite Forall_forall in Bf. specialize (Bf (at0 f i) ltac:(apply nth_In; lia)). unfold c in Bf. replace (4 * PI * (F g / (4 * PI)))%R with (F g) in Bf by (field; lra). lra.
  - unfold ps in Ab. clear - Ab Bv Hg. revert bs Ab. generalize (ms_planes m) as pl. induction Bv as [|d ds Hd Bv IH]; intros pl bs Ab.
    + destruct pl; cbn in Ab; inversion Ab; constructor.
    + destruct pl as [|p pl]; cbn [combine map] in Ab; [inversion Ab; constructor|]. inversion Ab as [|? b ? bs' A Ab' E1 E2]. constructor; [|now apply (IH pl bs')].
      destruct A as (_ & _ & A3 & A4 & _). cbn [plane_in pi_in pi_out fst snd] in A3, A4. intros g' a n i k Hg' Sx. destruct (Nat.eq_dec g' g) as [->|Ne].
      * destruct (A3 a n i k Sx) as (v & Ev & I1 & I2). rewrite Ev. f_equal. unfold c in *. lra.
      * rewrite (A4 g' a n i k Sx Ne). now apply (Hd g' a n i k).
Qed.
Lemma moc_keeps : forall m ng sct F, moc_problem m ng sct -> physical (ms_nreg m) ng sct (ms_xs m) -> (forall g, g < ng -> (0 <= F g)%R) -> (forall x g, In x (ms_xs m) -> g < ng -> (0 <= at0 (xr_tr x) g * F g - sct x g g * F g)%R) -> (forall t, types (ms_in m) t <> VACUUM) ->
  keeps mg_flux (moc_sweep m) (moc_state m ng) (moc_flat m ng F) (ms_nreg m) ng sct (ms_xs m) F.
Proof.
  intros m ng sct F P Ph F0 Q0 Nv. split; [intros sw [H _]; exact H|]. intros g src sw sw' Hg Ls Fs Fl Sv. unfold moc_sweep.
  assert (N0 : forall i, i < ms_nreg m -> (0 <= at0 src i)%R). { intros i Hi. destruct Ph as (_ & _ & Cov & _). specialize (Cov i Hi). apply in_concat in Cov. destruct Cov as (l & I & Ii). apply in_map_iff in I. destruct I as (x & <- & Ix). rewrite (Sv x i Ix Ii). now apply Q0. }
  revert sw Fs Fl. induction (ms_inner m) as [|n IH]; intros sw Fs Fl E; cbn [moc_inners] in E; [now injection E as <-|].
  destruct (moc_inner m g src sw) as [s1|] eqn:E1; [|discriminate]. destruct (moc_inner_made m ng sct P Ph g src sw Hg Ls Fs N0) as (s2 & E2 & F2 & _); [intros i h Hi Hh; rewrite (proj1 Fl) by assumption; now apply F0|]. rewrite E1 in E2. injection E2 as <-.
  apply (IH s1 F2); [|exact E]. exact (moc_keeps_inner m ng sct F P Ph Nv g src sw s1 Hg Ls Fs Fl Sv E1).
Qed.

(** C156: a core without vacuum sides, of any geometry and any materials that have the spectrum [F] and the eigenvalue [k] in common.  Started
    from the flat flux and [k], every iteration keeps both and records no error. *)
Theorem C156_moc : forall m ng sct F s j, moc_problem m ng sct -> physical (ms_nreg m) ng sct (ms_xs m) -> (forall t, types (ms_in m) t <> VACUUM) -> medium (ms_xs m) ng sct F (e_k _ s) ->
  sound mg_flux (moc_state m ng) (ms_nreg m) ng (ms_xs m) (ms_vol m) s -> moc_flat m ng F (e_sw _ s) ->
  exists s', steps (eigen_iter MocState mg_flux (moc_sweep m) (ms_xs m) ng (ms_nreg m) (ms_vol m)) j s = Got s' /\ moc_flat m ng F (e_sw _ s') /\ e_k _ s' = e_k _ s /\ e_hist _ s' = e_hist _ s ++ repeat (e_k _ s, 0, 0)%R j.
Proof.
  intros m ng sct F s j P Ph Nv Md So Fl. assert (G := moc_good m ng sct P Ph). destruct (mp_vol m ng sct P) as [Lv Pv0]. assert (Pv : forall i, i < ms_nreg m -> (0 < at0 (ms_vol m) i)%R) by (intros i Hi; rewrite Forall_forall in Pv0; apply Pv0, nth_In; lia).
  assert (So' := So). destruct So' as (_ & _ & _ & K & N & Pp). assert (Ph' := Ph). destruct Ph' as (M & D & Cov & Pos).
  destruct (ms_nreg m) as [|n0] eqn:En. { exfalso. unfold production in Pp. rewrite lsum_zero in Pp; [lra|]. intros x Ix. apply lsum_zero. intros i Ii. pose proof (reg_bound _ _ x i M Ix Ii). lia. }
  rewrite <- En in *. assert (F0 : forall g, g < ng -> (0 <= F g)%R) by (intros g Hg; rewrite <- (proj1 Fl 0 g) by lia; apply N; lia).
  destruct (flat_steps mg_flux (moc_sweep m) (moc_state m ng) (moc_flat m ng F) (ms_nreg m) ng sct (ms_xs m) (ms_vol m) F (e_k _ s) G Ph Lv Pv) with (j := j) (s := s) as (s' & E & _ & Fl' & Ek & Eh); auto; [|eauto 6].
  apply (moc_keeps m ng sct F P Ph F0); [|exact Nv]. intros x g Ix Hg. rewrite (Md x g Ix Hg). rewrite <- (rsum_but (fun h => sct x g h * F h)%R g ng Hg).
  match goal with |- (0 <= ?a + (?b + ?c) - ?c)%R => replace (a + (b + c) - c)%R with (a + b)%R by ring end. destruct (Pos x g Ix Hg) as [Pc _]. apply Rplus_le_le_0_compat.
  - apply Rmult_le_pos; [exact Pc|]. apply Rmult_le_pos; [|apply Rlt_le, Rinv_0_lt_compat; exact K]. apply rsum_nonneg. intros h Hh. destruct (Pos x h Ix Hh) as [_ Pn]. apply Rmult_le_pos; auto.
  - apply rsum_nonneg. intros h Hh. destruct (Nat.eqb_spec h g); [lra|]. destruct (D x Ix) as (_ & O & _). apply Rmult_le_pos; [apply O; auto|auto].
Qed.
Print Assumptions C156_moc.

(** Two regions of different materials behind mirrors, one angle per octant: both materials multiply by 3/2. *)
Definition mf_dir (c s : R) : Angle := mkAngle (mkDir c s 0 1 (PI / 2) 1) 1.
Definition mf_quad : list Angle := [mf_dir (3 / 5) (4 / 5); mf_dir (- (3 / 5)) (4 / 5); mf_dir (- (3 / 5)) (- (4 / 5)); mf_dir (3 / 5) (- (4 / 5))].
Definition mf_bc : BC := mkBC 1 (repeat (mkSize 1 1 0) 4) (fun _ => REFLECT) 1 mf_quad [].
Definition mf_x0 : XReg := mkXR [0] true [1]%R [3 / 4]%R [1]%R [1]%R [1 / 2]%R (mkSM 1 [1 / 2]%R [0 + 1 / 2]%R [mkRow 0 0 0]).
Definition mf_x1 : XReg := mkXR [1] true [2]%R [9 / 4]%R [1]%R [1]%R [3 / 2]%R (mkSM 1 [1 / 2]%R [0 + 1 / 2]%R [mkRow 0 0 0]).
Definition mf_static (gs : bool) : MocStatic := mkMS mf_bc mf_bc (fun _ => [1; 2]%R) [1; 1]%R mf_quad [1; 1]%R gs 2 2 1 [mf_x0; mf_x1] [(0, 1%R, [mx_rays; mx_rays])].
Definition mf_start : MocState := mkMG [[1]; [1]]%R [0; 0]%R [(repeat (1 / (4 * PI))%R 8, repeat 0%R 8)].
Definition mf_s : ESt MocState := mkE MocState [0; 0]%R mf_start (3 / 2) (3 / 2) [0; 0]%R [0; 0]%R [].
Lemma mf_bc_ok : bc_ok mf_bc.
Proof.
  constructor; [cbn; lia|cbn; lia|cbn; lia|]. intros a a' n s Es Rf H. assert (La : a < 4) by (apply (nth_error_Some (sizes mf_bc)); congruence).
  do 4 (destruct a as [|a]; [destruct n; cbn in Es, Rf, H; injection Es as <-; injection Rf as <-; cbn in H; try lia; eexists; split; reflexivity|]). lia.
Qed.
Lemma mf_problem : forall gs, moc_problem (mf_static gs) 1 (fun _ => mo_sc).
Proof.
  intros gs. constructor; cbn [mf_static ms_in ms_out ms_xstr ms_nreg ms_vol ms_space ms_quad ms_xs ms_planes ms_gs ms_nt].
  - apply mf_bc_ok.
  - reflexivity.
  - intros s. right. left. reflexivity.
  - apply Forall_forall; intros s Hs; apply repeat_spec in Hs; subst; split; cbn; lia.
  - reflexivity.
  - reflexivity.
  - intros g _. split; [reflexivity|repeat constructor; lra].
  - split; [reflexivity|repeat constructor; lra].
  - split; [cbn; lia|repeat constructor; lra].
  - apply Forall_forall. intros a Ia. cbn in Ia. repeat (destruct Ia as [<-|Ia]; [cbn [mf_dir weight adir rsintheta theta]; rewrite sin_PI2; lra|]). destruct Ia.
  - intros x g [<-|[<-|[]]] Hg; assert (g = 0) by lia; subst; cbn; lra.
  - intros x g _ _. unfold mo_sc. lra.
  - intros f h rays [[= <- <- <-]|[]]. split; [lra|]. split; [cbn; lia|]. split; [cbn; lia|]. split; [reflexivity|]. split; [repeat constructor|]. split; [|repeat constructor; cbn; lra || lia].
    intros g q j rs E. assert (rs = mx_rays /\ j < 2) as [-> Hj] by (destruct j as [|[|j]]; cbn in E; [injection E as <-; split; auto|injection E as <-; split; auto|destruct j; discriminate]).
    exists (mkSize 1 1 0), (mkSize 1 1 0). destruct j as [|[|j]]; [| |lia]; cbn; repeat split; auto using perm_swap; apply perm_swap.
  - intros g q [|[|i]] Hi; [| |lia]; unfold swept, mx_rays, angle_vol, len_in, ray_len, at0; cbn; unfold angle_vol, len_in, ray_len, at0; cbn; lra.
Qed.
Lemma mf_physical : physical 2 1 (fun _ => mo_sc) [mf_x0; mf_x1].
Proof.
  split; [split; [repeat constructor; cbn; intuition lia|cbn; intuition lia]|]. split.
  - intros x [<-|[<-|[]]]; (split; [unfold compress, band, mo_sc; cbn [first_bound last_bound map seq]; rewrite (Rltb_true 0 (1 / 2)) by lra; reflexivity|]; split; [intros i g _ _ _; unfold mo_sc; lra|]; repeat split; reflexivity).
  - split; [intros i Hi; cbn; lia|]. intros x g [<-|[<-|[]]] Hg; assert (g = 0) by lia; subst; cbn; lra.
Qed.
Lemma mf_slots : forall g a n i k (v : R), slot mf_bc g a n i k -> g < 1 -> nth_error (repeat v 8) k = Some v.
Proof.
  intros g a n i k v Sx Hg. pose proof (slot_range _ _ _ _ _ _ Sx Hg) as B. cbn in B. rewrite (nth_error_nth' _ 0%R) by (rewrite repeat_length; lia). f_equal. apply (repeat_spec 8 v). apply nth_In. rewrite repeat_length. lia.
Qed.
Lemma mf_sound : forall gs, sound mg_flux (moc_state (mf_static gs) 1) 2 1 [mf_x0; mf_x1] [1; 1]%R mf_s.
Proof.
  intros gs. assert (Pi := PI_RGT_0). split; [|split; [reflexivity|split; [reflexivity|split; [cbn; lra|split]]]].
  - split; [split; [reflexivity|cbn; intros row [<-|[<-|[]]]; reflexivity]|]. split; [reflexivity|]. split; [reflexivity|]. constructor; [|constructor]. split; [reflexivity|]. split; [reflexivity|].
    intros g a n i k Hg Sx. eexists. split; [apply (mf_slots _ _ _ _ _ _ Sx Hg)|]. apply Rlt_le, Rdiv_lt_0_compat; lra.
  - intros [|[|i]] [|h] Hi Hh; try lia; unfold phi; cbn; lra.
  - unfold production, phi; cbn; lra.
Qed.
Lemma mf_flat : forall gs, moc_flat (mf_static gs) 1 (fun _ => 1%R) mf_start.
Proof.
  intros gs. split; [intros [|[|i]] [|h] Hi Hh; cbn in Hi; try lia; reflexivity|]. constructor; [|constructor]. intros g a n i k Hg Sx. apply (mf_slots _ _ _ _ _ _ Sx Hg).
Qed.
Example C156_instance : forall gs, moc_problem (mf_static gs) 1 (fun _ => mo_sc) /\ physical 2 1 (fun _ => mo_sc) [mf_x0; mf_x1] /\ (forall t, types (ms_in (mf_static gs)) t <> VACUUM) /\ medium [mf_x0; mf_x1] 1 (fun _ => mo_sc) (fun _ => 1%R) (3 / 2) /\
  sound mg_flux (moc_state (mf_static gs) 1) 2 1 [mf_x0; mf_x1] [1; 1]%R mf_s /\ moc_flat (mf_static gs) 1 (fun _ => 1%R) mf_start /\
  exists s', steps (eigen_iter MocState mg_flux (moc_sweep (mf_static gs)) [mf_x0; mf_x1] 1 2 [1; 1]%R) 5 mf_s = Got s' /\ e_k _ s' = (3 / 2)%R /\ phi (mg_flux (e_sw _ s')) 1 0 = 1%R.
Proof.
  intros gs. assert (Md : medium [mf_x0; mf_x1] 1 (fun _ => mo_sc) (fun _ => 1%R) (3 / 2)) by (intros x g [<-|[<-|[]]] Hg; assert (g = 0) by lia; subst; unfold mo_sc; cbn; field).
  split; [apply mf_problem|]. split; [apply mf_physical|]. split; [intros t T; discriminate T|]. split; [exact Md|]. split; [apply mf_sound|]. split; [apply mf_flat|].
  destruct (C156_moc (mf_static gs) 1 (fun _ => mo_sc) (fun _ => 1%R) mf_s 5 (mf_problem gs) mf_physical) as (s' & E & Fl & K & _); [intros t T; discriminate T|exact Md|apply mf_sound|apply mf_flat|].
  exists s'. split; [exact E|]. split; [exact K|]. apply Fl; cbn; lia.
Qed.
