(** C148 for the MoC sweeper: what every iterate of a whole eigenvalue calculation satisfies. *)
From Coq Require Import List Bool Reals ZArith Arith Lia Lra Permutation.
From Verif Require Import RUtil ListUtil McModel MeshModel AngModel BcModel BcProofs StdAlg CoreModel CoreProofs ScatModel ScatProofs MatModel ExpModel MocModel MocProofs MocProps XsModel SrcModel SrcProps SolModel SolProps MgModel MgProps MgInnerProps SnGroupProps EigProps MocMaxProps.
Import ListNotations.
Open Scope nat_scope.

(** What one sweep of group [g] works with. *)
Definition env_of (m : MocStatic) (g : nat) (q : list R) : MocEnv := mkME (ms_in m) (ms_out m) g (ms_xstr m g) (ms_vol m) (fun _ => q) (ms_quad m) (ms_space m) (ms_gs m).
(** A problem for the MoC sweeper: arrays of the right sizes, positive cross sections, volumes and directions, rays that use every boundary slot once
    and cover no more of a region than there is, and no negative scattering within a group. *)
Record moc_problem (m : MocStatic) (ng : nat) (sct : XReg -> nat -> nat -> R) : Prop := {
  mp_bc : bc_ok (ms_in m); mp_out : sizes (ms_out m) = sizes (ms_in m); mp_sup : all_supported (ms_in m); mp_gap : Forall no_gap (sizes (ms_in m));
  mp_ng : n_group (ms_in m) = ng; mp_len : length (sizes (ms_in m)) = 4 * n_oct (ms_in m);
  mp_xstr : forall g, g < ng -> length (ms_xstr m g) = ms_nreg m /\ Forall (fun x => 0 < x)%R (ms_xstr m g);
  mp_vol : length (ms_vol m) = ms_nreg m /\ Forall (fun v => 0 < v)%R (ms_vol m);
  mp_space : length (ms_space m) <= length (ms_quad m) /\ Forall (fun s => 0 <= s)%R (ms_space m);
  mp_quad : Forall (fun a => 0 <= weight a /\ 0 < rsintheta (adir a) /\ rsintheta (adir a) * sin (theta (adir a)) = 1)%R (ms_quad m);
  mp_tr : forall x g, In x (ms_xs m) -> g < ng -> (0 < at0 (xr_tr x) g)%R;
  mp_self : forall x g, In x (ms_xs m) -> g < ng -> (0 <= sct x g g)%R;
  mp_planes : forall f h rays, In (f, h, rays) (ms_planes m) -> (0 <= h)%R /\ length rays <= length (ms_space m) /\ length rays <= 4 * n_oct (ms_in m) /\ (ms_gs m = false -> length rays = 2 * n_oct (ms_in m)) /\
    Forall (Forall (fun tr => fst tr < ms_nt m)) rays /\ (forall g q j rs, nth_error rays j = Some rs -> rays_cover (env_of m g q) j (map snd rs)) /\ Forall (fun rs => Forall (ray_sound (ms_nreg m) f) (map snd rs)) rays;
  mp_fill : forall g q i, i < ms_nreg m -> (swept (env_of m g q) (map (fun p => plane_in p ([], [])) (ms_planes m)) i <= 2 * at0 (ms_vol m) i)%R }.
(** Boundary data of a plane: of its size, and nowhere negative. *)
Definition bdry_fine (m : MocStatic) (d : list R * list R) : Prop := length (fst d) = n_group (ms_in m) * BcProofs.total (sizes (ms_in m)) /\ length (snd d) = BcProofs.total (sizes (ms_in m)) /\
  forall g a n i k, g < n_group (ms_in m) -> slot (ms_in m) g a n i k -> exists v, nth_error (fst d) k = Some v /\ (0 <= v)%R.
(** What leaves a plane is nowhere negative. *)
Definition out_fine (m : MocStatic) (d : list R * list R) : Prop := forall a n i k, slot (ms_in m) 0 a n i k -> exists v, nth_error (snd d) k = Some v /\ (0 <= v)%R.
(** The sweeper's state: sizes, and boundary fluxes that are nowhere negative. *)
Definition moc_state (m : MocStatic) (ng : nat) (s : MocState) : Prop :=
  flux_fits (ms_nreg m) ng (mg_flux s) /\ length (mg_q s) = ms_nreg m /\ length (mg_bnd s) = length (ms_planes m) /\ Forall (bdry_fine m) (mg_bnd s).

Lemma list_top : forall l : list R, exists M, (0 <= M)%R /\ Forall (fun v => v <= M)%R l.
Proof.
  induction l as [|v l (M & P & F)]; [exists 0%R; split; [lra|constructor]|]. exists (Rmax v M). pose proof (Rmax_l v M). pose proof (Rmax_r v M). split; [lra|]. constructor; [assumption|]. eapply Forall_impl; [|exact F]. intros a Ha. cbn beta in Ha. lra.
Qed.
Lemma swept_bnd : forall e ps ds i, length ds = length ps -> swept e (map (fun pb => plane_in (fst pb) (snd pb)) (combine ps ds)) i = swept e (map (fun p => plane_in p ([], [])) ps) i.
Proof. intros e. unfold swept. induction ps as [|p ps IH]; intros [|d ds] i L; cbn in L; try lia; [reflexivity|]. cbn [combine map lsum]. rewrite IH by lia. reflexivity. Qed.

Section Moc.
Variables (m : MocStatic) (ng : nat) (sct : XReg -> nat -> nat -> R).
Hypothesis P : moc_problem m ng sct.
Hypothesis Ph : physical (ms_nreg m) ng sct (ms_xs m).

Lemma moc_inner_made : forall g src s, g < ng -> length src = ms_nreg m -> moc_state m ng s -> (forall i, i < ms_nreg m -> (0 <= at0 src i)%R) -> (forall i h, i < ms_nreg m -> h < ng -> (0 <= phi (mg_flux s) i h)%R) ->
  exists s', moc_inner m g src s = Some s' /\ moc_state m ng s' /\ (forall i h, i < ms_nreg m -> h <> g -> phi (mg_flux s') i h = phi (mg_flux s) i h) /\ (forall i, i < ms_nreg m -> (0 <= phi (mg_flux s') i g)%R) /\
  (Forall (fun p => length (snd p) = 2 * n_oct (ms_in m)) (ms_planes m) -> Forall (out_fine m) (mg_bnd s')).
Proof.
  intros g src s Hg Ls (Ff & Lq & Lb & Fb) Ns Nf. destruct Ph as (M & D & Cov & _). pose proof PI_RGT_0 as PP. unfold moc_inner.
  destruct (self_scatter_ok true (ms_nreg m) ng sct (ms_xs m) (mg_flux s) src g (mg_q s) M D Ff Ls Lq Hg) as (q & Eq & L & Pq & _); [intros _ x I; pose proof (mp_tr m ng sct P x g I Hg); lra|]. rewrite Eq.
  assert (Q0 : forall i, i < ms_nreg m -> (0 <= at0 q i)%R).
  { intros i Hi. specialize (Cov i Hi). apply in_concat in Cov. destruct Cov as (l & I & Ii). apply in_map_iff in I. destruct I as (x & <- & Ix). rewrite (Pq x i Ix Ii).
    pose proof (mp_tr m ng sct P x g Ix Hg) as T. pose proof (mp_self m ng sct P x g Ix Hg) as Z. assert (0 <= phi (mg_flux s) i g * sct x g g)%R by (apply Rmult_le_pos; auto). specialize (Ns i Hi).
    apply Rmult_le_pos; [lra|]. apply Rlt_le, Rdiv_lt_0_compat; [lra|]. apply Rmult_lt_0_compat; lra. }
  destruct (list_top (q ++ concat (map fst (mg_bnd s)))) as (hi & H0 & Hi). apply Forall_app in Hi. destruct Hi as [Hq Hb].
  set (ps := map (fun pb => plane_in (fst pb) (snd pb)) (combine (ms_planes m) (mg_bnd s))).
  assert (Fp : Forall (plane_bnd (env_of m g q) 0 hi (ms_nreg m) (ms_nt m)) ps).
  { apply Forall_forall. intros p I. apply in_map_iff in I. destruct I as ([[[f h] rays] d] & <- & I). apply in_combine_l in I as I1. apply in_combine_r in I as I2. cbn [fst snd plane_in].
    destruct (mp_planes m ng sct P f h rays I1) as (A1 & A2 & A3 & A4 & A5 & A6 & A7). pose proof (proj1 (Forall_forall _ _) Fb d I2) as (B1 & B2 & B3).
    unfold plane_bnd. cbn [pi_height pi_rays pi_first pi_in pi_out env_of me_in me_space me_gs fst snd]. do 5 (split; [assumption|]). split; [intros j rs E; now apply A6|]. do 3 (split; [assumption|]).
    intros a n i k Sx. cbn [env_of me_in me_group] in Sx. destruct (B3 g a n i k) as (v & Ev & Nv); [rewrite (mp_ng m ng sct P); exact Hg|exact Sx|]. exists v. split; [exact Ev|]. split; [exact Nv|].
    rewrite Forall_forall in Hb. apply Hb. apply in_concat. exists (fst d). split; [now apply in_map|eapply nth_error_In; eauto]. }
  destruct (mp_xstr m ng sct P g Hg) as [X1 X2]. destruct (mp_vol m ng sct P) as [V1 V2]. destruct (mp_space m ng sct P) as [S1 S2].
  destruct (C153_bounds (env_of m g q) q 0 hi (ms_nreg m) (ms_nt m) ps (mp_bc m ng sct P) (mp_out m ng sct P) (mp_sup m ng sct P)) as (f & bs & E & Lf & Bf & Ab).
  { intros t _. lra. } { exact (mp_gap m ng sct P). } { cbn. rewrite (mp_ng m ng sct P). exact Hg. } { exact (mp_len m ng sct P). } { reflexivity. } { exact L. }
  { apply Forall_forall. intros c I. split; [|rewrite Forall_forall in Hq; now apply Hq]. apply (In_nth _ _ 0%R) in I. destruct I as (i & I & <-). apply Q0. lia. }
  { exact X1. } { exact X2. } { exact V1. } { exact V2. } { exact S1. } { exact S2. } { exact (mp_quad m ng sct P). } { exact Fp. }
  { intros i I. unfold ps. rewrite swept_bnd by exact Lb. now apply (mp_fill m ng sct P). }
  unfold env_of in E. rewrite E. destruct (set_col_def g (ms_nreg m) ng f (mg_flux s) Ff Hg Lf) as (fl & Ec). rewrite Ec. destruct (set_col_spec _ _ _ _ Ec) as (C1 & C2 & C3 & C4).
  eexists. split; [reflexivity|]. cbn [mg_flux]. split; [|split; [|split]].
  - unfold moc_state. cbn [mg_flux mg_q mg_bnd]. split; [exact (fits_map _ _ _ _ Ff C2 C3)|]. split; [exact L|].
    assert (Lab : forall (ps : list PlaneIn) bs, Forall2 (after (env_of m g q) 0 hi) ps bs -> length bs = length ps) by (induction 1; cbn; lia). split; [rewrite (Lab _ _ Ab); unfold ps; rewrite map_length, combine_length; lia|].
    unfold ps in Ab. revert Ab. clear - Fb Hg P. revert bs. generalize (ms_planes m) as pl. induction Fb as [|d ds Hd Fb IH]; intros pl bs Ab.
    + destruct pl; cbn in Ab; inversion Ab; constructor.
    + destruct pl as [|p pl]; cbn [combine map] in Ab; [inversion Ab; constructor|]. inversion Ab as [|? b ? bs' A Ab' E1 E2]. constructor; [|now apply (IH pl bs')].
      destruct A as (A1 & A2 & A3 & A4 & _). cbn [plane_in pi_in pi_out fst snd] in A1, A2, A4. destruct Hd as (D1 & D2 & D3). split; [congruence|]. split; [congruence|]. intros g' a n i k Hg' Sx. destruct (Nat.eq_dec g' g) as [->|Ne].
      * destruct (A3 a n i k Sx) as (v & Ev & Nv & _). exists v. auto.
      * rewrite (A4 g' a n i k Sx Ne). apply (D3 g' a n i k Hg' Sx).
  - intros i h Hi Nh. rewrite C4 by lia. destruct (Nat.eqb_spec h g); [contradiction|reflexivity].
  - intros i Hi. rewrite C4, Nat.eqb_refl by lia. rewrite Forall_forall in Bf. destruct (Bf (at0 f i)) as [Z _]; [apply nth_In; lia|]. lra.
  - cbn [mg_bnd]. intros Full. unfold ps in Ab. assert (Len := mp_len m ng sct P). revert Ab Full Lb. clear - Len. revert bs. generalize (mg_bnd s) as ds. generalize (ms_planes m) as pl. induction pl as [|p pl IH]; intros [|d ds] bs Ab Full Lb; try discriminate; cbn [combine map] in Ab.
    + inversion Ab. constructor.
    + inversion Ab as [|? bb ? bs' A Ab' E1 E2]. apply Forall_cons_iff in Full. destruct Full as [Fu Full]. constructor; [|apply (IH ds bs' Ab' Full); now injection Lb].
      destruct A as (_ & _ & _ & _ & A). cbn [plane_in pi_rays] in A. rewrite Fu in A. intros a n i k Sx. cbn [env_of me_in] in A.
      assert (Ha : a < 4 * n_oct (ms_in m)) by (rewrite <- Len; destruct Sx as (z & o & Gf & _); destruct (get_face_inv _ _ _ _ _ _ Gf) as (w & o' & Ew & _); apply nth_error_Some; congruence).
      assert (Y : exists v, nth_error (snd bb) k = Some v /\ (0 <= v <= hi)%R).
      { destruct (Nat.lt_ge_cases a (2 * n_oct (ms_in m))) as [C|C]; [apply (proj1 (A a C) n i k Sx)|]. destruct (A (a - 2 * n_oct (ms_in m)) ltac:(lia)) as [_ Y]. apply (Y n i k). cbn [env_of me_in].
        replace (rev_ang (n_oct (ms_in m)) (a - 2 * n_oct (ms_in m))) with a; [exact Sx|]. unfold rev_ang, reverse2. rewrite Z.mod_small by lia. lia. }
      destruct Y as (v & Ev & Nv & _). eauto.
Qed.
Lemma moc_good : good_sweeper mg_flux (moc_sweep m) (moc_state m ng) (ms_nreg m) ng.
Proof.
  split; [intros sw (Ff & _); exact Ff|]. intros g src sw Hg Ls Fs Ns Nf. unfold moc_sweep.
  assert (Nfg : forall i, i < ms_nreg m -> (0 <= phi (mg_flux sw) i g)%R) by auto. revert sw Fs Nf Nfg. induction (ms_inner m) as [|n IH]; intros sw Fs Nf Nfg; cbn [moc_inners]; [exists sw; auto|].
  destruct (moc_inner_made g src sw Hg Ls Fs Ns Nf) as (s1 & E1 & F1 & O1 & N1 & _). rewrite E1.
  destruct (IH s1 F1) as (s2 & E2 & F2 & O2 & N2); [intros i h Hi Hh; destruct (Nat.eq_dec h g) as [->|Ne]; [now apply N1|rewrite O1 by assumption; now apply Nf]|exact N1|].
  exists s2. split; [exact E2|]. split; [exact F2|]. split; [intros i h Hi Nh; rewrite O2 by assumption; now apply O1|exact N2].
Qed.
End Moc.

(** C148 for the MoC sweeper: any geometry, rays, quadrature, supported boundary conditions, update scheme, threads and inner iterations. *)
Theorem C148_moc : forall m ng sct vol p dumps src sw fs fsp, moc_problem m ng sct -> physical (ms_nreg m) ng sct (ms_xs m) -> length vol = ms_nreg m -> (forall i, i < ms_nreg m -> (0 < at0 vol i)%R) ->
  (Z.of_nat (ep_max p) < INT_MAX)%Z -> moc_state m ng sw -> length src = ms_nreg m -> length fs = ms_nreg m -> (forall i h, i < ms_nreg m -> h < ng -> (0 <= phi (mg_flux sw) i h)%R) -> (0 < production (ms_xs m) ng (mg_flux sw) vol)%R ->
  let run := eigen_run MocState mg_flux (moc_sweep m) (ms_xs m) ng (ms_nreg m) vol p dumps src sw fs fsp in
  (exists s n du, run = Got (s, n, du) /\ moc_state m ng (e_sw _ s) /\ (0 < e_k _ s)%R /\ (forall i h, i < ms_nreg m -> h < ng -> (0 <= phi (mg_flux (e_sw _ s)) i h)%R) /\ (0 < production (ms_xs m) ng (mg_flux (e_sw _ s)) vol)%R) \/
  (run = Undef /\ exists t, sound mg_flux (moc_state m ng) (ms_nreg m) ng (ms_xs m) vol t /\ dies mg_flux (moc_sweep m) (ms_nreg m) ng (ms_xs m) vol t).
Proof.
  intros m ng sct vol p dumps src sw fs fsp Pr Ph Lv Pv Hm Fs Ls Lf N P run.
  destruct (C148_run mg_flux (moc_sweep m) (moc_state m ng) (ms_nreg m) ng sct (ms_xs m) vol p dumps src sw fs fsp (moc_good m ng sct Pr Ph) Ph Lv Pv Hm Fs Ls Lf N P) as [(s & n & du & E & F & K & N' & P' & _)|(E & f & j & t & _ & _ & _ & So & Di)].
  - left. exists s, n, du. auto 6.
  - right. split; [exact E|]. eauto.
Qed.
Print Assumptions C148_moc.

(** Two regions in a vacuum, the first fissile, with the rays of [C153_instance]. *)
Definition mo_sc : nat -> nat -> R := fun _ _ => (1 / 2)%R.
Definition mo_x0 : XReg := mkXR [0] true [1]%R [3]%R [1]%R [1]%R [1 / 2]%R (mkSM 1 [1 / 2]%R [0 + 1 / 2]%R [mkRow 0 0 0]).
Definition mo_x1 : XReg := mkXR [1] false [2]%R [0]%R [0]%R [0]%R [3 / 2]%R (mkSM 1 [1 / 2]%R [0 + 1 / 2]%R [mkRow 0 0 0]).
Definition mo_static (gs : bool) : MocStatic := mkMS mx_bc mx_bc (fun _ => [1; 2]%R) [1; 1]%R (repeat mx_a 4) [1; 1]%R gs 2 2 3 [mo_x0; mo_x1] [(0, 1%R, [mx_rays; mx_rays])].
Definition mo_start : MocState := mkMG [[1]; [1]]%R [0; 0]%R [(repeat 0%R 8, repeat 0%R 8)].
Lemma mo_problem : forall gs, moc_problem (mo_static gs) 1 (fun _ => mo_sc).
Proof.
  intros gs. constructor; cbn [mo_static ms_in ms_out ms_xstr ms_nreg ms_vol ms_space ms_quad ms_xs ms_planes ms_gs ms_nt].
  - apply mx_bc_ok.
  - reflexivity.
  - intros s. left. reflexivity.
  - apply Forall_forall; intros s Hs; apply repeat_spec in Hs; subst; split; cbn; lia.
  - reflexivity.
  - reflexivity.
  - intros g _. split; [reflexivity|repeat constructor; lra].
  - split; [reflexivity|repeat constructor; lra].
  - split; [cbn; lia|repeat constructor; lra].
  - apply Forall_forall. intros a Ia. apply repeat_spec in Ia. subst a. cbn [mx_a weight adir rsintheta theta]. rewrite sin_PI2. lra.
  - intros x g [<-|[<-|[]]] Hg; assert (g = 0) by lia; subst; cbn; lra.
  - intros x g _ _. unfold mo_sc. lra.
  - intros f h rays [[= <- <- <-]|[]]. pose proof (mx_bnd gs [1; 1]%R) as B. apply Forall_cons_iff in B. destruct B as [(B1 & B2 & B3 & B4 & B5 & B6 & B7 & _) _]. do 5 (split; [assumption|]). split; [|exact B7]. intros g q j rs Ej. exact (B6 j rs Ej).
  - intros g q [|[|i]] Hi; [| |lia].
    + apply (Rle_trans _ (swept (mx_env gs [1; 1]%R) [mx_plane] 0)); [right; reflexivity|]. rewrite (proj1 (C153_instance gs)). unfold at0. cbn. lra.
    + apply (Rle_trans _ (swept (mx_env gs [1; 1]%R) [mx_plane] 1)); [right; reflexivity|]. rewrite (proj1 (proj2 (C153_instance gs))). unfold at0. cbn. lra.
Qed.
Lemma mo_physical : physical 2 1 (fun _ => mo_sc) [mo_x0; mo_x1].
Proof.
  split; [split; [repeat constructor; cbn; intuition lia|cbn; intuition lia]|]. split.
  - intros x [<-|[<-|[]]]; (split; [unfold compress, band, mo_sc; cbn [first_bound last_bound map seq]; rewrite (Rltb_true 0 (1 / 2)) by lra; reflexivity|]; split; [intros i g _ _ _; unfold mo_sc; lra|]; repeat split; reflexivity).
  - split; [intros i Hi; cbn; lia|]. intros x g [<-|[<-|[]]] Hg; assert (g = 0) by lia; subst; cbn; lra.
Qed.
Lemma mo_state : forall gs, moc_state (mo_static gs) 1 mo_start.
Proof.
  intros gs. split; [split; [reflexivity|cbn; intros row [<-|[<-|[]]]; reflexivity]|]. split; [reflexivity|]. split; [reflexivity|]. constructor; [|constructor]. split; [reflexivity|]. split; [reflexivity|].
  intros g a n i k Hg Sx. exists 0%R. split; [apply (mx_slots _ _ _ _ _ _ Sx Hg)|lra].
Qed.
Example C148_moc_instance : forall gs, moc_problem (mo_static gs) 1 (fun _ => mo_sc) /\ physical 2 1 (fun _ => mo_sc) [mo_x0; mo_x1] /\ moc_state (mo_static gs) 1 mo_start /\
  (0 < production [mo_x0; mo_x1] 1 (mg_flux mo_start) [1; 1])%R /\ ms_inner (mo_static gs) = 3 /\
  exists s', moc_sweep (mo_static gs) 0 [3; 0]%R mo_start = Some s' /\ (0 <= phi (mg_flux s') 0 0)%R /\ (0 <= phi (mg_flux s') 1 0)%R.
Proof.
  intros gs. split; [apply mo_problem|]. split; [apply mo_physical|]. split; [apply mo_state|]. split; [unfold production, phi; cbn; lra|]. split; [reflexivity|].
  destruct (moc_good (mo_static gs) 1 (fun _ => mo_sc) (mo_problem gs) mo_physical) as [_ G].
  destruct (G 0 [3; 0]%R mo_start ltac:(lia) eq_refl (mo_state gs)) as (s' & E & _ & _ & N).
  - intros [|[|i]] Hi; cbn in Hi; [| |lia]; unfold at0; cbn; lra.
  - intros [|[|i]] [|h] Hi Hh; cbn in Hi; try lia; unfold phi; cbn; lra.
  - exists s'. split; [exact E|]. split; apply N; cbn; lia.
Qed.
