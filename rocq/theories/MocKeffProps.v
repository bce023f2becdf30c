(** C194: the multiplication factor that a MoC eigenvalue calculation converges to does not depend on where it started. *)
From Coq Require Import List Bool Reals ZArith Arith Lia Lra Permutation.
From Verif Require Import RUtil ListUtil McModel MeshModel AngModel BcModel BcProofs StdAlg CoreModel CoreProofs ScatModel ScatProofs MatModel ExpModel MocModel MocProofs MocProps XsModel SrcModel HomProps SrcProps SolModel SolProps MgModel MgProps MgInnerProps SnGroupProps EigProps MocMaxProps MocEigProps InfProps MocLinProofs MocConvProps FixModel FixProofs FixProps MocReflProofs MocReflProps MocRecipProofs MocRecipProps MocOrdProps.
Import ListNotations.
Open Scope nat_scope.

(** ** Specification *)
(** A converged calculation: an iteration leaves its fluxes, in regions and coming in, as they are, with a positive multiplication factor. *)
Definition converged (m : MocStatic) (ng : nat) (s : ESt MocState) : Prop :=
  (0 < e_k _ s)%R /\ length (e_src _ s) = ms_nreg m /\ length (e_fs _ s) = ms_nreg m /\ moc_shape m ng (e_sw _ s) /\
  exists s', eigen_step MocState mg_flux (moc_sweep m) (ms_xs m) ng (ms_nreg m) (ms_vol m) s = Some s' /\ (forall i h, i < ms_nreg m -> h < ng -> phi (mg_flux (e_sw _ s')) i h = phi (mg_flux (e_sw _ s)) i h) /\
    forall h, h < ng -> bnd_same m h (mg_bnd (e_sw _ s')) (mg_bnd (e_sw _ s)).
(** Its flux is positive everywhere; its flux is not zero everywhere. *)
Definition flux_pos (m : MocStatic) (ng : nat) (s : ESt MocState) : Prop := forall i h, i < ms_nreg m -> h < ng -> (0 < phi (mg_flux (e_sw _ s)) i h)%R.
Definition flux_some (m : MocStatic) (ng : nat) (s : ESt MocState) : Prop := exists i h, i < ms_nreg m /\ h < ng /\ phi (mg_flux (e_sw _ s)) i h <> 0%R.
(** The same material data but for fission. *)
Definition but_fission (x y : XReg) : Prop := xr_reg y = xr_reg x /\ xr_tr y = xr_tr x /\ xr_sc y = xr_sc x.
(** Fission neutrons of group [g] per neutron flux in group [h]. *)
Definition births (x : XReg) (g h : nat) : R := (at0 (xr_ch x) g * at0 (xr_nf x) h)%R.

(** ** Proofs *)
(** A fission source as an external source. *)
Definition born (xs : list XReg) (fs : list R) (i g : nat) : R := lsum (fun x => pays (fun r => at0 (xr_ch x) g * at0 fs r)%R (xr_reg x) i) xs.
Definition born_ext (xs : list XReg) (nreg ng : nat) (fs : list R) : option (list (list R)) := Some (map (fun i => map (born xs fs i) (seq 0 ng)) (seq 0 nreg)).
Lemma born_at : forall xs nreg ng fs, ext_fits nreg ng (born_ext xs nreg ng fs) /\ forall i g, i < nreg -> g < ng -> ext_at (born_ext xs nreg ng fs) i g = born xs fs i g.
Proof.
  intros xs nreg ng fs. destruct (shaped (born xs fs) nreg ng) as [F Hp]. set (fl := map (fun i => map (born xs fs i) (seq 0 ng)) (seq 0 nreg)) in *. unfold born_ext. fold fl. split.
  - intros i g Hi Hg. exists (phi fl i g). now apply (at2_phi nreg ng).
  - intros i g Hi Hg. cbn [ext_at]. rewrite (at2_phi nreg ng fl i g F Hi Hg). now apply Hp.
Qed.
Lemma groups_born : forall m ng sct fs, moc_problem m ng sct -> physical (ms_nreg m) ng sct (ms_xs m) -> length fs = ms_nreg m -> forall cnt ig src sw, ig + cnt <= ng -> length src = ms_nreg m -> moc_shape m ng sw ->
  fss_groups MocState mg_flux (moc_sweep m) (ms_xs m) (ms_nreg m) None (Some fs) ig cnt (src, sw) = fss_groups MocState mg_flux (moc_sweep m) (ms_xs m) (ms_nreg m) (born_ext (ms_xs m) (ms_nreg m) ng fs) None ig cnt (src, sw).
Proof.
  intros m ng sct fs P Ph Lf. destruct (born_at (ms_xs m) (ms_nreg m) ng fs) as [X A]. induction cnt as [|n IH]; intros ig src sw Hc Ls F; cbn [fss_groups]; [reflexivity|]. assert (Hg : ig < ng) by lia.
  assert (E : fss_group MocState mg_flux (moc_sweep m) (ms_xs m) (ms_nreg m) None (Some fs) ig (src, sw) = fss_group MocState mg_flux (moc_sweep m) (ms_xs m) (ms_nreg m) (born_ext (ms_xs m) (ms_nreg m) ng fs) None ig (src, sw)).
  { unfold fss_group. destruct (init_ok None (ms_nreg m) ng ig src I Hg Ls) as (z & Ez & Lz & Hz). destruct (init_ok _ (ms_nreg m) ng ig src X Hg Ls) as (s0 & E0 & L0 & H0). rewrite Ez, E0. destruct Ph as (M & D & _ & _).
    destruct (fission_ok ng sct (ms_xs m) fs ig z) as (s1 & E1 & L1 & H1); [now rewrite Lz|exact D|congruence|exact Hg|]. rewrite E1. replace s1 with s0; [reflexivity|]. apply list_at0; [congruence|]. intros k Hk. rewrite L0 in Hk. rewrite H1, (H0 k Hk), (Hz k Hk), (A k ig Hk Hg). cbn [ext_at]. unfold born. ring. }
  rewrite E. destruct (grp_ok m ng sct _ P Ph X ig src sw Hg Ls F) as (s2 & sw' & G & L2 & F2 & _). rewrite G. apply IH; auto. lia.
Qed.
Definition fx_of (s : ESt MocState) : FxState := ([], (e_src _ s, e_sw _ s)).
Lemma converged_fixed : forall m ng sct s, moc_problem m ng sct -> physical (ms_nreg m) ng sct (ms_xs m) -> converged m ng s ->
  exists e, ext_fits (ms_nreg m) ng e /\ fx_shape m ng (fx_of s) /\ fx_fixed m ng e (fx_of s) /\
    forall x i g, In x (ms_xs m) -> In i (xr_reg x) -> g < ng -> ext_at e i g = (rsum (fun h => births x g h * phi (mg_flux (e_sw _ s)) i h) ng / e_k _ s)%R.
Proof.
  intros m ng sct s P Ph (K & Ls & Lf & F & s' & E & Ef & Eb). assert (Ph' := Ph). destruct Ph' as (M & D & _ & _). assert (Ff := F). destruct Ff as (Ff & _).
  destruct (C51_fission_source (ms_nreg m) ng sct (e_k _ s) (ms_xs m) (mg_flux (e_sw _ s)) (e_fs _ s) ltac:(lra) M D Ff Lf) as (f1 & E1 & L1 & V1 & _). unfold eigen_step in E. rewrite E1 in E. rewrite (groups_born m ng sct f1 P Ph L1 ng 0 (e_src _ s) (e_sw _ s) (le_n _) Ls F) in E.
  exists (born_ext (ms_xs m) (ms_nreg m) ng f1). destruct (born_at (ms_xs m) (ms_nreg m) ng f1) as [X A]. split; [exact X|]. assert (Fx : fx_shape m ng (fx_of s)) by (split; [exact Ls|exact F]). split; [exact Fx|]. split.
  - destruct (step_total m ng sct _ P Ph X (fx_of s) Fx) as (t & Et & Gt & _). destruct (step_parts _ _ _ _ _ Et) as [Gp _]. cbn [fx_of snd] in Gp. rewrite Gp in E. destruct t as [o [a w]]. cbn [snd] in *. exists (o, (a, w)). split; [exact Et|].
    destruct (total_fission (ms_xs m) ng (mg_flux w) (ms_vol m)); [|discriminate]. destruct (total_fission (ms_xs m) ng (mg_flux (e_sw _ s)) (ms_vol m)); [|discriminate]. destruct (Reqb _ 0); [discriminate|]. destruct (calc_fission_source _ _ _ (mg_flux w) f1); [|discriminate]. injection E as <-. cbn [e_sw] in *. split; [exact Ef|exact Eb].
  - intros x i g Ix Ii Hg. rewrite A; [|now apply (reg_bound (ms_xs m) (ms_nreg m) x i)|exact Hg]. unfold born. rewrite (collapse (fun x r => at0 (xr_ch x) g * at0 f1 r)%R (ms_xs m) x i (proj1 M) Ix Ii). rewrite (V1 x i Ix Ii). unfold births, Rdiv. rewrite <- Rmult_assoc. f_equal. clear. induction ng as [|n IH]; cbn [rsum]; [ring|]. rewrite Rmult_plus_distr_l, IH. ring.
Qed.

(** A state scaled by [c]. *)
Definition scaled_fx (c : R) (s : FxState) : FxState := (fst s, (fst (snd s), mkMG (map (map (Rmult c)) (fx_flux s)) (mg_q (snd (snd s))) (map (fun d => (map (Rmult c) (fst d), map (Rmult c) (snd d))) (mg_bnd (snd (snd s)))))).
Lemma scaled_at0 : forall c l k, at0 (map (Rmult c) l) k = (c * at0 l k)%R.
Proof. intros c. unfold at0. induction l as [|a l IH]; intros [|k]; cbn; auto; ring. Qed.
Lemma scaled_phi : forall c fl i g, phi (map (map (Rmult c)) fl) i g = (c * phi fl i g)%R.
Proof. intros c. unfold phi. induction fl as [|r fl IH]; intros [|i] g; cbn [map nth]; try (destruct g; ring); [apply (scaled_at0 c r g)|apply IH]. Qed.
Lemma scaled_shape : forall m ng c s, fx_shape m ng s -> fx_shape m ng (scaled_fx c s).
Proof.
  intros m ng c s [L ((A & B) & C & D & E)]. split; [exact L|]. unfold scaled_fx, moc_shape. cbn [snd mg_flux mg_q mg_bnd]. split; [split; [rewrite map_length; exact A|]|split; [exact C|split; [rewrite map_length; exact D|]]].
  - intros row I. apply in_map_iff in I. destruct I as (r & <- & Ir). rewrite map_length. now apply B.
  - rewrite Forall_forall in *. intros d I. apply in_map_iff in I. destruct I as (r & <- & Ir). destruct (E r Ir). split; cbn [fst snd]; rewrite map_length; assumption.
Qed.
Lemma scaled_lin : forall m ng c s, fx_lin m ng (c - 1) s s (scaled_fx c s).
Proof.
  intros m ng c s. split; [intros i g _ _; unfold scaled_fx; cbn [snd mg_flux]; rewrite scaled_phi; unfold fx_flux; ring|]. unfold scaled_fx. cbn [snd mg_bnd]. induction (mg_bnd (snd (snd s))) as [|[a b] l IH]; cbn [map fst snd]; constructor; auto; apply lin_intro; auto; try (now rewrite map_length); intros i _; rewrite scaled_at0; ring.
Qed.
Lemma lin_bnd_same : forall m h c b1 b2 b3 d1 d2 d3, LinB c b1 b2 b3 -> LinB c d1 d2 d3 -> bnd_same m h b1 d1 -> bnd_same m h b2 d2 -> bnd_same m h b3 d3.
Proof.
  intros m h c b1 b2 b3 d1 d2 d3 H. revert d1 d2 d3. induction H as [|i1 o1 i2 o2 i3 o3 b1 b2 b3 Hi Ho H IH]; intros d1 d2 d3 L S1 S2; inversion S1; subst; inversion S2; subst; inversion L; subst; constructor.
  - intros a n i k Sx. cbn [fst] in *. match goal with A : forall a n i k, slot _ _ a n i k -> at0 i1 k = _, B : forall a n i k, slot _ _ a n i k -> at0 i2 k = _, C : Lin _ _ _ ?z |- at0 i3 k = at0 ?z k => rewrite (lin_at0 _ _ _ _ k Hi), (lin_at0 _ _ _ _ k C), (A a n i k Sx), (B a n i k Sx) end. reflexivity.
  - eapply IH; eauto.
Qed.
Lemma scaled_ext : forall nreg ng c e, ext_fits nreg ng e -> exists e', ext_fits nreg ng e' /\ forall i g, i < nreg -> g < ng -> ext_at e' i g = (c * ext_at e i g)%R.
Proof.
  intros nreg ng c e X. destruct (shaped (fun i g => c * ext_at e i g)%R nreg ng) as [F Hp]. set (fl := map (fun i => map (fun g => (c * ext_at e i g)%R) (seq 0 ng)) (seq 0 nreg)) in *. exists (Some fl). split.
  - intros i g Hi Hg. exists (phi fl i g). now apply (at2_phi nreg ng).
  - intros i g Hi Hg. cbn [ext_at]. rewrite (at2_phi nreg ng fl i g F Hi Hg). now apply Hp.
Qed.
Lemma scaled_fixed : forall m ng sct c e e' s, moc_problem m ng sct -> physical (ms_nreg m) ng sct (ms_xs m) -> ext_fits (ms_nreg m) ng e -> ext_fits (ms_nreg m) ng e' -> (forall i g, i < ms_nreg m -> g < ng -> ext_at e' i g = (c * ext_at e i g)%R) ->
  fx_shape m ng s -> fx_fixed m ng e s -> fx_fixed m ng e' (scaled_fx c s).
Proof.
  intros m ng sct c e e' s P Ph X X' Xl F (s' & E & Ef & Eb). pose proof (scaled_shape m ng c s F) as F'. destruct (step_total m ng sct e' P Ph X' _ F') as (t & Et & Gt & _). exists t. split; [exact Et|]. pose proof (scaled_lin m ng c s) as L.
  assert (Xk : ext_lin (ms_nreg m) ng (c - 1) e e e') by (intros i g Hi Hg; rewrite (Xl i g Hi Hg); ring). destruct (step_lin m ng sct (c - 1) P Ph e e e' X X X' Xk s s _ s' s' t F F F' L E E Et) as [Lf Lb]. destruct L as [Lf0 Lb0]. split.
  - intros i h Hi Hh. unfold fx_flux in *. rewrite (Lf i h Hi Hh), (Lf0 i h Hi Hh), (Ef i h Hi Hh). reflexivity.
  - intros h Hh. exact (lin_bnd_same m h (c - 1) _ _ _ _ _ _ Lb Lb0 (Eb h Hh) (Eb h Hh)).
Qed.
Lemma no_pres : forall m ng (s t : FxState), (forall d, types (ms_in m) d <> PRESCRIBED) -> fx_shape m ng s -> fx_shape m ng t -> fx_pres m ng s t.
Proof.
  intros m ng s t Np (_ & _ & _ & A & _) (_ & _ & _ & B & _) h Hh. unfold pres_same. rewrite <- B in A. revert A. generalize (mg_bnd (snd (snd s))) (mg_bnd (snd (snd t))). induction l as [|x l IH]; intros [|y l'] L; try discriminate; constructor; [|apply IH; now injection L].
  intros a n i k Sx T. exfalso. unfold type_at in T. destruct (nth_error (quad (ms_in m)) a); [|discriminate]. injection T as T. exact (Np _ T).
Qed.
(** Solutions, one scaled by any [c]: with no more source, no more flux. *)
Lemma scaled_below : forall m ng sct v c k e1 e2 s1 s2, moc_problem m ng sct -> physical (ms_nreg m) ng sct (ms_xs m) -> crossed m -> 1 <= ms_inner m -> (0 <= k < 1)%R -> dominated m ng sct v k -> (forall d, types (ms_in m) d <> PRESCRIBED) ->
  ext_fits (ms_nreg m) ng e1 -> ext_fits (ms_nreg m) ng e2 -> (forall i g, i < ms_nreg m -> g < ng -> (c * ext_at e2 i g <= ext_at e1 i g)%R) -> fx_shape m ng s1 -> fx_shape m ng s2 -> fx_fixed m ng e1 s1 -> fx_fixed m ng e2 s2 ->
  forall i h, i < ms_nreg m -> h < ng -> (c * phi (fx_flux s2) i h <= phi (fx_flux s1) i h)%R.
Proof.
  intros m ng sct v c k e1 e2 s1 s2 P Ph Cr Hn Hk Dm Np X1 X2 Xb F1 F2 S1 S2 i h Hi Hh. destruct (scaled_ext _ _ c e2 X2) as (e3 & X3 & H3). pose proof (scaled_shape m ng c s2 F2) as F3. pose proof (scaled_fixed m ng sct c e2 e3 s2 P Ph X2 X3 H3 F2 S2) as S3.
  rewrite <- (scaled_phi c (fx_flux s2) i h). change (map (map (Rmult c)) (fx_flux s2)) with (fx_flux (scaled_fx c s2)).
  apply (C193_solutions m ng sct e3 e1 v k s1 s1 (scaled_fx c s2) s1); auto; [|apply below_refl|now apply no_pres|now apply no_pres]. intros a g Ha Hg. rewrite (H3 a g Ha Hg). now apply Xb.
Qed.

Lemma grid_low : forall (f : nat -> nat -> R) n ng, (forall i g, i < n -> g < ng -> (0 < f i g)%R) -> exists lo, (0 < lo)%R /\ forall i g, i < n -> g < ng -> (lo <= f i g)%R.
Proof.
  intros f n ng. assert (Row : forall (u : nat -> R) k, (forall g, g < k -> (0 < u g)%R) -> exists lo, (0 < lo)%R /\ forall g, g < k -> (lo <= u g)%R).
  { intros u. induction k as [|k IH]; intros H; [exists 1%R; split; [lra|lia]|]. destruct IH as (lo & L & B); [intros; apply H; lia|]. exists (Rmin lo (u k)). split; [apply Rmin_glb_lt; [exact L|apply H; lia]|]. intros g Hg. destruct (Nat.eq_dec g k) as [->|]; [apply Rmin_r|]. eapply Rle_trans; [apply Rmin_l|apply B; lia]. }
  induction n as [|n IH]; intros H; [exists 1%R; split; [lra|lia]|]. destruct IH as (lo & L & B); [intros; apply H; lia|]. destruct (Row (f n) ng) as (l2 & L2 & B2); [intros; apply H; lia|]. exists (Rmin lo l2). split; [now apply Rmin_glb_lt|]. intros i g Hi Hg. destruct (Nat.eq_dec i n) as [->|]; [eapply Rle_trans; [apply Rmin_r|now apply B2]|]. eapply Rle_trans; [apply Rmin_l|apply B; lia].
Qed.
Lemma grid_high : forall (f : nat -> nat -> R) n ng, exists hi, (0 < hi)%R /\ forall i g, i < n -> g < ng -> (Rabs (f i g) <= hi)%R.
Proof.
  intros f n ng. destruct (grid_low (fun i g => / (1 + Rabs (f i g)))%R n ng) as (lo & L & B); [intros i g _ _; apply Rinv_0_lt_compat; pose proof (Rabs_pos (f i g)); lra|]. exists (/ lo)%R. split; [now apply Rinv_0_lt_compat|]. intros i g Hi Hg. specialize (B i g Hi Hg). pose proof (Rabs_pos (f i g)).
  apply Rinv_le_contravar in B; [|exact L]. rewrite Rinv_inv in B. lra.
Qed.
Lemma grows : forall q a b, (1 < q)%R -> (0 < a)%R -> exists n, (b < a * q ^ n)%R.
Proof.
  intros q a b Hq Ha. destruct (Pow_x_infinity q ltac:(rewrite Rabs_pos_eq; lra) (Rabs b / a + 1)) as (n & H). exists n. specialize (H n (le_n _)). rewrite Rabs_pos_eq in H by (apply pow_le; lra). pose proof (Rle_abs b). apply (Rmult_ge_compat_l a) in H; [|lra]. replace (a * (Rabs b / a + 1))%R with (Rabs b + a)%R in H by (field; lra). lra.
Qed.
(** The births of a region, by its material. *)
Definition birth_at (xs : list XReg) (i g h : nat) : R := lsum (fun y => pays (fun _ => births y g h) (xr_reg y) i) xs.
Lemma birth_is : forall xs x i g h, NoDup (concat (map xr_reg xs)) -> In x xs -> In i (xr_reg x) -> birth_at xs i g h = births x g h.
Proof. intros xs x i g h N Ix Ii. unfold birth_at. exact (collapse (fun y _ => births y g h) xs x i N Ix Ii). Qed.
(** Growth from one multiplication factor to the other, whatever the sign of [t]. *)
Lemma factor_grow : forall m ng sct v k s1 s2 (b2 : nat -> nat -> nat -> R) k2 e2, moc_problem m ng sct -> physical (ms_nreg m) ng sct (ms_xs m) -> crossed m -> 1 <= ms_inner m -> (0 <= k < 1)%R -> dominated m ng sct v k -> (forall d, types (ms_in m) d <> PRESCRIBED) ->
  converged m ng s1 -> (0 < k2)%R -> ext_fits (ms_nreg m) ng e2 -> fx_shape m ng s2 -> fx_fixed m ng e2 s2 -> (forall x i g, In x (ms_xs m) -> In i (xr_reg x) -> g < ng -> ext_at e2 i g = (rsum (fun h => b2 i g h * phi (fx_flux s2) i h) ng / k2)%R) ->
  (forall x i g h, In x (ms_xs m) -> In i (xr_reg x) -> g < ng -> h < ng -> (b2 i g h * phi (fx_flux s2) i h <= births x g h * phi (fx_flux s2) i h)%R) ->
  forall t, (forall i h, i < ms_nreg m -> h < ng -> (t * phi (fx_flux s2) i h <= phi (mg_flux (e_sw _ s1)) i h)%R) -> (0 <= t)%R \/ (forall x i g h, In x (ms_xs m) -> In i (xr_reg x) -> b2 i g h = births x g h) ->
  forall n i h, i < ms_nreg m -> h < ng -> (t * (k2 / e_k _ s1) ^ n * phi (fx_flux s2) i h <= phi (mg_flux (e_sw _ s1)) i h)%R.
Proof.
  intros m ng sct v k s1 s2 b2 k2 e2 P Ph Cr Hn Hk Dm Np C1 K2 X2 F2 S2 V2 Bx t T0 Ts. destruct (converged_fixed m ng sct s1 P Ph C1) as (e1 & X1 & F1 & S1 & V1). destruct C1 as (K1 & _). assert (Q : (0 < k2 / e_k _ s1)%R) by (now apply Rdiv_lt_0_compat).
  induction n as [|n IH]; intros i h Hi Hh; [cbn [pow]; rewrite Rmult_1_r; now apply T0|]. set (u := (t * (k2 / e_k _ s1) ^ n)%R) in *. replace (t * (k2 / e_k _ s1) ^ S n)%R with (u * (k2 / e_k _ s1))%R by (unfold u; cbn [pow]; ring).
  change (mg_flux (e_sw _ s1)) with (fx_flux (fx_of s1)). apply (scaled_below m ng sct v _ k e1 e2 (fx_of s1) s2); auto. intros a g Ha Hg. destruct (reg_of m ng sct Ph a Ha) as (x & Ix & Ia). rewrite (V1 x a g Ix Ia Hg), (V2 x a g Ix Ia Hg).
  replace (u * (k2 / e_k _ s1) * (rsum (fun h0 => b2 a g h0 * phi (fx_flux s2) a h0) ng / k2))%R with (u * rsum (fun h0 => b2 a g h0 * phi (fx_flux s2) a h0) ng * / e_k _ s1)%R by (field; lra).
  apply Rmult_le_compat_r; [apply Rlt_le, Rinv_0_lt_compat; exact K1|]. assert (Lg : forall (f : nat -> R) n0, (u * rsum f n0)%R = rsum (fun j => u * f j)%R n0) by (intros f; induction n0 as [|n0 IHn]; cbn [rsum]; [ring|]; rewrite Rmult_plus_distr_l, IHn; reflexivity). rewrite Lg. apply rsum_le. intros j Hj. specialize (IH a j Ha Hj).
  destruct Ph as (_ & _ & _ & Pos). destruct (Pos x g Ix Hg) as [Pc _]. destruct (Pos x j Ix Hj) as [_ Pn]. assert (B0 : (0 <= births x g j)%R) by (unfold births; now apply Rmult_le_pos).
  apply (Rmult_le_compat_l (births x g j)) in IH; [|exact B0]. assert (G : (u * (b2 a g j * phi (fx_flux s2) a j) <= births x g j * (u * phi (fx_flux s2) a j))%R); [|lra].
  destruct Ts as [Ts|Ts]; [|rewrite (Ts x a g j Ix Ia); lra]. assert (U0 : (0 <= u)%R) by (unfold u; apply Rmult_le_pos; [exact Ts|apply pow_le; lra]). replace (births x g j * (u * phi (fx_flux s2) a j))%R with (u * (births x g j * phi (fx_flux s2) a j))%R by ring. apply Rmult_le_compat_l; [exact U0|]. now apply Bx.
Qed.
Lemma start_factor : forall (f1 f2 : nat -> nat -> R) n ng i0 h0, (forall i h, i < n -> h < ng -> (0 < f1 i h)%R) -> f2 i0 h0 <> 0%R -> exists t, (0 < t * f2 i0 h0)%R /\ ((0 < f2 i0 h0)%R -> (0 < t)%R) /\ forall i h, i < n -> h < ng -> (t * f2 i h <= f1 i h)%R.
Proof.
  intros f1 f2 n ng i0 h0 H1 H2. destruct (grid_low f1 n ng H1) as (lo & L & Bl). destruct (grid_high f2 n ng) as (hi & U & Bh). assert (Q : (0 < lo / hi)%R) by (now apply Rdiv_lt_0_compat). assert (Qe : (lo / hi * hi)%R = lo) by (field; lra).
  destruct (Rlt_le_dec 0 (f2 i0 h0)) as [Ps|Ng].
  - exists (lo / hi)%R. split; [now apply Rmult_lt_0_compat|]. split; [auto|]. intros i h Hi Hh. specialize (Bl i h Hi Hh). specialize (Bh i h Hi Hh). pose proof (Rle_abs (f2 i h)). assert (lo / hi * f2 i h <= lo / hi * hi)%R by (apply Rmult_le_compat_l; lra). lra.
  - exists (- (lo / hi))%R. split; [replace (- (lo / hi) * f2 i0 h0)%R with ((lo / hi) * (- f2 i0 h0))%R by ring; apply Rmult_lt_0_compat; lra|]. split; [lra|]. intros i h Hi Hh. specialize (Bl i h Hi Hh). specialize (Bh i h Hi Hh). pose proof (Rle_abs (- f2 i h)) as A. rewrite Rabs_Ropp in A. assert (lo / hi * - f2 i h <= lo / hi * hi)%R by (apply Rmult_le_compat_l; lra). lra.
Qed.

(** C194: no converged calculation of a core has a larger multiplication factor than one with a flux that is positive everywhere. *)
Theorem C194_largest : forall m ng sct v c s1 s2, moc_problem m ng sct -> physical (ms_nreg m) ng sct (ms_xs m) -> crossed m -> 1 <= ms_inner m -> (0 <= c < 1)%R -> dominated m ng sct v c -> (forall d, types (ms_in m) d <> PRESCRIBED) ->
  converged m ng s1 -> converged m ng s2 -> flux_pos m ng s1 -> flux_some m ng s2 -> (e_k _ s2 <= e_k _ s1)%R.
Proof.
  intros m ng sct v c s1 s2 P Ph Cr Hn Hc Dm Np C1 C2 Fp (i0 & h0 & Hi & Hh & Nz). destruct (Rle_lt_dec (e_k _ s2) (e_k _ s1)) as [|N]; [assumption|exfalso]. destruct (converged_fixed m ng sct s2 P Ph C2) as (e2 & X2 & F2 & S2 & V2). assert (K1 := proj1 C1). assert (K2 := proj1 C2).
  destruct (start_factor (phi (mg_flux (e_sw _ s1))) (phi (mg_flux (e_sw _ s2))) (ms_nreg m) ng i0 h0 Fp Nz) as (t & T0 & _ & Tb).
  assert (Br : forall x i g h, In x (ms_xs m) -> In i (xr_reg x) -> birth_at (ms_xs m) i g h = births x g h) by (intros; apply birth_is; auto; apply Ph).
  assert (G := factor_grow m ng sct v c s1 (fx_of s2) (birth_at (ms_xs m)) (e_k _ s2) e2 P Ph Cr Hn Hc Dm Np C1 K2 X2 F2 S2 ltac:(intros x i g Ix Ii Hg; rewrite (V2 x i g Ix Ii Hg); f_equal; apply rsum_ext; intros h' _; now rewrite (Br x i g h' Ix Ii)) ltac:(intros x i g h' Ix Ii _ _; rewrite (Br x i g h' Ix Ii); apply Rle_refl) t Tb (or_intror Br)).
  assert (Q : (1 < e_k _ s2 / e_k _ s1)%R) by (apply (Rmult_lt_reg_r (e_k _ s1)); [exact K1|]; unfold Rdiv; rewrite Rmult_assoc, Rinv_l by lra; lra).
  destruct (grows _ _ (phi (mg_flux (e_sw _ s1)) i0 h0) Q T0) as (n & Hb). specialize (G n i0 h0 Hi Hh). cbn [fx_of fx_flux snd] in G. unfold fx_flux in G. cbn [fx_of snd] in G. lra.
Qed.
Print Assumptions C194_largest.

(** C194: two converged calculations of a core with positive fluxes have the same multiplication factor, wherever they started. *)
Theorem C194_unique : forall m ng sct v c s1 s2, moc_problem m ng sct -> physical (ms_nreg m) ng sct (ms_xs m) -> crossed m -> 1 <= ms_inner m -> (0 <= c < 1)%R -> dominated m ng sct v c -> (forall d, types (ms_in m) d <> PRESCRIBED) -> 1 <= ms_nreg m -> 1 <= ng ->
  converged m ng s1 -> converged m ng s2 -> flux_pos m ng s1 -> flux_pos m ng s2 -> e_k _ s1 = e_k _ s2.
Proof.
  intros m ng sct v c s1 s2 P Ph Cr Hn Hc Dm Np Hr Hg C1 C2 F1 F2. assert (Z : forall s, flux_pos m ng s -> flux_some m ng s) by (intros s Fs; exists 0, 0; split; [lia|]; split; [lia|]; apply Rgt_not_eq, Fs; lia).
  apply Rle_antisym; [apply (C194_largest m ng sct v c s2 s1)|apply (C194_largest m ng sct v c s1 s2)]; auto.
Qed.
Print Assumptions C194_unique.

(** ** Other fission data *)
Lemma self_same : forall xs ys, Forall2 but_fission xs ys -> forall dv fl src g q, self_scatter dv ys fl src g q = self_scatter dv xs fl src g q.
Proof. intros xs ys H. induction H as [|x y xs ys (Er & Et & Es) H IH]; intros dv fl src g q; cbn [self_scatter]; [reflexivity|]. rewrite Er, Et, Es. destruct (self_scat (xr_sc x) g); [|reflexivity]. destruct (nth_error (xr_tr x) g); [|reflexivity]. destruct (dv && Reqb r0 0); [reflexivity|]. destruct (set_regs _ _ q); [apply IH|reflexivity]. Qed.
Lemma scatter_row_same : forall x y row fl ig, xr_reg y = xr_reg x -> xr_sc y = xr_sc x -> forall cnt g s, scatter_row y row fl ig g cnt s = scatter_row x row fl ig g cnt s.
Proof. intros x y row fl ig Er Es. induction cnt as [|n IH]; intros g s; cbn [scatter_row]; [reflexivity|]. rewrite Er, Es. destruct (nth_error _ _); [|reflexivity]. destruct (g =? ig); [apply IH|]. destruct (add_regs _ _ s); [apply IH|reflexivity]. Qed.
Lemma in_scat_same : forall xs ys, Forall2 but_fission xs ys -> forall fl g src, in_scatter ys fl g src = in_scatter xs fl g src.
Proof. intros xs ys H. induction H as [|x y xs ys (Er & Et & Es) H IH]; intros fl g src; cbn [in_scatter]; [reflexivity|]. rewrite Er, Es. destruct (xr_reg x) eqn:E; [apply IH|]. destruct (nth_error (rows (xr_sc x)) g); [|reflexivity]. rewrite (scatter_row_same x y) by congruence. destruct (scatter_row x _ _ _ _ _ src); [apply IH|reflexivity]. Qed.
Lemma inner_same_xs : forall m ys, Forall2 but_fission (ms_xs m) ys -> forall g src s, moc_inner (with_xs m ys) g src s = moc_inner m g src s.
Proof. intros m ys H g src s. unfold moc_inner. cbn [with_xs ms_xs ms_in ms_out ms_xstr ms_vol ms_quad ms_space ms_gs ms_nt ms_nreg ms_planes]. rewrite (self_same _ _ H). reflexivity. Qed.
Lemma sweep_same_xs : forall m ys, Forall2 but_fission (ms_xs m) ys -> forall g src s, moc_sweep (with_xs m ys) g src s = moc_sweep m g src s.
Proof. intros m ys H g src s. unfold moc_sweep. cbn [with_xs ms_inner]. generalize (ms_inner m). intros n. revert s. induction n as [|n IH]; intros s; cbn [moc_inners]; [reflexivity|]. rewrite (inner_same_xs m ys H). destruct (moc_inner m g src s); auto. Qed.
Lemma groups_same_xs : forall m ys e, Forall2 but_fission (ms_xs m) ys -> forall cnt ig st, fss_groups MocState mg_flux (moc_sweep (with_xs m ys)) ys (ms_nreg m) e None ig cnt st = fss_groups MocState mg_flux (moc_sweep m) (ms_xs m) (ms_nreg m) e None ig cnt st.
Proof.
  intros m ys e H. induction cnt as [|n IH]; intros ig [src sw]; cbn [fss_groups]; [reflexivity|]. unfold fss_group. destruct (initialize_group e (ms_nreg m) ig src) as [s0|]; [|reflexivity]. rewrite (in_scat_same _ _ H). destruct (in_scatter (ms_xs m) (mg_flux sw) ig s0) as [s2|]; [|reflexivity]. rewrite (sweep_same_xs m ys H). destruct (moc_sweep m ig s2 sw); [apply IH|reflexivity].
Qed.
Lemma fixed_same_xs : forall m ng ys e s, Forall2 but_fission (ms_xs m) ys -> fx_fixed (with_xs m ys) ng e s -> fx_fixed m ng e s.
Proof.
  intros m ng ys e s H (s' & E & Ef & Eb). exists s'. split; [|split; [exact Ef|exact Eb]]. rewrite <- E. unfold fx_step. cbn [with_xs ms_xs ms_nreg]. now rewrite (groups_same_xs m ys e H).
Qed.
Lemma f2_left : forall A B (Q : A -> B -> Prop) l1 l2 x, Forall2 Q l1 l2 -> In x l1 -> exists y, In y l2 /\ Q x y.
Proof. intros A B Q l1 l2 x H. induction H as [|a b l1 l2 Hab H IH]; intros []; [subst; exists b; split; [now left|assumption]|]. destruct (IH H0) as (y & Iy & Hy). exists y. split; [now right|exact Hy]. Qed.

(** C194: with less fission in any material, and nothing else changed, the multiplication factor is no larger. *)
Theorem C194_fissile : forall m ng sct sct2 ys v c s1 s2, moc_problem m ng sct -> physical (ms_nreg m) ng sct (ms_xs m) -> crossed m -> 1 <= ms_inner m -> (0 <= c < 1)%R -> dominated m ng sct v c -> (forall d, types (ms_in m) d <> PRESCRIBED) ->
  moc_problem (with_xs m ys) ng sct2 -> physical (ms_nreg m) ng sct2 ys -> Forall2 (fun x y => but_fission x y /\ forall g h, g < ng -> h < ng -> (births y g h <= births x g h)%R) (ms_xs m) ys ->
  converged m ng s1 -> flux_pos m ng s1 -> converged (with_xs m ys) ng s2 -> (forall i h, i < ms_nreg m -> h < ng -> (0 <= phi (mg_flux (e_sw _ s2)) i h)%R) -> flux_some m ng s2 -> (e_k _ s2 <= e_k _ s1)%R.
Proof.
  intros m ng sct sct2 ys v c s1 s2 P Ph Cr Hn Hc Dm Np P2 Ph2 Bf C1 Fp C2 N2 (i0 & h0 & Hi & Hh & Nz). destruct (Rle_lt_dec (e_k _ s2) (e_k _ s1)) as [|N]; [assumption|exfalso]. destruct (converged_fixed (with_xs m ys) ng sct2 s2 P2 Ph2 C2) as (e2 & X2 & F2 & S2 & V2). assert (K1 := proj1 C1). assert (K2 := proj1 C2).
  assert (Sm : Forall2 but_fission (ms_xs m) ys) by (eapply F2_impl; [|exact Bf]; intros a b [H _]; exact H). apply (fixed_same_xs m ng ys e2 (fx_of s2) Sm) in S2.
  destruct (start_factor (phi (mg_flux (e_sw _ s1))) (phi (mg_flux (e_sw _ s2))) (ms_nreg m) ng i0 h0 Fp Nz) as (t & T0 & Tp & Tb). assert (Pz : (0 < phi (mg_flux (e_sw _ s2)) i0 h0)%R) by (specialize (N2 i0 h0 Hi Hh); lra). specialize (Tp Pz).
  assert (Pk : forall x i, In x (ms_xs m) -> In i (xr_reg x) -> exists y, In y ys /\ In i (xr_reg y) /\ (forall g h, birth_at ys i g h = births y g h) /\ forall g h, g < ng -> h < ng -> (births y g h <= births x g h)%R).
  { intros x i Ix Ii. destruct (f2_left _ _ _ _ _ x Bf Ix) as (y & Iy & (Er & _) & Hb). exists y. split; [exact Iy|]. assert (Iy' : In i (xr_reg y)) by (now rewrite Er). split; [exact Iy'|]. split; [|exact Hb]. intros g h. apply birth_is; auto. apply Ph2. }
  assert (G := factor_grow m ng sct v c s1 (fx_of s2) (birth_at ys) (e_k _ s2) e2 P Ph Cr Hn Hc Dm Np C1 K2 X2 F2 S2
    ltac:(intros x i g Ix Ii Hg; destruct (Pk x i Ix Ii) as (y & Iy & Iy' & B & _); rewrite (V2 y i g Iy Iy' Hg); f_equal; apply rsum_ext; intros h' _; now rewrite B)
    ltac:(intros x i g h' Ix Ii Hg Hh'; destruct (Pk x i Ix Ii) as (y & Iy & Iy' & B & Le); rewrite B; apply Rmult_le_compat_r; [apply N2; auto; now apply (reg_bound (ms_xs m) (ms_nreg m) x i); [apply Ph| |]|now apply Le]) t Tb (or_introl (Rlt_le _ _ Tp))).
  assert (Q : (1 < e_k _ s2 / e_k _ s1)%R) by (apply (Rmult_lt_reg_r (e_k _ s1)); [exact K1|]; unfold Rdiv; rewrite Rmult_assoc, Rinv_l by lra; lra).
  destruct (grows _ _ (phi (mg_flux (e_sw _ s1)) i0 h0) Q T0) as (n & Hb). specialize (G n i0 h0 Hi Hh). unfold fx_flux in G. cbn [fx_of snd] in G. lra.
Qed.
Print Assumptions C194_fissile.

(** ** Cores behind mirrors *)
Lemma tabulate : forall (Q : nat -> R -> Prop) N, (forall k, k < N -> exists v, Q k v) -> exists l, length l = N /\ forall k, k < N -> exists v, nth_error l k = Some v /\ Q k v.
Proof.
  intros Q. induction N as [|N IH]; intros H; [exists []; split; [reflexivity|lia]|]. destruct IH as (l & L & B); [intros; apply H; lia|]. destruct (H N ltac:(lia)) as (v & Hv). exists (l ++ [v]). split; [rewrite app_length, L; cbn; lia|]. intros k Hk. destruct (Nat.eq_dec k N) as [->|Nk].
  - exists v. split; [rewrite nth_error_app2 by lia; rewrite L, Nat.sub_diag; reflexivity|exact Hv].
  - destruct (B k ltac:(lia)) as (w & E & Hw). exists w. split; [rewrite nth_error_app1 by lia; exact E|exact Hw].
Qed.
Lemma prod_pos : forall xs ng fl vol x0 i0 g0, (forall x i g, In x xs -> In i (xr_reg x) -> g < ng -> (0 <= phi fl i g * at0 vol i * at0 (xr_nf x) g)%R) -> In x0 xs -> In i0 (xr_reg x0) -> g0 < ng -> (0 < phi fl i0 g0 * at0 vol i0 * at0 (xr_nf x0) g0)%R -> (0 < SrcProps.production xs ng fl vol)%R.
Proof.
  intros xs ng fl vol x0 i0 g0 N Ix Ii Hg Ps.
  assert (Ls : forall A (f : A -> R) l a, (forall b, In b l -> (0 <= f b)%R) -> In a l -> (0 < f a)%R -> (0 < lsum f l)%R).
  { intros A f. induction l as [|b l IH]; intros a Nn Ia Pa; [destruct Ia|]; destruct Ia as [->|I]; cbn [lsum].
    - assert (0 <= lsum f l)%R; [|lra]. clear - Nn. assert (N' : forall b, In b l -> (0 <= f b)%R) by (intros; apply Nn; now right). clear Nn. induction l as [|b l IH]; cbn [lsum]; [lra|]. pose proof (N' b (or_introl eq_refl)). assert (0 <= lsum f l)%R by (apply IH; intros; apply N'; now right). lra.
    - pose proof (Nn b (or_introl eq_refl)). assert (0 < lsum f l)%R by (apply (IH a); auto; intros; apply Nn; now right). lra. }
  assert (Rn : forall x i, In x xs -> In i (xr_reg x) -> (0 <= rsum (fun g => phi fl i g * at0 vol i * at0 (xr_nf x) g) ng)%R) by (intros x i Ix' Ii'; apply rsum_nonneg; intros g Hg'; now apply N).
  assert (Rp : (0 < rsum (fun g => phi fl i0 g * at0 vol i0 * at0 (xr_nf x0) g) ng)%R) by (rewrite rsum_lsum; apply (Ls _ _ _ g0); [intros b Ib; apply in_seq in Ib; apply N; auto; lia|apply in_seq; lia|exact Ps]).
  unfold SrcProps.production. apply (Ls _ _ _ x0); [|exact Ix|].
  - intros x Ix'. assert (Z : forall l, (forall i, In i l -> In i (xr_reg x)) -> (0 <= lsum (fun r => rsum (fun g => phi fl r g * at0 vol r * at0 (xr_nf x) g) ng) l)%R) by (induction l as [|i l IH]; intros Hl; cbn [lsum]; [lra|]; pose proof (Rn x i Ix' (Hl i (or_introl eq_refl))); pose proof (IH (fun j Hj => Hl j (or_intror Hj))); lra). now apply Z.
  - apply (Ls _ (fun r => rsum (fun g => phi fl r g * at0 vol r * at0 (xr_nf x0) g)%R ng) _ i0); auto.
Qed.
Lemma state_fits : forall m ng s, moc_state m ng s -> moc_shape m ng s.
Proof. intros m ng s (A & B & C & D). split; [exact A|]. split; [exact B|]. split; [exact C|]. eapply Forall_impl; [|exact D]. intros d (E & F & _). split; assumption. Qed.
Lemma flat_same : forall m ng F s1 s2, moc_flat m ng F s1 -> moc_flat m ng F s2 -> length (mg_bnd s1) = length (mg_bnd s2) -> forall h, h < ng -> bnd_same m h (mg_bnd s1) (mg_bnd s2).
Proof.
  intros m ng F s1 s2 [_ A] [_ B] L h Hh. unfold bnd_same. revert L A B. generalize (mg_bnd s1) (mg_bnd s2). induction l as [|x l IH]; intros [|y l'] L A B; try discriminate; constructor; [|inversion A; inversion B; subst; apply IH; auto].
  inversion A as [|? ? Ax _]; subst. inversion B as [|? ? Bx _]; subst. intros a n i k Sx. unfold at0. rewrite (nth_error_nth _ _ 0%R (Ax h a n i k Hh Sx)), (nth_error_nth _ _ 0%R (Bx h a n i k Hh Sx)). reflexivity.
Qed.
Lemma flat_converged : forall m ng sct F s, moc_problem m ng sct -> physical (ms_nreg m) ng sct (ms_xs m) -> (forall t, types (ms_in m) t <> VACUUM) -> medium (ms_xs m) ng sct F (e_k _ s) ->
  sound mg_flux (moc_state m ng) (ms_nreg m) ng (ms_xs m) (ms_vol m) s -> moc_flat m ng F (e_sw _ s) -> converged m ng s.
Proof.
  intros m ng sct F s P Ph Nv Md So Fl. destruct (C156_moc m ng sct F s 1 P Ph Nv Md So Fl) as (s' & E & Fl' & _). cbn [steps] in E. destruct (eigen_iter MocState mg_flux (moc_sweep m) (ms_xs m) ng (ms_nreg m) (ms_vol m) s) as [t| |] eqn:Ei; try discriminate. injection E as ->.
  unfold eigen_iter in Ei. destruct (eigen_step MocState mg_flux (moc_sweep m) (ms_xs m) ng (ms_nreg m) (ms_vol m) s) as [s1|] eqn:Es; [|discriminate]. destruct So as (Ft & Ls & Lf & K & Nn & Pp). pose proof (state_fits m ng _ Ft) as Sh. split; [exact K|]. split; [exact Ls|]. split; [exact Lf|]. split; [exact Sh|]. exists s1. split; [exact Es|].
  assert (Ew : e_sw _ s' = e_sw _ s1). { destruct (normalize (e_fs MocState s1)) as [[f ?]|]; [|discriminate]. destruct (normalize (e_fsp MocState s1)) as [[fp ?]|]; [|discriminate]. destruct (sum_sq (ms_nreg m) f fp); [|discriminate]. destruct (_ =? 0); [discriminate|]. injection Ei as <-. reflexivity. }
  rewrite <- Ew. split; [intros i h Hi Hh; rewrite (proj1 Fl' i h Hi Hh), (proj1 Fl i h Hi Hh); reflexivity|]. apply (flat_same m ng F); [exact Fl'|exact Fl|]. rewrite Ew.
  unfold eigen_step in Es. destruct Ph as (M & D & Cv & Pos). destruct (C51_fission_source (ms_nreg m) ng sct (e_k _ s) (ms_xs m) (mg_flux (e_sw _ s)) (e_fs _ s) ltac:(lra) M D (proj1 Sh) Lf) as (f1 & E1 & L1 & _). rewrite E1 in Es. rewrite (groups_born m ng sct f1 P (conj M (conj D (conj Cv Pos))) L1 ng 0 _ _ (le_n _) Ls Sh) in Es.
  destruct (grps_ok m ng sct _ P (conj M (conj D (conj Cv Pos))) (proj1 (born_at (ms_xs m) (ms_nreg m) ng f1)) ng 0 (e_src _ s) (e_sw _ s) (le_n _) Ls Sh) as (a & w & G & _ & (_ & _ & Lw & _) & _). rewrite G in Es. destruct (total_fission (ms_xs m) ng (mg_flux w) (ms_vol m)); [|discriminate]. destruct (total_fission (ms_xs m) ng (mg_flux (e_sw _ s)) (ms_vol m)); [|discriminate]. destruct (Reqb _ 0); [discriminate|]. destruct (calc_fission_source _ _ _ (mg_flux w) f1); [|discriminate]. injection Es as <-. cbn [e_sw]. destruct Sh as (_ & _ & Lb & _). congruence.
Qed.
Lemma flat_exists : forall m ng sct F k, moc_problem m ng sct -> physical (ms_nreg m) ng sct (ms_xs m) -> (0 < k)%R -> (forall g, g < ng -> (0 < F g)%R) -> (exists x i g, In x (ms_xs m) /\ In i (xr_reg x) /\ g < ng /\ (0 < at0 (xr_nf x) g)%R) ->
  exists s, e_k _ s = k /\ sound mg_flux (moc_state m ng) (ms_nreg m) ng (ms_xs m) (ms_vol m) s /\ moc_flat m ng F (e_sw _ s).
Proof.
  intros m ng sct F k P Ph K Fp (x0 & i0 & g0 & Ix & Ii & Hg & Nf). pose proof PI_RGT_0 as PP. set (b := ms_in m). set (N := n_group b * BcProofs.total (sizes b)).
  destruct (tabulate (fun q v => forall g a n i, slot b g a n i q -> v = (F g / (4 * PI))%R) N) as (l & Ll & Hl).
  { intros q Hq. destruct (slot_cover b q Hq) as (g & a & n & i & _ & _ & Sx). exists (F g / (4 * PI))%R. intros g' a' n' i' Sx'. destruct (slot_inj _ _ _ _ _ _ _ _ _ _ Sx Sx') as (-> & _). reflexivity. }
  destruct (shaped (fun _ g => F g) (ms_nreg m) ng) as [Ff Hp]. set (fl := map (fun i => map ((fun _ g => F g) i) (seq 0 ng)) (seq 0 (ms_nreg m))) in *.
  assert (Sl : forall g a n i q, g < ng -> slot b g a n i q -> nth_error l q = Some (F g / (4 * PI))%R). { intros g a n i q Hg' Sx. destruct (Hl q) as (v & Ev & Hv); [apply (slot_range _ _ _ _ _ _ Sx); unfold b; rewrite (mp_ng m ng sct P); exact Hg'|]. rewrite Ev, (Hv _ _ _ _ Sx). reflexivity. }
  set (sw := mkMG fl (repeat 0%R (ms_nreg m)) (repeat (l, repeat 0%R (BcProofs.total (sizes b))) (length (ms_planes m)))). exists (mkE MocState (repeat 0%R (ms_nreg m)) sw k k (repeat 0%R (ms_nreg m)) [] []). split; [reflexivity|]. split; [split; [|split; [|split; [|split; [|split]]]]|split]; cbn [e_sw e_src e_fs e_k].
  - split; [exact Ff|]. split; [apply repeat_length|]. split; [apply repeat_length|]. apply Forall_forall. intros d Id. apply repeat_spec in Id. subst d. split; [exact Ll|]. split; [apply repeat_length|]. intros g a n i q Hg' Sx. exists (F g / (4 * PI))%R. rewrite (mp_ng m ng sct P) in Hg'. split; [exact (Sl g a n i q Hg' Sx)|]. apply Rlt_le, Rdiv_lt_0_compat; [now apply Fp|lra].
  - apply repeat_length.
  - apply repeat_length.
  - exact K.
  - intros i h Hi Hh. cbn [sw mg_flux]. rewrite (Hp i h Hi Hh). apply Rlt_le. now apply Fp.
  - destruct Ph as (M & D & Cv & Pos). destruct (mp_vol m ng sct P) as [Lv Pv]. rewrite Forall_forall in Pv. assert (Vp : forall i, i < ms_nreg m -> (0 < at0 (ms_vol m) i)%R) by (intros i Hi; apply Pv, nth_In; lia).
    apply (prod_pos _ _ _ _ x0 i0 g0); auto.
    + intros x i g Ix' Ii' Hg'. pose proof (reg_bound _ _ x i M Ix' Ii') as Hi. cbn [sw mg_flux]. rewrite (Hp i g Hi Hg'). apply Rmult_le_pos; [apply Rlt_le, Rmult_lt_0_compat; [now apply Fp|now apply Vp]|]. apply (Pos x g Ix' Hg').
    + pose proof (reg_bound _ _ x0 i0 M Ix Ii) as Hi. cbn [sw mg_flux]. rewrite (Hp i0 g0 Hi Hg). apply Rmult_lt_0_compat; [apply Rmult_lt_0_compat; [now apply Fp|now apply Vp]|exact Nf].
  - intros i g Hi Hg'. exact (Hp i g Hi Hg').
  - apply Forall_forall. intros d Id. cbn [sw mg_bnd] in Id. apply repeat_spec in Id. subst d. intros g a n i q Hg' Sx. exact (Sl g a n i q Hg' Sx).
Qed.

(** C194: behind mirrors on all sides, of materials with a positive spectrum and the multiplication factor [k] in common, every converged
    calculation with a positive flux has found [k] exactly, and no converged calculation has found more. *)
Theorem C194_medium : forall m ng sct v c F k s, moc_problem m ng sct -> physical (ms_nreg m) ng sct (ms_xs m) -> crossed m -> 1 <= ms_inner m -> (0 <= c < 1)%R -> dominated m ng sct v c -> (forall d, types (ms_in m) d <> VACUUM /\ types (ms_in m) d <> PRESCRIBED) ->
  (0 < k)%R -> (forall g, g < ng -> (0 < F g)%R) -> medium (ms_xs m) ng sct F k -> (exists x i g, In x (ms_xs m) /\ In i (xr_reg x) /\ g < ng /\ (0 < at0 (xr_nf x) g)%R) ->
  converged m ng s -> (flux_some m ng s -> (e_k _ s <= k)%R) /\ (flux_pos m ng s -> e_k _ s = k).
Proof.
  intros m ng sct v c F k s P Ph Cr Hn Hc Dm Nt K Fp Md Ex C. destruct (flat_exists m ng sct F k P Ph K Fp Ex) as (s0 & E0 & So & Fl). rewrite <- E0 in Md |- *. pose proof (flat_converged m ng sct F s0 P Ph (fun t => proj1 (Nt t)) Md So Fl) as C0. assert (Fp0 : flux_pos m ng s0) by (intros i h Hi Hh; rewrite (proj1 Fl i h Hi Hh); now apply Fp).
  split; intros H; [exact (C194_largest m ng sct v c s0 s P Ph Cr Hn Hc Dm (fun d => proj2 (Nt d)) C0 C Fp0 H)|]. destruct Ex as (x & i & g & Ix & Ii & Hg & _). pose proof (reg_bound _ _ x i (proj1 Ph) Ix Ii). apply (C194_unique m ng sct v c s s0); auto; try lia. intros d. apply Nt.
Qed.
Print Assumptions C194_medium.

(** The core of two materials behind mirrors of C156, and the same with less fission in one material. *)
Definition mw_ys : list XReg := [InfProps.mf_x0; mkXR [1] true [2]%R [1]%R [1]%R [1]%R [3 / 2]%R (mkSM 1 [1 / 2]%R [0 + 1 / 2]%R [mkRow 0 0 0])].
Lemma mw_dominated : forall gs, dominated (InfProps.mf_static gs) 1 (fun _ => mo_sc) (fun _ => 1%R) (3 / 4).
Proof. intros gs. split; [intros; lra|]. intros x g [<-|[<-|[]]] Hg; assert (g = 0) by lia; subst; unfold mo_sc; cbn; lra. Qed.
Lemma mw_problem : forall gs, moc_problem (with_xs (InfProps.mf_static gs) mw_ys) 1 (fun _ => mo_sc).
Proof.
  intros gs. destruct (InfProps.mf_problem gs) as [A1 A2 A3 A4 A5 A6 A7 A8 A9 A10 A11 A12 A13 A14]. constructor; [exact A1|exact A2|exact A3|exact A4|exact A5|exact A6|exact A7|exact A8|exact A9|exact A10| |exact (fun x g _ Hg => ltac:(unfold mo_sc; lra))|exact A13|exact A14].
  intros x g [<-|[<-|[]]] Hg; assert (g = 0) by lia; subst; cbn; lra.
Qed.
Lemma mw_physical : physical 2 1 (fun _ => mo_sc) mw_ys.
Proof.
  split; [split; [repeat constructor; cbn; intuition lia|cbn; intuition lia]|]. split.
  - intros x [<-|[<-|[]]]; (split; [unfold compress, band, mo_sc; cbn [first_bound last_bound map seq]; rewrite (Rltb_true 0 (1 / 2)) by lra; reflexivity|]; split; [intros i g _ _ _; unfold mo_sc; lra|]; repeat split; reflexivity).
  - split; [intros i Hi; cbn; lia|]. intros x g [<-|[<-|[]]] Hg; assert (g = 0) by lia; subst; cbn; lra.
Qed.
Example C194_instance : forall gs, let m := InfProps.mf_static gs in moc_problem m 1 (fun _ => mo_sc) /\ physical 2 1 (fun _ => mo_sc) (ms_xs m) /\ crossed m /\ 1 <= ms_inner m /\ dominated m 1 (fun _ => mo_sc) (fun _ => 1%R) (3 / 4) /\
  converged m 1 InfProps.mf_s /\ flux_pos m 1 InfProps.mf_s /\ e_k _ InfProps.mf_s = (3 / 2)%R /\ (forall s, converged m 1 s -> flux_pos m 1 s -> e_k _ s = (3 / 2)%R) /\
  Forall2 (fun x y => but_fission x y /\ forall g h, g < 1 -> h < 1 -> (births y g h <= births x g h)%R) (ms_xs m) mw_ys /\
  forall s, converged (with_xs m mw_ys) 1 s -> flux_pos m 1 s -> (e_k _ s <= 3 / 2)%R.
Proof.
  intros gs m. pose proof (InfProps.mf_problem gs) as P. fold m in P. pose proof InfProps.mf_physical as Ph. pose proof (mw_dominated gs) as Dm. fold m in Dm. assert (Cr : crossed m) by (intros f h rays [E|[]]; injection E as <- <- <-; split; [reflexivity|]; repeat constructor; cbn; discriminate).
  assert (Md : medium [InfProps.mf_x0; InfProps.mf_x1] 1 (fun _ => mo_sc) (fun _ => 1%R) (3 / 2)) by (intros x g [<-|[<-|[]]] Hg; assert (g = 0) by lia; subst; unfold mo_sc; cbn; field).
  assert (C : converged m 1 InfProps.mf_s) by (apply (flat_converged m 1 (fun _ => mo_sc) (fun _ => 1%R)); [exact P|exact Ph|intros t T; discriminate T|exact Md|apply (InfProps.mf_sound gs)|apply (InfProps.mf_flat gs)]).
  assert (Fp : flux_pos m 1 InfProps.mf_s) by (intros [|[|i]] [|h] Hi Hh; cbn in Hi; try lia; unfold phi; cbn; lra).
  assert (Nt : forall d, types (ms_in m) d <> VACUUM /\ types (ms_in m) d <> PRESCRIBED) by (intros d; split; discriminate).
  assert (Bf : Forall2 (fun x y => but_fission x y /\ forall g h, g < 1 -> h < 1 -> (births y g h <= births x g h)%R) (ms_xs m) mw_ys).
  { constructor; [split; [repeat split|intros; lra]|]. constructor; [|constructor]. split; [repeat split|]. intros g h Hg Hh. assert (g = 0) by lia. assert (h = 0) by lia. subst. unfold births, at0. cbn. lra. }
  do 3 (split; [assumption|]). split; [cbn; lia|]. split; [exact Dm|]. split; [exact C|]. split; [exact Fp|]. split; [reflexivity|]. split; [|split; [exact Bf|]].
  - intros s Cs Fs. refine (proj2 (C194_medium m 1 _ _ (3 / 4) (fun _ => 1%R) (3 / 2) s P Ph Cr ltac:(cbn; lia) ltac:(lra) Dm Nt ltac:(lra) ltac:(intros; lra) Md _ Cs) Fs). exists InfProps.mf_x0, 0, 0. split; [now left|]. split; [now left|]. split; [lia|]. cbn. lra.
  - intros s Cs Fs. apply (C194_fissile m 1 (fun _ => mo_sc) (fun _ => mo_sc) mw_ys (fun _ => 1%R) (3 / 4) InfProps.mf_s s P Ph Cr ltac:(cbn; lia) ltac:(lra) Dm (fun d => proj2 (Nt d)) (mw_problem gs) mw_physical Bf C Fp Cs).
    + intros i h Hi Hh. apply Rlt_le. now apply Fs.
    + exists 0, 0. split; [cbn; lia|]. split; [lia|]. apply Rgt_not_eq, Fs; cbn; lia.
Qed.
