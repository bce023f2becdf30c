(** Properties of a whole eigenvalue calculation: C148 (what every iterate satisfies, for any sweeper that keeps its promises). *)
From Coq Require Import List Bool Reals ZArith Arith Lia Lra.
From Verif Require Import RUtil ListUtil McModel ScatModel MatModel XsModel SrcModel SolModel HomProps MocProofs ScatProofs SrcProps SolProps.
Import ListNotations.
Open Scope nat_scope.

(** What a solver relies on in a sweeper with [nreg] regions and [ng] groups, whose states satisfy [Fit]: a group sweep is
    defined, changes the flux of its own group only, and turns a nonnegative source and flux into a nonnegative flux. *)
Definition good_sweeper {Sw} (flux : Sw -> list (list R)) (sweep : nat -> list R -> Sw -> option Sw) (Fit : Sw -> Prop) (nreg ng : nat) : Prop :=
  (forall sw, Fit sw -> flux_fits nreg ng (flux sw)) /\
  forall g src sw, g < ng -> length src = nreg -> Fit sw -> (forall i, i < nreg -> (0 <= at0 src i)%R) -> (forall i h, i < nreg -> h < ng -> (0 <= phi (flux sw) i h)%R) ->
    exists sw', sweep g src sw = Some sw' /\ Fit sw' /\ (forall i h, i < nreg -> h <> g -> phi (flux sw') i h = phi (flux sw) i h) /\ forall i, i < nreg -> (0 <= phi (flux sw') i g)%R.
(** Cross sections of a physical problem: every region has some, and nothing but the diagonal of the scattering matrix may be negative. *)
Definition physical (nreg ng : nat) (sct : XReg -> nat -> nat -> R) (xs : list XReg) : Prop :=
  mesh_fits xs nreg /\ data_fits ng sct xs /\ (forall i, i < nreg -> In i (concat (map xr_reg xs))) /\
  forall x g, In x xs -> g < ng -> (0 <= at0 (xr_ch x) g)%R /\ (0 <= at0 (xr_nf x) g)%R.

Lemma rsum_nonneg : forall (f : nat -> R) n, (forall i, i < n -> (0 <= f i)%R) -> (0 <= rsum f n)%R.
Proof. intros f n H. induction n as [|n IH]; cbn [rsum]; [lra|]. pose proof (H n ltac:(lia)). pose proof (IH (fun i Hi => H i ltac:(lia))). lra. Qed.
Lemma production_ext : forall xs ng fl fl' vol nreg, mesh_fits xs nreg -> (forall i g, i < nreg -> g < ng -> phi fl i g = phi fl' i g) -> production xs ng fl vol = production xs ng fl' vol.
Proof. intros xs ng fl fl' vol nreg M H. unfold production. apply lsum_ext. intros x I. apply lsum_ext. intros r Ir. apply rsum_ext. intros g Hg. rewrite H; auto. now apply (reg_bound xs nreg x r). Qed.

Lemma lsum_zero_nonneg : forall {A} (f : A -> R) l, (forall x, In x l -> (0 <= f x)%R) -> lsum f l = 0%R -> forall x, In x l -> f x = 0%R.
Proof.
  intros A f. induction l as [|a l IH]; intros P Z x I; [destruct I|]. cbn [lsum] in Z. pose proof (P a (or_introl eq_refl)). assert (0 <= lsum f l)%R by (apply lsum_nonneg; intros; apply P; now right).
  destruct I as [<-|I]; [lra|]. apply IH; auto; [intros; apply P; now right|lra].
Qed.

Section Run.
Context {Sw : Type} (flux : Sw -> list (list R)) (sweep : nat -> list R -> Sw -> option Sw) (Fit : Sw -> Prop) (nreg ng : nat) (sct : XReg -> nat -> nat -> R) (xs : list XReg) (vol : list R).
Context (G : good_sweeper flux sweep Fit nreg ng) (Ph : physical nreg ng sct xs) (Lv : length vol = nreg) (Pv : forall i, i < nreg -> (0 < at0 vol i)%R).
Notation nn fl := (forall i h, i < nreg -> h < ng -> (0 <= phi fl i h)%R).
Notation groups fs ig cnt st := (fss_groups Sw flux sweep xs nreg None (Some fs) ig cnt st).
Notation prod fl := (production xs ng fl vol).

Lemma group_made : forall fs g src sw, g < ng -> length src = nreg -> length fs = nreg -> Fit sw -> nn (flux sw) -> (forall i, i < nreg -> (0 <= at0 fs i)%R) ->
  exists src' sw', fss_group Sw flux sweep xs nreg None (Some fs) g (src, sw) = Some (src', sw') /\ length src' = nreg /\ sweep g src' sw = Some sw' /\ Fit sw' /\ nn (flux sw') /\
    (forall i h, i < nreg -> h <> g -> phi (flux sw') i h = phi (flux sw) i h) /\
    forall x i, In x xs -> In i (xr_reg x) -> at0 src' i = (at0 (xr_ch x) g * at0 fs i + rsum (fun h => if (h =? g)%nat then 0 else sct x g h * phi (flux sw) i h) ng)%R.
Proof.
  intros fs g src sw Hg Ls Lf F N Nf. destruct G as [GF GS]. destruct Ph as (M & D & Cov & Pos).
  destruct (C40_source nreg ng sct xs (flux sw) fs g src M D (GF sw F) Lf Ls Hg) as (s0 & s1 & s2 & E0 & E1 & E2 & L2 & P2).
  assert (N2 : forall i, i < nreg -> (0 <= at0 s2 i)%R).
  { intros i Hi. specialize (Cov i Hi). apply in_concat in Cov. destruct Cov as (r & Ir & Ii). apply in_map_iff in Ir. destruct Ir as (x & <- & Ix). rewrite (P2 x i Ix Ii). destruct (Pos x g Ix Hg) as [P _].
    pose proof (Rmult_le_pos _ _ P (Nf i Hi)). apply Rplus_le_le_0_compat; [assumption|]. apply rsum_nonneg. intros h Hh. destruct (Nat.eqb_spec h g) as [|Nh]; [lra|]. destruct (D x Ix) as (_ & O & _). apply Rmult_le_pos; [|now apply N]. apply O; auto. }
  destruct (GS g s2 sw Hg L2 F N2 N) as (sw' & Es & F' & Oth & Ng). exists s2, sw'. unfold fss_group. rewrite E0, E1, E2, Es. do 4 (split; [auto|]). split; [|split; [exact Oth|exact P2]].
  intros i h Hi Hh. destruct (Nat.eq_dec h g) as [->|Nh]; [now apply Ng|]. rewrite Oth by auto. now apply N.
Qed.
Lemma groups_made : forall fs cnt ig src sw, ig + cnt <= ng -> length src = nreg -> length fs = nreg -> Fit sw -> nn (flux sw) -> (forall i, i < nreg -> (0 <= at0 fs i)%R) ->
  exists src' sw', groups fs ig cnt (src, sw) = Some (src', sw') /\ length src' = nreg /\ Fit sw' /\ nn (flux sw').
Proof.
  intros fs. induction cnt as [|c IH]; intros ig src sw Hc Ls Lf F N Nf; cbn [fss_groups]; [exists src, sw; auto|].
  destruct (group_made fs ig src sw ltac:(lia) Ls Lf F N Nf) as (s1 & w1 & E & L1 & _ & F1 & N1 & _). rewrite E. apply (IH (S ig)); auto. lia.
Qed.
(** The sweeps of an iteration one by one: the sweep of group [g] sees the new flux of the groups before it and the old flux of the
    others; what is seen of a group ([obs]) stays as it was until its own sweep, and then as that sweep left it. *)
Lemma groups_trace : forall {O} (obs : nat -> Sw -> O), (forall g src sw sw' h, g < ng -> length src = nreg -> Fit sw -> sweep g src sw = Some sw' -> h <> g -> obs h sw' = obs h sw) ->
  forall fs cnt ig src sw src' sw', ig + cnt <= ng -> length src = nreg -> length fs = nreg -> Fit sw -> nn (flux sw) -> (forall i, i < nreg -> (0 <= at0 fs i)%R) -> groups fs ig cnt (src, sw) = Some (src', sw') ->
  (forall h, h < ig \/ ig + cnt <= h -> obs h sw' = obs h sw /\ forall i, i < nreg -> phi (flux sw') i h = phi (flux sw) i h) /\
  forall g, ig <= g < ig + cnt -> exists sg w w', Fit w /\ Fit w' /\ length sg = nreg /\ sweep g sg w = Some w' /\ obs g w' = obs g sw' /\ obs g w = obs g sw /\ (forall i, i < nreg -> phi (flux w') i g = phi (flux sw') i g) /\
    (forall i h, i < nreg -> phi (flux w) i h = phi (flux (if h <? g then sw' else sw)) i h) /\
    forall x i, In x xs -> In i (xr_reg x) -> at0 sg i = (at0 (xr_ch x) g * at0 fs i + rsum (fun h => if (h =? g)%nat then 0 else sct x g h * phi (flux w) i h) ng)%R.
Proof.
  intros O obs Ob fs. induction cnt as [|c IH]; intros ig src sw src' sw' Hc Ls Lf F N Nf E; cbn [fss_groups] in E.
  - injection E as <- <-. split; [auto|]. intros; lia.
  - destruct (group_made fs ig src sw ltac:(lia) Ls Lf F N Nf) as (s1 & w1 & E1 & L1 & Es & F1 & N1 & Oth & P1). rewrite E1 in E.
    destruct (IH (S ig) s1 w1 src' sw' ltac:(lia) L1 Lf F1 N1 Nf E) as [A B]. split.
    + intros h Hh. destruct (A h ltac:(lia)) as [A1 A2]. split; [rewrite A1; apply (Ob ig s1 sw w1 h); auto; lia|]. intros i Hi. rewrite A2 by exact Hi. apply Oth; lia.
    + intros g Hg. destruct (Nat.eq_dec g ig) as [->|Ng].
      * exists s1, sw, w1. destruct (A ig ltac:(lia)) as [A1 A2]. do 4 (split; [assumption|]). split; [now symmetry|]. split; [reflexivity|]. split; [intros i Hi; symmetry; now apply A2|]. split; [|exact P1].
        intros i h Hi. destruct (Nat.ltb_spec h ig) as [Hh|Hh]; [|reflexivity]. destruct (A h ltac:(lia)) as [_ A3]. rewrite A3 by exact Hi. symmetry. apply Oth; lia.
      * destruct (B g ltac:(lia)) as (sg & w & w' & B1 & B2 & B3 & B4 & B5 & B5' & B6 & B7 & B8). exists sg, w, w'. do 5 (split; [assumption|]). split; [rewrite B5'; apply (Ob ig s1 sw w1 g); auto; lia|]. split; [assumption|]. split; [|exact B8]. intros i h Hi. rewrite B7 by exact Hi. destruct (Nat.ltb_spec h g) as [Hh|Hh]; [reflexivity|]. apply Oth; lia.
Qed.
Lemma prod_nonneg : forall fl, nn fl -> (0 <= prod fl)%R.
Proof.
  intros fl N. destruct Ph as (M & D & Cov & Pos). unfold production. apply lsum_nonneg. intros x I. apply lsum_nonneg. intros r Ir. apply rsum_nonneg. intros g Hg. pose proof (reg_bound xs nreg x r M I Ir) as Hr. destruct (Pos x g I Hg). pose proof (N r g Hr Hg). pose proof (Pv r Hr). apply Rmult_le_pos; [|assumption]. apply Rmult_le_pos; lra.
Qed.
(** A production makes the fission source sum to something and some region fissile. *)
Lemma prod_source : forall fl k fs fs', nn fl -> (0 < prod fl)%R -> (0 < k)%R -> flux_fits nreg ng fl -> length fs = nreg -> calc_fission_source k xs ng fl fs = Some fs' ->
  length fs' = nreg /\ (forall i, i < nreg -> (0 <= at0 fs' i)%R) /\ (0 < total fs')%R.
Proof.
  intros fl k fs fs' N P K F Lf E. destruct Ph as (M & D & Cov & Pos). destruct (C51_fission_source nreg ng sct k xs fl fs ltac:(lra) M D F Lf) as (f2 & E2 & L & V & _). rewrite E in E2. injection E2 as <-.
  assert (Nf : forall i, i < nreg -> (0 <= at0 fs' i)%R).
  { intros i Hi. specialize (Cov i Hi). apply in_concat in Cov. destruct Cov as (r & Ir & Ii). apply in_map_iff in Ir. destruct Ir as (x & <- & Ix). rewrite (V x i Ix Ii). unfold Rdiv. apply Rmult_le_pos; [|left; now apply Rinv_0_lt_compat]. apply rsum_nonneg. intros g Hg. destruct (Pos x g Ix Hg). apply Rmult_le_pos; [assumption|now apply N]. }
  split; [exact L|]. split; [exact Nf|].
  destruct (C51_integral nreg ng sct k xs fl fs vol ltac:(lra) M D F Lf Lv) as (f3 & t & E3 & Et & I). rewrite E in E3. injection E3 as <-. rewrite (C51_total_fission nreg ng sct xs fl vol M D F Lv) in Et. injection Et as <-.
  assert (T0 : (0 <= total fs')%R). { rewrite total_lsum. apply lsum_nonneg. intros v Iv. apply (In_nth _ _ 0%R) in Iv. destruct Iv as (i & Hi & <-). apply Nf. lia. }
  destruct T0 as [T0|T0]; [exact T0|]. exfalso. assert (Z : forall i, i < nreg -> at0 fs' i = 0%R).
  { intros i Hi. rewrite total_lsum in T0. unfold at0. apply (lsum_zero_nonneg (fun v : R => v) fs'); [|congruence|apply nth_In; lia]. intros v Iv. apply (In_nth _ _ 0%R) in Iv. destruct Iv as (j & Hj & <-). apply Nf. lia. }
  rewrite (rsum_ext _ (fun _ => 0%R)) in I by (intros i Hi; rewrite (Z i Hi); lra). assert (rsum (fun _ => 0%R) nreg = 0%R) as Z0 by (clear; induction nreg; cbn; lra). rewrite Z0 in I.
  assert (0 < prod fl / k)%R by (unfold Rdiv; apply Rmult_lt_0_compat; [assumption|now apply Rinv_0_lt_compat]). lra.
Qed.
Lemma prod_fissile : forall fl, nn fl -> (0 < prod fl)%R -> n_fissile xs <> 0.
Proof.
  intros fl N P Z. destruct Ph as (M & D & Cov & Pos). assert (prod fl = 0%R); [|lra]. unfold production. apply lsum_zero. intros x I. apply lsum_zero. intros r Ir. unfold n_fissile in Z.
  assert (Q : (if existsb (fun v => Rltb 0 v) (xr_nf x) then length (xr_reg x) else 0) = 0). { clear - I Z. induction xs as [|y l IH]; [destruct I|]. cbn [map] in Z. change (list_sum (?a :: ?b)) with (a + list_sum b) in Z. destruct I as [->|I]; [lia|apply IH; auto; lia]. }
  destruct (existsb (fun v => Rltb 0 v) (xr_nf x)) eqn:Ex; [destruct (xr_reg x); [destruct Ir|discriminate]|].
  rewrite (rsum_ext _ (fun _ => 0%R)); [clear; induction ng; cbn; lra|]. intros g Hg. destruct (Pos x g I Hg) as [_ P2]. destruct (D x I) as (_ & _ & _ & Ln & _).
  assert (at0 (xr_nf x) g = 0%R) as ->; [|lra]. destruct P2 as [P2|]; [|congruence]. exfalso. rewrite <- Bool.not_true_iff_false in Ex. apply Ex. apply existsb_exists. exists (at0 (xr_nf x) g). split; [apply nth_In; lia|]. now apply Rltb_true.
Qed.
Lemma normalize_ok : forall l, (0 < total l)%R -> exists f, normalize l = Some (map (fun v => v * f)%R l, f).
Proof. intros l H. unfold normalize. destruct (Reqb_spec (total l) 0) as [|_]; [lra|]. eauto. Qed.
Lemma sum_sq_ok : forall n a b, n <= length a -> n <= length b -> exists e, sum_sq n a b = Some e.
Proof. induction n as [|n IH]; intros [|x a] [|y b] La Lb; cbn in *; try lia; eauto. destruct (IH a b) as (e & ->); try lia. eauto. Qed.

(** What holds of every iterate. *)
Definition sound (s : ESt Sw) : Prop :=
  Fit (e_sw Sw s) /\ length (e_src Sw s) = nreg /\ length (e_fs Sw s) = nreg /\ (0 < e_k Sw s)%R /\ nn (flux (e_sw Sw s)) /\ (0 < prod (flux (e_sw Sw s)))%R.
(** Sweeping all groups from [s] leaves no fission. *)
Definition dies (s : ESt Sw) : Prop := exists fs src' sw', calc_fission_source (e_k Sw s) xs ng (flux (e_sw Sw s)) (e_fs Sw s) = Some fs /\
  groups fs 0 ng (e_src Sw s, e_sw Sw s) = Some (src', sw') /\ prod (flux sw') = 0%R.
Lemma step_made : forall s, sound s -> (dies s /\ eigen_iter Sw flux sweep xs ng nreg vol s = Undef) \/ (~ dies s /\ exists s', eigen_iter Sw flux sweep xs ng nreg vol s = Got s' /\ sound s' /\
  (e_k Sw s' * prod (flux (e_sw Sw s)) = e_k Sw s * prod (flux (e_sw Sw s')))%R).
Proof.
  intros s (F & Ls & Lf & K & N & P). assert (Ph' := Ph). destruct Ph' as (M & D & Cov & Pos). destruct G as [GF _]. pose proof (GF _ F) as Ff.
  destruct (C51_fission_source nreg ng sct (e_k Sw s) xs (flux (e_sw Sw s)) (e_fs Sw s) ltac:(lra) M D Ff Lf) as (f1 & E1 & _). destruct (prod_source _ _ _ _ N P K Ff Lf E1) as (L1 & N1 & T1).
  destruct (groups_made f1 ng 0 (e_src Sw s) (e_sw Sw s) ltac:(lia) Ls L1 F N N1) as (src' & sw' & E2 & L2 & F2 & N2). pose proof (GF _ F2) as Ff2.
  pose proof (C51_total_fission nreg ng sct xs (flux sw') vol M D Ff2 Lv) as Ea. pose proof (C51_total_fission nreg ng sct xs (flux (e_sw Sw s)) vol M D Ff Lv) as Eb.
  destruct (prod_nonneg _ N2) as [P2|P2].
  - right. split; [intros (fs & s1 & w1 & Q1 & Q2 & Q3); rewrite E1 in Q1; injection Q1 as <-; rewrite E2 in Q2; injection Q2 as <- <-; lra|].
    set (k := (e_k Sw s * prod (flux sw') / prod (flux (e_sw Sw s)))%R). assert (K2 : (0 < k)%R) by (unfold k, Rdiv; apply Rmult_lt_0_compat; [apply Rmult_lt_0_compat; assumption|now apply Rinv_0_lt_compat]).
    destruct (C51_fission_source nreg ng sct k xs (flux sw') f1 ltac:(lra) M D Ff2 L1) as (f2 & E3 & _). destruct (prod_source _ _ _ _ N2 P2 K2 Ff2 L1 E3) as (L3 & N3 & T3).
    destruct (normalize_ok _ T3) as (c2 & Nz2). destruct (normalize_ok _ T1) as (c1 & Nz1). destruct (sum_sq_ok nreg (map (fun v => v * c2)%R f2) (map (fun v => v * c1)%R f1)) as (e & Es); [rewrite map_length; lia|rewrite map_length; lia|].
    unfold eigen_iter, eigen_step. rewrite E1, E2, Ea, Eb. destruct (Reqb_spec (prod (flux (e_sw Sw s))) 0) as [|_]; [lra|]. fold k. cbn zeta. rewrite E3. cbn [e_fs e_fsp]. rewrite Nz2, Nz1, Es. destruct (Nat.eqb_spec (n_fissile xs) 0) as [Q|_]; [now apply (prod_fissile _ N2 P2) in Q|].
    eexists. split; [reflexivity|]. unfold sound. cbn [e_sw e_src e_fs e_k]. split; [|unfold k; field; lra]. split; [exact F2|]. split; [exact L2|]. split; [now rewrite map_length|]. auto.
  - left. split; [exists f1, src', sw'; auto|]. unfold eigen_iter, eigen_step. rewrite E1, E2, Ea, Eb. destruct (Reqb_spec (prod (flux (e_sw Sw s))) 0) as [|_]; [lra|]. cbn zeta. rewrite <- P2. unfold Rdiv. rewrite Rmult_0_r, Rmult_0_l.
    unfold calc_fission_source. destruct (Reqb_spec 0 0) as [_|]; [reflexivity|lra].
Qed.
Lemma loop_made : forall conv left n mn dl next s du, sound s -> (dl = [] -> next = INT_MAX \/ next = UINT_MAX) -> (Z.of_nat (n + left) < INT_MAX)%Z ->
  let o := eigen_loop (ESt Sw) (eigen_iter Sw flux sweep xs ng nreg vol) conv left n mn dl next s du in
  (exists s' n' du', o = Got (s', n', du') /\ sound s') \/
  (o = Undef /\ exists j t, j < left /\ steps (eigen_iter Sw flux sweep xs ng nreg vol) j s = Got t /\ sound t /\ dies t).
Proof.
  intros conv. induction left as [|l IH]; intros n mn dl next s du S0 D Hl o; unfold o; cbn [eigen_loop]; [left; eauto 6|].
  destruct (step_made s S0) as [[Di Eu]|[_ (s1 & Es & S1 & _)]]; [rewrite Eu; right; split; [reflexivity|]; exists 0, s; split; [lia|]; auto|]. rewrite Es.
  assert (Go : forall dl' next' d, (dl' = [] -> next' = INT_MAX \/ next' = UINT_MAX) -> let o := eigen_loop (ESt Sw) (eigen_iter Sw flux sweep xs ng nreg vol) conv l (n + 1) mn dl' next' s1 d in
    (exists s' n' du', o = Got (s', n', du') /\ sound s') \/ (o = Undef /\ exists j t, j < S l /\ steps (eigen_iter Sw flux sweep xs ng nreg vol) j s = Got t /\ sound t /\ dies t)).
  { intros dl' next' d D'. cbv zeta. destruct (IH (n + 1) mn dl' next' s1 d S1 D' ltac:(lia)) as [A|(A & j & t & Hj & B & C)]; [left; exact A|right]. split; [exact A|]. exists (S j), t. split; [lia|]. cbn [steps]. rewrite Es. auto. }
  destruct (Z.eqb_spec (Z.of_nat (n + 1)) next) as [En|En].
  - destruct dl as [|d dl']; [destruct (D eq_refl) as [X|X]; subst next; unfold UINT_MAX, INT_MAX in *; lia|]. destruct (_ && _); [left; eauto 6|]. apply Go. intros ->. now left.
  - destruct (_ && _); [left; eauto 6|]. now apply Go.
Qed.
End Run.

(** C148: an eigenvalue calculation with a physical problem, a positive starting production and a sweeper that keeps its promises ends
    without touching memory it should not, with a positive eigenvalue, a nonnegative flux and some fission; the one exception is that
    the sweeps of some iteration extinguish all fission, when the next eigenvalue is 0 and the fission source 0/0.  It never throws. *)
Theorem C148_run : forall {Sw} (flux : Sw -> list (list R)) sweep Fit nreg ng sct xs vol p dumps src sw fs fsp, good_sweeper flux sweep Fit nreg ng -> physical nreg ng sct xs -> length vol = nreg -> (forall i, i < nreg -> (0 < at0 vol i)%R) ->
  (Z.of_nat (ep_max p) < INT_MAX)%Z -> Fit sw -> length src = nreg -> length fs = nreg -> (forall i h, i < nreg -> h < ng -> (0 <= phi (flux sw) i h)%R) -> (0 < production xs ng (flux sw) vol)%R ->
  let run := eigen_run Sw flux sweep xs ng nreg vol p dumps src sw fs fsp in
  (exists s n du, run = Got (s, n, du) /\ Fit (e_sw Sw s) /\ (0 < e_k Sw s)%R /\ (forall i h, i < nreg -> h < ng -> (0 <= phi (flux (e_sw Sw s)) i h)%R) /\ (0 < production xs ng (flux (e_sw Sw s)) vol)%R /\
     e_k Sw s = (production xs ng (flux (e_sw Sw s)) vol / production xs ng (flux sw) vol)%R) \/
  (run = Undef /\ exists f j t, calc_fission_source 1 xs ng (flux sw) fs = Some f /\ j < ep_max p /\ steps (eigen_iter Sw flux sweep xs ng nreg vol) j (mkE Sw src sw 1 1 f fsp []) = Got t /\
     sound flux Fit nreg ng xs vol t /\ dies flux sweep nreg ng xs vol t).
Proof.
  intros Sw flux sweep Fit nreg ng sct xs vol p dumps src sw fs fsp G Ph Lv Pv Hm F Ls Lf N P run. assert (Ph' := Ph). destruct Ph' as (M & D & Cov & Pos).
  destruct (C51_fission_source nreg ng sct 1 xs (flux sw) fs ltac:(lra) M D (proj1 G sw F) Lf) as (f & E & L & _). unfold run, eigen_run. rewrite E. unfold eigen_solve.
  set (s0 := mkE Sw src sw 1 1 f fsp []). assert (S0 : sound flux Fit nreg ng xs vol s0) by (unfold sound, s0; cbn; split; [exact F|]; split; [exact Ls|]; split; [exact L|]; split; [lra|auto]).
  destruct (loop_made flux sweep Fit nreg ng sct xs vol G Ph Lv Pv (eigen_conv Sw p) (ep_max p) 0 (ep_min p) (sort_z dumps) (first_dump (sort_z dumps)) s0 []) as [(s & n & du & Eo & So)|(Eo & j & t & Hj & St & So & Di)]; auto.
  - intros ->. now right.
  - left. exists s, n, du. rewrite Eo. split; [reflexivity|]. assert (So' := So). destruct So' as (F' & _ & _ & K' & N' & P'). do 4 (split; [assumption|]).
    destruct (loop_inv _ _ _ _ _ _ _ _ _ _ _ _ _ Eo) as (j & _ & _ & St & _). pose proof (C51_total_fission nreg ng sct xs (flux sw) vol M D (proj1 G sw F) Lv) as Ea.
    destruct (C51_ratio Sw flux sweep xs ng nreg vol j s0 s _ St Ea) as (b & h & Eb & _ & R & _). rewrite (C51_total_fission nreg ng sct xs _ vol M D (proj1 G _ F') Lv) in Eb. injection Eb as <-. unfold s0 in R. cbn [e_k] in R. apply (Rmult_eq_reg_r (production xs ng (flux sw) vol)); [|lra]. rewrite R. field. lra.
  - right. split; [exact Eo|]. exists f, j, t. auto 6.
Qed.
Print Assumptions C148_run.
