(** Property theorems for directions, collisions and moves of Monte Carlo particles: C100-C105. *)
From Coq Require Import Reals ZArith List Bool Lia Lra Psatz.
From Verif Require Import RUtil StdAlg StdAlgProofs GeomModel GeomProofs TallyProofs MeshModel CoreModel CoreProofs AngModel AngProofs AngProps PmModel PmProps PmTraceProps PmCylTrace PmCylChord ScatModel ScatProofs XsModel ListUtil ScatProps XsProps PartModel PartProps.
Import ListNotations.
Local Open Scope R_scope.

(** ** C100: isotropic directions *)
Lemma sin_acos' : forall z, -1 < z < 1 -> sin (acos z) = sqrt (1 - z * z).
Proof. intros z H. rewrite sin_acos by lra. unfold Rsqr. reflexivity. Qed.
(** The cosine to the axis is uniform in one number and the azimuth in the other; the direction has unit length. *)
Theorem C100_isotropic : forall r1 r2, 0 <= r1 < 1 -> 0 < r2 < 1 -> let d := isotropic r1 r2 in
  ox d * ox d + oy d * oy d + oz d * oz d = 1 /\ oz d = 2 * r2 - 1 /\ ox d = sqrt (1 - oz d * oz d) * cos (2 * PI * r1) /\ oy d = sqrt (1 - oz d * oz d) * sin (2 * PI * r1)
  /\ AngModel.alpha d = 2 * PI * r1 /\ 0 < theta d < PI /\ rsintheta d * sin (theta d) = 1.
Proof.
  intros r1 r2 H1 H2 d. set (z := 2 * r2 - 1). assert (Z : -1 < z < 1) by (unfold z; lra).
  assert (Ez : oz d = z) by (unfold d, isotropic, dir_angles; cbn [oz]; rewrite cos_acos by lra; unfold z; ring).
  assert (Sz : sin (acos (r2 * 2 - 1)) = sqrt (1 - z * z)) by (replace (r2 * 2 - 1) with z by (unfold z; ring); apply sin_acos'; exact Z).
  assert (S0 : 0 < sqrt (1 - z * z)) by (apply sqrt_lt_R0; nra).
  split; [apply C72_direction_unit|]. split; [exact Ez|]. rewrite Ez. split; [unfold d, isotropic, dir_angles; cbn [ox]; rewrite Sz; f_equal; f_equal; ring|]. split; [unfold d, isotropic, dir_angles; cbn [oy]; rewrite Sz; f_equal; f_equal; ring|].
  split; [unfold d, isotropic, dir_angles; cbn [AngModel.alpha]; ring|]. unfold d, isotropic, dir_angles. cbn [theta rsintheta]. split.
  - replace (r2 * 2 - 1) with z by (unfold z; ring). apply acos_bound_lt. exact Z.
  - rewrite Sz. field. lra.
Qed.
Print Assumptions C100_isotropic.
(** Every direction off the axis comes from exactly one pair of numbers. *)
Theorem C100_every_direction : forall x y z, x * x + y * y + z * z = 1 -> -1 < z < 1 ->
  exists r1 r2, 0 <= r1 < 1 /\ 0 < r2 < 1 /\ ox (isotropic r1 r2) = x /\ oy (isotropic r1 r2) = y /\ oz (isotropic r1 r2) = z /\
  forall s1 s2, 0 <= s1 < 1 -> 0 < s2 < 1 -> ox (isotropic s1 s2) = x -> oy (isotropic s1 s2) = y -> oz (isotropic s1 s2) = z -> s1 = r1 /\ s2 = r2.
Proof.
  intros x y z U Z. destruct (C72_direction_consistent x y z U Z) as (X & Y & T & S0 & A & Th & _). set (d := dir_cosines x y z) in *. pose proof PI_RGT_0 as PP.
  set (r1 := AngModel.alpha d / (2 * PI)). set (r2 := (z + 1) / 2). exists r1, r2.
  assert (R1 : 0 <= r1 < 1). { unfold r1. split; [apply Rmult_le_pos; [lra|left; apply Rinv_0_lt_compat; lra]|]. apply (Rmult_lt_reg_r (2 * PI)); [lra|]. replace (AngModel.alpha d / (2 * PI) * (2 * PI)) with (AngModel.alpha d) by (field; lra). lra. }
  assert (R2 : 0 < r2 < 1) by (unfold r2; lra). split; [exact R1|]. split; [exact R2|].
  assert (St : sin (theta d) = sqrt (1 - z * z)). { rewrite <- T. assert (Q : sin (theta d) * sin (theta d) = 1 - cos (theta d) * cos (theta d)) by (pose proof (sin2_cos2 (theta d)) as Q; unfold Rsqr in Q; lra). rewrite <- Q, sqrt_square; lra. }
  assert (ARG : 2 * PI * r1 = AngModel.alpha d) by (unfold r1; field; lra).
  destruct (C100_isotropic r1 r2 R1 R2) as (_ & E3 & E1 & E2 & _). rewrite E3, ARG in *. replace (2 * r2 - 1) with z in * by (unfold r2; field). rewrite E1, E2, <- St. split; [exact X|]. split; [exact Y|]. split; [reflexivity|].
  intros s1 s2 H1 H2 F1 F2 F3. destruct (C100_isotropic s1 s2 H1 H2) as (_ & G3 & G1 & G2 & _). rewrite F3 in G3, G1, G2. split; [|unfold r2; lra]. rewrite <- St in G1, G2. rewrite F1 in G1. rewrite F2 in G2.
  assert (POL : forall a, 0 <= a < 2 * PI -> x = sin (theta d) * cos a -> y = sin (theta d) * sin a -> polar {| ptx := x; pty := y |} a).
  { intros a Ha Ca Sa. split; [exact Ha|]. cbn [ptx pty]. assert (Q : sqrt (x * x + y * y) = sin (theta d)) by (rewrite St; f_equal; lra). rewrite Q. split; assumption. }
  assert (NZ : ptx {| ptx := x; pty := y |} <> 0 \/ pty {| ptx := x; pty := y |} <> 0). { cbn [ptx pty]. destruct (Req_dec x 0) as [Ex|]; [|left; assumption]. right. intro Ey. rewrite Ex, Ey in U. nra. }
  assert (EQ : 2 * PI * s1 = AngModel.alpha d). { apply (C70_unique {| ptx := x; pty := y |}); [exact NZ|apply POL; [nra|exact G1|exact G2]|apply POL; [exact A|symmetry; exact X|symmetry; exact Y]]. }
  rewrite <- ARG in EQ. apply (Rmult_eq_reg_l (2 * PI)); lra.
Qed.
Print Assumptions C100_every_direction.
(** The second number may be zero, and then the direction points along the axis: the sine is zero and its stored reciprocal is a
    division by zero. *)
Theorem C100_refuted : forall r1, oz (isotropic r1 0) = -1 /\ sin (theta (isotropic r1 0)) = 0 /\ rsintheta (isotropic r1 0) * sin (theta (isotropic r1 0)) <> 1.
Proof.
  intros r1. assert (A : acos (0 * 2 - 1) = PI) by (replace (0 * 2 - 1) with (- (1)) by ring; rewrite acos_opp, acos_1; ring). unfold isotropic, dir_angles. cbn [oz theta rsintheta]. rewrite A, cos_PI, sin_PI. split; [ring|]. split; [reflexivity|lra].
Qed.
Print Assumptions C100_refuted.
Example C100_instance : isotropic 0 (1/2) = mkDir (sin (PI / 2) * cos 0) (sin (PI / 2) * sin 0) (cos (PI / 2)) 0 (PI / 2) (1 / sin (PI / 2)).
Proof. unfold isotropic, dir_angles. replace (1 / 2 * 2 - 1) with 0 by field. rewrite acos_0, Rmult_0_l. reflexivity. Qed.

(** ** C101: collisions *)
Local Open Scope nat_scope.
(** Group [g] is the one a fraction [u] of the total falls in. *)
Definition bin (f : nat -> R) (n : nat) (u : R) (g : nat) : Prop :=
  g < n /\ (g = 0 \/ (rsum f g < u * rsum f n)%R) /\ (u * rsum f n <= rsum f (S g))%R.
Lemma bin_unique : forall f n u g g', (forall i, i < n -> (0 <= f i)%R) -> bin f n u g -> bin f n u g' -> g = g'.
Proof.
  intros f n u. assert (W : forall g g', (forall i, i < n -> (0 <= f i)%R) -> bin f n u g -> bin f n u g' -> g' <= g).
  { intros g g' N (A1 & _ & A3) (B1 & B2 & _). destruct (le_lt_dec g' g) as [|L]; [assumption|]. exfalso. destruct B2 as [->|B2]; [lia|]. pose proof (rsum_mono f (S g) g' ltac:(lia) ltac:(intros; apply N; lia)). lra. }
  intros g g' N A B. apply Nat.le_antisymm; apply W; assumption.
Qed.
Lemma sample_bin : forall f n cdf u, (forall i, i < n -> (0 <= f i)%R) -> (0 < rsum f n)%R -> length cdf = n ->
  (forall k, k < n -> nth_error cdf k = Some (rsum f (S k) / rsum f n)%R) -> (u <= 1)%R -> exists g, sample cdf u = Some g /\ bin f n u g.
Proof.
  intros f n cdf u N P L V U. unfold sample. set (T := rsum f n) in *.
  assert (PT : lb_partitioned R Rltb cdf u).
  { intros i j x y Lt X Y F. destruct (Rltb_spec y u) as [Y1|Y1]; [|discriminate]. apply Rltb_true. assert (j < n) by (rewrite <- L; apply nth_error_Some; congruence). rewrite V in X, Y by lia. injection X as <-. injection Y as <-.
    apply Rle_lt_trans with (2 := Y1). apply Rmult_le_compat_r; [left; apply Rinv_0_lt_compat; exact P|]. apply (rsum_mono f (S i) (S j)); [lia|]. intros; apply N; lia. }
  destruct (lower_bound_spec R Rltb cdf u PT) as (g & E & Lg & Lo & Hi). exists g. split; [exact E|]. unfold bin. fold T.
  assert (K : forall k, k < n -> (rsum f (S k) / T < u <-> rsum f (S k) < u * T)%R). { intros k _. split; intro H. - apply (Rmult_lt_compat_r T) in H; [|exact P]. replace (rsum f (S k) / T * T)%R with (rsum f (S k)) in H by (field; lra). exact H. - apply (Rmult_lt_reg_r T); [exact P|]. replace (rsum f (S k) / T * T)%R with (rsum f (S k)) by (field; lra). exact H. }
  assert (N0 : 0 < n). { destruct n as [|n']; [|lia]. unfold T in P. cbn in P. lra. }
  assert (G : g < n).
  { destruct (Nat.lt_ge_cases g n) as [|Ge]; [assumption|]. assert (g = n) as -> by lia. exfalso. specialize (Lo (n - 1) (rsum f (S (n - 1)) / T)%R ltac:(lia) (V (n - 1) ltac:(lia))). replace (S (n - 1)) with n in Lo by lia. fold T in Lo. replace (T / T)%R with 1%R in Lo by (field; lra). destruct (Rltb_spec 1 u); [lra|discriminate]. }
  split; [exact G|]. split.
  - destruct g as [|g']; [left; reflexivity|right]. specialize (Lo g' _ ltac:(lia) (V g' ltac:(lia))). destruct (Rltb_spec (rsum f (S g') / T) u) as [H|]; [|discriminate]. apply K; [lia|exact H].
  - specialize (Hi g _ (le_n g) (V g G)). destruct (Rltb_spec (rsum f (S g) / T) u) as [|H]; [discriminate|]. destruct (Rle_dec (u * T) (rsum f (S g))) as [|Q]; [assumption|]. exfalso. apply H. apply K; [exact G|lra].
Qed.
(** What a material looks like to a particle of group [g]: a non-negative scattering matrix [m] of which the stored one is the
    packed form, the out-scattering [o], fission [f], production [nf] and transport [tr] cross sections. *)
Definition medium (n : nat) (m : nat -> nat -> R) (x : XReg) (g : nat) (o f nf tr : R) : Prop :=
  compress n m = Some (xr_sc x) /\ (forall to from, to < n -> from < n -> (0 <= m to from)%R) /\ g < n /\ o = rsum (fun to => m to g) n /\
  nth_error (xr_tr x) g = Some tr /\ nth_error (xr_nf x) g = Some nf /\ nth_error (xr_f x) g = Some f /\ (0 < tr)%R /\ (0 <= f)%R /\ (o + f <= tr)%R.
Lemma medium_reaction : forall n m x g o f nf tr, medium n m x g o f nf tr -> exists a b, reaction_cdf x g = Some [a; b; 1%R] /\ (a * tr = o /\ b * tr = o + f /\ 0 <= a /\ a <= b /\ b <= 1)%R.
Proof.
  intros n m x g o f nf tr (C & N & G & Eo & Et & En & Ef & Pt & Pf & Le). destruct (compress_ok n m) as (s & E & _ & _ & _ & _ & O & _). rewrite C in E. injection E as <-.
  assert (N' : off_diag_nonneg n m) by (intros i j Hi Hj _; auto).
  assert (Og : nth_error (out (xr_sc x)) g = Some o). { rewrite (O g G), Eo. f_equal. apply rsum_ext. intros i Hi. now apply band_value. }
  assert (Po : (0 <= o)%R) by (rewrite Eo; apply rsum_nonneg; intros; apply N; assumption).
  destruct (C87_reaction x g tr o f Et Og Ef Pt Po Pf Le) as (a & b & R & A0 & AB & B1 & Ea & Eb & _). exists a, b. split; [exact R|]. repeat split; try assumption. lra.
Qed.
Lemma sample3 : forall a b u, (a <= b <= 1)%R -> (u <= 1)%R -> sample [a; b; 1%R] u = Some (if Rltb a u then if Rltb b u then 2 else 1 else 0).
Proof.
  intros a b u AB U. unfold sample. assert (PT : lb_partitioned R Rltb [a; b; 1%R] u).
  { intros i j x y L X Y F. destruct (Rltb_spec y u) as [Y1|]; [|discriminate]. apply Rltb_true. destruct i as [|[|[|[]]]]; destruct j as [|[|[|[]]]]; cbn in X, Y; try discriminate; try lia; injection X as <-; injection Y as <-; lra. }
  destruct (lower_bound_spec R Rltb _ _ PT) as (i & E & Li & Lo & Hi). rewrite E. f_equal.
  assert (U1 : Rltb 1 u = false) by (apply Rltb_false; exact U).
  destruct i as [|[|[|i]]].
  - rewrite (Hi 0 a (le_n 0) eq_refl). reflexivity.
  - rewrite (Lo 0 a ltac:(lia) eq_refl), (Hi 1 b (le_n 1) eq_refl). reflexivity.
  - rewrite (Lo 0 a ltac:(lia) eq_refl), (Lo 1 b ltac:(lia) eq_refl). reflexivity.
  - exfalso. specialize (Lo 2 1%R ltac:(lia) eq_refl). rewrite U1 in Lo. discriminate.
Qed.
Lemma ratio_lt : forall a t o u, (0 < t)%R -> (a * t = o)%R -> (a < u <-> o < u * t)%R.
Proof. intros a t o u T E. split; intro H; [|apply (Rmult_lt_reg_r t); [exact T|lra]]. apply (Rmult_lt_compat_r t) in H; lra. Qed.
Definition drawn (ltr : bool) (a b : R) : Dir := if ltr then isotropic a b else isotropic b a.
(** A number below the scattering share: the particle lives on with a new direction, in the group that the next number picks
    out of the scattering from its group. *)
Theorem C101_scatter : forall ltr n m x p o f nf tr u v a b us, medium n m x (pgroup p) o f nf tr -> (0 < o)%R -> (u * tr <= o)%R -> (v <= 1)%R ->
  exists g, bin (fun to => m to (pgroup p)) n v g /\ exists c, collide ltr x p (u :: v :: a :: b :: us) = Some c /\ c_left c = us /\ c_sites c = [] /\
    (c_k c * tr = pweight p * nf)%R /\ (c_flux c * tr = pweight p)%R /\
    pgroup (c_part c) = g /\ pdir (c_part c) = drawn ltr a b /\ pweight (c_part c) = pweight p /\ pid (c_part c) = pid p /\ palive (c_part c) = palive p /\
    ploc (c_part c) = ploc p /\ pgx (c_part c) = pgx p /\ pgy (c_part c) = pgy p /\ pgz (c_part c) = pgz p.
Proof.
  intros ltr n m x p o f nf tr u v a b us M Po Hu Hv. destruct (medium_reaction _ _ _ _ _ _ _ _ M) as (ra & rb & R & Ea & Eb & A0 & AB & B1).
  destruct M as (C & N & G & Eo & Et & En & Ef & Pt & Pf & Le).
  destruct (C20_cdf n m (pgroup p) N G ltac:(rewrite <- Eo; exact Po)) as (s & cdf & Cs & Ec & Lc & Vc & _). rewrite C in Cs. injection Cs as <-.
  destruct (sample_bin (fun to => m to (pgroup p)) n cdf v ltac:(intros; apply N; assumption) ltac:(rewrite <- Eo; exact Po) Lc Vc Hv) as (g & Eg & Bg).
  exists g. split; [exact Bg|]. unfold collide. rewrite R, Et, En, Ef.
  assert (U1 : (u <= 1)%R) by (apply (Rmult_le_reg_r tr); [exact Pt|lra]).
  rewrite sample3 by (try split; assumption). rewrite (Rltb_false ra u) by (destruct (Rle_dec u ra) as [|Q]; [assumption|exfalso; assert (Q' : (ra < u)%R) by lra; apply (ratio_lt ra tr o u Pt Ea) in Q'; lra]).
  rewrite Ec, Eg. cbn [draw_direction]. eexists. split; [reflexivity|]. cbn [c_left c_sites c_k c_flux c_part scattered pgroup pdir pweight pid palive ploc pgx pgy pgz]. repeat split; try (field; lra).
Qed.
Print Assumptions C101_scatter.
(** A number above the scattering and fission shares: the particle is captured. *)
Theorem C101_capture : forall ltr n m x p o f nf tr u us, medium n m x (pgroup p) o f nf tr -> (o + f < u * tr)%R -> (u <= 1)%R ->
  exists c, collide ltr x p (u :: us) = Some c /\ c_left c = us /\ c_sites c = [] /\ (c_k c * tr = pweight p * nf)%R /\ (c_flux c * tr = pweight p)%R /\ palive (c_part c) = false.
Proof.
  intros ltr n m x p o f nf tr u us M Hu U1. destruct (medium_reaction _ _ _ _ _ _ _ _ M) as (ra & rb & R & Ea & Eb & A0 & AB & B1).
  destruct M as (C & N & G & Eo & Et & En & Ef & Pt & Pf & Le). unfold collide. rewrite R, Et, En, Ef.
  rewrite sample3 by (try split; assumption). rewrite (Rltb_true ra u), (Rltb_true rb u); [|apply (ratio_lt rb tr (o + f) u Pt Eb); exact Hu|apply (ratio_lt ra tr o u Pt Ea); lra].
  eexists. split; [reflexivity|]. cbn [c_left c_sites c_k c_flux c_part set_alive palive]. repeat split; field; lra.
Qed.
Print Assumptions C101_capture.
(** The sites of a fission: each takes three numbers, the first picking its group from the spectrum, the others its direction. *)
Definition site_of (ltr : bool) (chi : nat -> R) (n : nat) (p : Particle) (u a b : R) (q : Particle) : Prop :=
  bin chi n u (pgroup q) /\ pdir q = drawn ltr a b /\ pweight q = 1%R /\ pid q = pid p /\ palive q = true /\ pgx q = pgx p /\ pgy q = pgy p /\ pgz q = pgz p.
Lemma sites_spec : forall ltr (chi : nat -> R) n cdf p k us, (forall i, i < n -> (0 <= chi i)%R) -> rsum chi n = 1%R -> length cdf = n -> (forall g, g < n -> nth_error cdf g = Some (rsum chi (S g))) ->
  3 * k <= length us -> (forall u, In u us -> (u <= 1)%R) ->
  exists l, fission_sites ltr cdf p k us = Some (l, skipn (3 * k) us) /\ length l = k /\
    forall i, i < k -> exists q u a b, nth_error l i = Some q /\ nth_error us (3 * i) = Some u /\ nth_error us (3 * i + 1) = Some a /\ nth_error us (3 * i + 2) = Some b /\ site_of ltr chi n p u a b q.
Proof.
  intros ltr chi n cdf p. induction k as [|k IH]; intros us N S1 L V Lu U.
  - exists []. split; [reflexivity|]. split; [reflexivity|]. intros; lia.
  - destruct us as [|u [|a [|b r]]]; cbn [length] in Lu; try lia. cbn [fission_sites draw_direction].
    destruct (sample_bin chi n cdf u N ltac:(rewrite S1; lra) L ltac:(intros g Hg; rewrite (V g Hg), S1; f_equal; field) (U u ltac:(left; reflexivity))) as (g & Eg & Bg). rewrite Eg.
    destruct (IH r N S1 L V ltac:(lia) ltac:(intros; apply U; do 3 right; assumption)) as (l & E & Ll & Sp). rewrite E. eexists. split; [replace (3 * S k) with (S (S (S (3 * k)))) by lia; reflexivity|]. split; [cbn [length]; lia|].
    intros [|i] Hi.
    + eexists. exists u, a, b. split; [reflexivity|]. split; [reflexivity|]. split; [reflexivity|]. split; [reflexivity|]. unfold site_of, new_particle. cbn [pgroup pdir pweight pid palive pgx pgy pgz]. split; [exact Bg|]. repeat split.
    + destruct (Sp i ltac:(lia)) as (q & u' & a' & b' & Q). exists q, u', a', b'. replace (3 * S i) with (S (S (S (3 * i)))) by lia. exact Q.
Qed.
Lemma n_fission_spec : forall w nu u, (0 <= w * nu + u)%R -> (INR (n_fission w nu u) <= w * nu + u < INR (n_fission w nu u) + 1)%R.
Proof.
  intros w nu u P. unfold n_fission. destruct (base_Int_part (w * nu + u)) as [A B].
  assert (Z0 : (0 <= Int_part (w * nu + u))%Z). { apply Z.lt_succ_r, lt_IZR. rewrite succ_IZR. lra. }
  rewrite INR_IZR_INZ, Z2Nat.id by exact Z0. lra.
Qed.
(** A number in the fission share: the particle is spent; the whole part of weight times yield plus a random number is the
    number of sites, each of unit weight where the particle was. *)
Theorem C101_fission : forall ltr n m x p o f nf tr u v us, medium n m x (pgroup p) o f nf tr -> (o < u * tr <= o + f)%R -> (0 <= pweight p)%R -> (0 <= nf)%R -> (0 <= v)%R ->
  length (xr_ch x) = n -> (forall c, In c (xr_ch x) -> (0 <= c)%R) -> rsum (fun i => nth i (xr_ch x) 0%R) n = 1%R -> (forall y, In y us -> (y <= 1)%R) ->
  exists k, (INR k <= pweight p * (nf / f) + v < INR k + 1)%R /\ (3 * k <= length us ->
    exists c, collide ltr x p (u :: v :: us) = Some c /\ c_left c = skipn (3 * k) us /\ (c_k c * tr = pweight p * nf)%R /\ (c_flux c * tr = pweight p)%R /\ palive (c_part c) = false /\ length (c_sites c) = k /\
    forall i, i < k -> exists q y a b, nth_error (c_sites c) i = Some q /\ nth_error us (3 * i) = Some y /\ nth_error us (3 * i + 1) = Some a /\ nth_error us (3 * i + 2) = Some b /\
      site_of ltr (fun i => nth i (xr_ch x) 0%R) n p y a b q).
Proof.
  intros ltr n m x p o f nf tr u v us M Hu W0 Nf V0 Lch Nch Sch U. destruct (medium_reaction _ _ _ _ _ _ _ _ M) as (ra & rb & R & Ea & Eb & A0 & AB & B1).
  destruct M as (C & N & G & Eo & Et & En & Ef & Pt & Pf & Le). assert (F0 : (0 < f)%R) by lra.
  exists (n_fission (pweight p) (nf / f) v). split.
  { apply n_fission_spec. apply Rplus_le_le_0_compat; [|exact V0]. apply Rmult_le_pos; [exact W0|]. apply Rmult_le_pos; [exact Nf|]. left. apply Rinv_0_lt_compat. exact F0. }
  intro Lu. destruct (compress_ok n m) as (s & E & Ng & _). rewrite C in E. injection E as <-.
  assert (CH : exists l, chi_cdf x = Some l).
  { unfold chi_cdf. rewrite Ng. clear -Lch. assert (Q : forall cnt ig sum, ig + cnt = length (xr_ch x) -> exists l, chi_sums (xr_ch x) ig cnt sum = Some l).
    { induction cnt as [|c IH]; intros ig sum H; cbn [chi_sums]; [eexists; reflexivity|]. destruct (nth_error (xr_ch x) ig) as [w|] eqn:E; [|apply nth_error_None in E; lia]. destruct (IH (S ig) (sum + w)%R ltac:(lia)) as (l & ->). eexists. reflexivity. }
    apply Q. lia. }
  destruct CH as (cdf & Ec). destruct (C87_spectrum x cdf Ec) as (Lc & Vc & _). rewrite Ng in Lc, Vc.
  assert (Nc : forall i, i < n -> (0 <= nth i (xr_ch x) 0)%R) by (intros i Hi; apply Nch, nth_In; lia).
  destruct (sites_spec ltr _ n cdf p _ us Nc Sch Lc Vc Lu U) as (l & El & Ll & Sp).
  assert (U1 : (u <= 1)%R) by (apply (Rmult_le_reg_r tr); [exact Pt|lra]).
  unfold collide. rewrite R, Et, En, Ef, sample3 by (try split; assumption).
  rewrite (Rltb_true ra u) by (apply (ratio_lt ra tr o u Pt Ea); lra). rewrite (Rltb_false rb u) by (destruct (Rle_dec u rb) as [|Q]; [assumption|exfalso; assert (Q' : (rb < u)%R) by lra; apply (ratio_lt rb tr (o + f) u Pt Eb) in Q'; lra]).
  rewrite Ec. destruct (Reqb_spec f 0); [lra|]. rewrite El. eexists. split; [reflexivity|]. cbn [c_left c_sites c_k c_flux c_part set_alive palive].
  split; [reflexivity|]. split; [field; lra|]. split; [field; lra|]. split; [reflexivity|]. split; [exact Ll|]. exact Sp.
Qed.
Print Assumptions C101_fission.
(** The number of sites is on average the weight times the yield: it is the whole part [k] of that, or one more for the last
    [fr] of the random numbers, [fr] being the fractional part. *)
Theorem C101_yield : forall w nu v, (0 <= w * nu)%R -> (0 <= v < 1)%R -> exists k fr, (w * nu = INR k + fr /\ 0 <= fr < 1)%R /\ n_fission w nu v = if Rltb v (1 - fr) then k else S k.
Proof.
  intros w nu v P V. exists (Z.to_nat (Int_part (w * nu))), (frac_part (w * nu)). destruct (base_fp (w * nu)) as [F1 F2].
  assert (Z0 : (0 <= Int_part (w * nu))%Z). { destruct (base_Int_part (w * nu)) as [A B]. apply Z.lt_succ_r, lt_IZR. rewrite succ_IZR. lra. }
  assert (EQ : (w * nu = INR (Z.to_nat (Int_part (w * nu))) + frac_part (w * nu))%R). { rewrite INR_IZR_INZ, Z2Nat.id by exact Z0. unfold frac_part. ring. }
  split; [split; [exact EQ|lra]|]. set (k := Z.to_nat (Int_part (w * nu))) in *. set (fr := frac_part (w * nu)) in *.
  pose proof (n_fission_spec w nu v ltac:(lra)) as S0. set (q := n_fission w nu v) in *. rewrite EQ in S0.
  assert (IK : forall z, (INR q < INR z + 1)%R -> q <= z). { intros z H. rewrite <- S_INR in H. apply INR_lt in H. lia. }
  destruct (Rltb_spec v (1 - fr)).
  - assert (q <= k) by (apply IK; lra). assert (k <= q). { assert (H1 : (INR k < INR (S q))%R) by (rewrite S_INR; lra). apply INR_lt in H1. lia. } lia.
  - assert (q <= S k) by (apply IK; rewrite S_INR; lra). assert (S k <= q). { assert (H1 : (INR (S k) < INR (S q))%R) by (rewrite !S_INR; lra). apply INR_lt in H1. lia. } lia.
Qed.
Print Assumptions C101_yield.
(** Refuted without scattering: the random number may be zero, which picks scattering even where there is none, and the table
    of outgoing groups is then divided by zero. *)
Theorem C101_refuted : exists n m x p us, medium n m x (pgroup p) 0 0 0 1 /\ us = [0; 0; 0; 1 / 2]%R /\ forall ltr, collide ltr x p us = None.
Proof.
  set (m := fun _ _ : nat => 0%R). destruct (compress_ok 1 m) as (s & E & _ & _ & _ & _ & O & _). specialize (O 0 ltac:(lia)).
  exists 1, m, (mkXR [] false [1%R] [0%R] [0%R] [0%R] [1%R] s), (new_particle 0 0 0 east 0 0 {| ptx := 0%R; pty := 0%R |}), [0; 0; 0; 1 / 2]%R.
  assert (Z : nth_error (out s) 0 = Some 0%R). { rewrite O. f_equal. cbn. unfold m. destruct (ScatProofs.in_band _ _); ring. }
  split; [|split; [reflexivity|]].
  - unfold medium. cbn [xr_sc xr_tr xr_nf xr_f pgroup new_particle nth_error]. repeat split; try lra; try lia; try assumption; unfold m; intros; cbn; lra.
  - intro ltr. unfold collide, reaction_cdf. cbn [xr_sc xr_tr xr_nf xr_f pgroup new_particle]. rewrite Z. cbn [nth_error]. destruct (Reqb_spec 1 0); [lra|].
    unfold sample, lower_bound. cbn. rewrite !Rltb_false by lra. unfold out_cdf. rewrite Z. destruct (Reqb_spec 0 0); [reflexivity|lra].
Qed.
Print Assumptions C101_refuted.
(** A material of two groups: from group 0 half scatters to group 1 and a quarter fissions. *)
Definition two_group (to from : nat) : R := match to, from with 0, 0 => 1/2 | 1, 0 => 1/2 | 1, 1 => 1 | _, _ => 0 end%R.
Example C101_instance : exists x, medium 2 two_group x 0 1 (1/2) 1 2 /\ length (xr_ch x) = 2 /\ (forall c, In c (xr_ch x) -> (0 <= c)%R) /\ rsum (fun i => nth i (xr_ch x) 0%R) 2 = 1%R /\ (1 < 5/8 * 2 <= 1 + 1/2)%R /\
  bin (fun to => two_group to 0) 2 (3/4) 1 /\ (3 * 2 <= length [1/4; 1/4; 1/4; 1/4; 1/4; 1/4]%R) /\ (INR 2 <= 1 * (1 / (1/2)) + 1/4 < INR 2 + 1)%R.
Proof.
  destruct (compress_ok 2 two_group) as (s & E & _). exists (mkXR [] true [2%R; 2%R] [1%R; 0%R] [(1/2)%R; 0%R] [1%R; 0%R] [1%R; 1%R] s). split; [|split; [|split; [|split; [|split; [|split; [|split]]]]]].
  - unfold medium. cbn [xr_sc xr_tr xr_nf xr_f nth_error]. repeat split; try lra; try lia; try assumption; try (intros [|[|[]]] [|[|[]]] A B; cbn; lra); try lia. cbn. lra.
  - reflexivity.
  - intros c [<-|[<-|[]]]; lra.
  - cbn. lra.
  - lra.
  - unfold bin. cbn. split; [lia|]. split; [right; lra|lra].
  - cbn. lia.
  - cbn. lra.
Qed.

(** ** C102: the way out of a pin's box *)
Local Open Scope R_scope.
(** Whether the point at path [t] is strictly inside the box. *)
Definition in_box (lx ly lz hx hy hz : R) (p : Particle) (t : R) : Prop :=
  lx < pgx p + t * ox (pdir p) < hx /\ ly < pgy p + t * oy (pdir p) < hy /\ lz < pgz p + t * oz (pdir p) < hz.
(** One axis: the coordinate stays strictly between its ends up to [t], where it reaches one; or it never moves. *)
Lemma axis_inside : forall lo hi x o, lo < x < hi -> match axis_dist lo hi x o with
  | Some t => 0 < t /\ (forall s, 0 <= s < t -> lo < x + s * o < hi) /\ (x + t * o = lo \/ x + t * o = hi)
  | None => o = 0 end.
Proof.
  intros lo hi x o H. unfold axis_dist. destruct (Reqb_spec o 0) as [->|N]; [reflexivity|]. cbv zeta. destruct (Rltb_spec 0 o) as [P|P].
  - assert (T : 0 < (hi - x) / o) by (apply Rdiv_lt_0_compat; lra). rewrite Rltb_true by exact T. split; [exact T|]. assert (E : x + (hi - x) / o * o = hi) by (field; lra). split; [|right; exact E].
    intros s Hs. split; [nra|]. assert (s * o < (hi - x) / o * o) by (apply Rmult_lt_compat_r; lra). lra.
  - assert (O : o < 0) by lra. assert (T : 0 < (lo - x) / o). { replace ((lo - x) / o) with ((x - lo) / - o) by (field; lra). apply Rdiv_lt_0_compat; lra. } rewrite Rltb_true by exact T. split; [exact T|]. assert (E : x + (lo - x) / o * o = lo) by (field; lra). split; [|left; exact E].
    intros s Hs. assert (s * - o < (lo - x) / o * - o) by (apply Rmult_lt_compat_r; lra). split; [lra|nra].
Qed.
(** From a point strictly inside the box the distance is that at which it first touches a face. *)
Theorem C102_exit : forall lx ly lz hx hy hz p, in_box lx ly lz hx hy hz p 0 -> ox (pdir p) <> 0 \/ oy (pdir p) <> 0 \/ oz (pdir p) <> 0 ->
  exists t, distance_to_pin lx ly lz hx hy hz p = Some t /\ 0 < t /\ (forall s, 0 <= s < t -> in_box lx ly lz hx hy hz p s) /\
  (pgx p + t * ox (pdir p) = lx \/ pgx p + t * ox (pdir p) = hx \/ pgy p + t * oy (pdir p) = ly \/ pgy p + t * oy (pdir p) = hy \/ pgz p + t * oz (pdir p) = lz \/ pgz p + t * oz (pdir p) = hz).
Proof.
  intros lx ly lz hx hy hz p (BX & BY & BZ) ND. rewrite !Rmult_0_l, !Rplus_0_r in *. unfold distance_to_pin, in_box.
  pose proof (axis_inside lx hx (pgx p) (ox (pdir p)) BX) as AX. pose proof (axis_inside ly hy (pgy p) (oy (pdir p)) BY) as AY. pose proof (axis_inside lz hz (pgz p) (oz (pdir p)) BZ) as AZ.
  set (a := ox (pdir p)) in *. set (b := oy (pdir p)) in *. set (c := oz (pdir p)) in *. clearbody a b c.
  assert (K : forall lo hi x o, lo < x < hi -> o = 0 -> forall s, lo < x + s * o < hi) by (intros lo hi x o H -> s; rewrite Rmult_0_r, Rplus_0_r; exact H).
  destruct (axis_dist lx hx (pgx p) a) as [tx|], (axis_dist ly hy (pgy p) b) as [ty|], (axis_dist lz hz (pgz p) c) as [tz|]; cbn [omin];
    repeat match goal with H : 0 < _ /\ _ /\ _ |- _ => destruct H as (? & ? & ?) end; [| | | | | | |exfalso; tauto]; eexists; (split; [reflexivity|]); unfold Rmin; repeat destruct (Rle_dec _ _);
    (split; [assumption|]); (split; [intros s Hs; split; [|split]; first [apply K; assumption|match goal with Q : forall s, _ -> _ |- _ => apply Q; lra end]|tauto]).
Qed.
Print Assumptions C102_exit.
(** Refuted on a face: a particle on the face it is leaving through is taken to have that axis free. *)
Theorem C102_refuted : exists p, pgx p = 2 /\ 0 < ox (pdir p) /\ distance_to_pin 0 0 0 2 2 2 p = Some (5/3) /\ 2 < pgx p + 5/3 * ox (pdir p).
Proof.
  exists (new_particle 2 1 1 (mkDir (4/5) (3/5) 0 0 0 0) 0 0 {| ptx := 0; pty := 0 |}). cbn [pgx new_particle pdir ox]. split; [reflexivity|]. split; [lra|]. split; [|lra].
  unfold distance_to_pin, axis_dist. cbn [pgx pgy pgz new_particle pdir ox oy oz]. destruct (Reqb_spec 0 0); [|lra]. destruct (Reqb_spec (3/5) 0); [lra|]. destruct (Reqb_spec (4/5) 0); [lra|].
  rewrite !(Rltb_true 0 (3/5)), !(Rltb_true 0 (4/5)) by lra. rewrite (Rltb_true 0 ((2 - 1) / (3/5))) by lra. rewrite (Rltb_false 0 ((2 - 2) / (4/5))) by lra. cbn [omin]. f_equal. lra.
Qed.
Print Assumptions C102_refuted.
Example C102_instance : in_box 0 0 0 2 2 2 (new_particle 1 1 1 (mkDir (4/5) (3/5) 0 0 0 0) 0 0 {| ptx := 0; pty := 0 |}) 0 /\ 4/5 <> 0.
Proof. split; [unfold in_box; cbn; lra|lra]. Qed.

(** ** C103: moves *)
(** The point reached along the flight, past which the move nudges the particle. *)
Definition nudge (o : R) : R := match Rlt_dec o 0, Rlt_dec 0 o with left _, _ => BUMP * (o - 1) | _, left _ => BUMP * (o + 1) | _, _ => 0 end.
Lemma BUMP_pos : 0 < BUMP.
Proof. unfold BUMP. apply Rdiv_lt_0_compat; [lra|apply pow_lt; lra]. Qed.
Lemma advance_nudge : forall v o t, advance v o t = v + t * o + nudge o.
Proof.
  intros v o t. unfold advance, sgn, nudge. destruct (Rltb_spec 0 o), (Rltb_spec o 0); destruct (Rlt_dec o 0), (Rlt_dec 0 o); try lra. assert (o = 0) by lra. subst o. ring.
Qed.
(** A move changes nothing but the place, shifts the pin-local and the global point alike, and lands past the end of the flight
    by at most two bumps on each axis, on the far side of it. *)
Theorem C103_move : forall p t, let q := move p t in
  pweight q = pweight p /\ pgroup q = pgroup p /\ pdir q = pdir p /\ pid q = pid p /\ palive q = palive p /\
  ptx (ploc q) - ptx (ploc p) = pgx q - pgx p /\ pty (ploc q) - pty (ploc p) = pgy q - pgy p /\
  (forall o v w, (o, v, w) = (ox (pdir p), pgx p, pgx q) \/ (o, v, w) = (oy (pdir p), pgy p, pgy q) \/ (o, v, w) = (oz (pdir p), pgz p, pgz q) ->
     Rabs (w - (v + t * o)) <= BUMP * (1 + Rabs o) /\ (0 < o -> v + t * o + BUMP < w) /\ (o < 0 -> w < v + t * o - BUMP) /\ (o = 0 -> w = v)).
Proof.
  intros p t q. unfold q, move. cbn [pweight pgroup pdir pid palive ploc ptx pty pgx pgy pgz]. do 5 (split; [reflexivity|]). rewrite !advance_nudge. split; [ring|]. split; [ring|]. pose proof BUMP_pos as B.
  assert (K : forall o v, Rabs (v + t * o + nudge o - (v + t * o)) <= BUMP * (1 + Rabs o) /\ (0 < o -> v + t * o + BUMP < v + t * o + nudge o) /\ (o < 0 -> v + t * o + nudge o < v + t * o - BUMP) /\ (o = 0 -> v + t * o + nudge o = v)).
  { intros o v. replace (v + t * o + nudge o - (v + t * o)) with (nudge o) by ring. unfold nudge. destruct (Rlt_dec o 0) as [A|A]; [|destruct (Rlt_dec 0 o) as [C|C]].
    - rewrite (Rabs_left o) by lra. rewrite Rabs_left by nra. repeat split; intros; nra.
    - rewrite (Rabs_right o) by lra. rewrite Rabs_right by nra. repeat split; intros; nra.
    - assert (o = 0) by lra. subst o. rewrite Rabs_R0. repeat split; intros; lra. }
  intros o v w [E|[E|E]]; injection E as -> -> ->; apply K.
Qed.
Print Assumptions C103_move.
(** Reflection: having reached a face at [h] on one axis, the particle is past it; turned back and moved by one bump it is
    inside again, by one bump times its cosine. *)
Theorem C103_reflect : forall v o t h, v + t * o = h -> (0 < o -> h < advance v o t /\ advance (advance v o t) (- o) BUMP = h - BUMP * o) /\ (o < 0 -> advance v o t < h /\ advance (advance v o t) (- o) BUMP = h - BUMP * o).
Proof.
  intros v o t h E. pose proof BUMP_pos as B. rewrite !advance_nudge, E. unfold nudge. split; intro O.
  - destruct (Rlt_dec o 0); [lra|]. destruct (Rlt_dec 0 o); [|lra]. destruct (Rlt_dec (- o) 0); [|lra]. split; [nra|ring].
  - destruct (Rlt_dec o 0); [|lra]. destruct (Rlt_dec 0 o); [lra|]. destruct (Rlt_dec (- o) 0); [lra|]. destruct (Rlt_dec 0 (- o)); [|lra]. split; [nra|ring].
Qed.
Print Assumptions C103_reflect.
(** Refuted: the point reached is not that of the flight. *)
Theorem C103_refuted : exists p t, pgx (move p t) <> pgx p + t * ox (pdir p).
Proof.
  exists (new_particle 0 0 0 east 0 0 {| ptx := 0; pty := 0 |}), 1. unfold move. cbn [pgx new_particle pdir]. rewrite advance_nudge. unfold east, nudge. cbn [ox]. pose proof BUMP_pos. destruct (Rlt_dec 1 0); [lra|]. destruct (Rlt_dec 0 1); [|lra]. nra.
Qed.
Print Assumptions C103_refuted.
Example C103_instance : 0 + 2 * (1/2) = 1 /\ 0 < 1/2.
Proof. lra. Qed.
