(** Lemmas for the angular quadrature model. *)
From Coq Require Import ZArith List Lia Bool Permutation Reals Lra.
From Verif Require Import RUtil MeshModel MeshProofs AngModel.
Import ListNotations.
Open Scope R_scope.

(** ** Specification *)

(** The direction cosine along an axis. *)
Definition cosine (d : Dir) (n : Normal) : R := match n with X_NORM => ox d | Y_NORM => oy d | Z_NORM => oz d end.

(** A first-octant angle. *)
Definition first_octant (a : Angle) : Prop := forall n, 0 <= cosine (adir a) n.

(** Sign of each cosine in octant [o] (0-based), mathematical octant convention. *)
Definition octant_sign (o : nat) (n : Normal) : R :=
  match n, o with
  | X_NORM, (1 | 2 | 5 | 6)%nat => -1
  | Y_NORM, (2 | 3 | 6 | 7)%nat => -1
  | Z_NORM, (4 | 5 | 6 | 7)%nat => -1
  | _, _ => 1
  end.

Lemma octant_cases : forall o, (o < 8)%nat -> o = 0%nat \/ o = 1%nat \/ o = 2%nat \/ o = 3%nat \/ o = 4%nat \/ o = 5%nat \/ o = 6%nat \/ o = 7%nat.
Proof. intros; lia. Qed.

Ltac octs H := apply octant_cases in H; destruct H as [->|[->|[->|[->|[->|[->|[->| ->]]]]]]].

Lemma to_octant_cos : forall a o, (o < 8)%nat -> exists b, to_octant a o = Some b /\ weight b = weight a /\
  forall n, cosine (adir b) n = octant_sign o n * Rabs (cosine (adir a) n).
Proof.
  intros a o H. unfold to_octant, dir_octant. octs H; eexists; (split; [reflexivity|]); (split; [reflexivity|]);
    intros [| |]; cbn; ring.
Qed.

Lemma flat_map_singletons : forall {A B} (f : A -> option B) l, (forall a, In a l -> f a <> None) ->
  length (flat_map (fun a => match f a with Some b => [b] | None => [] end) l) = length l /\
  forall i a, nth_error l i = Some a ->
    nth_error (flat_map (fun a => match f a with Some b => [b] | None => [] end) l) i = f a.
Proof.
  induction l as [|a l IH]; intros H; [split; [reflexivity|intros [|i]; discriminate]|].
  destruct IH as [L N]; [intros; apply H; now right|].
  assert (Ha : f a <> None) by (apply H; now left). cbn [flat_map].
  destruct (f a) as [b|] eqn:E; [|congruence]. cbn [app length]. split; [now rewrite L|].
  intros [|i] x Hx; cbn in *; [congruence|auto].
Qed.

Lemma expand_nth : forall l o i a, (o < 8)%nat -> nth_error l i = Some a ->
  nth_error (expand l) (o * length l + i) = match o with O => Some a | _ => to_octant a o end.
Proof.
  intros l o i a Ho Hi.
  assert (Li : (i < length l)%nat) by (apply nth_error_Some; congruence).
  unfold expand. destruct o as [|o].
  - cbn [Nat.mul plus]. now rewrite nth_error_app1.
  - rewrite nth_error_app2 by lia.
    assert (K : forall o, (o < 8)%nat ->
      length (flat_map (fun a => match to_octant a o with Some b => [b] | None => [] end) l) = length l).
    { intros o' H'. apply (flat_map_singletons (fun a => to_octant a o') l). intros b _. destruct (to_octant_cos b o' H') as (c & E & _). congruence. }
    replace (S o * length l + i - length l)%nat with (o * length l + i)%nat by lia.
    rewrite (flat_map_nth (fun o => flat_map (fun a => match to_octant a o with Some b => [b] | None => [] end) l)
      (length l) [1; 2; 3; 4; 5; 6; 7]%nat o i (S o)).
    + apply (flat_map_singletons (fun a => to_octant a (S o)) l); auto. intros b _. destruct (to_octant_cos b (S o) Ho) as (c & E & _). congruence.
    + intros x Hx. apply K. cbn in Hx. lia.
    + destruct o as [|[|[|[|[|[|[|o]]]]]]]; try reflexivity; lia.
    + exact Li.
Qed.

Lemma expand_length : forall l, length (expand l) = (8 * length l)%nat.
Proof.
  intros l. unfold expand. rewrite app_length.
  assert (K : forall o, (o < 8)%nat ->
      length (flat_map (fun a => match to_octant a o with Some b => [b] | None => [] end) l) = length l).
  { intros o' H'. apply (flat_map_singletons (fun a => to_octant a o') l). intros b _. destruct (to_octant_cos b o' H') as (c & E & _). congruence. }
  cbn [flat_map]. rewrite !app_length, !K by lia. cbn. lia.
Qed.

(** The angle stored for (octant, i), with its cosines and weight. *)
Lemma expand_cos : forall l o i a, (o < 8)%nat -> nth_error l i = Some a -> first_octant a ->
  exists b, nth_error (expand l) (o * length l + i) = Some b /\ weight b = weight a /\
    forall n, cosine (adir b) n = octant_sign o n * cosine (adir a) n.
Proof.
  intros l o i a Ho Hi Ha. rewrite (expand_nth l o i a Ho Hi). destruct o as [|o].
  - exists a. repeat split; auto. intros [| |]; cbn; ring.
  - destruct (to_octant_cos a (S o) Ho) as (b & E & W & C). exists b. repeat split; auto.
    intros n. rewrite C, Rabs_right; auto. apply Rle_ge, Ha.
Qed.

Definition refl_oct (n : Normal) (o : nat) : nat := Z.to_nat (nth o (reflection n) 0%Z).

Ltac rocts := repeat match goal with |- context [refl_oct ?n ?o] =>
  is_ground n; is_ground o; let r := eval vm_compute in (refl_oct n o) in change (refl_oct n o) with r end.

Lemma refl_oct_spec : forall n o, (o < 8)%nat ->
  nth_error (reflection n) o = Some (Z.of_nat (refl_oct n o)) /\ (refl_oct n o < 8)%nat /\
  refl_oct n (refl_oct n o) = o /\
  octant_sign (refl_oct n o) n = - octant_sign o n /\
  (forall m, m <> n -> octant_sign (refl_oct n o) m = octant_sign o m) /\
  (forall m, refl_oct m (refl_oct n o) = refl_oct n (refl_oct m o)).
Proof.
  intros n o H. destruct n; octs H; rocts;
    (split; [reflexivity|]); (split; [lia|]); (split; [reflexivity|]);
    (split; [cbn; lra|]); (split; [intros [] N; cbn; try reflexivity; congruence|intros []; reflexivity]).
Qed.

Lemma reflect_split : forall n o i norm, (0 <= i < n)%Z -> (o < 8)%nat ->
  reflect n (Z.of_nat o * n + i) norm = Some (Z.of_nat (refl_oct norm o) * n + i)%Z.
Proof.
  intros n o i norm Hi Ho. unfold reflect.
  destruct (div_mod_of (Z.of_nat o * n + i) n (Z.of_nat o) i eq_refl Hi) as [-> _].
  destruct (Z.ltb_spec (Z.of_nat o) 0); [lia|]. rewrite Nat2Z.id.
  destruct (refl_oct_spec norm o Ho) as (-> & _). f_equal. ring.
Qed.

Lemma index_split : forall n k, (0 < n)%Z -> (0 <= k < 8 * n)%Z ->
  exists o i, (o < 8)%nat /\ (0 <= i < n)%Z /\ k = (Z.of_nat o * n + i)%Z.
Proof.
  intros n k Hn Hk. exists (Z.to_nat (k / n)), (k mod n)%Z.
  pose proof (Z.mod_pos_bound k n Hn). pose proof (Z.div_mod k n ltac:(lia)).
  assert (0 <= k / n < 8)%Z. { split; [apply Z.div_pos; lia|]. apply Z.div_lt_upper_bound; lia. }
  rewrite Z2Nat.id by lia. split; [lia|]. split; [lia|]. lia.
Qed.

Lemma nth_of_split : forall l o i (a : Angle), (o < 8)%nat -> (0 <= i < Z.of_nat (length l))%Z ->
  Forall first_octant l ->
  exists a b, nth_error l (Z.to_nat i) = Some a /\ first_octant a /\
    nth_error (expand l) (Z.to_nat (Z.of_nat o * Z.of_nat (length l) + i)) = Some b /\ weight b = weight a /\
    forall n, cosine (adir b) n = octant_sign o n * cosine (adir a) n.
Proof.
  intros l o i _ Ho Hi F.
  destruct (nth_error l (Z.to_nat i)) as [a|] eqn:E.
  - assert (Fa : first_octant a) by (rewrite Forall_forall in F; apply F; eapply nth_error_In; eauto).
    destruct (expand_cos l o (Z.to_nat i) a Ho E Fa) as (b & Eb & W & C).
    exists a, b. repeat split; auto. rewrite <- Eb. f_equal. lia.
  - apply nth_error_None in E. lia.
Qed.

Lemma reflect_ok : forall l k norm, Forall first_octant l -> (0 <= k < Z.of_nat (length (expand l)))%Z ->
  exists j a b, reflect (Z.of_nat (length l)) k norm = Some j /\ (0 <= j < Z.of_nat (length (expand l)))%Z /\
    nth_error (expand l) (Z.to_nat k) = Some a /\ nth_error (expand l) (Z.to_nat j) = Some b /\
    cosine (adir b) norm = - cosine (adir a) norm /\ (forall m, m <> norm -> cosine (adir b) m = cosine (adir a) m) /\
    weight b = weight a /\ reflect (Z.of_nat (length l)) j norm = Some k.
Proof.
  intros l k norm F Hk. rewrite expand_length in Hk |- *.
  destruct (index_split (Z.of_nat (length l)) k) as (o & i & Ho & Hi & ->); [lia|lia|].
  destruct (refl_oct_spec norm o Ho) as (_ & Hr & Inv & Sg & Sg' & _).
  destruct l as [|a0 l0]; [cbn in Hi; lia|]. set (l := a0 :: l0) in *.
  destruct (nth_of_split l o i a0 Ho Hi F) as (a & b & E1 & Fa & E2 & W & C).
  destruct (nth_of_split l (refl_oct norm o) i a0 Hr Hi F) as (a' & b' & E1' & _ & E2' & W' & C').
  rewrite E1 in E1'. injection E1' as <-.
  exists (Z.of_nat (refl_oct norm o) * Z.of_nat (length l) + i)%Z, b, b'.
  rewrite !reflect_split, Inv by auto. rewrite C', C, Sg, W', W.
  repeat split; auto; try nia.
  - ring.
  - intros m Hm. now rewrite C', C, Sg'.
Qed.

Lemma reflect_comm : forall n k m1 m2, (0 < n)%Z -> (0 <= k < 8 * n)%Z ->
  exists j1 j2 j, reflect n k m1 = Some j1 /\ reflect n k m2 = Some j2 /\
    reflect n j1 m2 = Some j /\ reflect n j2 m1 = Some j.
Proof.
  intros n k m1 m2 Hn Hk. destruct (index_split n k Hn Hk) as (o & i & Ho & Hi & ->).
  destruct (refl_oct_spec m1 o Ho) as (_ & H1 & _ & _ & _ & C).
  destruct (refl_oct_spec m2 o Ho) as (_ & H2 & _).
  do 3 eexists. rewrite !reflect_split by auto. repeat split.
  - now rewrite reflect_split.
  - rewrite reflect_split by auto. now rewrite (C m2).
Qed.

(** ** Reverse *)

Definition opp2 (o : nat) : nat := match o with 0 => 2 | 1 => 3 | 2 => 0 | 3 => 1 | 4 => 2 | 5 => 3 | 6 => 0 | _ => 1 end%nat.

Lemma reverse2_split : forall n o i, (0 <= i < n)%Z -> (o < 8)%nat ->
  reverse2 n (Z.of_nat o * n + i) = (Z.of_nat (opp2 o) * n + i)%Z.
Proof.
  intros n o i Hi Ho. unfold reverse2. octs Ho; cbn [opp2 Z.of_nat Pos.of_succ_nat Pos.succ];
  match goal with |- (?a mod ?b = ?c)%Z =>
    first [ destruct (div_mod_of a b 0 c ltac:(ring) ltac:(nia)) as [_ ->]; reflexivity
          | destruct (div_mod_of a b 1 c ltac:(ring) ltac:(nia)) as [_ ->]; reflexivity
          | destruct (div_mod_of a b 2 c ltac:(ring) ltac:(nia)) as [_ ->]; reflexivity ] end.
Qed.

Definition opp3 (o : nat) : nat := match o with 0 => 6 | 1 => 7 | 2 => 0 | 3 => 1 | 4 => 2 | 5 => 3 | 6 => 4 | _ => 5 end%nat.

Lemma reverse3_split : forall n o i, (0 <= i < n)%Z -> (o < 8)%nat ->
  reverse3 n (Z.of_nat o * n + i) = (Z.of_nat (opp3 o) * n + i)%Z.
Proof.
  intros n o i Hi Ho. unfold reverse3. octs Ho; cbn [opp3 Z.of_nat Pos.of_succ_nat Pos.succ];
  match goal with |- (?a mod ?b = ?c)%Z =>
    first [ destruct (div_mod_of a b 0 c ltac:(ring) ltac:(nia)) as [_ ->]; reflexivity
          | destruct (div_mod_of a b 1 c ltac:(ring) ltac:(nia)) as [_ ->]; reflexivity ] end.
Qed.

(** 2-D reverse: x and y cosines are negated, the result is in the upper half space, and it is an involution
    on the upper half space. *)
Lemma reverse2_ok : forall l k, Forall first_octant l -> (0 <= k < Z.of_nat (length (expand l)))%Z ->
  exists a b, nth_error (expand l) (Z.to_nat k) = Some a /\
    nth_error (expand l) (Z.to_nat (reverse2 (Z.of_nat (length l)) k)) = Some b /\
    ox (adir b) = - ox (adir a) /\ oy (adir b) = - oy (adir a) /\ oz (adir b) = Rabs (oz (adir a)) /\
    weight b = weight a /\
    ((k < 4 * Z.of_nat (length l))%Z -> reverse2 (Z.of_nat (length l)) (reverse2 (Z.of_nat (length l)) k) = k).
Proof.
  intros l k F Hk. rewrite expand_length in Hk.
  destruct (index_split (Z.of_nat (length l)) k) as (o & i & Ho & Hi & ->); [lia|lia|].
  destruct l as [|a0 l0]; [cbn in Hi; lia|]. set (l := a0 :: l0) in *.
  assert (Ho' : (opp2 o < 8)%nat) by (octs Ho; cbn; lia).
  destruct (nth_of_split l o i a0 Ho Hi F) as (a & b & E1 & Fa & E2 & W & C).
  destruct (nth_of_split l (opp2 o) i a0 Ho' Hi F) as (a' & b' & E1' & _ & E2' & W' & C').
  rewrite E1 in E1'. injection E1' as <-.
  rewrite (reverse2_split _ o i) by auto. exists b, b'. split; [exact E2|]. split; [exact E2'|].
  pose proof (C X_NORM) as Cx. pose proof (C Y_NORM) as Cy. pose proof (C Z_NORM) as Cz.
  pose proof (C' X_NORM) as Cx'. pose proof (C' Y_NORM) as Cy'. pose proof (C' Z_NORM) as Cz'.
  pose proof (Fa Z_NORM) as Pz. cbn [cosine] in *.
  split; [rewrite Cx', Cx; octs Ho; cbn; ring|]. split; [rewrite Cy', Cy; octs Ho; cbn; ring|].
  split.
  { rewrite Cz', Cz. rewrite Rabs_mult, (Rabs_right (oz (adir a))) by lra.
    octs Ho; cbn; rewrite ?Rabs_Ropp, ?Rabs_R1; try ring;
      replace (-1) with (- (1)) by ring; rewrite Rabs_Ropp, Rabs_R1; ring. }
  split; [congruence|]. intros Hlt.
  rewrite reverse2_split by auto. octs Ho; cbn; try lia; exfalso; cbn in Hlt; lia.
Qed.

(** 3-D reverse is right only in octants 1, 2, 5 and 6: octants 3, 4, 7 and 8 get a direction whose z cosine is
    not negated. *)
Lemma reverse3_cos : forall l o i, Forall first_octant l -> (o < 8)%nat -> (0 <= i < Z.of_nat (length l))%Z ->
  exists a b, nth_error (expand l) (Z.to_nat (Z.of_nat o * Z.of_nat (length l) + i)) = Some a /\
    nth_error (expand l) (Z.to_nat (reverse3 (Z.of_nat (length l)) (Z.of_nat o * Z.of_nat (length l) + i))) = Some b /\
    ox (adir b) = - ox (adir a) /\ oy (adir b) = - oy (adir a) /\ weight b = weight a /\
    oz (adir b) = (if existsb (Nat.eqb o) [0; 1; 4; 5]%nat then - oz (adir a) else oz (adir a)).
Proof.
  intros l o i F Ho Hi.
  destruct l as [|a0 l0]; [cbn in Hi; lia|]. set (l := a0 :: l0) in *.
  assert (Ho' : (opp3 o < 8)%nat) by (octs Ho; cbn; lia).
  destruct (nth_of_split l o i a0 Ho Hi F) as (a & b & E1 & Fa & E2 & W & C).
  destruct (nth_of_split l (opp3 o) i a0 Ho' Hi F) as (a' & b' & E1' & _ & E2' & W' & C').
  rewrite E1 in E1'. injection E1' as <-.
  rewrite (reverse3_split _ o i) by auto. exists b, b'. split; [exact E2|]. split; [exact E2'|].
  pose proof (C X_NORM) as Cx. pose proof (C Y_NORM) as Cy. pose proof (C Z_NORM) as Cz.
  pose proof (C' X_NORM) as Cx'. pose proof (C' Y_NORM) as Cy'. pose proof (C' Z_NORM) as Cz'.
  cbn [cosine] in *.
  split; [rewrite Cx', Cx; octs Ho; cbn; ring|]. split; [rewrite Cy', Cy; octs Ho; cbn; ring|].
  split; [congruence|]. rewrite Cz', Cz. octs Ho; cbn; ring.
Qed.

(** ** Directions *)

Lemma dir_angles_unit : forall a t, ox (dir_angles a t) * ox (dir_angles a t) + oy (dir_angles a t) * oy (dir_angles a t)
  + oz (dir_angles a t) * oz (dir_angles a t) = 1.
Proof.
  intros a t. cbn. pose proof (sin2_cos2 a) as A. pose proof (sin2_cos2 t) as T. unfold Rsqr in *.
  replace (sin t * cos a * (sin t * cos a) + sin t * sin a * (sin t * sin a))
    with (sin t * sin t * (sin a * sin a + cos a * cos a)) by ring.
  rewrite A. lra.
Qed.

Lemma dir_cosines_consistent : forall x y z, x * x + y * y + z * z = 1 -> -1 < z < 1 ->
  let d := dir_cosines x y z in
  sin (theta d) * cos (alpha d) = x /\ sin (theta d) * sin (alpha d) = y /\ cos (theta d) = z /\
  0 < sin (theta d) /\ 0 <= alpha d < 2 * PI /\ 0 < theta d < PI /\ rsintheta d * sin (theta d) = 1.
Proof.
  intros x y z U Hz d. unfold d, dir_cosines. cbn [theta alpha rsintheta]. clear d.
  pose proof PI_RGT_0 as Pi.
  assert (Ct : cos (acos z) = z) by (apply cos_acos; lra).
  assert (St : sin (acos z) = sqrt (1 - z²)) by (apply sin_acos; lra).
  assert (Sp : 0 < 1 - z²) by (unfold Rsqr; nra).
  assert (Sq : sqrt (1 - z²) * sqrt (1 - z²) = 1 - z²) by (apply sqrt_sqrt; lra).
  assert (Ss : 0 < sin (acos z)) by (rewrite St; now apply sqrt_lt_R0).
  set (s := sin (acos z)) in *.
  assert (S2 : s * s = x * x + y * y) by (rewrite St, Sq; unfold Rsqr; lra).
  assert (Q : -1 <= x / s <= 1).
  { split; apply Rmult_le_reg_r with s; auto; unfold Rdiv; rewrite Rmult_assoc, Rinv_l by lra;
      nra. }
  assert (Ca : cos (acos (x / s)) = x / s) by now apply cos_acos.
  assert (Sa : sin (acos (x / s)) = sqrt (1 - (x / s)²)) by now apply sin_acos.
  assert (Sa2 : sqrt (1 - (x / s)²) = Rabs y / s).
  { rewrite <- (sqrt_Rsqr (Rabs y / s)).
    - f_equal. unfold Rsqr, Rdiv.
      assert (Rabs y * Rabs y = y * y) by (rewrite <- Rabs_mult; apply Rabs_right; nra).
      apply Rmult_eq_reg_r with (s * s); [|nra].
      replace ((1 - x * / s * (x * / s)) * (s * s)) with (s * s - x * x) by (field; lra).
      replace (Rabs y * / s * (Rabs y * / s) * (s * s)) with (Rabs y * Rabs y) by (field; lra). lra.
    - apply Rmult_le_pos; [apply Rabs_pos|]. left. now apply Rinv_0_lt_compat. }
  pose proof (acos_bound (x / s)) as Ba.
  assert (Bt : 0 < acos z < PI).
  { pose proof (acos_bound z). split.
    - destruct (Req_dec (acos z) 0) as [E|N]; [|lra]. rewrite E, cos_0 in Ct. lra.
    - destruct (Req_dec (acos z) PI) as [E|N]; [|lra]. rewrite E, cos_PI in Ct. lra. }
  destruct (Rltb_spec y 0).
  - assert (Ay : Rabs y = - y) by now apply Rabs_left.
    assert (0 < acos (x / s)).
    { destruct (Req_dec (acos (x / s)) 0) as [E|N]; [|lra].
      rewrite E, sin_0 in Sa. rewrite Sa2, Ay in Sa.
      assert (0 < - y / s) by (apply Rdiv_lt_0_compat; lra). lra. }
    assert (C1 : cos (2 * PI - acos (x / s)) = x / s).
    { replace (2 * PI - acos (x/s)) with (- (acos (x/s)) + 2 * INR 1 * PI) by (cbn; ring).
      rewrite cos_period, cos_neg. exact Ca. }
    assert (S1 : sin (2 * PI - acos (x / s)) = y / s).
    { replace (2 * PI - acos (x/s)) with (- (acos (x/s)) + 2 * INR 1 * PI) by (cbn; ring).
      rewrite sin_period, sin_neg, Sa, Sa2, Ay. field. lra. }
    rewrite C1, S1. repeat split; auto; try lra; field; lra.
  - assert (Ay : Rabs y = y) by (apply Rabs_right; lra).
    rewrite Ca, Sa, Sa2, Ay. repeat split; auto; try lra; field; lra.
Qed.

(** ** Product quadratures *)

Definition wsum (l : list Angle) : R := fold_right Rplus 0 (map weight l).

Lemma wsum_app : forall a b, wsum (a ++ b) = wsum a + wsum b.
Proof. unfold wsum. induction a; intros; cbn; [lra|]. rewrite IHa. lra. Qed.

Lemma fold_wsum : forall l s, fold_left (fun s a => s + weight a) l s = s + wsum l.
Proof. unfold wsum. induction l; intros; cbn; [lra|]. rewrite IHl. lra. Qed.

Lemma wsum_scale : forall l c, wsum (map (fun a => mkAngle (adir a) (weight a / c)) l) = wsum l / c.
Proof. unfold wsum. induction l; intros; cbn; [unfold Rdiv; ring|]. rewrite IHl. unfold Rdiv; ring. Qed.

Definition sumw (l : list (R * R)) : R := fold_right Rplus 0 (map snd l).

Lemma wsum_product : forall azi pol,
  wsum (flat_map (fun a => map (fun p => mkAngle (dir_angles (fst a) (fst p)) (snd a * snd p)) pol) azi) = sumw azi * sumw pol.
Proof.
  induction azi as [|a azi IH]; intros pol; cbn [flat_map]; [unfold wsum, sumw; cbn; ring|].
  rewrite wsum_app, IH.
  assert (E : wsum (map (fun p => mkAngle (dir_angles (fst a) (fst p)) (snd a * snd p)) pol) = snd a * sumw pol).
  { unfold wsum, sumw. induction pol; cbn; [ring|]. cbn in IHpol. rewrite IHpol. ring. }
  rewrite E. unfold sumw. cbn. ring.
Qed.

Lemma gen_product_sum : forall azi pol, sumw azi * sumw pol <> 0 -> wsum (gen_product azi pol) = 1.
Proof.
  intros azi pol H. unfold gen_product. cbn zeta. rewrite wsum_scale, fold_wsum, wsum_product, Rplus_0_l. unfold Rdiv. now apply Rinv_r.
Qed.

Lemma expand_wsum : forall l, wsum (expand l) = 8 * wsum l.
Proof.
  intros l. unfold expand.
  assert (K : forall o, (o < 8)%nat ->
    wsum (flat_map (fun a => match to_octant a o with Some b => [b] | None => [] end) l) = wsum l).
  { intros o Ho. unfold wsum. induction l as [|a l IH]; [reflexivity|]. cbn [flat_map].
    destruct (to_octant_cos a o Ho) as (b & E & W & _). rewrite E. cbn. rewrite W. now rewrite IH. }
  cbn [flat_map]. rewrite app_nil_r, !wsum_app, !K by lia. ring.
Qed.

Lemma wedge_ok : forall azi b0, azi <> [] ->
  exists l, wedge azi (b0 :: midpoints azi ++ [PI / 2]) = Some l /\ map fst l = azi /\
    sumw l = (PI / 2 - b0) / (PI / 2).
Proof.
  induction azi as [|a azi IH]; intros b0 H; [congruence|]. destruct azi as [|a' azi].
  - eexists. split; [reflexivity|]. split; [reflexivity|]. unfold sumw. cbn. ring.
  - destruct (IH ((a + a') / 2) ltac:(discriminate)) as (l & E & F & S).
    exists ((a, ((a + a') / 2 - b0) / (PI / 2)) :: l). split.
    + change (midpoints (a :: a' :: azi)) with ((a + a') / 2 :: midpoints (a' :: azi)).
      change (wedge (a :: a' :: azi) (b0 :: ((a + a') / 2 :: midpoints (a' :: azi)) ++ [PI / 2])) with
        (match wedge (a' :: azi) ((a + a') / 2 :: midpoints (a' :: azi) ++ [PI / 2]) with
         | Some l => Some ((a, ((a + a') / 2 - b0) / (PI / 2)) :: l) | None => None end).
      now rewrite E.
    + split; [cbn; now rewrite F|]. unfold sumw in *. cbn. rewrite S. pose proof PI_RGT_0. field. lra.
Qed.

(** Strictly increasing and below pi/2. *)
Fixpoint rising (b0 : R) (l : list R) : Prop := match l with [] => True | a :: r => b0 < a /\ rising a r end.

Lemma wedge_positive : forall azi b0 l, rising b0 azi -> Forall (fun a => a < PI / 2) azi ->
  wedge azi (b0 :: midpoints azi ++ [PI / 2]) = Some l -> Forall (fun aw => 0 < snd aw) l.
Proof.
  induction azi as [|a azi IH]; intros b0 l R F H; [injection H as <-; constructor|].
  pose proof PI_RGT_0 as Pi. destruct R as [R1 R2]. inversion F as [|? ? Fa F']; subst. destruct azi as [|a' azi].
  - injection H as <-. constructor; [|constructor]. cbn. apply Rdiv_lt_0_compat; lra.
  - change (wedge (a :: a' :: azi) (b0 :: midpoints (a :: a' :: azi) ++ [PI / 2])) with
        (match wedge (a' :: azi) ((a + a') / 2 :: midpoints (a' :: azi) ++ [PI / 2]) with
         | Some l => Some ((a, ((a + a') / 2 - b0) / (PI / 2)) :: l) | None => None end) in H.
    destruct (wedge (a' :: azi) ((a + a') / 2 :: midpoints (a' :: azi) ++ [PI / 2])) as [l'|] eqn:E; [|discriminate].
    injection H as <-. destruct R2 as [R2 R3]. constructor.
    + cbn. apply Rdiv_lt_0_compat; lra.
    + eapply (IH ((a + a') / 2)); eauto. cbn. split; [lra|exact R3].
Qed.

(** ** Level-symmetric tables *)

Definition ord_key (o : Ordinate) : list nat :=
  let a := Nat.min (ix o) (Nat.min (iy o) (iz o)) in
  let c := Nat.max (ix o) (Nat.max (iy o) (iz o)) in [a; ix o + iy o + iz o - a - c; c]%nat.
Definition ord_eqb (a b : Ordinate) : bool :=
  ((ix a =? ix b) && (iy a =? iy b) && (iz a =? iz b))%nat.
Definition key_eqb (a b : list nat) : bool := if list_eq_dec Nat.eq_dec a b then true else false.
Definition sn_symmetric (l : list Ordinate) : bool :=
  forallb (fun a => forallb (fun b => negb (key_eqb (ord_key a) (ord_key b)) || (iw a =? iw b)%nat) l) l.

Definition level_symmetric (l : list Ordinate) : Prop :=
  forall a b, In a l -> In b l -> Permutation [ix a; iy a; iz a] [ix b; iy b; iz b] -> iw a = iw b.

Lemma sum3_perm : forall a b c x y z, Permutation [a; b; c] [x; y; z] ->
  (a + b + c = x + y + z /\ Nat.min a (Nat.min b c) = Nat.min x (Nat.min y z) /\
   Nat.max a (Nat.max b c) = Nat.max x (Nat.max y z))%nat.
Proof.
  intros a b c x y z P.
  assert (G : forall l1 l2 : list nat, Permutation l1 l2 ->
    (fold_right plus 0 l1 = fold_right plus 0 l2 /\ fold_right Nat.max 0 l1 = fold_right Nat.max 0 l2)%nat).
  { induction 1; cbn; lia. }
  assert (M : forall l1 l2 : list nat, Permutation l1 l2 -> forall d, fold_right Nat.min d l1 = fold_right Nat.min d l2).
  { induction 1 as [|u l1 l2 Q IH|u v l1|l1 l2 l3 Q1 IH1 Q2 IH2]; intros d; cbn.
    - reflexivity.
    - now rewrite IH.
    - lia.
    - now rewrite IH1. }
  destruct (G _ _ P) as [S X]. pose proof (M _ _ P (a + b + c + x + y + z)%nat) as N.
  cbn [fold_right] in S, X, N. rewrite !Nat.max_0_r in X.
  rewrite (Nat.min_l c), (Nat.min_l z) in N by lia.
  split; [clear - S; lia|]. split; assumption.
Qed.

Lemma key_of_perm : forall a b, Permutation [ix a; iy a; iz a] [ix b; iy b; iz b] -> ord_key a = ord_key b.
Proof.
  intros a b P. destruct (sum3_perm _ _ _ _ _ _ P) as (S & N & X). unfold ord_key. rewrite N, X, S. reflexivity.
Qed.

Lemma sn_symmetric_sound : forall l, sn_symmetric l = true -> level_symmetric l.
Proof.
  intros l H a b Ia Ib P. unfold sn_symmetric in H. rewrite forallb_forall in H. specialize (H a Ia).
  rewrite forallb_forall in H. specialize (H b Ib). rewrite (key_of_perm a b P) in H.
  unfold key_eqb in H. destruct (list_eq_dec Nat.eq_dec (ord_key b) (ord_key b)); [|congruence].
  cbn in H. now apply Nat.eqb_eq.
Qed.

Lemma sn_orders : forall order l, gen_sn order = SnOk l ->
  In order [2; 4; 6; 8; 10; 12; 14]%Z.
Proof.
  intros order l H. unfold gen_sn in H.
  destruct (Z.eqb_spec (Z.rem order 2) 0) as [E|]; [|discriminate]. cbn [negb] in H.
  destruct (Z.ltb_spec 16 order); [discriminate|].
  destruct (Z.ltb_spec (Z.quot order 2) 1) as [|Q]; [discriminate|].
  pose proof (Z.quot_rem order 2 ltac:(lia)) as D. rewrite E in D.
  assert (C : (order = 16 \/ In order [2; 4; 6; 8; 10; 12; 14])%Z).
  { cbn. assert (1 <= Z.quot order 2 <= 8)%Z by lia. lia. }
  destruct C as [->|C]; [|exact C]. exfalso. vm_compute in H. discriminate.
Qed.

(** All index triples of size n-1. *)
Definition triples_ok (n : nat) (l : list Ordinate) : bool :=
  ((length l =? n * (n + 1) / 2) && forallb (fun o => ix o + iy o + iz o =? n - 1) l)%nat.

Fixpoint distinct (l : list Ordinate) : bool :=
  match l with [] => true | a :: r => forallb (fun b => negb (ord_eqb a b)) r && distinct r end.

Lemma distinct_sound : forall l, distinct l = true -> NoDup (map (fun o => (ix o, iy o, iz o)) l).
Proof.
  induction l as [|a l IH]; intros H; [constructor|]. cbn in H. apply andb_prop in H. destruct H as [H1 H2].
  cbn. constructor; auto. intros I. apply in_map_iff in I. destruct I as (b & E & Ib).
  rewrite forallb_forall in H1. specialize (H1 b Ib). unfold ord_eqb in H1. injection E as E1 E2 E3.
  rewrite E1, E2, E3, !Nat.eqb_refl in H1. discriminate.
Qed.

Lemma sn_tables : forall order l, gen_sn order = SnOk l ->
  let n := Z.to_nat (order / 2) in triples_ok n l = true /\ distinct l = true.
Proof.
  intros order l H. pose proof (sn_orders _ _ H) as I. cbn in I.
  destruct I as [<-|[<-|[<-|[<-|[<-|[<-|[<-|[]]]]]]]]; vm_compute in H; injection H as <-; vm_compute; auto.
Qed.

Lemma mu_base_small : forall n, (2 <= n <= 8)%nat -> 0 <= nth (n - 1) mu_base 0 <= 36 / 100.
Proof.
  intros n H. assert (C : n = 2%nat \/ n = 3%nat \/ n = 4%nat \/ n = 5%nat \/ n = 6%nat \/ n = 7%nat \/ n = 8%nat) by lia.
  destruct C as [->|[->|[->|[->|[->|[->| ->]]]]]]; cbn -[pow]; lra.
Qed.

Lemma mu_sq : forall n i, (2 <= n <= 8)%nat -> mu n i * mu n i =
  nth (n - 1) mu_base 0 * nth (n - 1) mu_base 0 +
  INR i * (2 * (1 - 3 * (nth (n - 1) mu_base 0 * nth (n - 1) mu_base 0)) / (2 * INR n - 2)).
Proof.
  intros n i H. pose proof (mu_base_small n H) as B. unfold mu. set (m := nth (n - 1) mu_base 0) in *.
  destruct i as [|i]; [cbn; ring|]. apply sqrt_sqrt.
  assert (0 <= m * m <= 1/3) by nra.
  assert (2 <= INR n) by (apply (le_INR 2); lia).
  assert (0 <= INR (S i)) by apply pos_INR.
  apply Rplus_le_le_0_compat; [lra|]. apply Rmult_le_pos; auto.
  apply Rmult_le_pos; [lra|]. left. apply Rinv_0_lt_compat. lra.
Qed.

Lemma sn_unit : forall n i j k, (2 <= n <= 8)%nat -> (i + j + k = n - 1)%nat ->
  mu n i * mu n i + mu n j * mu n j + mu n k * mu n k = 1.
Proof.
  intros n i j k H S. rewrite !mu_sq by auto. set (m := nth (n - 1) mu_base 0).
  assert (E : INR i + INR j + INR k = INR n - 1).
  { rewrite <- !plus_INR, S, minus_INR by lia. reflexivity. }
  assert (2 <= INR n) by (apply (le_INR 2); lia).
  transitivity (3 * (m * m) + (INR i + INR j + INR k) * (2 * (1 - 3 * (m * m)) / (2 * INR n - 2))); [ring|].
  rewrite E. field. lra.
Qed.

(** ** modify_angle *)

Lemma upd_nth : forall {A} (l l' : list A) i v, upd l i v = Some l' ->
  length l' = length l /\ forall j, nth_error l' j = if Nat.eqb i j then Some v else nth_error l j.
Proof.
  induction l as [|a l IH]; intros l' i v H; destruct i; cbn in H; try discriminate.
  - injection H as <-. split; [reflexivity|]. intros [|j]; reflexivity.
  - destruct (upd l i v) as [r|] eqn:E; [|discriminate]. injection H as <-. destruct (IH _ _ _ E) as [L N].
    split; [cbn; now rewrite L|]. intros [|j]; [reflexivity|]. cbn. apply N.
Qed.

Lemma upd_some : forall {A} (l : list A) i v, (i < length l)%nat -> exists l', upd l i v = Some l'.
Proof.
  induction l as [|a l IH]; intros i v H; cbn in *; [lia|]. destruct i; [eauto|].
  destruct (IH i v) as (l' & ->); [lia|eauto].
Qed.

Lemma modify_octants_nth : forall n i a octs l, (forall o, In o octs -> (o < 8)%nat) -> (i < n)%nat ->
  length l = (8 * n)%nat -> NoDup octs ->
  exists l', modify_octants n i a octs l = Some l' /\ length l' = length l /\
    forall o j, (j < n)%nat -> nth_error l' (o * n + j) =
      if existsb (Nat.eqb o) octs && Nat.eqb i j then to_octant a o else nth_error l (o * n + j).
Proof.
  intros n i a octs. induction octs as [|o octs IH]; intros l Ho Hi Hl ND.
  - exists l. repeat split; auto.
  - cbn [modify_octants]. destruct (to_octant_cos a o (Ho o (or_introl eq_refl))) as (b & Eb & _). rewrite Eb.
    assert (Hb : (o < 8)%nat) by (apply Ho; now left).
    destruct (upd_some l (i + o * n) b) as (l1 & E1); [nia|]. rewrite E1.
    destruct (upd_nth _ _ _ _ E1) as [L1 N1]. inversion ND as [|? ? Nin ND']; subst.
    destruct (IH l1) as (l' & E' & L' & N'); auto; try congruence.
    { intros; apply Ho; now right. }
    exists l'. split; [exact E'|]. split; [congruence|]. intros o' j Hj.
    rewrite N' by auto. cbn [existsb]. rewrite N1.
    destruct (Nat.eqb_spec o' o) as [->|No].
    + assert (X : existsb (Nat.eqb o) octs = false).
      { destruct (existsb (Nat.eqb o) octs) eqn:X; auto. apply existsb_exists in X.
        destruct X as (y & Iy & Ey). apply Nat.eqb_eq in Ey. subst y. contradiction. }
      rewrite X. cbn [orb andb]. destruct (Nat.eqb_spec (i + o * n) (o * n + j)); destruct (Nat.eqb_spec i j); auto; lia.
    + cbn [orb]. destruct (existsb (Nat.eqb o') octs && (i =? j)%nat); auto.
      destruct (Nat.eqb_spec (i + o * n) (o' * n + j)); auto. exfalso.
      assert (o = o'). { assert (i = j \/ i <> j) by lia. nia. } congruence.
Qed.

Lemma nth_error_ext_len : forall {A} (l1 l2 : list A), length l1 = length l2 ->
  (forall k, (k < length l1)%nat -> nth_error l1 k = nth_error l2 k) -> l1 = l2.
Proof.
  induction l1 as [|a l1 IH]; intros [|b l2] L H; cbn in L; try discriminate; auto.
  f_equal.
  - specialize (H 0%nat ltac:(cbn; lia)). cbn in H. congruence.
  - apply IH; [lia|]. intros k Hk. apply (H (S k)). cbn; lia.
Qed.

Lemma modify_angle_ok : forall l l' i a, upd l i a = Some l' ->
  modify_angle (length l) i a (expand l) = Some (expand l').
Proof.
  intros l l' i a U. destruct (upd_nth _ _ _ _ U) as [L N].
  assert (Hi : (i < length l)%nat).
  { rewrite <- L. apply nth_error_Some. rewrite N, Nat.eqb_refl. discriminate. }
  unfold modify_angle. destruct (upd_some (expand l) i a) as (l1 & E1); [rewrite expand_length; lia|].
  rewrite E1. destruct (upd_nth _ _ _ _ E1) as [L1 N1]. rewrite expand_length in L1.
  destruct (modify_octants_nth (length l) i a [1;2;3;4;5;6;7]%nat l1) as (r & E & Lr & Nr); auto.
  { cbn; intros; lia. }
  { repeat constructor; cbn; intuition discriminate. }
  rewrite E. f_equal. apply nth_error_ext_len; [rewrite expand_length; lia|].
  intros k Hk. rewrite Lr, L1 in Hk.
  assert (D : k = (k / length l * length l + k mod length l)%nat).
  { rewrite (Nat.div_mod k (length l)) at 1 by lia. lia. }
  set (o := (k / length l)%nat) in *. set (j := (k mod length l)%nat) in *.
  assert (Hj : (j < length l)%nat) by (apply Nat.mod_upper_bound; lia).
  assert (Ho : (o < 8)%nat) by (apply Nat.div_lt_upper_bound; lia).
  rewrite D, Nr, N1 by auto.
  destruct (nth_error l' j) as [b|] eqn:Eb; [|apply nth_error_None in Eb; lia].
  rewrite <- L at 3. rewrite (expand_nth l' o j b Ho Eb).
  rewrite N in Eb.
  destruct (Nat.eqb_spec i j) as [->|Nij].
  - injection Eb as <-. octs Ho; cbn [existsb Nat.eqb andb orb]; try reflexivity.
    cbn [Nat.mul plus]. now rewrite Nat.eqb_refl.
  - rewrite andb_false_r. destruct (Nat.eqb_spec i (o * length l + j)) as [E2|_].
    { exfalso. assert (o = 0%nat) by nia. subst o. rewrite H in E2. cbn in E2. lia. }
    now rewrite (expand_nth l o j b Ho Eb).
Qed.
