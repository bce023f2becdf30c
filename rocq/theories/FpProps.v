(** C76: floating-point comparison. *)
From Coq Require Import ZArith Reals Bool Lia Lra Psatz.
From Verif Require Import RUtil CoreModel FpModel.
Local Open Scope Z_scope.

(** ** Specification *)
(** Two magnitudes agree to within [k] units in the last place of normal numbers. *)
Definition close (k : nat) (x y : R) : Prop := (x <= y * (1 + / 2 ^ 52) ^ k /\ y <= x * (1 + / 2 ^ 52) ^ k)%R.
(** The smallest normal number, 2^-1022. *)
Definition normal (m : Z) : Prop := two52 <= m.

Lemma pw_pos : forall e, (0 < powerRZ 2 e)%R.
Proof. intros e. apply powerRZ_lt. lra. Qed.
Lemma pw_succ : forall e, powerRZ 2 (e + 1) = (2 * powerRZ 2 e)%R.
Proof. intros e. rewrite powerRZ_add by lra. rewrite powerRZ_1. ring. Qed.
(** The spacing above magnitude bits [m]. *)
Definition ulp (m : Z) : R := powerRZ 2 (Z.max 1 (m / two52) - 1075).
Lemma mag_step : forall m, 0 <= m -> mag (m + 1) = (mag m + ulp m)%R.
Proof.
  intros m H. unfold mag, ulp. assert (T : 0 < two52) by (unfold two52; lia).
  pose proof (Z.div_mod m two52 ltac:(lia)) as D. pose proof (Z.mod_pos_bound m two52 T) as B. set (e := m / two52) in *. set (f := m mod two52) in *.
  assert (He : 0 <= e) by (unfold e; apply Z.div_pos; lia).
  destruct (Z.eq_dec (f + 1) two52) as [E|E].
  - assert (Q : (m + 1) / two52 = e + 1) by (symmetry; apply Z.div_unique with 0; lia). assert (Rm : (m + 1) mod two52 = 0) by (symmetry; apply Z.mod_unique with (e + 1); lia).
    rewrite Q, Rm. destruct (Z.eqb_spec (e + 1) 0); [lia|]. destruct (Z.eqb_spec e 0) as [Z0|Z0].
    + rewrite Z0. change (Z.max 1 0 - 1075) with (-1074). change (0 + 1 - 1075) with (-1074). rewrite Z.add_0_r. replace two52 with (f + 1) at 1. rewrite plus_IZR. ring.
    + rewrite Z.max_r by lia. replace (e + 1 - 1075) with (e - 1075 + 1) by lia. rewrite pw_succ, Z.add_0_r, plus_IZR. replace (IZR f) with (IZR two52 - 1)%R by (rewrite <- minus_IZR; f_equal; lia). ring.
  - assert (Q : (m + 1) / two52 = e) by (symmetry; apply Z.div_unique with (f + 1); lia). assert (Rm : (m + 1) mod two52 = f + 1) by (symmetry; apply Z.mod_unique with e; lia).
    rewrite Q, Rm. destruct (Z.eqb_spec e 0) as [Z0|Z0].
    + rewrite Z0. change (Z.max 1 0 - 1075) with (-1074). rewrite plus_IZR. ring.
    + rewrite Z.max_r by lia. rewrite !plus_IZR. ring.
Qed.
Lemma ulp_pos : forall m, (0 < ulp m)%R.
Proof. intros m. apply pw_pos. Qed.
Lemma mag_nonneg : forall m, 0 <= m -> (0 <= mag m)%R.
Proof.
  intros m H. apply Zlt_0_ind with (x := m); [|exact H]. intros x IH Hx. destruct (Z.eq_dec x 0) as [->|]; [unfold mag; cbn -[powerRZ]; lra|].
  replace x with ((x - 1) + 1) by lia. rewrite mag_step by lia. pose proof (IH (x - 1) ltac:(lia)). pose proof (ulp_pos (x - 1)). lra.
Qed.
Lemma mag_monotone : forall m k, 0 <= m -> 0 < k -> (mag m < mag (m + k))%R.
Proof.
  intros m k Hm Hk. apply Zlt_lower_bound_ind with (z := 1) (x := k); [|lia]. intros x IH Hx. destruct (Z.eq_dec x 1) as [->|].
  - rewrite mag_step by lia. pose proof (ulp_pos m). lra.
  - replace (m + x) with ((m + (x - 1)) + 1) by lia. rewrite mag_step by lia. pose proof (IH (x - 1) ltac:(lia)). pose proof (ulp_pos (m + (x - 1))). lra.
Qed.
Lemma mag_lt : forall a b, 0 <= a -> 0 <= b -> ((mag a < mag b)%R <-> a < b).
Proof.
  intros a b A B. split; intros H.
  - destruct (Z.lt_ge_cases a b) as [|G]; [assumption|]. exfalso. destruct (Z.eq_dec a b) as [->|]; [lra|]. pose proof (mag_monotone b (a - b) B ltac:(lia)) as K. replace (b + (a - b)) with a in K by lia. lra.
  - pose proof (mag_monotone a (b - a) A ltac:(lia)) as K. replace (a + (b - a)) with b in K by lia. exact K.
Qed.
Lemma IZR_two52 : IZR two52 = (2 ^ 52)%R.
Proof. unfold two52. lra. Qed.
Lemma ulp_small : forall m, normal m -> (ulp m <= / 2 ^ 52 * mag m)%R.
Proof.
  intros m H. unfold normal in H. unfold ulp, mag. assert (T : 0 < two52) by (unfold two52; lia). assert (1 <= m / two52) by (apply Z.div_le_lower_bound; lia).
  pose proof (Z.mod_pos_bound m two52 T) as B. rewrite Z.max_r by lia. destruct (Z.eqb_spec (m / two52) 0); [lia|]. pose proof (pw_pos (m / two52 - 1075)) as P. set (p := powerRZ 2 (m / two52 - 1075)) in *.
  rewrite plus_IZR, IZR_two52. assert (0 <= IZR (m mod two52))%R by (apply IZR_le; lia). set (g := IZR (m mod two52)) in *. assert (0 < 2 ^ 52)%R by (apply pow_lt; lra).
  replace (/ 2 ^ 52 * ((2 ^ 52 + g) * p))%R with (p + / 2 ^ 52 * (g * p))%R by (field; lra). assert (0 <= / 2 ^ 52 * (g * p))%R by (apply Rmult_le_pos; [left; apply Rinv_0_lt_compat; lra|nra]). lra.
Qed.
Lemma mag_ratio : forall k m, normal m -> (mag (m + Z.of_nat k) <= mag m * (1 + / 2 ^ 52) ^ k)%R.
Proof.
  induction k as [|k IH]; intros m H; [cbn [pow]; replace (m + Z.of_nat 0) with m by lia; lra|].
  replace (m + Z.of_nat (S k)) with ((m + Z.of_nat k) + 1) by lia. unfold normal in *. assert (0 < two52) by (unfold two52; lia). rewrite mag_step by lia.
  pose proof (ulp_small (m + Z.of_nat k) ltac:(unfold normal; lia)) as U. specialize (IH m H). rewrite <- tech_pow_Rmult. set (q := (1 + / 2 ^ 52)%R) in *. assert (1 <= q)%R by (unfold q; pose proof (Rinv_0_lt_compat (2 ^ 52) ltac:(apply pow_lt; lra)); lra).
  apply Rle_trans with (mag (m + Z.of_nat k) * q)%R; [unfold q; lra|]. replace (mag m * (q * q ^ k))%R with ((mag m * q ^ k) * q)%R by ring. apply Rmult_le_compat_r; lra.
Qed.
Lemma ratio_mono : forall k n x, (0 <= x)%R -> (k <= n)%nat -> (x * (1 + / 2 ^ 52) ^ k <= x * (1 + / 2 ^ 52) ^ n)%R.
Proof. intros k n x H L. apply Rmult_le_compat_l; [exact H|]. apply Rle_pow; [|exact L]. pose proof (Rinv_0_lt_compat (2 ^ 52) ltac:(apply pow_lt; lra)). lra. Qed.
Lemma mag_close : forall a b, normal a -> normal b -> Z.abs (a - b) < 200 -> close 199 (mag a) (mag b).
Proof.
  assert (Q : forall a b, normal a -> normal b -> a <= b -> b - a < 200 -> close 199 (mag a) (mag b)).
  { intros a b A B L D. assert (0 < two52) by (unfold two52; lia). unfold normal in *. pose proof (mag_ratio (Z.to_nat (b - a)) a A) as K. rewrite Z2Nat.id in K by lia. replace (a + (b - a)) with b in K by lia.
    pose proof (mag_nonneg a ltac:(lia)) as Ga. pose proof (mag_nonneg b ltac:(lia)) as Gb. split.
    - apply Rle_trans with (mag b); [destruct (Z.eq_dec a b) as [->|]; [lra|left; apply mag_lt; lia]|]. rewrite <- (Rmult_1_r (mag b)) at 1. exact (ratio_mono 0 199 (mag b) Gb ltac:(lia)).
    - eapply Rle_trans; [exact K|]. apply ratio_mono; [exact Ga|lia]. }
  intros a b A B D. destruct (Z.le_ge_cases a b); [apply Q; lia || assumption|]. destruct (Q b a B A ltac:(lia) ltac:(lia)) as [X Y]. split; assumption.
Qed.

(** ** What the comparison decides *)
Lemma finite_mag : forall b, finite b -> 0 <= mag_bits b /\ mag_bits b < two63 /\ (b = mag_bits b \/ b = two63 + mag_bits b) /\ sign_bit b = (two63 <=? b).
Proof. intros b [H _]. unfold mag_bits, sign_bit. destruct (Z.ltb_spec b two63); (split; [lia|split; [lia|split; [lia|reflexivity]]]). Qed.
Lemma finite_bound : forall b, finite b -> mag_bits b < two63 - two52.
Proof. intros b [H F]. assert (T : 0 < two52) by (unfold two52; lia). pose proof (Z.div_mod (mag_bits b) two52 ltac:(lia)). pose proof (Z.mod_pos_bound (mag_bits b) two52 T). unfold two63, two52 in *. nia. Qed.
Definition lexed (b : Z) : Z := if sign_bit b then two63 + 2147483648 - mag_bits b else mag_bits b.
Lemma lex_value : forall b, finite b -> lex (as_int64 b) = if sign_bit b && (mag_bits b <=? 2147483648) then None else Some (lexed b).
Proof.
  intros b F. destruct (finite_mag b F) as (A & B & C & S). unfold lex, as_int64, lexed, in64. rewrite S in *. destruct C as [C|C].
  - destruct (Z.ltb_spec b two63); [|lia]. destruct (Z.leb_spec two63 b); [lia|]. cbn [andb]. destruct (Z.ltb_spec b 0); [lia|]. now rewrite <- C.
  - destruct (Z.ltb_spec b two63); [lia|]. destruct (Z.leb_spec two63 b); [|lia]. cbn [andb]. destruct (Z.ltb_spec (b - 2 * two63) 0); [|lia]. set (m := mag_bits b) in *.
    replace (2147483648 - (b - 2 * two63)) with (two63 + 2147483648 - m) by lia. destruct (Z.leb_spec m 2147483648); cbn [andb].
    + destruct (Z.ltb_spec (two63 + 2147483648 - m) two63); [lia|]. now rewrite andb_false_r.
    + destruct (Z.leb_spec (- two63) (two63 + 2147483648 - m)); [|unfold two63 in *; lia]. destruct (Z.ltb_spec (two63 + 2147483648 - m) two63); [|lia]. reflexivity.
Qed.
Lemma ulp_value : forall b c, finite b -> finite c -> fp_equiv_ulp b c = if (sign_bit b && (mag_bits b <=? 2147483648)) || (sign_bit c && (mag_bits c <=? 2147483648)) then None else Some (Z.abs (lexed b - lexed c) <? 200).
Proof.
  intros b c B C. unfold fp_equiv_ulp. rewrite (lex_value b B), (lex_value c C). destruct (sign_bit b && (mag_bits b <=? 2147483648)) eqn:Eb; [reflexivity|]. destruct (sign_bit c && (mag_bits c <=? 2147483648)) eqn:Ec; [reflexivity|]. cbn [orb].
  destruct (finite_mag b B) as (B1 & B2 & _). destruct (finite_mag c C) as (C1 & C2 & _).
  assert (Q : forall x, 0 <= mag_bits x -> mag_bits x < two63 -> sign_bit x && (mag_bits x <=? 2147483648) = false -> 0 <= lexed x < two63).
  { intros x X1 X2 E. unfold lexed. destruct (sign_bit x); [|lia]. cbn [andb] in E. apply Z.leb_gt in E. lia. }
  pose proof (Q b B1 B2 Eb). pose proof (Q c C1 C2 Ec). unfold in64. destruct (Z.leb_spec (- two63) (lexed b - lexed c)); [|lia]. destruct (Z.ltb_spec (lexed b - lexed c) two63); [|lia]. cbn [andb].
  destruct (Z.leb_spec (- two63) (Z.abs (lexed b - lexed c))); [|lia]. destruct (Z.ltb_spec (Z.abs (lexed b - lexed c)) two63); [|lia]. reflexivity.
Qed.

(** C76: two numbers of the same sign compare equal exactly when fewer than 200 steps of the format separate them; for
    negative numbers the magnitude must exceed 2^31 steps (about 1e-314). *)
Theorem C76_ulp : forall b c, finite b -> finite c -> sign_bit b = sign_bit c -> (sign_bit b = true -> 2147483648 < mag_bits b /\ 2147483648 < mag_bits c) ->
  fp_equiv_ulp b c = Some true /\ Z.abs (mag_bits b - mag_bits c) < 200 \/ fp_equiv_ulp b c = Some false /\ 200 <= Z.abs (mag_bits b - mag_bits c).
Proof.
  intros b c B C S G. rewrite (ulp_value b c B C). unfold lexed. rewrite <- S. destruct (sign_bit b); cbn [andb orb].
  - destruct (G eq_refl) as [G1 G2]. rewrite (proj2 (Z.leb_gt _ _) G1), (proj2 (Z.leb_gt _ _) G2). cbn [orb]. destruct (Z.ltb_spec (Z.abs (two63 + 2147483648 - mag_bits b - (two63 + 2147483648 - mag_bits c))) 200); [left|right]; (split; [reflexivity|lia]).
  - destruct (Z.ltb_spec (Z.abs (mag_bits b - mag_bits c)) 200); [left|right]; (split; [reflexivity|lia]).
Qed.
Print Assumptions C76_ulp.
(** C76: numbers of the same sign that compare equal agree in relative terms to 199 units in the last place, and numbers
    that are ordered have ordered patterns (so the steps counted above are exactly the numbers in between). *)
Theorem C76_relative : forall b c, finite b -> finite c -> sign_bit b = sign_bit c -> normal (mag_bits b) -> normal (mag_bits c) ->
  fp_equiv_ulp b c = Some true -> close 199 (Rabs (value b)) (Rabs (value c)).
Proof.
  intros b c B C S Nb Nc E. assert (T : 2147483648 < two52) by (unfold two52; lia). unfold normal in *. destruct (C76_ulp b c B C S ltac:(intros; split; lia)) as [[_ D]|[F _]]; [|congruence].
  assert (Q : forall x, finite x -> Rabs (value x) = mag (mag_bits x)). { intros x F. destruct (finite_mag x F) as (A & _). pose proof (mag_nonneg _ A). unfold value. destruct (sign_bit x); [rewrite Rabs_Ropp|]; apply Rabs_right; lra. }
  rewrite (Q b B), (Q c C). apply mag_close; assumption.
Qed.
Print Assumptions C76_relative.
Theorem C76_order : forall b c, finite b -> finite c -> sign_bit b = false -> sign_bit c = false -> ((value b < value c)%R <-> b < c).
Proof.
  intros b c B C Sb Sc. destruct (finite_mag b B) as (A1 & A2 & A3 & A4). destruct (finite_mag c C) as (D1 & D2 & D3 & D4). unfold value. rewrite Sb, Sc. rewrite mag_lt by assumption.
  rewrite Sb in A4. rewrite Sc in D4. symmetry in A4, D4. apply Z.leb_gt in A4, D4. lia.
Qed.
Print Assumptions C76_order.
(** C76: what a positive answer of the combined comparison means, for all finite numbers. *)
Theorem C76_equiv_sound : forall b c, finite b -> finite c -> normal (mag_bits b) -> normal (mag_bits c) -> equiv b c = Some true ->
  (Rabs (value b - value c) < REAL_FUZZ)%R \/ sign_bit b = sign_bit c /\ close 199 (Rabs (value b)) (Rabs (value c)).
Proof.
  intros b c B C Nb Nc E. unfold equiv, equiv_abs in E. destruct (Rltb_spec (Rabs (value b - value c)) REAL_FUZZ) as [L|L]; [left; exact L|]. right.
  assert (Q : forall x, finite x -> normal (mag_bits x) -> Rltb (value x) 0 = sign_bit x).
  { intros x F N. destruct (finite_mag x F) as (A & _). assert (P : (0 < mag (mag_bits x))%R). { unfold normal in N. assert (Z0 : mag 0 = 0%R) by (unfold mag; cbn -[powerRZ]; lra). rewrite <- Z0. apply mag_lt; unfold two52 in N; lia. }
    unfold value. destruct (sign_bit x); [rewrite Rltb_true by lra|rewrite Rltb_false by lra]; reflexivity. }
  rewrite (Q b B Nb), (Q c C Nc) in E. destruct (sign_bit b) eqn:Sb, (sign_bit c) eqn:Sc; cbn [eqb negb] in E; try discriminate; (split; [reflexivity|]); apply C76_relative; auto; congruence.
Qed.
Print Assumptions C76_equiv_sound.
(** C76: it is reflexive and symmetric. *)
Theorem C76_equiv_reflexive : forall b, equiv b b = Some true.
Proof. intros b. unfold equiv, equiv_abs. rewrite Rminus_diag_eq, Rabs_R0 by reflexivity. rewrite Rltb_true; [reflexivity|]. unfold REAL_FUZZ. apply Rdiv_lt_0_compat; [lra|apply pow_lt; lra]. Qed.
Print Assumptions C76_equiv_reflexive.
Theorem C76_equiv_symmetric : forall b c, finite b -> finite c -> equiv b c = equiv c b.
Proof.
  intros b c B C. unfold equiv, equiv_abs. rewrite (Rabs_minus_sym (value c)). rewrite (ulp_value b c B C), (ulp_value c b C B). rewrite orb_comm. replace (Z.abs (lexed c - lexed b)) with (Z.abs (lexed b - lexed c)) by lia.
  destruct (Rltb (value b) 0), (Rltb (value c) 0); reflexivity.
Qed.
Print Assumptions C76_equiv_symmetric.

(** Refuted: "equal" numbers of opposite sign, undefined results for negative zero, and a comparison that is not transitive. *)
Definition bits_2 : Z := 4611686018427387904.
Definition bits_1 : Z := 4607182418800017408.
Lemma value_2 : value bits_2 = 2%R.
Proof. unfold value. change (sign_bit bits_2) with false. change (mag_bits bits_2) with bits_2. unfold mag. change (bits_2 / two52) with 1024. change (bits_2 mod two52) with 0. cbn [Z.eqb]. change (1024 =? 0) with false. cbv iota. change (two52 + 0) with two52. change (1024 - 1075) with (-51). rewrite IZR_two52. unfold powerRZ. change (Pos.to_nat 51) with 51%nat. field. Qed.
Theorem C76_refuted :
  (exists b c, finite b /\ finite c /\ (value b < 0)%R /\ (2 <= value c)%R /\ fp_equiv_ulp b c = Some true) /\
  (forall c, finite c -> fp_equiv_ulp two63 c = None) /\
  (exists a b c, finite a /\ finite b /\ finite c /\ fp_equiv_ulp a b = Some true /\ fp_equiv_ulp b c = Some true /\ fp_equiv_ulp a c = Some false).
Proof.
  split; [|split].
  - exists (two63 + bits_2), (bits_2 + 2147483648). assert (F1 : finite (two63 + bits_2)) by (split; [unfold two63, bits_2; lia|reflexivity]). assert (F2 : finite (bits_2 + 2147483648)) by (split; [unfold two63, bits_2; lia|reflexivity]).
    split; [exact F1|]. split; [exact F2|]. split; [|split; [|reflexivity]].
    + unfold value. change (sign_bit (two63 + bits_2)) with true. change (mag_bits (two63 + bits_2)) with bits_2. pose proof value_2 as V. unfold value in V. change (sign_bit bits_2) with false in V. change (mag_bits bits_2) with bits_2 in V. rewrite V. lra.
    + rewrite <- value_2. left. apply C76_order; [split; [unfold two63, bits_2; lia|reflexivity]|exact F2|reflexivity|reflexivity|unfold bits_2; lia].
  - intros c F. unfold fp_equiv_ulp. change (lex (as_int64 two63)) with (@None Z). reflexivity.
  - exists bits_1, (bits_1 + 150), (bits_1 + 300). unfold finite. change (mag_bits bits_1 / two52) with 1023. change (mag_bits (bits_1 + 150) / two52) with 1023. change (mag_bits (bits_1 + 300) / two52) with 1023. assert (B : 0 <= bits_1 /\ bits_1 + 300 < 2 * two63) by (split; [discriminate|reflexivity]). split; [lia|]. split; [lia|]. split; [lia|]. split; [reflexivity|]. split; reflexivity.
Qed.
Print Assumptions C76_refuted.
Example C76_instance : finite bits_2 /\ normal (mag_bits bits_2) /\ finite (bits_2 + 7) /\ fp_equiv_ulp bits_2 (bits_2 + 7) = Some true /\ fp_equiv_ulp bits_2 (bits_2 + 200) = Some false /\ value bits_2 = 2%R.
Proof. split; [split; [unfold two63, bits_2; lia|reflexivity]|]. split; [unfold normal; vm_compute; discriminate|]. split; [split; [unfold two63, bits_2; lia|reflexivity]|]. split; [reflexivity|]. split; [reflexivity|exact value_2]. Qed.
