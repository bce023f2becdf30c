From Coq Require Import ZArith Lia Znumtheory Zdiv Bool List Morphisms.
From Coq Require Import ZifyBool.
From Verif Require Import RngModel StdAlg StdAlgProofs RngSpec.
Open Scope Z_scope.

Definition M63 : Z := 2^63.

Lemma mask_eq : rng_mask = Z.ones 63.
Proof. reflexivity. Qed.

Lemma land_mask x : Z.land x rng_mask = x mod M63.
Proof. rewrite mask_eq. apply Z.land_ones. lia. Qed.

Lemma w64_mod63 x : w64 x mod M63 = x mod M63.
Proof.
  unfold w64, M63. symmetry. apply Zmod_div_mod; try lia.
  exists 2. reflexivity.
Qed.

(* congruence modulo 2^63, kept abstract for setoid rewriting *)
Definition eqm63 (a b : Z) : Prop := (M63 | b - a).

Lemma eqm63_iff a b : eqm63 a b <-> a mod M63 = b mod M63.
Proof.
  unfold eqm63. split.
  - intros [c Hc]. replace b with (a + c * M63) by lia. symmetry. apply Z_mod_plus_full.
  - intros E. exists (b / M63 - a / M63).
    pose proof (Z.div_mod a M63). pose proof (Z.div_mod b M63). unfold M63 in *. nia.
Qed.

Global Instance eqm63_equiv : Equivalence eqm63.
Proof.
  split.
  - intros x. apply eqm63_iff. reflexivity.
  - intros x y H. apply eqm63_iff. apply eqm63_iff in H. congruence.
  - intros x y z H1 H2. apply eqm63_iff. apply eqm63_iff in H1, H2. congruence.
Qed.

Global Instance eqm63_add : Proper (eqm63 ==> eqm63 ==> eqm63) Z.add.
Proof. intros a b [c H] a' b' [c' H']. exists (c + c'). lia. Qed.

Global Instance eqm63_mul : Proper (eqm63 ==> eqm63 ==> eqm63) Z.mul.
Proof. intros a b [c H] a' b' [c' H']. exists (c * b' + a * c'). nia. Qed.

Lemma eqm_mod x : eqm63 (x mod M63) x.
Proof. apply eqm63_iff. apply Zmod_mod. Qed.

Lemma eqm_w64 x : eqm63 (w64 x) x.
Proof. apply eqm63_iff. apply w64_mod63. Qed.

Lemma eqm_masked x : eqm63 (Z.land (w64 x) rng_mask) x.
Proof. rewrite land_mask. rewrite eqm_mod. apply eqm_w64. Qed.

Lemma step_eq s : rng_step s = (s * rng_m + 1) mod M63.
Proof.
  unfold rng_step. rewrite land_mask. unfold rng_b.
  rewrite w64_mod63. rewrite <- Zplus_mod_idemp_l, w64_mod63, Zplus_mod_idemp_l. reflexivity.
Qed.

Lemma step_range s : 0 <= rng_step s < M63.
Proof. rewrite step_eq. apply Z.mod_pos_bound. reflexivity. Qed.

(* sum of powers 1 + g + ... + g^(n-1) *)
Fixpoint geo (g : Z) (n : nat) : Z := match n with O => 0 | S k => 1 + g * geo g k end.

Lemma geo_0 g : geo g 0 = 0. Proof. reflexivity. Qed.
Lemma geo_S g n : geo g (S n) = 1 + g * geo g n. Proof. reflexivity. Qed.

Lemma geo_S_r g n : geo g (S n) = geo g n + g ^ Z.of_nat n.
Proof.
  induction n as [|n IH]; [cbn [geo]; change (g ^ Z.of_nat 0) with 1; ring|].
  change (geo g (S (S n))) with (1 + g * geo g (S n)). rewrite IH at 1.
  change (geo g (S n)) with (1 + g * geo g n).
  rewrite Nat2Z.inj_succ, Z.pow_succ_r by lia. ring.
Qed.

Lemma geo_add g a b : geo g (a + b) = geo g a + g ^ Z.of_nat a * geo g b.
Proof.
  induction a as [|a IH]; [cbn [geo plus]; change (g ^ Z.of_nat 0) with 1; ring|].
  change (geo g (S a + b)) with (1 + g * geo g (a + b)). rewrite IH.
  change (geo g (S a)) with (1 + g * geo g a).
  rewrite Nat2Z.inj_succ, Z.pow_succ_r by lia. ring.
Qed.

Lemma geo_double g n : geo g (2 * n) = (1 + g) * geo (g * g) n.
Proof.
  induction n as [|n IH]; [simpl; lia|].
  replace (2 * S n)%nat with (S (S (2 * n))) by lia.
  change (geo g (S (S (2*n)))) with (1 + g * (1 + g * geo g (2*n))). rewrite IH.
  change (geo (g*g) (S n)) with (1 + g * g * geo (g*g) n). ring.
Qed.

Lemma pow_double g n : g ^ Z.of_nat (2 * n) = (g * g) ^ Z.of_nat n.
Proof.
  replace (Z.of_nat (2*n)) with (Z.of_nat n + Z.of_nat n) by lia.
  rewrite Z.pow_add_r by lia. rewrite <- Z.pow_mul_l. reflexivity.
Qed.

Lemma eqm_pow a b n : eqm63 a b -> eqm63 (a ^ Z.of_nat n) (b ^ Z.of_nat n).
Proof.
  intros H. induction n as [|n IH]; [reflexivity|].
  rewrite Nat2Z.inj_succ, !Z.pow_succ_r by lia. rewrite IH, H. reflexivity.
Qed.

Lemma eqm_geo a b n : eqm63 a b -> eqm63 (geo a n) (geo b n).
Proof.
  intros H. induction n as [|n IH]; [reflexivity|]. rewrite ?geo_S, ?geo_0. rewrite IH, H. reflexivity.
Qed.

(* n draws as an affine map *)
Lemma draws_affine n s : eqm63 (draws n s) (rng_m ^ Z.of_nat n * s + geo rng_m n).
Proof.
  unfold draws, iter_n. induction n as [|n IH].
  - simpl Nat.iter. rewrite ?geo_S, ?geo_0. change (rng_m ^ Z.of_nat 0) with 1.
    replace (1 * s + 0) with s by lia. reflexivity.
  - change (Nat.iter (S n) rng_step s) with (rng_step (Nat.iter n rng_step s)).
    rewrite step_eq, eqm_mod, IH. change (geo rng_m (S n)) with (1 + rng_m * geo rng_m n).
    rewrite Nat2Z.inj_succ, Z.pow_succ_r by lia.
    replace ((rng_m ^ Z.of_nat n * s + geo rng_m n) * rng_m + 1) with
      (rng_m * rng_m ^ Z.of_nat n * s + (1 + rng_m * geo rng_m n)) by ring.
    reflexivity.
Qed.

Lemma draws_range n s : (0 < n)%nat -> 0 <= draws n s < M63.
Proof. destruct n; [lia|]. intros _. apply step_range. Qed.

Lemma draws_closed n s : (0 < n)%nat ->
  draws n s = (rng_m ^ Z.of_nat n * s + geo rng_m n) mod M63.
Proof.
  intros Hn. pose proof (draws_range n s Hn). pose proof (draws_affine n s) as E.
  apply eqm63_iff in E. rewrite Z.mod_small in E by lia. exact E.
Qed.

(* the loop of jump_ahead *)
Lemma jump_loop_spec fuel : forall (n : nat) g b gn bn,
  Z.of_nat n < 2 ^ Z.of_nat fuel ->
  exists gn' bn', jump_loop fuel (Z.of_nat n) g b gn bn = Some (gn', bn') /\
    eqm63 gn' (gn * g ^ Z.of_nat n) /\ eqm63 bn' (bn * g ^ Z.of_nat n + b * geo g n).
Proof.
  induction fuel as [|fuel IH]; intros n g b gn bn Hn.
  - assert (n = 0)%nat by (simpl in Hn; lia). subst n. simpl jump_loop.
    exists gn, bn. split; [reflexivity|]. change (Z.of_nat 0) with 0. rewrite Z.pow_0_r. rewrite ?geo_S, ?geo_0.
    split; [replace (gn*1) with gn by lia | replace (bn*1+b*0) with bn by lia]; reflexivity.
  - destruct n as [|n0].
    { exists gn, bn. split; [reflexivity|]. change (Z.of_nat 0) with 0. rewrite Z.pow_0_r. rewrite ?geo_S, ?geo_0.
      split; [replace (gn*1) with gn by lia | replace (bn*1+b*0) with bn by lia]; reflexivity. }
    set (n := S n0) in *.
    assert (Hpos : (Z.of_nat n >? 0) = true) by (unfold n; lia).
    cbn [jump_loop]. rewrite Hpos.
    set (h := Nat.div2 n). set (t := Nat.b2n (Nat.odd n)).
    assert (Hnt : n = (2 * h + t)%nat) by (unfold h, t; apply Nat.div2_odd).
    assert (Hsh : Z.shiftr (Z.of_nat n) 1 = Z.of_nat h).
    { rewrite Z.shiftr_div_pow2 by lia. change (2^1) with 2. unfold t in Hnt.
      destruct (Nat.odd n); simpl Nat.b2n in Hnt; rewrite Hnt;
        symmetry; [apply Z.div_unique with 1 | apply Z.div_unique with 0]; lia. }
    assert (Hodd : Z.odd (Z.of_nat n) = Nat.odd n).
    { unfold t in Hnt. destruct (Nat.odd n) eqn:En; simpl Nat.b2n in Hnt.
      - rewrite Hnt. replace (Z.of_nat (2*h+1)) with (2 * Z.of_nat h + 1) by lia.
        apply Z.odd_spec. exists (Z.of_nat h). lia.
      - rewrite <- Z.negb_even. replace (Z.of_nat n) with (2 * Z.of_nat h) by lia.
        rewrite Z.even_mul. reflexivity. }
    rewrite Hsh, Hodd.
    match goal with |- context[jump_loop fuel (Z.of_nat h) ?g' ?b' ?gn1 ?bn1] =>
      specialize (IH h g' b' gn1 bn1) end.
    destruct IH as (gn' & bn' & Hrun & Hg & Hb).
    { rewrite Nat2Z.inj_succ, Z.pow_succ_r in Hn by lia. lia. }
    exists gn', bn'. split; [exact Hrun|].
    assert (Eg2 : eqm63 (Z.land (w64 (g * g)) rng_mask) (g*g)) by apply eqm_masked.
    assert (Eb2 : eqm63 (Z.land (w64 (w64 (g + 1) * b)) rng_mask) ((g+1)*b)).
    { rewrite eqm_masked, eqm_w64. reflexivity. }
    assert (Eg1 : eqm63 (if Nat.odd n then Z.land (w64 (gn * g)) rng_mask else gn)
                        (gn * g ^ Z.of_nat t)).
    { unfold t. destruct (Nat.odd n); simpl Nat.b2n.
      - rewrite eqm_masked. change (Z.of_nat 1) with 1. rewrite Z.pow_1_r. reflexivity.
      - change (Z.of_nat 0) with 0. rewrite Z.pow_0_r, Z.mul_1_r. reflexivity. }
    assert (Eb1 : eqm63 (if Nat.odd n then Z.land (w64 (w64 (bn * g) + b)) rng_mask else bn)
                        (bn * g ^ Z.of_nat t + b * geo g t)).
    { unfold t. destruct (Nat.odd n); simpl Nat.b2n.
      - rewrite eqm_masked, eqm_w64. change (Z.of_nat 1) with 1. rewrite Z.pow_1_r. rewrite ?geo_S, ?geo_0.
        replace (b * (1 + g * 0)) with b by ring. reflexivity.
      - change (Z.of_nat 0) with 0. rewrite Z.pow_0_r. rewrite ?geo_S, ?geo_0.
        replace (bn * 1 + b * 0) with bn by ring. reflexivity. }
    assert (Hpw : g ^ Z.of_nat n = g ^ Z.of_nat t * (g * g) ^ Z.of_nat h).
    { rewrite <- pow_double. rewrite Hnt at 1. rewrite Nat2Z.inj_add, Z.pow_add_r by lia. ring. }
    assert (Hgeo : geo g n = (g*g) ^ Z.of_nat h * geo g t + (g + 1) * geo (g*g) h).
    { rewrite Hnt. rewrite geo_add, geo_double, pow_double. ring. }
    split.
    + rewrite Hg, Eg1, (eqm_pow _ _ h Eg2), Hpw.
      rewrite <- Z.mul_assoc. reflexivity.
    + rewrite Hb, Eb1, Eb2, (eqm_pow _ _ h Eg2), (eqm_geo _ _ h Eg2), Hpw, Hgeo.
      match goal with |- eqm63 ?x ?y => replace x with y by ring end. reflexivity.
Qed.

Lemma jump_eq n s : is_u64 n ->
  rng_jump n s = Some ((rng_m ^ n * s + geo rng_m (Z.to_nat n)) mod M63).
Proof.
  intros Hn. unfold is_u64 in Hn.
  destruct (jump_loop_spec 65 (Z.to_nat n) rng_m rng_b 1 0) as (gn & bn & Hrun & Hg & Hb).
  { rewrite Z2Nat.id by lia. change (2 ^ Z.of_nat 65) with (2 * 2^64). lia. }
  unfold rng_jump. rewrite Z2Nat.id in * by lia. rewrite Hrun. f_equal.
  rewrite land_mask. rewrite w64_mod63.
  assert (E : eqm63 (w64 (gn * s) + bn) (rng_m ^ n * s + geo rng_m (Z.to_nat n))).
  { rewrite eqm_w64, Hg, Hb. unfold rng_b.
    match goal with |- eqm63 ?x ?y => replace x with y by ring end. reflexivity. }
  apply eqm63_iff. exact E.
Qed.

Lemma jump_draws n s : is_u64 n -> 0 < n \/ 0 <= s < 2^63 ->
  rng_jump n s = Some (draws (Z.to_nat n) s).
Proof.
  intros Hn Hs. rewrite jump_eq by exact Hn. f_equal.
  destruct (Z.eq_dec n 0) as [->|Hne].
  - destruct Hs as [|Hs]; [lia|]. change (Z.to_nat 0) with 0%nat. unfold draws, iter_n. simpl Nat.iter.
    rewrite Z.pow_0_r, geo_0. rewrite Z.mod_small by (unfold M63; lia). lia.
  - unfold is_u64 in Hn. rewrite draws_closed by lia. rewrite Z2Nat.id by lia. reflexivity.
Qed.

Lemma draws_add a b s : draws (a + b) s = draws b (draws a s).
Proof.
  unfold draws, iter_n. rewrite Nat.add_comm. induction b as [|b IH]; [reflexivity|].
  simpl. rewrite IH. reflexivity.
Qed.

(* ------------------------------------------------------------------ period *)
Lemma odd_pow a n : Z.odd a = true -> Z.odd (a ^ Z.of_nat n) = true.
Proof.
  intros H. induction n as [|n IH]; [reflexivity|].
  rewrite Nat2Z.inj_succ, Z.pow_succ_r by lia. rewrite Z.odd_mul, H, IH. reflexivity.
Qed.

Lemma m_mod4 : rng_m mod 4 = 1. Proof. reflexivity. Qed.

Lemma pow_m_mod4 n : (rng_m ^ Z.of_nat n) mod 4 = 1.
Proof.
  induction n as [|n IH]; [reflexivity|].
  rewrite Nat2Z.inj_succ, Z.pow_succ_r by lia.
  rewrite Z.mul_mod, IH, m_mod4 by lia. reflexivity.
Qed.

Lemma geo_m_odd n : Z.odd (geo rng_m (2 * n + 1)) = true.
Proof.
  rewrite geo_add, geo_double. rewrite ?geo_S, ?geo_0.
  rewrite Z.odd_add, !Z.odd_mul. rewrite odd_pow by reflexivity. reflexivity.
Qed.

(* 2^k divides 1 + m + ... + m^(n-1) exactly when it divides n *)
Lemma pow2_coprime_odd k x : Z.odd x = true -> rel_prime (2 ^ Z.of_nat k) x.
Proof.
  intros H. apply rel_prime_sym.
  induction k as [|k IH].
  - apply rel_prime_sym. apply rel_prime_1.
  - rewrite Nat2Z.inj_succ, Z.pow_succ_r by lia. apply rel_prime_mult; [|exact IH].
    apply rel_prime_sym. apply prime_rel_prime; [apply prime_2|].
    intros [q Hq]. rewrite Hq, Z.odd_mul, andb_comm in H. discriminate H.
Qed.

Lemma divide_odd_cancel k x y : Z.odd x = true ->
  (2 ^ Z.of_nat k | x * y) <-> (2 ^ Z.of_nat k | y).
Proof.
  intros H. split.
  - intros D. apply Gauss with x; [exact D|]. apply pow2_coprime_odd. exact H.
  - intros D. apply Z.divide_mul_r. exact D.
Qed.

Lemma geo_val k : forall n, (2 ^ Z.of_nat k | geo rng_m n) <-> (2 ^ Z.of_nat k | Z.of_nat n).
Proof.
  induction k as [|k IH]; intros n.
  - split; intros _; apply Z.divide_1_l.
  - destruct (Nat.Even_or_Odd n) as [[h Hh]|[h Hh]].
    + subst n. rewrite geo_double.
      assert (Hq : exists q, 1 + rng_m = 2 * q /\ Z.odd q = true).
      { exists ((1 + rng_m)/2). split; reflexivity. }
      destruct Hq as (q & Hq & Hqo). clear Hq Hqo q.
      (* geo m (2h) = geo m h * (1 + m^h) *)
      assert (E : (1 + rng_m) * geo (rng_m * rng_m) h = geo rng_m h * (1 + rng_m ^ Z.of_nat h)).
      { rewrite <- geo_double. replace (2*h)%nat with (h+h)%nat by lia. rewrite geo_add. ring. }
      rewrite E.
      pose proof (pow_m_mod4 h) as H4.
      set (p := rng_m ^ Z.of_nat h) in *.
      assert (Hp : exists q, 1 + p = 2 * q /\ Z.odd q = true).
      { exists (2 * (p / 4) + 1). split.
        - pose proof (Z.div_mod p 4). lia.
        - apply Z.odd_spec. exists (p/4). lia. }
      destruct Hp as (q & Hq & Hqo). rewrite Hq.
      rewrite Nat2Z.inj_succ, Z.pow_succ_r by lia.
      replace (geo rng_m h * (2 * q)) with (2 * (q * geo rng_m h)) by ring.
      replace (Z.of_nat (2*h)) with (2 * Z.of_nat h) by lia.
      split; intros D.
      * apply Z.mul_divide_cancel_l in D; [|lia]. apply Z.mul_divide_mono_l.
        apply IH. apply divide_odd_cancel in D; assumption.
      * apply Z.mul_divide_cancel_l in D; [|lia]. apply Z.mul_divide_mono_l.
        apply divide_odd_cancel; [assumption|]. apply IH. exact D.
    + subst n. split; intros D.
      * exfalso. pose proof (geo_m_odd h) as Ho.
        destruct D as [c Hc]. rewrite Hc in Ho.
        rewrite Nat2Z.inj_succ, Z.pow_succ_r, !Z.odd_mul in Ho by lia.
        rewrite andb_comm in Ho. discriminate Ho.
      * exfalso. destruct D as [c Hc]. rewrite Nat2Z.inj_succ, Z.pow_succ_r in Hc by lia. lia.
Qed.

Lemma m1_split : exists c, rng_m - 1 = 4 * c.
Proof. exists ((rng_m - 1)/4). reflexivity. Qed.

Lemma geo_pow n : rng_m ^ Z.of_nat n = (rng_m - 1) * geo rng_m n + 1.
Proof.
  induction n as [|n IH]; [reflexivity|].
  rewrite Nat2Z.inj_succ, Z.pow_succ_r by lia. rewrite IH. rewrite ?geo_S, ?geo_0. ring.
Qed.

(* difference of two positions of the stream *)
Lemma affine_diff a d s :
  (rng_m ^ Z.of_nat (a + d) * s + geo rng_m (a + d)) - (rng_m ^ Z.of_nat a * s + geo rng_m a)
  = (rng_m ^ Z.of_nat a * ((rng_m - 1) * s + 1)) * geo rng_m d.
Proof.
  rewrite geo_add. rewrite Nat2Z.inj_add, Z.pow_add_r by lia. rewrite (geo_pow d). ring.
Qed.

Lemma odd_factor a s : Z.odd (rng_m ^ Z.of_nat a * ((rng_m - 1) * s + 1)) = true.
Proof.
  rewrite Z.odd_mul, odd_pow by reflexivity. rewrite Z.odd_add, Z.odd_mul. reflexivity.
Qed.

Lemma eq_mod_divide m a b : 0 < m -> (a mod m = b mod m <-> (m | b - a)).
Proof.
  intros Hm. split.
  - intros E. exists (b / m - a / m).
    pose proof (Z.div_mod a m). pose proof (Z.div_mod b m). nia.
  - intros [c Hc]. replace b with (a + c * m) by lia. symmetry. apply Z_mod_plus_full.
Qed.

Lemma M63_pow : M63 = 2 ^ Z.of_nat 63. Proof. reflexivity. Qed.

Lemma draws_eq_iff a d s : (0 < a)%nat ->
  (draws (a + d) s = draws a s <-> (2^63 | Z.of_nat d)).
Proof.
  intros Ha. rewrite !draws_closed by lia. rewrite eq_mod_divide by reflexivity.
  match goal with |- (_ | ?x - ?y) <-> _ => replace (x - y) with (- (y - x)) by ring end.
  rewrite affine_diff. rewrite Z.divide_opp_r. rewrite M63_pow.
  rewrite (divide_odd_cancel 63 _ _ (odd_factor a s)). rewrite geo_val. reflexivity.
Qed.

Lemma draws_eq_iff0 d s : 0 <= s < 2^63 -> (draws d s = s <-> (2^63 | Z.of_nat d)).
Proof.
  intros Hs. destruct d as [|d'].
  - split; intros _; [apply Z.divide_0_r | reflexivity].
  - rewrite draws_closed by lia.
    rewrite <- (Z.mod_small s M63) at 2 by (unfold M63; lia).
    rewrite eq_mod_divide by reflexivity.
    assert (E : s - (rng_m ^ Z.of_nat (S d') * s + geo rng_m (S d')) =
                - (((rng_m ^ Z.of_nat 0) * ((rng_m - 1) * s + 1)) * geo rng_m (S d'))).
    { rewrite (geo_pow (S d')). change (rng_m ^ Z.of_nat 0) with 1. ring. }
    rewrite E, Z.divide_opp_r, M63_pow.
    rewrite (divide_odd_cancel 63 _ _ (odd_factor 0 s)). apply geo_val.
Qed.

(* every value is visited *)
Lemma reach k s y : exists n : nat, Z.of_nat n < 2 ^ Z.of_nat k /\
  (2 ^ Z.of_nat k | y - (rng_m ^ Z.of_nat n * s + geo rng_m n)).
Proof.
  induction k as [|k (n & Hn & [c Hc])].
  - exists 0%nat. split; [simpl; lia|apply Z.divide_1_l].
  - destruct (Z.Even_or_Odd c) as [[h Hh]|[h Hh]].
    + exists n. split; [rewrite Nat2Z.inj_succ, Z.pow_succ_r by lia; lia|].
      rewrite Hc. rewrite Nat2Z.inj_succ, Z.pow_succ_r by lia. exists h. rewrite Hh. ring.
    + exists (n + Z.to_nat (2 ^ Z.of_nat k))%nat.
      assert (H2 : 0 < 2 ^ Z.of_nat k) by (apply Z.pow_pos_nonneg; lia).
      split.
      * rewrite Nat2Z.inj_succ, Z.pow_succ_r by lia. lia.
      * set (d := Z.to_nat (2 ^ Z.of_nat k)).
        pose proof (affine_diff n d s) as E. pose proof (odd_factor n s) as Ho.
        set (f := rng_m ^ Z.of_nat n * ((rng_m - 1) * s + 1)) in *.
        (* geo m d = 2^k * odd *)
        assert (Dk : (2 ^ Z.of_nat k | geo rng_m d)).
        { apply geo_val. unfold d. rewrite Z2Nat.id by lia. apply Z.divide_refl. }
        assert (NDk : ~ (2 ^ Z.of_nat (S k) | geo rng_m d)).
        { rewrite geo_val. unfold d. rewrite Z2Nat.id by lia.
          rewrite Nat2Z.inj_succ, Z.pow_succ_r by lia. intros [q Hq].
          assert (1 = q * 2) by (apply (Z.mul_reg_r _ _ (2 ^ Z.of_nat k)); lia). lia. }
        destruct Dk as [o Hod].
        assert (Hoo : Z.odd o = true).
        { destruct (Z.odd o) eqn:Eo; [reflexivity|]. exfalso. apply NDk.
          rewrite <- Z.negb_even in Eo. apply negb_false_iff in Eo. apply Z.even_spec in Eo.
          destruct Eo as [h' Hh']. exists h'. rewrite Hod, Hh'.
          rewrite Nat2Z.inj_succ, Z.pow_succ_r by lia. ring. }
        match goal with |- (_ | y - ?x) => set (X := x) in * end.
        assert (EX : y - X = (c - f * o) * 2 ^ Z.of_nat k).
        { rewrite Z.mul_sub_distr_r. rewrite <- Hc. rewrite <- Z.mul_assoc, <- Hod, <- E. ring. }
        rewrite EX, Nat2Z.inj_succ, Z.pow_succ_r by lia.
        apply Z.mul_divide_mono_r.
        assert (Ev : Z.even (c - f * o) = true).
        { rewrite Z.even_sub. rewrite <- !Z.negb_odd. rewrite Z.odd_mul, Ho, Hoo. rewrite Hh.
          replace (Z.odd (2*h+1)) with true; [reflexivity|]. symmetry. apply Z.odd_spec.
          exists h. lia. }
        apply Z.even_spec in Ev. destruct Ev as [e He]. exists e. lia.
Qed.

Lemma draws_surj s y : 0 <= s < 2^63 -> 0 <= y < 2^63 ->
  exists n : nat, Z.of_nat n < 2^63 /\ draws n s = y.
Proof.
  intros Hs Hy. destruct (reach 63 s y) as (n & Hn & Hd). exists n. split; [exact Hn|].
  apply eq_mod_divide in Hd; [|reflexivity].
  destruct n as [|n'].
  - change (rng_m ^ Z.of_nat 0) with 1 in Hd. rewrite ?geo_S, ?geo_0 in Hd.
    replace (1 * s + 0) with s in Hd by lia.
    rewrite !Z.mod_small in Hd by (change (2 ^ Z.of_nat 63) with (2^63); lia).
    unfold draws, iter_n. simpl Nat.iter. lia.
  - rewrite draws_closed by lia. rewrite M63_pow, Hd.
    apply Z.mod_small. exact Hy.
Qed.

Lemma step_inj s1 s2 : 0 <= s1 < 2^63 -> 0 <= s2 < 2^63 -> rng_step s1 = rng_step s2 -> s1 = s2.
Proof.
  intros H1 H2 E. rewrite !step_eq in E. apply eq_mod_divide in E; [|reflexivity].
  replace (s2 * rng_m + 1 - (s1 * rng_m + 1)) with (rng_m * (s2 - s1)) in E by ring.
  rewrite M63_pow in E. apply divide_odd_cancel in E; [|reflexivity].
  destruct E as [c Hc]. change (2 ^ Z.of_nat 63) with (2^63) in Hc. nia.
Qed.

Lemma draws_S n s : draws (S n) s = rng_step (draws n s).
Proof. reflexivity. Qed.

(* jump_ahead is indistinguishable from n draws by any further draw, for every stored seed *)
Lemma jump_next n s k : is_u64 n -> is_u64 s ->
  exists s', rng_jump n s = Some s' /\ draws (S k) s' = draws (S k) (draws (Z.to_nat n) s).
Proof.
  intros Hn Hs. rewrite jump_eq by exact Hn. eexists. split; [reflexivity|].
  rewrite <- draws_add, !draws_closed by lia.
  apply eqm63_iff. rewrite eqm_mod. rewrite (Nat2Z.inj_add (Z.to_nat n)), Z.pow_add_r by lia.
  rewrite geo_add. unfold is_u64 in Hn. rewrite Z2Nat.id by lia.
  pose proof (geo_pow (Z.to_nat n)) as Pa. rewrite Z2Nat.id in Pa by lia.
  rewrite Pa, (geo_pow (S k)).
  match goal with |- eqm63 ?x ?y => replace x with y by ring end. reflexivity.
Qed.

Lemma jump_add a b s : is_u64 a -> is_u64 b -> is_u64 (a + b) ->
  exists s1, rng_jump a s = Some s1 /\ rng_jump b s1 = rng_jump (a + b) s.
Proof.
  intros Ha Hb Hab. rewrite (jump_eq a), (jump_eq (a+b)) by assumption.
  eexists. split; [reflexivity|]. rewrite jump_eq by assumption. f_equal.
  unfold is_u64 in *. apply eqm63_iff. rewrite eqm_mod.
  rewrite Z2Nat.inj_add by lia. rewrite geo_add. rewrite Z.pow_add_r by lia. rewrite Z2Nat.id by lia.
  pose proof (geo_pow (Z.to_nat a)) as Pa. pose proof (geo_pow (Z.to_nat b)) as Pb.
  rewrite Z2Nat.id in Pa, Pb by lia. rewrite Pa, Pb.
  match goal with |- eqm63 ?x ?y => replace x with y by ring end. reflexivity.
Qed.

(* ------------------------------------------------------------------ windows *)
Lemma history_jump_u64 id off : is_u64 (history_jump id off).
Proof.
  unfold history_jump, w32, is_u64. pose proof (Z.mod_pos_bound ((id+off) mod 2^32 * 10000) (2^32)).
  lia.
Qed.

Lemma draws_distinct a b s : (0 < a)%nat -> (a < b)%nat -> Z.of_nat b < 2^63 ->
  draws a s <> draws b s.
Proof.
  intros Ha Hab Hb E. replace b with (a + (b - a))%nat in E by lia. symmetry in E.
  apply draws_eq_iff in E; [|exact Ha]. destruct E as [c Hc]. nia.
Qed.

Lemma history_windows seed h1 h2 off1 off2 j1 j2 :
  is_u64 seed -> 0 <= h1 -> 0 <= off1 -> 0 <= h2 -> 0 <= off2 ->
  h1 + off1 <= 429496 -> h2 + off2 <= 429496 -> h1 + off1 <> h2 + off2 ->
  (0 < j1)%nat -> Z.of_nat j1 <= 10000 -> (0 < j2)%nat -> Z.of_nat j2 <= 10000 ->
  exists s1 s2, history_start seed h1 off1 = Some s1 /\ history_start seed h2 off2 = Some s2 /\
    draws j1 s1 <> draws j2 s2.
Proof.
  intros Hseed H1 H2 H3 H4 B1 B2 Hne J1 J1' J2 J2'.
  unfold history_start.
  assert (E : forall h off, 0 <= h -> 0 <= off -> h + off <= 429496 ->
              history_jump h off = (h + off) * 10000).
  { intros h off P1 P2 P3. unfold history_jump, w32. rewrite (Z.mod_small (h+off)) by lia.
    apply Z.mod_small. lia. }
  destruct j1 as [|j1]; [lia|]. destruct j2 as [|j2]; [lia|].
  destruct (jump_next (history_jump h1 off1) seed j1 (history_jump_u64 _ _) Hseed) as (s1 & E1 & D1).
  destruct (jump_next (history_jump h2 off2) seed j2 (history_jump_u64 _ _) Hseed) as (s2 & E2 & D2).
  exists s1, s2. split; [exact E1|]. split; [exact E2|]. rewrite D1, D2, <- !draws_add.
  rewrite !E by assumption.
  assert (Hn : (Z.to_nat ((h1 + off1) * 10000) + S j1 <> Z.to_nat ((h2 + off2) * 10000) + S j2)%nat)
    by nia.
  destruct (Nat.lt_total (Z.to_nat ((h1 + off1) * 10000) + S j1)
                         (Z.to_nat ((h2 + off2) * 10000) + S j2)) as [L|[L|L]].
  - apply draws_distinct; lia.
  - lia.
  - intro X. symmetry in X. revert X. apply draws_distinct; lia.
Qed.

(* ------------------------------------------------------------------ conversion to double *)
Ltac Zify.zify_post_hook ::= Z.div_mod_to_equations.

Lemma rnd_exp_nonneg x : 0 <= rnd_exp x.
Proof. unfold rnd_exp. lia. Qed.

Lemma rnd53_bounds x : 0 <= x -> 0 <= rnd53 x <= 2 ^ (Z.log2 x + 1).
Proof.
  intros Hx. unfold rnd53. pose proof (rnd_exp_nonneg x) as He.
  set (e := rnd_exp x) in *.
  assert (Hpe : 0 < 2 ^ e) by (apply Z.pow_pos_nonneg; lia).
  pose proof (Z.div_mod x (2^e) ltac:(lia)) as Hdm.
  pose proof (Z.mod_pos_bound x (2^e) Hpe) as Hr.
  assert (Hq : 0 <= x / 2^e) by (apply Z.div_pos; lia).
  destruct (Z.eq_dec x 0) as [->|Hx0].
  { assert (E : e = 0) by reflexivity. rewrite E in *. cbn. lia. }
  pose proof (Z.log2_spec x ltac:(lia)) as [Hlo Hhi].
  pose proof (Z.log2_nonneg x) as Hl.
  replace (Z.succ (Z.log2 x)) with (Z.log2 x + 1) in Hhi by lia.
  destruct ((2 * (x mod 2^e) >? 2^e) || ((2 * (x mod 2^e) =? 2^e) && Z.odd (x / 2^e))) eqn:Eb.
  - assert (Hmul : 2 ^ (Z.log2 x + 1) = 2 ^ (Z.log2 x + 1 - e) * 2 ^ e).
    { unfold e, rnd_exp in *. destruct (Z.max_spec 0 (Z.log2 x - 52)) as [[_ M]|[_ M]]; rewrite M in *.
      - rewrite <- Z.pow_add_r by lia. f_equal. lia.
      - rewrite <- Z.pow_add_r by lia. f_equal. lia. }
    assert (x / 2^e < 2 ^ (Z.log2 x + 1 - e)).
    { apply Z.div_lt_upper_bound; [lia|]. rewrite Z.mul_comm, <- Hmul. exact Hhi. }
    rewrite Hmul. split; nia.
  - split; [nia|]. nia.
Qed.

Lemma rnd53_hi x : 2^63 - 512 <= x < 2^63 -> rnd53 x = 2^63.
Proof.
  intros Hx. assert (L : Z.log2 x = 62) by (apply Z.log2_unique; lia).
  unfold rnd53, rnd_exp. rewrite L. change (Z.max 0 (62 - 52)) with 10. change (2^10) with 1024.
  assert (Q : x / 1024 = 2^53 - 1) by lia.
  assert (R : x mod 1024 = x - 1024 * (2^53 - 1)) by lia.
  rewrite Q, R.
  destruct (Z.eq_dec x (2^63 - 512)) as [->|Hne]; [reflexivity|].
  replace (2 * (x - 1024 * (2 ^ 53 - 1)) >? 1024) with true by lia. reflexivity.
Qed.

Lemma rnd53_lo x : 0 <= x < 2^63 - 512 -> 0 <= rnd53 x <= 2^63 - 1024.
Proof.
  intros Hx. pose proof (rnd53_bounds x ltac:(lia)) as [Hb1 Hb2]. split; [exact Hb1|].
  destruct (Z_lt_le_dec x (2^62)) as [Hs|Hs].
  - assert (Hl : Z.log2 x + 1 <= 62).
    { destruct (Z.eq_dec x 0) as [->|]; [cbn; lia|].
      assert (Z.log2 x < 62) by (apply Z.log2_lt_pow2; lia). lia. }
    assert (2 ^ (Z.log2 x + 1) <= 2^62) by (apply Z.pow_le_mono_r; lia). lia.
  - assert (L : Z.log2 x = 62) by (apply Z.log2_unique; lia).
    unfold rnd53, rnd_exp. rewrite L. change (Z.max 0 (62 - 52)) with 10. change (2^10) with 1024.
    destruct ((2 * (x mod 1024) >? 1024) || ((2 * (x mod 1024) =? 1024) && Z.odd (x / 1024))) eqn:Eb.
    + destruct (Z.eq_dec (x / 1024) (2^53 - 1)) as [Q|Q]; [|lia].
      rewrite Q in Eb. assert (R : x mod 1024 < 512) by lia. lia.
    + lia.
Qed.

Lemma pow2_split a b : 0 <= a -> 0 <= b -> 2 ^ (a + b) = 2 ^ a * 2 ^ b.
Proof. intros; apply Z.pow_add_r; lia. Qed.

(* rounding down-or-stay criterion: x below the midpoint before c*2^e rounds strictly below c*2^e *)
Lemma rnd53_below x c : 0 <= x -> 0 <= rnd_exp x ->
  (x < c * 2 ^ rnd_exp x) ->
  (x / 2 ^ rnd_exp x = c - 1 -> 2 * (x mod 2 ^ rnd_exp x) < 2 ^ rnd_exp x) ->
  rnd53 x < c * 2 ^ rnd_exp x.
Proof.
  intros Hx He Hc Hm. unfold rnd53. set (e := rnd_exp x) in *.
  assert (Hpe : 0 < 2 ^ e) by (apply Z.pow_pos_nonneg; lia).
  set (P := 2 ^ e) in *.
  assert (Q : x / P < c) by (apply Z.div_lt_upper_bound; lia).
  destruct ((2 * (x mod P) >? P) || ((2 * (x mod P) =? P) && Z.odd (x / P))) eqn:Eb.
  - destruct (Z.eq_dec (x / P) (c - 1)) as [E|E]; [|nia].
    specialize (Hm E). lia.
  - nia.
Qed.

Lemma random_int_lo d ub : 0 <= d <= 2^63 - 1024 -> 0 < ub < 2^31 ->
  0 <= rnd53 (d * ub) < ub * 2^63.
Proof.
  intros Hd Hub. set (x := d * ub).
  assert (Hx0 : 0 <= x) by (unfold x; nia).
  pose proof (rnd53_bounds x Hx0) as [Hb1 Hb2]. split; [exact Hb1|].
  pose proof (Z.log2_spec ub ltac:(lia)) as [Hlo Hhi].
  set (k := Z.log2 ub) in *. assert (Hk : 0 <= k) by apply Z.log2_nonneg.
  assert (Hk31 : k < 31) by (apply Z.log2_lt_pow2; lia).
  rewrite Z.pow_succ_r in Hhi by lia.
  assert (Hz : 2 ^ (63 + k) <= ub * 2^63) by (rewrite pow2_split by lia; nia).
  assert (Hpk : 0 < 2 ^ k) by (apply Z.pow_pos_nonneg; lia).
  destruct (Z.eq_dec x 0) as [Ex|Ex]; [rewrite Ex; change (rnd53 0) with 0; nia|].
  destruct (Z_lt_le_dec (Z.log2 x) (62 + k)) as [Hl|Hl].
  { assert (2 ^ (Z.log2 x + 1) <= 2 ^ (62 + k)) by (apply Z.pow_le_mono_r; lia).
    assert (2 ^ (63 + k) = 2 * 2 ^ (62 + k)).
    { rewrite <- Z.pow_succ_r by lia. f_equal. lia. }
    assert (0 < 2 ^ (62 + k)) by (apply Z.pow_pos_nonneg; lia). lia. }
  pose proof (Z.log2_spec x ltac:(lia)) as [Hxlo Hxhi].
  assert (Hl2 : Z.log2 x = 62 + k \/ Z.log2 x = 63 + k).
  { assert (Z.log2 x < 64 + k); [|lia]. apply Z.log2_lt_pow2; [lia|].
    rewrite pow2_split by lia. unfold x. change (2^64) with (2 * 2^63). nia. }
  destruct Hl2 as [L|L].
  - (* exponent 10 + k *)
    assert (E : rnd_exp x = 10 + k) by (unfold rnd_exp; rewrite L; lia).
    assert (HP : 2 ^ (10 + k) = 1024 * 2 ^ k) by (rewrite pow2_split by lia; reflexivity).
    assert (Hxlt : x < 2 ^ (63 + k)).
    { rewrite L in Hxhi. replace (Z.succ (62+k)) with (63 + k) in Hxhi by lia. exact Hxhi. }
    assert (H63 : 2 ^ (63 + k) = 2^53 * (1024 * 2 ^ k)) by (rewrite pow2_split by lia; ring).
    assert (Hcase : ub = 2 ^ k \/ 2 ^ k + 1 <= ub) by lia.
    destruct Hcase as [Eu|Eu].
    + apply Z.lt_le_trans with (2 ^ (63 + k)); [|exact Hz].
      rewrite H63, <- HP, <- E.
      apply rnd53_below; [lia|lia| rewrite E, HP; lia|].
      rewrite E, HP. intros Q.
      set (P := 1024 * 2 ^ k) in *.
      assert (HPpos : 0 < P) by (unfold P; lia).
      pose proof (Z.div_mod x P ltac:(lia)) as Hdm. rewrite Q in Hdm.
      pose proof (Z.mod_pos_bound x P HPpos) as Hr.
      assert (x <= (2^53 - 1) * P) by (unfold x, P; rewrite Eu; nia). lia.
    + rewrite L in Hb2. replace (62 + k + 1) with (63 + k) in Hb2 by lia.
      rewrite pow2_split in Hb2 by lia. nia.
  - (* exponent 11 + k, ub is not a power of two *)
    assert (E : rnd_exp x = 11 + k) by (unfold rnd_exp; rewrite L; lia).
    set (P := 2 ^ (11 + k)) in *.
    assert (HP : P = 2048 * 2 ^ k) by (unfold P; rewrite pow2_split by lia; reflexivity).
    assert (Hz2 : ub * 2^63 = (ub * 2 ^ (52 - k)) * P).
    { unfold P. rewrite <- Z.mul_assoc, <- Z.pow_add_r by lia. do 2 f_equal. lia. }
    assert (Hnp : 2 ^ k + 1 <= ub).
    { assert (ub <> 2 ^ k); [|lia]. intros Eu. rewrite L in Hxlo.
      rewrite pow2_split in Hxlo by lia. unfold x in Hxlo. rewrite Eu in Hxlo. nia. }
    assert (Hxm : x + ub * 1024 <= ub * 2^63) by (unfold x; nia).
    rewrite Hz2. set (c := ub * 2 ^ (52 - k)) in *.
    replace P with (2 ^ rnd_exp x) by (rewrite E; reflexivity).
    apply rnd53_below; [lia|lia| rewrite E; fold P; nia|].
    rewrite E. fold P. intros Q.
    assert (HPpos : 0 < P) by lia.
    pose proof (Z.div_mod x P ltac:(lia)) as Hdm. rewrite Q in Hdm. nia.
Qed.

Lemma rnd53_exact_int63 ub : 0 < ub < 2^31 -> rnd53 (2^63 * ub) = ub * 2^63.
Proof.
  intros Hub. set (k := Z.log2 ub). assert (Hk : 0 <= k) by apply Z.log2_nonneg.
  assert (Hk31 : k < 31) by (apply Z.log2_lt_pow2; lia).
  assert (L : Z.log2 (2^63 * ub) = 63 + k).
  { rewrite Z.mul_comm, Z.log2_mul_pow2 by lia. fold k. lia. }
  unfold rnd53, rnd_exp. rewrite L. replace (Z.max 0 (63 + k - 52)) with (11 + k) by lia.
  set (P := 2 ^ (11 + k)). assert (HP : 0 < P) by (apply Z.pow_pos_nonneg; lia).
  assert (E : 2^63 * ub = (ub * 2 ^ (52 - k)) * P).
  { unfold P. rewrite <- Z.mul_assoc, <- Z.pow_add_r by lia.
    replace (52 - k + (11 + k)) with 63 by lia. ring. }
  rewrite E. rewrite Z.mod_mul, Z.div_mul by lia.
  replace (2 * 0 >? P) with false by lia. replace (2 * 0 =? P) with false by lia. simpl orb.
  rewrite <- E. ring.
Qed.

Lemma random_int_iff s ub : 0 < ub < 2^31 ->
  (0 <= rng_random_int s ub < ub <-> rng_step s < 2^63 - 512) /\
  (rng_random_int s ub = ub <-> 2^63 - 512 <= rng_step s).
Proof.
  intros Hub. pose proof (step_range s) as Hs. unfold M63 in Hs.
  unfold rng_random_int, rng_random_num.
  destruct (Z_lt_le_dec (rng_step s) (2^63 - 512)) as [H|H].
  - pose proof (rnd53_lo (rng_step s) ltac:(lia)) as Hd.
    pose proof (random_int_lo (rnd53 (rng_step s)) ub Hd Hub) as [A B].
    set (v := rnd53 (rnd53 (rng_step s) * ub)) in *.
    assert (0 <= v / 2^63) by (apply Z.div_pos; lia).
    assert (v / 2^63 < ub) by (apply Z.div_lt_upper_bound; lia).
    split; split; lia.
  - rewrite (rnd53_hi (rng_step s)) by lia. rewrite rnd53_exact_int63 by exact Hub.
    rewrite Z.div_mul by lia. split; split; lia.
Qed.

Lemma random_num_iff s :
  (0 <= rng_random_num s < 2^63 <-> rng_step s < 2^63 - 512) /\
  (rng_random_num s = 2^63 <-> 2^63 - 512 <= rng_step s).
Proof.
  pose proof (step_range s) as Hs. unfold M63 in Hs. unfold rng_random_num.
  destruct (Z_lt_le_dec (rng_step s) (2^63 - 512)) as [H|H].
  - pose proof (rnd53_lo (rng_step s) ltac:(lia)). split; split; lia.
  - rewrite (rnd53_hi (rng_step s)) by lia. split; split; lia.
Qed.

(* from every seed the stream meets a state whose next variate is 1.0 *)
Lemma random_one_reached seed : 0 <= seed < 2^63 ->
  exists n : nat, Z.of_nat n < 2^63 /\ rng_random_num (draws n seed) = 2^63 /\
    forall ub, 0 < ub < 2^31 -> rng_random_int (draws n seed) ub = ub.
Proof.
  intros Hs.
  (* the state before 2^63 - 1 *)
  assert (Hpre : exists p, 0 <= p < 2^63 /\ rng_step p = 2^63 - 1).
  { exists (draws (Z.to_nat (2^63 - 1)) (2^63 - 1)). split; [apply draws_range; lia|].
    rewrite <- draws_S. apply draws_eq_iff0; [lia|]. exists 1. lia. }
  destruct Hpre as (p & Hp & Ep).
  destruct (draws_surj seed p Hs Hp) as (n & Hn & En).
  exists n. rewrite En. split; [exact Hn|]. split.
  - apply random_num_iff. lia.
  - intros ub Hub. apply random_int_iff; lia.
Qed.

(* ------------------------------------------------------------------ sample_cdf *)
From Coq Require Import QArith.
Lemma qltb_true a b : qltb a b = true <-> (a < b)%Q.
Proof.
  unfold qltb. rewrite negb_true_iff. split; intros H.
  - apply Qnot_le_lt. intros L. apply Qle_bool_iff in L. congruence.
  - destruct (Qle_bool b a) eqn:E; [|reflexivity]. apply Qle_bool_iff in E.
    exfalso. apply (Qlt_not_le _ _ H E).
Qed.
Lemma qltb_false a b : qltb a b = false <-> (b <= a)%Q.
Proof.
  unfold qltb. rewrite negb_false_iff. apply Qle_bool_iff.
Qed.

Definition q_nondecreasing (l : list Q) : Prop :=
  forall i j x y, (i <= j)%nat -> nth_error l i = Some x -> nth_error l j = Some y -> (x <= y)%Q.

Lemma sample_cdf_spec s cdf : q_nondecreasing cdf ->
  exists i, rng_sample_cdf s cdf = Some i /\ (i <= length cdf)%nat /\
    (forall j x, (j < i)%nat -> nth_error cdf j = Some x -> (x < rng_random s)%Q) /\
    (forall j x, (i <= j)%nat -> nth_error cdf j = Some x -> (rng_random s <= x)%Q).
Proof.
  intros Hs. destruct (lower_bound_spec Q qltb cdf (rng_random s)) as (i & E & Hi & A & B).
  { intros a b x y Hab Ex Ey Hy. apply qltb_true. apply qltb_true in Hy.
    apply Qle_lt_trans with y; [|exact Hy]. apply (Hs a b); assumption. }
  exists i. split; [exact E|]. split; [exact Hi|]. split.
  - intros j x Hj Ex. apply qltb_true. apply (A j x Hj Ex).
  - intros j x Hj Ex. apply qltb_false. apply (B j x Hj Ex).
Qed.

Lemma random_le_1 s : (0 <= rng_random s <= 1)%Q.
Proof.
  unfold rng_random, Qle. cbn [Qnum Qden inject_Z]. change (Z.pos (2^63)%positive) with 9223372036854775808%Z.
  pose proof (random_num_iff s) as [[_ H1] [_ H2]].
  destruct (Z_lt_le_dec (rng_step s) (2^63 - 512)%Z) as [H|H]; [specialize (H1 H)|specialize (H2 H)];
    change (2^63)%Z with 9223372036854775808%Z in *; lia.
Qed.

Lemma sample_cdf_in_range s cdf last : q_nondecreasing cdf -> 
  nth_error cdf (length cdf - 1) = Some last -> (1 <= last)%Q ->
  exists i, rng_sample_cdf s cdf = Some i /\ (i < length cdf)%nat.
Proof.
  intros Hs Hl H1. destruct (sample_cdf_spec s cdf Hs) as (i & E & Hi & A & B).
  exists i. split; [exact E|].
  assert (Hlen : (length cdf - 1 < length cdf)%nat) by (apply nth_error_Some; congruence).
  destruct (Nat.lt_ge_cases i (length cdf)) as [L|L]; [exact L|].
  exfalso. specialize (A (length cdf - 1)%nat last ltac:(lia) Hl).
  apply (Qlt_irrefl last). apply Qlt_le_trans with (rng_random s); [exact A|].
  apply Qle_trans with 1%Q; [apply random_le_1|exact H1].
Qed.

Open Scope Z_scope.
Lemma history_overlap seed : is_u64 seed ->
  (exists s0 s1, history_start seed 0 0 = Some s0 /\ history_start seed 429497 0 = Some s1 /\
     forall k, draws (S k) s1 = draws (S k) (draws (Z.to_nat 2704) s0)) /\
  (forall h off, history_start seed (h + 2^28) off = history_start seed h off).
Proof.
  intros Hs. split.
  - unfold history_start. change (history_jump 0 0) with 0. change (history_jump 429497 0) with 2704.
    assert (U0 : is_u64 0) by (unfold is_u64; lia). assert (U1 : is_u64 2704) by (unfold is_u64; lia).
    destruct (jump_next 0 seed 0 U0 Hs) as (s0 & E0 & _).
    destruct (jump_next 2704 seed 0 U1 Hs) as (s1 & E1 & _).
    exists s0, s1. split; [exact E0|]. split; [exact E1|]. intros k.
    destruct (jump_next 2704 seed k U1 Hs) as (s1' & E1' & D1). rewrite E1' in E1.
    injection E1 as ->. rewrite D1. rewrite <- !draws_add.
    destruct (jump_next 0 seed (Z.to_nat 2704 + k) U0 Hs) as (s0' & E0' & D0). rewrite E0' in E0.
    injection E0 as ->. replace (Z.to_nat 2704 + S k)%nat with (S (Z.to_nat 2704 + k)) by lia.
    rewrite D0. reflexivity.
  - intros h off. unfold history_start. f_equal. unfold history_jump, w32.
    rewrite !Zmult_mod_idemp_l.
    replace ((h + 2 ^ 28 + off) * 10000) with ((h + off) * 10000 + 625 * 2^32) by ring.
    apply Z_mod_plus_full.
Qed.

Lemma source_stream_overlap seed : is_u64 seed ->
  exists s0, history_start seed 0 0 = Some s0 /\ forall k, draws (S k) s0 = draws (S k) seed.
Proof.
  intros Hs. unfold history_start. change (history_jump 0 0) with 0.
  assert (U0 : is_u64 0) by (unfold is_u64; lia).
  destruct (jump_next 0 seed 0 U0 Hs) as (s0 & E0 & _). exists s0. split; [exact E0|].
  intros k. destruct (jump_next 0 seed k U0 Hs) as (s0' & E0' & D0). rewrite E0' in E0.
  injection E0 as ->. exact D0.
Qed.
