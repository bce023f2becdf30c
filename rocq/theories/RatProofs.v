(** Proofs about rational approximation. *)
From Coq Require Import List Lia Bool Reals ZArith Lra Psatz Znumtheory.
From Verif Require Import RUtil MatModel RatModel.
Import ListNotations.
Open Scope R_scope.

(** The bracket of the search: neighbouring fractions around the target. *)
Definition bracket (t : R) (a b c d : Z) : Prop :=
  (0 <= a /\ 1 <= b /\ 1 <= c /\ c <= d /\ a <= b /\ b * c - a * d = 1)%Z /\ IZR a / IZR b <= t <= IZR c / IZR d.

Lemma det_R : forall a b c d, (b * c - a * d = 1)%Z -> IZR b * IZR c - IZR a * IZR d = 1.
Proof. intros. rewrite <- !mult_IZR, <- minus_IZR, H. reflexivity. Qed.

Lemma mediant_left : forall a b c d, (1 <= b)%Z -> (1 <= d)%Z -> (b * c - a * d = 1)%Z ->
  IZR (a + c) / IZR (b + d) - IZR a / IZR b = 1 / (IZR b * IZR (b + d)).
Proof.
  intros a b c d Hb Hd H. apply det_R in H. apply IZR_le in Hb. apply IZR_le in Hd. rewrite !plus_IZR. rewrite <- H. field. split; lra.
Qed.
Lemma mediant_right : forall a b c d, (1 <= b)%Z -> (1 <= d)%Z -> (b * c - a * d = 1)%Z ->
  IZR c / IZR d - IZR (a + c) / IZR (b + d) = 1 / (IZR d * IZR (b + d)).
Proof.
  intros a b c d Hb Hd H. apply det_R in H. apply IZR_le in Hb. apply IZR_le in Hd. rewrite !plus_IZR. rewrite <- H. field. split; lra.
Qed.

Lemma bracket_low : forall t a b c d, bracket t a b c d -> IZR (a + c) / IZR (b + d) < t -> bracket t (a + c) (b + d) c d.
Proof. intros t a b c d ((A & B & C & D & E & F) & L & U) H. repeat split; try lia; lra. Qed.
Lemma bracket_high : forall t a b c d, bracket t a b c d -> t <= IZR (a + c) / IZR (b + d) -> bracket t a b (a + c) (b + d).
Proof. intros t a b c d ((A & B & C & D & E & F) & L & U) H. repeat split; try lia; lra. Qed.

Lemma coprime_det : forall a b c d, (b * c - a * d = 1)%Z -> rel_prime a b /\ rel_prime c d.
Proof.
  intros a b c d H. split; apply bezout_rel_prime.
  - apply (Bezout_intro a b 1 (- d) c)%Z. lia.
  - apply (Bezout_intro c d 1 b (- a))%Z. lia.
Qed.

(** No fraction with a denominator up to [max_d] lies strictly between [t] and p/q. *)
Definition adjacent (t : R) (max_d p q : Z) : Prop := forall p' q', (1 <= q' <= max_d)%Z ->
  ~ (t < IZR p' / IZR q' < IZR p / IZR q) /\ ~ (IZR p / IZR q < IZR p' / IZR q' < t).

Lemma between_large : forall a b c d p q, (1 <= b)%Z -> (1 <= d)%Z -> (1 <= q)%Z -> (b * c - a * d = 1)%Z ->
  IZR a / IZR b < IZR p / IZR q < IZR c / IZR d -> (b + d <= q)%Z.
Proof.
  intros a b c d p q Hb Hd Hq F [H1 H2]. apply (IZR_le 1) in Hb as Rb. apply (IZR_le 1) in Hd as Rd. apply (IZR_le 1) in Hq as Rq.
  assert (a * q < p * b)%Z.
  { apply lt_IZR. rewrite !mult_IZR. apply (Rmult_lt_compat_r (IZR b * IZR q)) in H1; [|nra]. replace (IZR a / IZR b * (IZR b * IZR q)) with (IZR a * IZR q) in H1 by (field; lra).
    replace (IZR p / IZR q * (IZR b * IZR q)) with (IZR p * IZR b) in H1 by (field; lra). lra. }
  assert (p * d < c * q)%Z.
  { apply lt_IZR. rewrite !mult_IZR. apply (Rmult_lt_compat_r (IZR d * IZR q)) in H2; [|nra]. replace (IZR p / IZR q * (IZR d * IZR q)) with (IZR p * IZR d) in H2 by (field; lra).
    replace (IZR c / IZR d * (IZR d * IZR q)) with (IZR c * IZR q) in H2 by (field; lra). lra. }
  assert (q = b * (c * q - p * d) + d * (p * b - a * q))%Z by (transitivity (q * (b * c - a * d))%Z; [rewrite F|]; ring). nia.
Qed.

(** What every returned fraction satisfies. *)
Definition good (t tol : R) (max_d : Z) (r : Z * Z) : Prop :=
  (0 <= fst r <= snd r)%Z /\ (1 <= snd r <= max_d)%Z /\ rel_prime (fst r) (snd r) /\
  (Rabs (IZR (fst r) / IZR (snd r) - t) < tol \/
   (Rabs (IZR (fst r) / IZR (snd r) - t) <= 1 / (IZR (snd r) * IZR (max_d + 1)) /\ adjacent t max_d (fst r) (snd r)) \/
   0 < tol /\ Rabs (IZR (fst r) / IZR (snd r) - t) < tol + 1 / (IZR (snd r) * IZR (max_d + 1))).

Lemma inv_le : forall x y n, 0 < x -> 0 < n -> n <= y -> 1 / (x * y) <= 1 / (x * n).
Proof. intros. unfold Rdiv. rewrite !Rmult_1_l. apply Rinv_le_contravar; nra. Qed.

Lemma bracket_good_a : forall t a b c d max_d, bracket t a b c d -> (b <= max_d)%Z -> forall tol,
  (Rabs (IZR a / IZR b - t) < tol \/ (Rabs (IZR a / IZR b - t) <= 1 / (IZR b * IZR (max_d + 1)) /\ adjacent t max_d a b) \/ 0 < tol /\ Rabs (IZR a / IZR b - t) < tol + 1 / (IZR b * IZR (max_d + 1))) -> good t tol max_d (a, b).
Proof. intros t a b c d max_d ((A & B & C & D & E & F) & L & U) H tol G. split; [cbn; lia|]. split; [cbn; lia|]. split; [apply (coprime_det a b c d F)|exact G]. Qed.
Lemma bracket_good_c : forall t a b c d max_d, bracket t a b c d -> (d <= max_d)%Z -> forall tol,
  (Rabs (IZR c / IZR d - t) < tol \/ (Rabs (IZR c / IZR d - t) <= 1 / (IZR d * IZR (max_d + 1)) /\ adjacent t max_d c d) \/ 0 < tol /\ Rabs (IZR c / IZR d - t) < tol + 1 / (IZR d * IZR (max_d + 1))) -> good t tol max_d (c, d).
Proof. intros t a b c d max_d ((A & B & C & D & E & F) & L & U) H tol G. split; [cbn; lia|]. split; [cbn; lia|]. split; [apply (coprime_det a b c d F)|exact G]. Qed.

Lemma rat_loop_good : forall fuel t tol max_d a b c d r, bracket t a b c d -> (b <= max_d)%Z -> (d <= max_d)%Z ->
  rat_loop fuel t tol max_d a b c d = Some (Got r) -> good t tol max_d r.
Proof.
  induction fuel as [|fuel IH]; intros t tol max_d a b c d r Br Hb Hd; cbn [rat_loop].
  { destruct (Z.leb_spec b max_d); [|lia]. destruct (Z.leb_spec d max_d); [|lia]. cbn. discriminate. }
  destruct (Z.leb_spec b max_d); [|lia]. destruct (Z.leb_spec d max_d); [|lia]. cbn [andb negb].
  destruct (_ || _); [discriminate|]. pose proof Br as ((A & B & C & D & E & F) & L & U).
  pose proof (mediant_left a b c d B ltac:(lia) F) as ML. pose proof (mediant_right a b c d B ltac:(lia) F) as MR.
  set (med := IZR (a + c) / IZR (b + d)) in *.
  pose proof (IZR_le 1 b B) as Rb. pose proof (IZR_le 1 d ltac:(lia)) as Rd.
  assert (Big : (max_d < b + d)%Z -> 1 / (IZR b * IZR (b + d)) <= 1 / (IZR b * IZR (max_d + 1)) /\ 1 / (IZR d * IZR (b + d)) <= 1 / (IZR d * IZR (max_d + 1))).
  { intros Hm. assert (IZR (max_d + 1) <= IZR (b + d)) by (apply IZR_le; lia). assert (1 <= IZR (max_d + 1)) by (apply (IZR_le 1); lia). split; apply inv_le; lra. }
  destruct (Rltb_spec (Rabs (t - med)) tol) as [T|T].
  - intros [= <-]. destruct (Z.leb_spec (b + d) max_d) as [Lm|Lm].
    + destruct (Rltb_spec med t).
      * apply (bracket_good_a t (a + c) (b + d) c d); [apply bracket_low; auto|lia|]. left. rewrite <- Rabs_Ropp, Ropp_minus_distr. exact T.
      * apply (bracket_good_c t a b (a + c) (b + d)); [apply bracket_high; auto; fold med; lra|lia|]. left. rewrite <- Rabs_Ropp, Ropp_minus_distr. exact T.
    + destruct (Big Lm) as [B1 B2]. apply Rabs_def2 in T. destruct (Z.ltb_spec b d).
      * apply (bracket_good_c t a b c d); auto. right; right. split; [lra|]. rewrite Rabs_right by lra. lra.
      * apply (bracket_good_a t a b c d); auto. right; right. split; [lra|]. rewrite Rabs_left1 by lra. lra.
  - destruct (Rltb_spec med t) as [G|G].
    + destruct (Z.leb_spec (b + d) max_d) as [Lm|Lm]; [apply IH; auto; apply bracket_low; auto|].
      destruct fuel; cbn [rat_loop]; (destruct (Z.leb_spec (b + d) max_d); [lia|]); cbn [andb negb]; (destruct (Z.ltb_spec max_d (b + d)); [|lia]); intros [= <-];
        destruct (Big Lm) as [B1 B2]; (apply (bracket_good_c t a b c d); auto); right; left; (split; [rewrite Rabs_right by lra; lra|]);
        intros p q Hq; (split; [|lra]); intros Q; pose proof (between_large a b c d p q B ltac:(lia) ltac:(lia) F ltac:(lra)); lia.
    + destruct (Z.leb_spec (b + d) max_d) as [Lm|Lm]; [apply IH; auto; apply bracket_high; auto; fold med; lra|].
      destruct fuel; cbn [rat_loop]; (destruct (Z.leb_spec (b + d) max_d); [lia|]); rewrite andb_false_r; cbn [negb]; (destruct (Z.ltb_spec max_d b); [lia|]); intros [= <-];
        destruct (Big Lm) as [B1 B2]; (apply (bracket_good_a t a b c d); auto); right; left; (split; [rewrite Rabs_left1 by lra; lra|]);
        intros p q Hq; (split; [lra|]); intros Q; pose proof (between_large a b c d p q B ltac:(lia) ltac:(lia) F ltac:(lra)); lia.
Qed.

Lemma rat_loop_ends : forall fuel t tol max_d a b c d, bracket t a b c d -> (b <= max_d)%Z -> (d <= max_d)%Z -> (2 * max_d <= INT_MAX)%Z ->
  (2 * max_d - b - d + 1 <= Z.of_nat fuel)%Z -> exists r, rat_loop fuel t tol max_d a b c d = Some (Got r).
Proof.
  induction fuel as [|fuel IH]; intros t tol max_d a b c d Br Hb Hd Hm Hf; [lia|]. cbn [rat_loop].
  destruct (Z.leb_spec b max_d); [|lia]. destruct (Z.leb_spec d max_d); [|lia]. cbn [andb negb].
  pose proof Br as ((A & B & C & D & E & F) & L & U).
  destruct (Z.ltb_spec INT_MAX (a + c)); [lia|]. destruct (Z.ltb_spec INT_MAX (b + d)); [lia|]. cbn [orb].
  destruct (Rltb _ _); [eauto|]. destruct (Rltb_spec (IZR (a + c) / IZR (b + d)) t) as [G|G].
  - destruct (Z.leb_spec (b + d) max_d); [apply IH; auto; [apply bracket_low; auto|lia]|].
    destruct fuel; cbn [rat_loop]; (destruct (Z.leb_spec (b + d) max_d); [lia|]); cbn [andb negb]; eauto.
  - destruct (Z.leb_spec (b + d) max_d); [apply IH; auto; [apply bracket_high; auto; lra|lia]|].
    destruct fuel; cbn [rat_loop]; (destruct (Z.leb_spec (b + d) max_d); [lia|]); rewrite andb_false_r; cbn [negb]; eauto.
Qed.

(** With a tolerance no smaller than 2 / INT_MAX the unbounded search ends within tolerance. *)
Lemma rat_loop_tol : forall fuel t tol a b c d, bracket t a b c d -> 2 / tol <= IZR INT_MAX -> 0 < tol -> IZR (b + d) <= 2 / tol ->
  1 / tol < IZR (b + d) + INR fuel ->
  exists r, rat_loop (S fuel) t tol INT_MAX a b c d = Some (Got r) /\ Rabs (IZR (fst r) / IZR (snd r) - t) < tol /\ (0 <= fst r <= snd r)%Z /\ (1 <= snd r)%Z /\ rel_prime (fst r) (snd r).
Proof.
  induction fuel as [|fuel IH]; intros t tol a b c d Br Ht Hp Hs Hf; pose proof Br as ((A & B & C & D & E & F) & L & U);
  match goal with |- context [rat_loop (S ?n)] => remember n as k eqn:Ek end; cbn [rat_loop]; subst k;
  assert (Hsum : (b + d <= INT_MAX)%Z) by (apply le_IZR; lra);
  (destruct (Z.leb_spec b INT_MAX); [|lia]); (destruct (Z.leb_spec d INT_MAX); [|lia]); cbn [andb negb];
  pose proof (mediant_left a b c d B ltac:(lia) F) as ML; pose proof (mediant_right a b c d B ltac:(lia) F) as MR;
  set (med := IZR (a + c) / IZR (b + d)) in *; pose proof (IZR_le 1 b B) as Rb; pose proof (IZR_le 1 d ltac:(lia)) as Rd; pose proof (plus_IZR b d) as Rs;
  (assert (Near : Rabs (t - med) <= 1 / IZR (b + d))
   by (assert (1 / (IZR b * IZR (b + d)) <= 1 / (1 * IZR (b + d))) by (unfold Rdiv; rewrite !Rmult_1_l; apply Rinv_le_contravar; nra);
       assert (1 / (IZR d * IZR (b + d)) <= 1 / (1 * IZR (b + d))) by (unfold Rdiv; rewrite !Rmult_1_l; apply Rinv_le_contravar; nra);
       rewrite Rmult_1_l in *; apply Rabs_le; lra));
  (destruct (Z.ltb_spec INT_MAX (a + c)); [lia|]); (destruct (Z.ltb_spec INT_MAX (b + d)); [lia|]); cbn [orb];
  (destruct (Rltb_spec (Rabs (t - med)) tol) as [T|T];
   [eexists; split; [reflexivity|]; (destruct (Z.leb_spec (b + d) INT_MAX); [|lia]); cbn [fst snd]; split;
    [rewrite <- Rabs_Ropp, Ropp_minus_distr; exact T|]; split; [lia|]; split; [lia|];
    apply (coprime_det (a + c) (b + d) c d); lia|]).
  - exfalso. cbn [INR] in Hf. assert (1 / IZR (b + d) < tol); [|lra]. apply (Rmult_lt_reg_r (IZR (b + d))); [lra|].
    replace (1 / IZR (b + d) * IZR (b + d)) with 1 by (field; lra). apply (Rmult_lt_compat_l tol) in Hf; [|lra]. replace (tol * (1 / tol)) with 1 in Hf by (field; lra). lra.
  - assert (Hle : IZR (b + d) <= 1 / tol).
    { apply (Rmult_le_reg_l tol); [lra|]. replace (tol * (1 / tol)) with 1 by (field; lra). apply (Rmult_le_reg_r (1 / IZR (b + d))).
      - unfold Rdiv. rewrite Rmult_1_l. apply Rinv_0_lt_compat. lra.
      - replace (tol * IZR (b + d) * (1 / IZR (b + d))) with tol by (field; lra). lra. }
    replace (2 / tol) with (2 * (1 / tol)) by (field; lra).
    assert (Hs2 : INR (S fuel) = INR fuel + 1) by apply S_INR.
    destruct (Rltb_spec med t) as [G|G].
    + apply IH; auto; [apply bracket_low; auto| |].
      * rewrite plus_IZR. replace (2 / tol) with (2 * (1 / tol)) by (field; lra). lra.
      * rewrite plus_IZR. lra.
    + apply IH; auto; [apply bracket_high; auto; fold med; lra| |].
      * rewrite plus_IZR. replace (2 / tol) with (2 * (1 / tol)) by (field; lra). lra.
      * rewrite plus_IZR. lra.
Qed.

Lemma bracket_start : forall t, 0 <= t <= 1 -> bracket t 0 1 1 1.
Proof. intros t H. repeat split; try lia; lra. Qed.

Lemma rat_tol : forall fuel t tol, 0 <= t <= 1 -> 2 / tol <= IZR INT_MAX -> 0 < tol -> 1 / tol < INR fuel ->
  exists r, rational_approximation (S fuel) t tol 0 = Some (Got r) /\ Rabs (IZR (fst r) / IZR (snd r) - t) < tol /\ (0 <= fst r <= snd r)%Z /\ (1 <= snd r)%Z /\ rel_prime (fst r) (snd r).
Proof.
  intros fuel t tol Ht Hm Hp Hf. unfold rational_approximation. cbn [Z.eqb].
  destruct (Rltb_spec (Rabs (0 / 1 - t)) tol) as [T|T].
  { eexists. split; [reflexivity|]. cbn [fst snd]. split; [auto|]. split; [lia|]. split; [lia|]. apply bezout_rel_prime. apply (Bezout_intro 0 1 1 0 1)%Z. lia. }
  destruct (Rltb_spec (Rabs (1 / 1 - t)) tol) as [T2|T2].
  { eexists. split; [reflexivity|]. cbn [fst snd]. split; [auto|]. split; [lia|]. split; [lia|]. apply bezout_rel_prime. apply (Bezout_intro 1 1 1 0 1)%Z. lia. }
  apply rat_loop_tol; auto; [now apply bracket_start| |].
  - rewrite Rabs_left1 in T by lra. assert (1 <= 1 / tol). { apply (Rmult_le_reg_r tol); [lra|]. replace (1 / tol * tol) with 1 by (field; lra). lra. }
    replace (2 / tol) with (2 * (1 / tol)) by (field; lra). change (IZR (1 + 1)) with 2. lra.
  - change (IZR (1 + 1)) with 2. lra.
Qed.

Lemma rat_bounded : forall fuel t tol max_d, 0 <= t <= 1 -> (1 <= max_d)%Z -> (2 * max_d <= INT_MAX)%Z -> (2 * max_d <= Z.of_nat fuel)%Z ->
  exists r, rational_approximation fuel t tol max_d = Some (Got r) /\ good t tol max_d r.
Proof.
  intros fuel t tol max_d Ht Hd Hm Hf. unfold rational_approximation. destruct (Z.eqb_spec max_d 0); [lia|].
  destruct (Rltb_spec (Rabs (0 / 1 - t)) tol) as [T|T].
  { eexists. split; [reflexivity|]. apply (bracket_good_a t 0 1 1 1 max_d (bracket_start t Ht) Hd). auto. }
  destruct (Rltb_spec (Rabs (1 / 1 - t)) tol) as [T2|T2].
  { eexists. split; [reflexivity|]. apply (bracket_good_c t 0 1 1 1 max_d (bracket_start t Ht) Hd). auto. }
  destruct (rat_loop_ends fuel t tol max_d 0 1 1 1 (bracket_start t Ht) Hd Hd Hm ltac:(lia)) as [r Er].
  exists r. split; auto. apply (rat_loop_good fuel t tol max_d 0 1 1 1 r (bracket_start t Ht) Hd Hd Er).
Qed.

(** The result does not depend on the fuel. *)
Lemma rat_loop_mono : forall f t tol max_d a b c d o, rat_loop f t tol max_d a b c d = Some o -> forall g, (f <= g)%nat -> rat_loop g t tol max_d a b c d = Some o.
Proof.
  induction f as [|f IH]; intros t tol max_d a b c d o H g Hg.
  - cbn [rat_loop] in H. destruct g; cbn [rat_loop]; destruct (negb _); auto; discriminate.
  - destruct g as [|g]; [lia|]. cbn [rat_loop] in *. destruct (negb _); auto. destruct (_ || _); auto. destruct (Rltb _ _); auto. destruct (Rltb _ _); apply IH with (g := g) in H; auto; lia.
Qed.

(** Target zero with no tolerance and no bound: the search runs into int overflow. *)
Lemma rat_zero : forall k d, (1 <= d)%Z -> (d + Z.of_nat k = INT_MAX)%Z -> rat_loop (S k) 0 0 INT_MAX 0 1 1 d = Some Undef.
Proof.
  induction k as [|k IH]; intros d Hd Hk; match goal with |- context [rat_loop (S ?n)] => remember n as j eqn:Ej end; cbn [rat_loop]; subst j;
  (destruct (Z.leb_spec 1 INT_MAX); [|unfold INT_MAX in *; lia]); (destruct (Z.leb_spec d INT_MAX); [|lia]); cbn [andb negb];
  (destruct (Z.ltb_spec INT_MAX (0 + 1)); [unfold INT_MAX in *; lia|]); cbn [orb].
  - destruct (Z.ltb_spec INT_MAX (1 + d)); [reflexivity|lia].
  - destruct (Z.ltb_spec INT_MAX (1 + d)); [lia|]. rewrite Rltb_false by apply Rabs_pos.
    assert (0 < IZR (1 + d)) by (apply (IZR_lt 0); lia). assert (0 < IZR (0 + 1) / IZR (1 + d)). { change (0 + 1)%Z with 1%Z. unfold Rdiv. rewrite Rmult_1_l. now apply Rinv_0_lt_compat. }
    rewrite Rltb_false by lra. change (0 + 1)%Z with 1%Z. apply IH; lia.
Qed.
