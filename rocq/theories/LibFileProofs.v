(** What texts of numbers, headings and libraries denote, and that the reader of material libraries finds it. *)
From Coq Require Import Ascii String List Bool Arith ZArith Reals Lia Lra.
From Verif Require Import StrModel StrProps MatModel LibFileModel.
Import ListNotations.
Local Open Scope char_scope.
Local Open Scope nat_scope.
Local Open Scope list_scope.

(** ** Numbers *)
(** A number as written: a sign, the digits before the point, the point and the digits after it, and the exponent with its letter and sign. *)
Record Num := mkNum { n_sign : option bool; n_int : str; n_frac : option str; n_exp : option (ascii * option bool * str) }.
Definition sign_text (s : option bool) : str := match s with None => [] | Some true => ["-"] | Some false => ["+"] end.
Definition frac_text (f : option str) : str := match f with None => [] | Some d => "." :: d end.
Definition exp_text (e : option (ascii * option bool * str)) : str := match e with None => [] | Some (c, s, d) => c :: sign_text s ++ d end.
Definition num_text (n : Num) : str := sign_text (n_sign n) ++ n_int n ++ frac_text (n_frac n) ++ exp_text (n_exp n).
Definition frac_digits (n : Num) : str := match n_frac n with None => [] | Some d => d end.
(** What it denotes. *)
Definition whole (d : str) : R := fold_left (fun v c => (10 * v + IZR (dig c))%R) d 0%R.
Fixpoint parts (d : str) : R := match d with [] => 0%R | c :: r => ((IZR (dig c) + parts r) / 10)%R end.
Definition exponent (n : Num) : Z := match n_exp n with None => 0%Z | Some (_, Some true, d) => (- value d)%Z | Some (_, _, d) => value d end.
Definition num_value (n : Num) : R :=
  ((match n_sign n with Some true => -1 | _ => 1 end) * (whole (n_int n) + parts (frac_digits n)) * powerRZ 10 (exponent n))%R.
(** It has a digit before the exponent, a digit in the exponent if there is one, and is not so large that it would be infinite. *)
Definition num_form (n : Num) : Prop :=
  digs (n_int n) /\ digs (frac_digits n) /\ n_int n ++ frac_digits n <> []
  /\ match n_exp n with None => True | Some (c, _, d) => (c = "e" \/ c = "E") /\ digs d /\ d <> [] end.
Definition finite (n : Num) : Prop := (Rabs (num_value n) < 2 ^ 1024 - 2 ^ 970)%R.
Definition num_ok (n : Num) : Prop := num_form n /\ finite n.

(** The number ends here: what follows cannot be read as part of it. *)
Definition ends (n : Num) (r : str) : Prop :=
  match r with
  | [] => True
  | c :: _ => isdigit c = false /\ (n_exp n = None -> c <> "e" /\ c <> "E" /\ (n_frac n = None -> c <> "."))
  end.
(** [Nums ns s]: [s] is the numbers one after the other, with blanks before, after and between, but not necessarily between. *)
Inductive Nums : list Num -> str -> Prop :=
  | Nums_nil : Nums [] []
  | Nums_blank : forall c ns s, isspace c = true -> Nums ns s -> Nums ns (c :: s)
  | Nums_num : forall n ns r, num_ok n -> ends n r -> Nums ns r -> Nums (n :: ns) (num_text n ++ r).
(** The same for the beginning of a line. *)
Inductive Starts : list Num -> str -> Prop :=
  | Starts_nil : forall s, Starts [] s
  | Starts_blank : forall c n ns s, isspace c = true -> Starts (n :: ns) s -> Starts (n :: ns) (c :: s)
  | Starts_num : forall n ns r, num_ok n -> ends n r -> Starts ns r -> Starts (n :: ns) (num_text n ++ r).
(** Properly separated pieces. *)
Inductive Spaced : list str -> str -> Prop :=
  | Spaced_nil : Spaced [] []
  | Spaced_blank : forall c ts s, isspace c = true -> Spaced ts s -> Spaced ts (c :: s)
  | Spaced_word : forall t ts r, t <> [] -> Forall (fun c => isspace c = false) t -> (r = [] \/ exists c q, r = c :: q /\ isspace c = true) ->
      Spaced ts r -> Spaced (t :: ts) (t ++ r).

(** *** The decimal number read *)
Definition num_dec (n : Num) : Dec :=
  ((if match n_sign n with Some true => true | _ => false end then - value (n_int n ++ frac_digits n) else value (n_int n ++ frac_digits n))%Z,
   (exponent n - Z.of_nat (List.length (frac_digits n)))%Z).
Lemma value_cons_acc : forall d a, fold_left (fun v c => 10 * v + dig c)%Z d a = (a * 10 ^ Z.of_nat (List.length d) + value d)%Z.
Proof.
  unfold value. induction d as [|c d IH]; intros a.
  - cbn [fold_left List.length]. change (Z.of_nat 0) with 0%Z. rewrite Z.pow_0_r. lia.
  - cbn [fold_left List.length]. rewrite IH, (IH (10 * 0 + dig c)%Z), Nat2Z.inj_succ, Z.pow_succ_r by lia. ring.
Qed.
Lemma value_app : forall a b, value (a ++ b) = (value a * 10 ^ Z.of_nat (List.length b) + value b)%Z.
Proof. intros a b. unfold value at 1. rewrite fold_left_app. apply value_cons_acc. Qed.
Lemma whole_value : forall d, whole d = IZR (value d).
Proof.
  assert (G : forall d v, fold_left (fun v c => (10 * v + IZR (dig c))%R) d (IZR v) = IZR (fold_left (fun v c => 10 * v + dig c)%Z d v)).
  { induction d as [|c d IH]; intros v; [reflexivity|]. cbn [fold_left]. rewrite <- IH, plus_IZR, mult_IZR. reflexivity. }
  intros d. apply (G d 0%Z).
Qed.
Lemma ten_ne : (10 <> 0)%R. Proof. lra. Qed.
Lemma parts_value : forall d, parts d = (IZR (value d) * powerRZ 10 (- Z.of_nat (List.length d)))%R.
Proof.
  induction d as [|c d IH].
  - cbn. ring.
  - cbn [parts List.length]. rewrite IH. change (c :: d) with ([c] ++ d). rewrite value_app, Nat2Z.inj_succ.
    change (value [c]) with (10 * 0 + dig c)%Z. rewrite Z.mul_0_r, Z.add_0_l, plus_IZR, mult_IZR, <- pow_IZR.
    replace (- Z.succ (Z.of_nat (List.length d)))%Z with (- Z.of_nat (List.length d) + -1)%Z by lia.
    rewrite powerRZ_add by apply ten_ne. rewrite (powerRZ_neg' 10 (Z.of_nat (List.length d))), <- pow_powerRZ.
    replace (powerRZ 10 (-1)) with (/ 10)%R by (change (powerRZ 10 (-1)) with (/ (10 * 1))%R; rewrite Rmult_1_r; reflexivity).
    assert (10 ^ List.length d <> 0)%R by (apply pow_nonzero; lra). field. assumption.
Qed.
Lemma num_dec_value : forall n, dval (num_dec n) = num_value n.
Proof.
  intros n. unfold dval, num_dec, num_value. cbn [fst snd]. rewrite whole_value, parts_value.
  set (k := List.length (frac_digits n)).
  replace (IZR (if match n_sign n with Some true => true | _ => false end then - value (n_int n ++ frac_digits n) else value (n_int n ++ frac_digits n))%Z)
    with ((match n_sign n with Some true => -1 | _ => 1 end) * IZR (value (n_int n ++ frac_digits n)))%R
    by (destruct (n_sign n) as [[|]|]; rewrite ?opp_IZR; ring).
  rewrite value_app, plus_IZR, mult_IZR, <- pow_IZR. unfold Z.sub. rewrite powerRZ_add by apply ten_ne.
  rewrite (powerRZ_neg' 10 (Z.of_nat k)), <- pow_powerRZ. fold k.
  assert (10 ^ k <> 0)%R by (apply pow_nonzero; lra). field. assumption.
Qed.
Lemma huge_real : IZR HUGE = (2 ^ 1024 - 2 ^ 970)%R.
Proof. unfold HUGE. rewrite minus_IZR. change 1024%Z with (Z.of_nat 1024) at 1. change 970%Z with (Z.of_nat 970). rewrite <- !pow_IZR. reflexivity. Qed.
Lemma overflows_iff : forall d, overflows d = false <-> (Rabs (dval d) < IZR HUGE)%R.
Proof.
  intros [m e]. unfold overflows, dval. cbn [fst snd]. generalize HUGE. intros H. rewrite Rabs_mult, <- abs_IZR.
  assert (P : (0 < powerRZ 10 e)%R) by (apply powerRZ_lt; lra). rewrite (Rabs_pos_eq (powerRZ 10 e)) by lra.
  destruct (0 <=? e)%Z eqn:E.
  - apply Z.leb_le in E. rewrite Z.leb_gt.
    replace (IZR (Z.abs m) * powerRZ 10 e)%R with (IZR (Z.abs m * 10 ^ e)).
    + split; [apply IZR_lt|apply lt_IZR].
    + rewrite mult_IZR. f_equal. rewrite <- (Z2Nat.id e) by lia. rewrite <- pow_powerRZ, pow_IZR. reflexivity.
  - apply Z.leb_gt in E. rewrite Z.leb_gt.
    assert (Q : powerRZ 10 e = (/ IZR (10 ^ (- e)))%R).
    { replace e with (- - e)%Z at 1 by lia. rewrite powerRZ_neg'. f_equal. rewrite <- (Z2Nat.id (- e)) by lia. rewrite <- pow_powerRZ, pow_IZR. reflexivity. }
    assert (V : (0 < IZR (10 ^ (- e)))%R) by (apply IZR_lt, Z.pow_pos_nonneg; lia).
    rewrite Q. split.
    + intros L. apply IZR_lt in L. rewrite mult_IZR in L. apply Rmult_lt_reg_r with (IZR (10 ^ (- e))); [assumption|]. rewrite Rmult_assoc, Rinv_l by lra. lra.
    + intros L. apply lt_IZR. rewrite mult_IZR. apply Rmult_lt_compat_r with (r := IZR (10 ^ (- e))) in L; [|assumption]. rewrite Rmult_assoc, Rinv_l in L by lra. lra.
Qed.
Lemma finite_overflows : forall n, finite n <-> overflows (num_dec n) = false.
Proof. intros n. unfold finite. rewrite overflows_iff, num_dec_value, huge_real. tauto. Qed.

(** *** Extraction of a number *)
Definition minus (o : option bool) : bool := match o with Some true => true | _ => false end.
Lemma sign_cases : forall s neg r, sign s = (neg, r) -> exists o, s = sign_text o ++ r /\ neg = minus o.
Proof.
  intros s neg r H. destruct s as [|c s]; [inversion H; subst; exists None; auto|].
  destruct (ascii_dec c "-") as [->|N1]; [inversion H; subst; exists (Some true); auto|].
  destruct (ascii_dec c "+") as [->|N2]; [inversion H; subst; exists (Some false); auto|].
  exists None. assert (E : sign (c :: s) = (false, c :: s)).
  { destruct c as [[] [] [] [] [] [] [] []]; try reflexivity; congruence. }
  rewrite E in H. inversion H; subst. auto.
Qed.
Lemma sign_none : forall c s, c <> "-" -> c <> "+" -> sign (c :: s) = (false, c :: s).
Proof. intros c s N1 N2. destruct c as [[] [] [] [] [] [] [] []]; try reflexivity; congruence. Qed.
Lemma sign_app : forall o s, (forall c r, s = c :: r -> c <> "-" /\ c <> "+") -> sign (sign_text o ++ s) = (minus o, s).
Proof.
  intros [[|]|] s H; [reflexivity|reflexivity|]. cbn [sign_text app minus]. destruct s as [|c s]; [reflexivity|].
  destruct (H c s eq_refl). apply sign_none; assumption.
Qed.
Definition dot (s : str) : str * str := match s with "." :: r => digits r | _ => ([], s) end.
Lemma dot_other : forall c s, c <> "." -> dot (c :: s) = ([], c :: s).
Proof. intros c s N. unfold dot. destruct c as [[] [] [] [] [] [] [] []]; try reflexivity; congruence. Qed.
Lemma dot_app : forall f t, (match f with None => True | Some d => digs d end) -> (t = [] \/ exists c r, t = c :: r /\ isdigit c = false /\ (f = None -> c <> ".")) ->
  dot (frac_text f ++ t) = (match f with None => [] | Some d => d end, t).
Proof.
  intros [d|] t D T; cbn [frac_text app].
  - apply digits_app; [assumption|]. destruct T as [->|[c [r [-> [N _]]]]]; [left; reflexivity|right; eauto].
  - destruct T as [->|[c [r [-> [N N2]]]]]; [reflexivity|]. apply dot_other. auto.
Qed.
Lemma dot_split : forall s d t, dot s = (d, t) -> exists f, s = frac_text f ++ t /\ d = match f with None => [] | Some x => x end /\ digs d
  /\ (forall c r, t = c :: r -> (f = None -> c <> ".") /\ (f <> None -> isdigit c = false)).
Proof.
  intros s d t H. destruct s as [|c s].
  - inversion H; subst. exists None. split; [reflexivity|]. split; [reflexivity|]. split; [constructor|]. intros c r X. discriminate.
  - destruct (ascii_dec c ".") as [->|N].
    + cbn in H. destruct (digits_split _ _ _ H) as [-> [D T]]. exists (Some d). cbn. split; [reflexivity|]. split; [reflexivity|]. split; [assumption|].
      intros c r ->. split; [discriminate|]. intros _. destruct T as [X|[c' [r' [X Y]]]]; [discriminate|]. inversion X; subst. assumption.
    + rewrite dot_other in H by assumption. inversion H; subst. exists None. split; [reflexivity|]. split; [reflexivity|]. split; [constructor|].
      intros c' r X. inversion X; subst. split; [auto|congruence].
Qed.
Lemma digits_nosign : forall d s, digs d -> d <> [] -> forall c r, d ++ s = c :: r -> c <> "-" /\ c <> "+".
Proof. intros [|x d] s D N c r H; [congruence|]. inversion H; subst. inversion D; subst. apply digit_nosign. assumption. Qed.
Lemma e_nodigit : forall c, c = "e" \/ c = "E" -> isdigit c = false /\ c <> "." /\ c <> "-" /\ c <> "+" /\ isspace c = false.
Proof. intros c [->| ->]; repeat split; try reflexivity; discriminate. Qed.
Lemma eE_spec : forall c, Ascii.eqb c "e" || Ascii.eqb c "E" = true <-> c = "e" \/ c = "E".
Proof. intros c. rewrite orb_true_iff, !Ascii.eqb_eq. tauto. Qed.

(** The first character of a number is not a blank, and no character of it is. *)
Lemma num_nonblank : forall n, num_form n -> Forall (fun c => isspace c = false) (num_text n) /\ num_text n <> [].
Proof.
  intros n [D1 [D2 [N E]]]. split.
  - unfold num_text. rewrite !Forall_app. split; [destruct (n_sign n) as [[|]|]; repeat constructor|].
    assert (Q : forall d, digs d -> Forall (fun c => isspace c = false) d) by (intros d; apply Forall_impl; apply digit_nonspace).
    split; [auto|]. split.
    + unfold frac_digits in D2. destruct (n_frac n); cbn; [constructor; [reflexivity|auto]|constructor].
    + destruct (n_exp n) as [[[c s] d]|]; cbn; [|constructor]. destruct E as [E1 [E2 _]]. constructor; [apply e_nodigit in E1; tauto|].
      apply Forall_app. split; [destruct s as [[|]|]; repeat constructor|auto].
  - unfold num_text. intros X. apply app_eq_nil in X. destruct X as [_ X]. apply app_eq_nil in X. destruct X as [X1 X]. apply app_eq_nil in X. destruct X as [X2 _].
    apply N. rewrite X1. unfold frac_digits. destruct (n_frac n); [discriminate|reflexivity].
Qed.
Lemma ends_nil : forall n, ends n []. Proof. exact (fun _ => I). Qed.
Lemma ends_blank : forall n c r, isspace c = true -> ends n (c :: r).
Proof.
  intros n c r H. cbn. split; [apply space_nodigit; assumption|]. intros _. split; [intros ->; discriminate|]. split; [intros ->; discriminate|]. intros _ ->. discriminate.
Qed.

Definition get_exp (neg : bool) (m : str) (k : nat) (s : str) : option (Dec * str) :=
  match m with
  | [] => None
  | _ :: _ =>
      match s with
      | x :: r => if Ascii.eqb x "e" || Ascii.eqb x "E" then
                    let '(eneg, r) := sign r in
                    let '(d, r) := digits r in
                    match d with [] => None | _ => finish neg m k (if eneg then - value d else value d)%Z r end
                  else finish neg m k 0%Z s
      | [] => finish neg m k 0%Z s
      end
  end.
Lemma get_double_eq : forall s, get_double s =
  let '(neg, s) := sign (ltrim s) in let '(ip, s) := digits s in let '(fp, s) := dot s in get_exp neg (ip ++ fp) (List.length fp) s.
Proof. intros s. unfold get_double, get_exp. destruct (sign (ltrim s)) as [neg t]. destruct (digits t) as [ip u]. fold (dot u). destruct (dot u) as [fp q]. destruct (ip ++ fp); reflexivity. Qed.

Lemma get_double_complete : forall n r b, num_ok n -> ends n r -> blank b -> get_double (b ++ num_text n ++ r) = Some (num_dec n, r).
Proof.
  intros n r b [F Fin] E B. rewrite get_double_eq, ltrim_blank by assumption.
  pose proof (num_nonblank n F) as [NB NE]. destruct (num_text n) as [|c0 t0] eqn:T; [congruence|]. change ((c0 :: t0) ++ r) with (c0 :: (t0 ++ r)).
  inversion NB as [|? ? NB1 _]; subst. rewrite ltrim_hd by assumption. change (c0 :: (t0 ++ r)) with ((c0 :: t0) ++ r). rewrite <- T. clear T NB NE NB1 c0 t0.
  destruct F as [D1 [D2 [N X]]]. apply finite_overflows in Fin. unfold num_text. rewrite <- !app_assoc.
  assert (S0 : sign (sign_text (n_sign n) ++ n_int n ++ frac_text (n_frac n) ++ exp_text (n_exp n) ++ r) = (minus (n_sign n), n_int n ++ frac_text (n_frac n) ++ exp_text (n_exp n) ++ r)).
  { apply sign_app. intros c q H. destruct (n_int n) as [|x d] eqn:I.
    - cbn [app] in H. unfold frac_digits in N. destruct (n_frac n); [|cbn in N; congruence]. cbn in H. inversion H; subst. split; discriminate.
    - cbn in H. inversion H; subst. inversion D1; subst. apply digit_nosign. assumption. }
  rewrite S0.
  assert (T : exp_text (n_exp n) ++ r = [] \/ exists c q, exp_text (n_exp n) ++ r = c :: q /\ isdigit c = false /\ (n_frac n = None -> c <> ".")).
  { destruct (n_exp n) as [[[c s] d]|] eqn:Q.
    - right. exists c, ((sign_text s ++ d) ++ r). destruct X as [X _]. apply e_nodigit in X. split; [reflexivity|]. tauto.
    - cbn [exp_text app]. destruct r as [|c q]; [left; reflexivity|]. right. exists c, q. cbn in E. destruct E as [E1 E2]. split; [reflexivity|]. split; [assumption|]. apply E2. exact Q. }
  assert (U : digits (n_int n ++ frac_text (n_frac n) ++ exp_text (n_exp n) ++ r) = (n_int n, frac_text (n_frac n) ++ exp_text (n_exp n) ++ r)).
  { apply digits_app; [assumption|]. destruct (n_frac n) as [f|]; cbn [frac_text app].
    - right. eexists _, _. split; [reflexivity|reflexivity].
    - destruct T as [->|[c [q [-> [T _]]]]]; [left; reflexivity|right; eauto]. }
  rewrite U. rewrite dot_app; [|unfold frac_digits in D2; destruct (n_frac n); [assumption|exact I]|exact T].
  fold (frac_digits n). unfold get_exp. destruct (n_int n ++ frac_digits n) as [|c m] eqn:M; [congruence|]. clear N S0 T U.
  unfold num_dec in Fin |- *. rewrite M in Fin |- *. unfold exponent in *. fold (minus (n_sign n)) in Fin |- *.
  destruct (n_exp n) as [[[x s] d]|] eqn:Q.
  - destruct X as [X1 [X2 X3]]. cbn [exp_text app]. rewrite (proj2 (eE_spec x) X1). rewrite <- app_assoc, sign_app by (apply digits_nosign; assumption).
    rewrite digits_app; [|assumption|destruct r as [|c' q]; [left; reflexivity|right; exists c', q; cbn in E; tauto]].
    destruct d as [|y d]; [congruence|]. unfold finish.
    destruct s as [[|]|]; cbn [minus]; rewrite Fin; reflexivity.
  - cbn [exp_text app]. destruct r as [|x q].
    + unfold finish. rewrite Fin. reflexivity.
    + cbn in E. destruct E as [_ E]. destruct (E Q) as [E1 [E2 _]].
      destruct (Ascii.eqb x "e" || Ascii.eqb x "E") eqn:Z; [apply eE_spec in Z; tauto|]. unfold finish. rewrite Fin. reflexivity.
Qed.

Lemma get_double_sound : forall s v r, get_double s = Some (v, r) -> exists b n, blank b /\ s = b ++ num_text n ++ r /\ num_ok n /\ ends n r /\ v = num_dec n.
Proof.
  intros s v r H. rewrite get_double_eq in H. destruct (ltrim_app s) as [b [Eb B]]. destruct (sign (ltrim s)) as [neg s1] eqn:S1.
  destruct (sign_cases _ _ _ S1) as [o [E1 Eo]]. destruct (digits s1) as [ip s2] eqn:S2. destruct (digits_split _ _ _ S2) as [E2 [D2 T2]].
  destruct (dot s2) as [fp s3] eqn:S3. destruct (dot_split _ _ _ S3) as [f [E3 [Ef [D3 T3]]]].
  unfold get_exp in H. destruct (ip ++ fp) as [|c m] eqn:M; [discriminate|]. rewrite <- M in H.
  assert (NE : ip ++ fp <> []) by (rewrite M; discriminate). clear M c m.
  assert (Fd : forall e, frac_digits (mkNum o ip f e) = fp) by (intros e; unfold frac_digits; cbn; symmetry; assumption).
  assert (Xend : forall x q, s3 = x :: q -> isdigit x = false).
  { intros x q Q. destruct f as [d|]; [apply (T3 x q Q); discriminate|]. subst. cbn in T2. destruct T2 as [T2|[? [? [T2 T2']]]]; [discriminate|]. inversion T2; subst. assumption. }
  assert (Plain : forall q, s3 = q -> match q with [] => True | x :: _ => x <> "e" /\ x <> "E" end -> finish neg (ip ++ fp) (List.length fp) 0 q = Some (v, r) ->
     exists b n, blank b /\ s = b ++ num_text n ++ r /\ num_ok n /\ ends n r /\ v = num_dec n).
  { intros q Q NX G. unfold finish in G. destruct (overflows _) eqn:O in G; [discriminate|]. inversion G; subst v r. exists b, (mkNum o ip f None).
    assert (V : num_dec (mkNum o ip f None) = ((if neg then - value (ip ++ fp) else value (ip ++ fp))%Z, (0 - Z.of_nat (List.length fp))%Z)).
    { unfold num_dec, exponent. rewrite Fd. cbn [n_sign n_int n_exp]. fold (minus o). rewrite <- Eo. reflexivity. }
    split; [assumption|]. split; [|split; [split|split]].
    - rewrite Eb, E1, E2, E3, Q. unfold num_text. cbn [n_sign n_int n_frac n_exp exp_text]. rewrite <- !app_assoc. reflexivity.
    - unfold num_form. rewrite !Fd. cbn [n_int n_exp]. auto.
    - apply finite_overflows. rewrite V. assumption.
    - destruct q as [|x q]; [exact I|]. cbn. split; [eapply Xend; exact Q|]. intros _. destruct NX. split; [assumption|]. split; [assumption|]. intros X. apply (proj1 (T3 x q Q) X).
    - rewrite V. reflexivity. }
  destruct s3 as [|x q]; [apply (Plain [] eq_refl I H)|]. destruct (Ascii.eqb x "e" || Ascii.eqb x "E") eqn:Z.
  - clear Plain. destruct (sign q) as [eneg s4] eqn:S4. destruct (sign_cases _ _ _ S4) as [eo [E4 Eeo]]. destruct (digits s4) as [d s5] eqn:S5.
    destruct (digits_split _ _ _ S5) as [E5 [D5 T5]]. destruct d as [|y d]; [discriminate|]. set (dd := y :: d) in *.
    unfold finish in H. destruct (overflows _) eqn:O in H; [discriminate|]. inversion H; subst v r. exists b, (mkNum o ip f (Some (x, eo, dd))).
    assert (V : num_dec (mkNum o ip f (Some (x, eo, dd))) = ((if neg then - value (ip ++ fp) else value (ip ++ fp))%Z, ((if eneg then - value dd else value dd) - Z.of_nat (List.length fp))%Z)).
    { unfold num_dec, exponent. rewrite Fd. cbn [n_sign n_int n_exp]. fold (minus o). rewrite <- Eo, Eeo. destruct eo as [[|]|]; reflexivity. }
    split; [assumption|]. split; [|split; [split|split]].
    + rewrite Eb, E1, E2, E3, E4, E5. unfold num_text. cbn [n_sign n_int n_frac n_exp exp_text]. rewrite <- !app_assoc. cbn [app]. rewrite <- !app_assoc. reflexivity.
    + unfold num_form. rewrite !Fd. cbn [n_int n_exp]. split; [assumption|]. split; [assumption|]. split; [assumption|]. split; [apply eE_spec; assumption|]. split; [assumption|discriminate].
    + apply finite_overflows. rewrite V. assumption.
    + destruct T5 as [->|[c [u [-> T5]]]]; [exact I|]. cbn. split; [assumption|]. discriminate.
    + rewrite V. reflexivity.
  - apply (Plain (x :: q) eq_refl); [|exact H]. split; intros ->; discriminate.
Qed.

(** ** Lines of numbers *)
Lemma num_text_first : forall n r, num_form n -> exists c q, num_text n ++ r = c :: q /\ isspace c = false.
Proof.
  intros n r F. destruct (num_nonblank n F) as [NB NE]. destruct (num_text n) as [|c t]; [congruence|]. inversion NB; subst. exists c, (t ++ r). auto.
Qed.
Lemma Nums_pad_l : forall a ns s, blank a -> Nums ns s -> Nums ns (a ++ s).
Proof. induction a as [|c a IH]; intros ns s B H; [assumption|]. inversion B; subst. cbn [app]. constructor; auto. Qed.
Lemma Nums_unpad_l : forall a ns s, blank a -> Nums ns (a ++ s) -> Nums ns s.
Proof.
  induction a as [|c a IH]; intros ns s B H; [assumption|]. inversion B as [|? ? B1 B2]; subst. cbn [app] in H.
  assert (G : Nums ns (a ++ s)).
  { remember (c :: a ++ s) as u eqn:U. destruct H as [|c' ns s' C H|n ns r N E H]; [discriminate| |].
    - inversion U; subst. assumption.
    - destruct (num_text_first n r (proj1 N)) as [x [q [X Y]]]. congruence. }
  apply IH; assumption.
Qed.
Lemma Nums_pad_r : forall ns s b, blank b -> Nums ns s -> Nums ns (s ++ b).
Proof.
  intros ns s b B H. induction H as [|c ns s C H IH|n ns r N E H IH].
  - cbn [app]. rewrite <- (app_nil_r b). apply Nums_pad_l; [assumption|constructor].
  - cbn [app]. constructor; assumption.
  - rewrite <- app_assoc. constructor; [assumption| |assumption]. destruct r as [|c r]; [|exact E]. cbn [app]. destruct b as [|c b]; [exact I|]. inversion B; subst. apply ends_blank. assumption.
Qed.
Lemma Nums_blank_nil : forall b, blank b -> forall ns, Nums ns b -> ns = [].
Proof.
  induction b as [|c b IH]; intros B ns H.
  - inversion H as [| |n ? r N E H' Q X]; [reflexivity|]. destruct (num_text_first n r (proj1 N)) as [x [q [Y _]]]. congruence.
  - inversion B; subst. apply IH; [assumption|]. apply (Nums_unpad_l [c] ns b); [constructor; [assumption|constructor]|exact H].
Qed.
Lemma Nums_unpad_r : forall ns u, Nums ns u -> forall s b, u = s ++ b -> blank b -> Nums ns s.
Proof.
  intros ns u H. induction H as [|c ns u C H IH|n ns r N E H IH]; intros s b U B.
  - symmetry in U. apply app_eq_nil in U. destruct U as [-> ->]. constructor.
  - destruct s as [|x s].
    + cbn in U. subst b. inversion B; subst. rewrite (Nums_blank_nil u ltac:(assumption) ns H). constructor.
    + cbn in U. inversion U; subst. constructor; [assumption|]. eapply IH; [reflexivity|assumption].
  - destruct (app_eq_app _ _ _ _ U) as [q [[Q1 Q2]|[Q1 Q2]]].
    + destruct q as [|x q].
      * rewrite app_nil_r in Q1. cbn in Q2. subst b. rewrite <- Q1. rewrite <- (app_nil_r (num_text n)).
        rewrite (Nums_blank_nil r B ns H). constructor; [assumption|exact I|constructor].
      * exfalso. destruct (num_nonblank n (proj1 N)) as [NB _]. rewrite Q1 in NB. apply Forall_app in NB. destruct NB as [_ NB]. inversion NB as [|? ? X1 _]; subst. inversion B; subst. congruence.
    + subst s. constructor; [assumption| |eapply IH; [exact Q2|assumption]]. rewrite Q2 in E. destruct q; [exact I|exact E].
Qed.
Lemma Nums_trim : forall ns s, Nums ns (trim s) <-> Nums ns s.
Proof.
  intros ns s. destruct (trim_split s) as [a [b [E [A B]]]]. split; intros H.
  - rewrite E. apply Nums_pad_l; [assumption|]. apply Nums_pad_r; assumption.
  - rewrite E in H. apply Nums_unpad_l in H; [|assumption]. eapply Nums_unpad_r; [exact H|reflexivity|assumption].
Qed.
Lemma Nums_split : forall n ns s, Nums (n :: ns) s -> exists b r, blank b /\ s = b ++ num_text n ++ r /\ num_ok n /\ ends n r /\ Nums ns r.
Proof.
  intros n ns s H. remember (n :: ns) as l eqn:L. revert n ns L. induction H as [|c l s C H IH|m l r N E H IH]; intros n ns L; [discriminate| |].
  - destruct (IH n ns L) as [b [r [B [Es X]]]]. exists (c :: b), r. split; [constructor; assumption|]. split; [cbn; congruence|assumption].
  - inversion L; subst. exists [], r. split; [constructor|]. auto.
Qed.
Lemma Nums_nil_blank : forall s, Nums [] s -> blank s.
Proof. intros s H. remember [] as l eqn:L. induction H as [|c ns s C H IH|]; [constructor|constructor; [assumption|exact (IH L)]|discriminate]. Qed.

Lemma doubles_complete : forall ns s, Nums ns s -> forall fuel, ns <> [] -> (forall c r, s = r ++ [c] -> isspace c = false) -> List.length s <= fuel -> doubles fuel s = SVal (map num_dec ns).
Proof.
  induction ns as [|n ns IH]; intros s H fuel NE L F; [congruence|]. destruct (Nums_split _ _ _ H) as [b [r [B [Es [N [E Hr]]]]]]. subst s.
  pose proof (num_nonblank n (proj1 N)) as [_ NN]. assert (0 < List.length (num_text n)) by (destruct (num_text n); [congruence|cbn; lia]).
  rewrite !app_length in F. destruct fuel as [|fuel]; [lia|]. cbn [doubles]. rewrite get_double_complete by assumption. destruct r as [|c r].
  - destruct ns as [|m ns]; [reflexivity|]. destruct (Nums_split _ _ _ Hr) as [b' [r' [_ [X [M _]]]]]. destruct (num_nonblank m (proj1 M)) as [_ MM].
    symmetry in X. apply app_eq_nil in X. destruct X as [_ X]. apply app_eq_nil in X. tauto.
  - rewrite IH with (fuel := fuel); [reflexivity|assumption| | |lia].
    + intros ->. apply Nums_nil_blank in Hr. destruct (exists_last (l := c :: r) ltac:(discriminate)) as [q [x X]]. rewrite X in Hr, L.
      specialize (L x (b ++ num_text n ++ q)). rewrite <- !app_assoc in L. specialize (L eq_refl). apply Forall_app in Hr. destruct Hr as [_ Hr]. inversion Hr; congruence.
    + intros x q X. apply (L x (b ++ num_text n ++ q)). rewrite X, <- !app_assoc. reflexivity.
Qed.
Lemma doubles_sound : forall fuel s l, doubles fuel s = SVal l -> exists ns, Nums ns s /\ l = map num_dec ns /\ ns <> [].
Proof.
  induction fuel as [|fuel IH]; intros s l H; [discriminate|]. cbn [doubles] in H. destruct (get_double s) as [[v r]|] eqn:G; [|discriminate].
  destruct (get_double_sound _ _ _ G) as [b [n [B [Es [N [E V]]]]]]. destruct r as [|c r].
  - inversion H; subst. exists [n]. split; [|split; [reflexivity|discriminate]]. apply Nums_pad_l; [assumption|]. constructor; [assumption|exact I|constructor].
  - destruct (doubles fuel (c :: r)) as [l'| | |] eqn:D; try discriminate. cbn in H. inversion H; subst. destruct (IH _ _ D) as [ns [H1 [H2 _]]].
    exists (n :: ns). split; [|split; [cbn; congruence|discriminate]]. apply Nums_pad_l; [assumption|]. constructor; assumption.
Qed.
(** Lower case changes nothing. *)
Lemma lower_space : forall c, isspace (tolower c) = isspace c.
Proof. intros [[] [] [] [] [] [] [] []]; reflexivity. Qed.
Lemma lower_digit : forall c, isdigit (tolower c) = isdigit c.
Proof. intros [[] [] [] [] [] [] [] []]; reflexivity. Qed.
Lemma lower_e : forall c, Ascii.eqb (tolower c) "e" || Ascii.eqb (tolower c) "E" = Ascii.eqb c "e" || Ascii.eqb c "E".
Proof. intros [[] [] [] [] [] [] [] []]; reflexivity. Qed.
Lemma lower_same : forall c, isdigit c = true -> tolower c = c.
Proof. intros [[] [] [] [] [] [] [] []]; intros H; try reflexivity; discriminate. Qed.
Lemma lower_ltrim : forall s, ltrim (map tolower s) = map tolower (ltrim s).
Proof. induction s as [|c s IH]; [reflexivity|]. cbn [map ltrim]. rewrite lower_space. destruct (isspace c); [exact IH|reflexivity]. Qed.
Lemma lower_digits : forall s, digits (map tolower s) = (fst (digits s), map tolower (snd (digits s))).
Proof.
  induction s as [|c s IH]; [reflexivity|]. cbn [map digits]. rewrite lower_digit. destruct (isdigit c) eqn:D; [|reflexivity].
  rewrite IH. destruct (digits s) as [a b]. cbn [fst snd]. rewrite lower_same by assumption. reflexivity.
Qed.
Lemma lower_sign : forall s, sign (map tolower s) = (fst (sign s), map tolower (snd (sign s))).
Proof. intros [|c s]; [reflexivity|]. destruct c as [[] [] [] [] [] [] [] []]; reflexivity. Qed.
Lemma lower_dot : forall s, dot (map tolower s) = (fst (dot s), map tolower (snd (dot s))).
Proof. intros [|c s]; [reflexivity|]. destruct c as [[] [] [] [] [] [] [] []]; try reflexivity. apply lower_digits. Qed.
Lemma lower_double : forall s, get_double (map tolower s) = option_map (fun p => (fst p, map tolower (snd p))) (get_double s).
Proof.
  intros s. rewrite !get_double_eq, lower_ltrim, lower_sign. destruct (sign (ltrim s)) as [neg s1]. cbn [fst snd]. rewrite lower_digits. destruct (digits s1) as [ip s2]. cbn [fst snd].
  rewrite lower_dot. destruct (dot s2) as [fp s3]. cbn [fst snd]. unfold get_exp. destruct (ip ++ fp) as [|c m]; [reflexivity|].
  assert (Fin : forall e q, finish neg (c :: m) (List.length fp) e (map tolower q) = option_map (fun p => (fst p, map tolower (snd p))) (finish neg (c :: m) (List.length fp) e q)).
  { intros e q. unfold finish. destruct (overflows _); reflexivity. }
  destruct s3 as [|x q]; [apply (Fin 0%Z [])|]. cbn [map]. rewrite lower_e. destruct (Ascii.eqb x "e" || Ascii.eqb x "E"); [|apply (Fin 0%Z (x :: q))].
  rewrite lower_sign. destruct (sign q) as [en q1]. cbn [fst snd]. rewrite lower_digits. destruct (digits q1) as [d q2]. cbn [fst snd]. destruct d; [reflexivity|]. apply Fin.
Qed.
Lemma lower_doubles : forall fuel s, doubles fuel (map tolower s) = doubles fuel s.
Proof.
  induction fuel as [|fuel IH]; intros s; [reflexivity|]. cbn [doubles]. rewrite lower_double. destruct (get_double s) as [[v r]|]; [|reflexivity]. cbn [option_map fst snd].
  destruct r as [|c r]; [reflexivity|]. change (map tolower (c :: r)) with (tolower c :: map tolower r) at 1. rewrite <- (IH (c :: r)). reflexivity.
Qed.
Lemma lower_rev : forall s, map tolower (List.rev s) = List.rev (map tolower s). Proof. intros s. apply map_rev. Qed.
Lemma lower_trim : forall s, trim (map tolower s) = map tolower (trim s).
Proof. intros s. unfold trim, rtrim. rewrite <- lower_rev, lower_ltrim, <- lower_rev, lower_ltrim. reflexivity. Qed.

(** Exactly the lines of numbers are read, and the numbers read are those on the line. *)
Definition ascii_only (s : str) : Prop := Forall (fun c => high c = false) s.
Lemma high_free : forall s, existsb high s = false <-> ascii_only s.
Proof.
  unfold ascii_only. induction s as [|c s IH]; cbn; [split; [constructor|reflexivity]|]. rewrite orb_false_iff, IH. split; [intros []; constructor; assumption|intros H; inversion H; auto].
Qed.
Theorem explode_doubles_iff : forall s l, explode_doubles s = SVal l <-> ascii_only s /\ exists ns, Nums ns s /\ l = map num_dec ns.
Proof.
  intros s l. unfold explode_doubles, sanitize. destruct (existsb high s) eqn:H.
  - cbn. split; [discriminate|]. intros [A _]. apply high_free in A. congruence.
  - apply high_free in H. cbn [sbind]. rewrite lower_trim.
    assert (Q : (match map tolower (trim s) with [] => SVal [] | _ :: _ => doubles (List.length (map tolower (trim s))) (map tolower (trim s)) end)
      = match trim s with [] => SVal [] | _ :: _ => doubles (List.length (trim s)) (trim s) end).
    { rewrite lower_doubles, map_length. destruct (trim s); reflexivity. }
    rewrite Q. clear Q. split.
    + intros E. split; [assumption|]. destruct (trim s) as [|c t] eqn:T.
      * inversion E; subst. exists []. split; [|reflexivity]. apply Nums_trim. rewrite T. constructor.
      * rewrite <- T in E. apply doubles_sound in E. destruct E as [ns [E1 [E2 _]]]. exists ns. split; [apply Nums_trim; assumption|assumption].
    + intros [_ [ns [N ->]]]. apply Nums_trim in N. destruct ns as [|n ns].
      * apply Nums_nil_blank in N. destruct (trim s) as [|c t] eqn:T; [reflexivity|]. exfalso. pose proof (trim_stripped s) as [X _]. inversion N; subst. specialize (X c t T). congruence.
      * assert (NE : trim s <> []). { intros X. rewrite X in N. apply Nums_blank_nil in N; [discriminate|constructor]. }
        destruct (trim s) as [|c t] eqn:T; [congruence|]. rewrite <- T in *. apply doubles_complete; [assumption|discriminate| |lia].
        intros x r X. apply (proj2 (trim_stripped s) x r X).
Qed.
Lemma get_bounds_iff : forall n s l, get_bounds n s = SVal l <-> exists ns, Starts ns s /\ List.length ns = n /\ l = map num_dec ns.
Proof.
  induction n as [|n IH]; intros s l; cbn [get_bounds].
  - split.
    + intros H. inversion H. exists []. repeat split. constructor.
    + intros [ns [_ [L ->]]]. destruct ns; [reflexivity|discriminate].
  - split.
    + destruct (get_double s) as [[v r]|] eqn:G; [|discriminate]. destruct (get_double_sound _ _ _ G) as [b [m [B [Es [N [E V]]]]]].
      destruct (get_bounds n r) as [l'| | |] eqn:D; try discriminate. cbn. intros H. inversion H; subst. apply IH in D. destruct D as [ns [S1 [S2 ->]]].
      exists (m :: ns). split; [|split; [cbn; congruence|reflexivity]]. clear - B N E S1. induction b as [|c b IHb]; [constructor; assumption|].
      inversion B; subst. cbn [app]. constructor; auto.
    + intros [ns [S1 [L ->]]]. destruct ns as [|m ns]; [discriminate|]. assert (exists b r, blank b /\ s = b ++ num_text m ++ r /\ num_ok m /\ ends m r /\ Starts ns r) as [b [r [B [-> [N [E Hr]]]]]].
      { clear - S1. remember (m :: ns) as l eqn:L. revert m ns L. induction S1 as [|c n l s C H IH|k l r N E H IH]; intros m ns L; [discriminate| |].
        - inversion L; subst. destruct (IH m ns eq_refl) as [b [r [B [Es X]]]]. exists (c :: b), r. split; [constructor; assumption|]. split; [cbn; congruence|assumption].
        - inversion L; subst. exists [], r. split; [constructor|]. auto. }
      rewrite get_double_complete by assumption. rewrite (proj2 (IH r (map num_dec ns))); [reflexivity|]. exists ns. split; [assumption|]. split; [cbn in L; congruence|reflexivity].
Qed.

(** ** Counts *)
(** [Count s v r]: [s] starts with the unsigned number [v], followed by [r]; a minus makes the number wrap. *)
Definition Count (s : str) (v : Z) (r : str) : Prop := exists b o d, blank b /\ s = b ++ sign_text o ++ d ++ r /\ digs d /\ d <> []
  /\ (r = [] \/ exists c q, r = c :: q /\ isdigit c = false) /\ (value d < 2 ^ 32)%Z /\ v = ((if minus o then - value d else value d) mod 2 ^ 32)%Z.
Lemma get_unsigned_iff : forall s v r, get_unsigned s = Some (v, r) <-> Count s v r.
Proof.
  intros s v r. unfold get_unsigned, Count. split.
  - destruct (ltrim_app s) as [b [Eb B]]. destruct (sign (ltrim s)) as [neg s1] eqn:S1. destruct (sign_cases _ _ _ S1) as [o [E1 Eo]].
    destruct (digits s1) as [d t] eqn:S2. destruct (digits_split _ _ _ S2) as [E2 [D T]]. destruct d as [|c d]; [discriminate|]. set (dd := c :: d) in *.
    destruct (2 ^ 32 <=? value dd)%Z eqn:L; [discriminate|]. intros H. inversion H; subst. exists b, o, dd. apply Z.leb_gt in L.
    split; [assumption|]. split; [rewrite Eb at 1; rewrite E1; reflexivity|]. split; [assumption|]. split; [discriminate|]. auto.
  - intros [b [o [d [B [-> [D [N [T [L ->]]]]]]]]]. rewrite ltrim_blank by assumption.
    assert (X : ltrim (sign_text o ++ d ++ r) = sign_text o ++ d ++ r).
    { destruct o as [[|]|]; [reflexivity|reflexivity|]. cbn [sign_text app]. destruct d as [|c d]; [congruence|]. cbn [app]. apply ltrim_hd. inversion D; subst. apply digit_nonspace. assumption. }
    rewrite X, sign_app by (apply digits_nosign; assumption). rewrite digits_app by assumption. destruct d as [|c d]; [congruence|].
    rewrite (proj2 (Z.leb_gt _ _) L). reflexivity.
Qed.

(** ** Words *)
Lemma words_from_app : forall t r, Forall (fun c => isspace c = false) t -> words_from (t ++ r) = (t ++ fst (words_from r), snd (words_from r)).
Proof.
  induction t as [|c t IH]; intros r H; [cbn; destruct (words_from r); reflexivity|]. inversion H; subst. cbn [app words_from]. rewrite IH by assumption. rewrite H2. reflexivity.
Qed.
Lemma Spaced_words : forall ts s, Spaced ts s -> words s = ts.
Proof.
  intros ts s H. induction H as [|c ts s C H IH|t ts r N B R H IH].
  - reflexivity.
  - unfold words in *. cbn [words_from]. destruct (words_from s) as [h u]. rewrite C. cbn [keep]. exact IH.
  - unfold words in *. rewrite words_from_app by assumption. destruct (words_from r) as [h u] eqn:W. cbn [fst snd].
    assert (X : h = []). { destruct R as [->|[c [q [-> C]]]]; [cbn in W; congruence|]. cbn [words_from] in W. destruct (words_from q) as [h' u']. rewrite C in W. congruence. }
    subst h. rewrite app_nil_r. cbn [keep] in IH. subst u. destruct t; [congruence|reflexivity].
Qed.
Lemma words_Spaced : forall s, Spaced (words s) s.
Proof.
  assert (G : forall n s, List.length s <= n -> Spaced (words s) s).
  { induction n as [|n IH]; intros s L.
    - destruct s; [constructor|cbn in L; lia].
    - destruct s as [|c s]; [constructor|]. destruct (isspace c) eqn:C.
      + unfold words. cbn [words_from]. pose proof (IH s ltac:(cbn in L; lia)) as X. unfold words in X. destruct (words_from s) as [h u]. rewrite C. cbn [keep]. constructor; assumption.
      + assert (exists t r, c :: s = t ++ r /\ t <> [] /\ Forall (fun c => isspace c = false) t /\ (r = [] \/ exists c q, r = c :: q /\ isspace c = true)) as [t [r [E [N [F R]]]]].
        { clear - C. revert c C. induction s as [|x s IH]; intros c C.
          - exists [c], []. repeat split; [discriminate|constructor; [assumption|constructor]|left; reflexivity].
          - destruct (isspace x) eqn:X.
            + exists [c], (x :: s). repeat split; [discriminate|constructor; [assumption|constructor]|right; eauto].
            + destruct (IH x X) as [t [r [E [N [F R]]]]]. exists (c :: t), r. split; [cbn; congruence|]. split; [discriminate|]. split; [constructor; assumption|assumption]. }
        rewrite E in *. assert (Y : Spaced (words r) r). { apply IH. rewrite app_length in L. destruct t; [congruence|cbn in L; lia]. }
        assert (W : Spaced (t :: words r) (t ++ r)) by (constructor; assumption). rewrite (Spaced_words _ _ W). assumption. }
  intros s. apply (G (List.length s) s). lia.
Qed.
(** [Named h nm]: the heading [h] names a material [nm]; a line which is not a heading gives no name. *)
Definition is_heading (h nm : str) : Prop := exists d, Spaced [list_ascii_of_string "XSMACRO"; nm; d] h /\ digs d.
Definition Named (h nm : str) : Prop := is_heading h nm \/ ((forall x, ~ is_heading h x) /\ nm = []).
Lemma forallb_digs : forall d, forallb isdigit d = true <-> digs d.
Proof. intros d. unfold digs. rewrite forallb_forall, Forall_forall. tauto. Qed.
Lemma heading_is : forall h nm, is_heading h nm -> heading h = nm.
Proof.
  intros h nm [d [W D]]. unfold heading. rewrite (Spaced_words _ _ W). destruct (list_eq_dec ascii_dec _ _) as [_|X]; [|congruence].
  rewrite (proj2 (forallb_digs d) D). reflexivity.
Qed.
Lemma heading_iff : forall h nm, heading h = nm <-> Named h nm.
Proof.
  assert (G : forall h, Named h (heading h)).
  { intros h. assert (X : (exists x, is_heading h x) \/ (forall x, ~ is_heading h x) /\ heading h = []).
    { pose proof (words_Spaced h) as W.
      assert (Q : forall x, is_heading h x -> exists d, words h = [list_ascii_of_string "XSMACRO"; x; d] /\ digs d).
      { intros x [d [V D]]. exists d. rewrite (Spaced_words _ _ V). auto. }
      unfold heading. destruct (words h) as [|a [|b [|c [|e l]]]]; try (right; split; [|reflexivity]; intros x X; apply Q in X; destruct X as [? [X _]]; discriminate).
      destruct (list_eq_dec ascii_dec a (list_ascii_of_string "XSMACRO")) as [->|NA].
      - destruct (forallb isdigit c) eqn:D.
        + left. exists b, c. split; [assumption|]. apply forallb_digs. assumption.
        + right. split; [|reflexivity]. intros x X. apply Q in X. destruct X as [d [X Y]]. inversion X; subst. apply forallb_digs in Y. congruence.
      - right. split; [|reflexivity]. intros x X. apply Q in X. destruct X as [d [X Y]]. inversion X; subst. congruence. }
    destruct X as [[x X]|X]; [left; rewrite (heading_is _ _ X); assumption|right; assumption]. }
  intros h nm. split; [intros <-; apply G|]. intros [H|[H ->]]; [apply heading_is; assumption|].
  destruct (G h) as [X|[_ X]]; [destruct (H _ X)|assumption].
Qed.

(** ** The file as a list of lines *)
(** What the lines of a text hold once comments and blanks around are gone and empty ones left out. *)
Definition content (text : str) (ls : list str) : Prop := exists cleaned, Forall2 (Clean ["!"]) (lines text) cleaned /\ ls = filter nonempty cleaned.
Definition content_of (text : str) : list str := filter nonempty (map (clean ["!"]) (lines text)).
Lemma content_of_ok : forall text, content text (content_of text).
Proof. intros text. exists (map (clean ["!"]) (lines text)). split; [|reflexivity]. induction (lines text); cbn; constructor; [apply clean_Clean|assumption]. Qed.
Lemma content_unique : forall text ls, content text ls -> ls = content_of text.
Proof.
  intros text ls [cl [H ->]]. unfold content_of. f_equal. induction H as [|l c t u C H IH]; [reflexivity|]. cbn. rewrite <- IH. f_equal. eapply C56_line; [exact C|apply clean_Clean].
Qed.
Definition pop (ls : list str) : option (str * list str) := Some (hd [] ls, tl ls).

Section Sim.
Variable A : Type.
Variable build : list Dec -> list Dec -> list Dec -> list Dec -> list (list Dec) -> SOut A.
Variable fuel : nat.
Let nx := scrub fuel ["!"].
Definition follows (s : Stream) (ls : list str) : Prop := List.length (rest_lines s) <= fuel /\ filter nonempty (map (clean ["!"]) (rest_lines s)) = ls.
Lemma follows_next : forall s ls, follows s ls -> exists t, nx s = Some (hd [] ls, t) /\ follows t (tl ls).
Proof.
  intros s ls [L E]. destruct (scrub_lines fuel ["!"] s L) as [l [t [H1 [H2 [[-> [H3 H4]]|H3]]]]]; exists t; unfold nx; rewrite H1, <- E, H3; cbn [hd tl]; (split; [reflexivity|split; [lia|]]).
  - rewrite H4. reflexivity.
  - reflexivity.
Qed.
Definition same_rows (a : SOut (list (list Dec) * Stream)) (b : SOut (list (list Dec) * list str)) : Prop :=
  match a, b with
  | SVal (v, t), SVal (w, u) => v = w /\ follows t u
  | SExc, SExc => True | SUB, SUB => True | SMore, SMore => True
  | _, _ => False
  end.
Lemma get_rows_sim : forall n k s ls, follows s ls -> same_rows (get_rows nx n k s) (get_rows pop n k ls).
Proof.
  induction n as [|n IH]; intros k s ls F; cbn [get_rows]; [split; [reflexivity|assumption]|].
  destruct (follows_next s ls F) as [t [E F']]. unfold with_line at 1 2. rewrite E. cbn [pop]. destruct (explode_doubles (hd [] ls)) as [v| | |]; cbn [sbind]; try exact I.
  destruct (negb (List.length v =? k)); [exact I|]. specialize (IH k t (tl ls) F'). destruct (get_rows nx n k t) as [[v1 t1]| | |]; destruct (get_rows pop n k (tl ls)) as [[w1 u1]| | |]; cbn in *; try exact I; try contradiction.
  destruct IH as [-> IH]. auto.
Qed.
Lemma get_materials_sim : forall n ng s ls, follows s ls -> get_materials nx build ng n s = get_materials pop build ng n ls.
Proof.
  induction n as [|n IH]; intros ng s ls F; cbn [get_materials]; [reflexivity|].
  destruct (follows_next s ls F) as [t [E F']]. unfold with_line at 1 2. rewrite E. cbn [pop].
  pose proof (get_rows_sim ng 4 t (tl ls) F') as Q. destruct (get_rows nx ng 4 t) as [[v1 t1]| | |]; destruct (get_rows pop ng 4 (tl ls)) as [[w1 u1]| | |]; cbn in Q; try contradiction; try reflexivity.
  destruct Q as [-> F1]. cbn [sbind fst snd]. pose proof (get_rows_sim ng ng t1 u1 F1) as Q. destruct (get_rows nx ng ng t1) as [[v2 t2]| | |]; destruct (get_rows pop ng ng u1) as [[w2 u2]| | |]; cbn in Q; try contradiction; try reflexivity.
  destruct Q as [-> F2]. cbn [sbind fst snd]. destruct (build _ _ _ _ _); cbn [sbind]; try reflexivity. rewrite (IH ng t2 u2 F2). reflexivity.
Qed.
Lemma get_library_sim : forall s ls, follows s ls -> get_library nx build s = get_library pop build ls.
Proof.
  intros s ls F. unfold get_library. destruct (follows_next s ls F) as [t [E F']]. unfold with_line at 1 4. rewrite E. cbn [pop].
  destruct (follows_next t (tl ls) F') as [t2 [E2 F2]]. unfold with_line at 1 3. rewrite E2. cbn [pop].
  destruct (get_unsigned (hd [] (tl ls))) as [[ng r]|]; [|reflexivity]. destruct (get_unsigned r) as [[nm q]|]; [|reflexivity].
  destruct (follows_next t2 (tl (tl ls)) F2) as [t3 [E3 F3]]. unfold with_line. rewrite E3. cbn [pop]. destruct (get_bounds _ _); cbn [sbind]; try reflexivity.
  rewrite (get_materials_sim (Z.to_nat nm) (Z.to_nat ng) t3 _ F3). reflexivity.
Qed.
End Sim.
Lemma lines_length : forall s, List.length (lines s) <= S (List.length s).
Proof. induction s as [|c s IH]; cbn [lines]; [cbn; lia|]. destruct (Ascii.eqb c "010"); [cbn in *; lia|]. destruct (lines s); cbn in *; lia. Qed.
Lemma read_library_lines : forall A (build : list Dec -> list Dec -> list Dec -> list Dec -> list (list Dec) -> SOut A) text,
  read_library build text = get_library pop build (content_of text).
Proof. intros A build text. unfold read_library. apply get_library_sim. split; [apply lines_length|reflexivity]. Qed.

(** ** What is accepted *)
Definition Row (k : nat) (l : str) (ns : list Num) : Prop := ascii_only l /\ Nums ns l /\ List.length ns = k.
Definition Rows (k n i : nat) (ls : list str) (rows : list (list Num)) : Prop :=
  List.length rows = n /\ forall g ns, nth_error rows g = Some ns -> Row k (nth (i + g) ls []) ns.
Lemma nth_tl : forall (ls : list str) i, nth i (tl ls) [] = nth (S i) ls [].
Proof. intros [|l ls] i; [destruct i; reflexivity|reflexivity]. Qed.
Lemma nth_skip : forall (ls : list str) n i, nth i (skipn n ls) [] = nth (n + i) ls [].
Proof. induction ls as [|l ls IH]; intros n i; [rewrite skipn_nil; destruct i, n; reflexivity|]. destruct n; [reflexivity|]. cbn. apply IH. Qed.
Lemma hd_nth : forall (ls : list str), hd [] ls = nth 0 ls []. Proof. intros [|? ?]; reflexivity. Qed.
Lemma tl_skip : forall (ls : list str), tl ls = skipn 1 ls. Proof. intros [|? ?]; reflexivity. Qed.
Lemma skip_skip : forall (ls : list str) a b, skipn a (skipn b ls) = skipn (b + a) ls.
Proof. induction ls as [|l ls IH]; intros a b; [rewrite !skipn_nil; reflexivity|]. destruct b; [reflexivity|]. cbn. apply IH. Qed.
Lemma get_rows_iff : forall n k i ls vs rest, get_rows pop n k (skipn i ls) = SVal (vs, rest) <->
  (exists rows, Rows k n i ls rows /\ vs = map (map num_dec) rows) /\ rest = skipn (i + n) ls.
Proof.
  induction n as [|n IH]; intros k i ls vs rest; cbn [get_rows].
  - rewrite Nat.add_0_r. split.
    + intros H. inversion H. split; [|reflexivity]. exists []. split; [|reflexivity]. split; [reflexivity|]. intros [|g] ns X; discriminate.
    + intros [[rows [[L _] ->]] ->]. destruct rows; [reflexivity|discriminate].
  - unfold with_line, pop. rewrite hd_nth, nth_skip, Nat.add_0_r, tl_skip, skip_skip. destruct (explode_doubles (nth i ls [])) as [v| | |] eqn:E; cbn [sbind].
    + apply explode_doubles_iff in E. destruct E as [Asc [ns [N V]]]. destruct (List.length v =? k) eqn:K; cbn [negb].
      * apply Nat.eqb_eq in K. assert (K' : List.length ns = k) by (rewrite V, map_length in K; assumption). split.
        -- destruct (get_rows _ n k _) as [[w t]| | |] eqn:G; try discriminate. cbn [sbind fst snd]. intros H. inversion H; subst vs rest. apply IH in G. destruct G as [[rows [[R1 R2] ->]] ->].
           split; [|f_equal; lia]. exists (ns :: rows). split; [|cbn; congruence]. split; [cbn; lia|]. intros [|g] ms X.
           ++ inversion X; subst ms. rewrite Nat.add_0_r. split; [assumption|]. split; assumption.
           ++ cbn in X. specialize (R2 g ms X). replace (i + S g) with (i + 1 + g) by lia. assumption.
        -- intros [[rows [[R1 R2] ->]] ->]. destruct rows as [|ms rows]; [discriminate|]. assert (G : get_rows pop n k (skipn (i + 1) ls) = SVal (map (map num_dec) rows, skipn (i + 1 + n) ls)).
           { apply IH. split; [|reflexivity]. exists rows. split; [|reflexivity]. split; [cbn in R1; lia|]. intros g x X. specialize (R2 (S g) x X). replace (i + 1 + g) with (i + S g) by lia. assumption. }
           unfold pop in G. rewrite G. cbn [sbind fst snd]. destruct (R2 0 ms eq_refl) as [_ [N' _]]. rewrite Nat.add_0_r in N'.
           assert (X : map num_dec ms = v). { assert (Y : explode_doubles (nth i ls []) = SVal (map num_dec ms)) by (apply explode_doubles_iff; eauto). assert (Z : explode_doubles (nth i ls []) = SVal v) by (apply explode_doubles_iff; eauto). congruence. }
           cbn [map]. rewrite X. do 3 f_equal. lia.
      * split; [discriminate|]. intros [[rows [[R1 R2] _]] _]. exfalso. destruct rows as [|ms rows]; [discriminate|]. destruct (R2 0 ms eq_refl) as [_ [N' L']]. rewrite Nat.add_0_r in N'.
        assert (X : map num_dec ms = v). { assert (Y : explode_doubles (nth i ls []) = SVal (map num_dec ms)) by (apply explode_doubles_iff; eauto). assert (Z : explode_doubles (nth i ls []) = SVal v) by (apply explode_doubles_iff; eauto). congruence. }
        apply Nat.eqb_neq in K. rewrite <- X, map_length in K. congruence.
    + split; [discriminate|]. intros [[rows [[R1 R2] _]] _]. exfalso. destruct rows as [|ms rows]; [discriminate|]. destruct (R2 0 ms eq_refl) as [A' [N' L']]. rewrite Nat.add_0_r in *.
      assert (Y : explode_doubles (nth i ls []) = SVal (map num_dec ms)) by (apply explode_doubles_iff; eauto). congruence.
    + split; [discriminate|]. intros [[rows [[R1 R2] _]] _]. exfalso. destruct rows as [|ms rows]; [discriminate|]. destruct (R2 0 ms eq_refl) as [A' [N' L']]. rewrite Nat.add_0_r in *.
      assert (Y : explode_doubles (nth i ls []) = SVal (map num_dec ms)) by (apply explode_doubles_iff; eauto). congruence.
    + split; [discriminate|]. intros [[rows [[R1 R2] _]] _]. exfalso. destruct rows as [|ms rows]; [discriminate|]. destruct (R2 0 ms eq_refl) as [A' [N' L']]. rewrite Nat.add_0_r in *.
      assert (Y : explode_doubles (nth i ls []) = SVal (map num_dec ms)) by (apply explode_doubles_iff; eauto). congruence.
Qed.
(** The data of a material as written. *)
Record MatText := mkMatText { mt_name : str; mt_xs : list (list Num); mt_sc : list (list Num) }.
(** A material with its heading on line [i] of the contents, counted from zero. *)
Definition MatAt (ng i : nat) (ls : list str) (m : MatText) : Prop :=
  Named (nth i ls []) (mt_name m) /\ Rows 4 ng (i + 1) ls (mt_xs m) /\ Rows ng ng (i + 1 + ng) ls (mt_sc m).
Definition dec_build {A} (build : list Dec -> list Dec -> list Dec -> list Dec -> list (list Dec) -> SOut A) (m : MatText) : SOut A :=
  let xs := map (map num_dec) (mt_xs m) in
  build (column (0, 0)%Z 0 xs) (column (0, 0)%Z 1 xs) (column (0, 0)%Z 2 xs) (column (0, 0)%Z 3 xs) (map (map num_dec) (mt_sc m)).
Lemma get_materials_iff : forall A (build : list Dec -> list Dec -> list Dec -> list Dec -> list (list Dec) -> SOut A) n ng i ls l,
  get_materials pop build ng n (skipn i ls) = SVal l <->
  exists mats, List.length mats = n /\ (forall j m, nth_error mats j = Some m -> MatAt ng (i + j * (1 + 2 * ng)) ls m)
    /\ Forall2 (fun m p => fst p = mt_name m /\ dec_build build m = SVal (snd p)) mats l.
Proof.
  intros A build. induction n as [|n IH]; intros ng i ls l; cbn [get_materials].
  - split.
    + intros H. inversion H; subst. exists []. split; [reflexivity|]. split; [intros [|j] m X; discriminate|constructor].
    + intros [mats [L [_ F]]]. destruct mats; [|discriminate]. inversion F; subst. reflexivity.
  - unfold with_line. unfold pop at 1. rewrite hd_nth, nth_skip, Nat.add_0_r, tl_skip, skip_skip. split.
    + destruct (get_rows pop ng 4 (skipn (i + 1) ls)) as [[vs u]| | |] eqn:G1; try discriminate. cbn [sbind fst snd].
      apply get_rows_iff in G1. destruct G1 as [[xs [R1 ->]] ->].
      destruct (get_rows pop ng ng (skipn (i + 1 + ng) ls)) as [[ws u]| | |] eqn:G2; try discriminate. cbn [sbind fst snd]. apply get_rows_iff in G2. destruct G2 as [[sc [R2 ->]] ->].
      destruct (build _ _ _ _ _) as [a| | |] eqn:B; try discriminate. cbn [sbind]. destruct (get_materials pop build ng n _) as [l'| | |] eqn:G3; try discriminate. cbn [sbind]. intros H. inversion H; subst l.
      apply IH in G3. destruct G3 as [mats [M1 [M2 M3]]]. exists (mkMatText (heading (nth i ls [])) xs sc :: mats). split; [cbn; lia|]. split.
      * intros [|j] m X.
        -- inversion X; subst m. replace (i + 0 * (1 + 2 * ng)) with i by lia. split; [cbn; apply heading_iff; reflexivity|]. split; assumption.
        -- cbn [nth_error] in X. specialize (M2 j m X). replace (i + S j * (1 + 2 * ng)) with (i + 1 + ng + ng + j * (1 + 2 * ng)) by lia. assumption.
      * constructor; [|assumption]. split; [reflexivity|]. exact B.
    + intros [mats [M1 [M2 M3]]]. destruct mats as [|m mats]; [discriminate|]. inversion M3 as [|? [nm a] ? l' [P1 P2] M3']; subst. cbn [fst snd] in *.
      pose proof (M2 0 m eq_refl) as [Q1 [Q2 Q3]]. replace (i + 0 * (1 + 2 * ng)) with i in * by lia.
      rewrite (proj2 (get_rows_iff ng 4 (i + 1) ls (map (map num_dec) (mt_xs m)) (skipn (i + 1 + ng) ls))) by (split; [eauto|reflexivity]). cbn [sbind fst snd].
      rewrite (proj2 (get_rows_iff ng ng (i + 1 + ng) ls (map (map num_dec) (mt_sc m)) (skipn (i + 1 + ng + ng) ls))) by (split; [eauto|reflexivity]). cbn [sbind fst snd].
      unfold dec_build in P2. rewrite P2. cbn [sbind]. rewrite (proj2 (IH ng (i + 1 + ng + ng) ls l')).
      * cbn [sbind]. apply heading_iff in Q1. rewrite Q1, P1. reflexivity.
      * exists mats. split; [cbn in M1; lia|]. split; [|assumption]. intros j x X. specialize (M2 (S j) x X). replace (i + 1 + ng + ng + j * (1 + 2 * ng)) with (i + S j * (1 + 2 * ng)) by lia. assumption.
Qed.
(** The numbers of groups and materials, the bounds and the materials of a file with the contents [ls]. *)
Definition Library (ls : list str) (ng nm : Z) (bs : list Num) (mats : list MatText) : Prop :=
  (exists r q, Count (nth 1 ls []) ng r /\ Count r nm q) /\ Starts bs (nth 2 ls []) /\ List.length bs = Z.to_nat ng
  /\ List.length mats = Z.to_nat nm /\ forall j m, nth_error mats j = Some m -> MatAt (Z.to_nat ng) (3 + j * (1 + 2 * Z.to_nat ng)) ls m.
Lemma Count_unique : forall s v r v' r', Count s v r -> Count s v' r' -> v = v' /\ r = r'.
Proof. intros s v r v' r' H H'. apply get_unsigned_iff in H, H'. rewrite H in H'. inversion H'. auto. Qed.
Lemma get_library_iff : forall A (build : list Dec -> list Dec -> list Dec -> list Dec -> list (list Dec) -> SOut A) ls ng bs l,
  get_library pop build ls = SVal (ng, bs, l) <->
  exists nm bn mats, Library ls ng nm bn mats /\ bs = map num_dec bn /\ Forall2 (fun m p => fst p = mt_name m /\ dec_build build m = SVal (snd p)) mats l.
Proof.
  intros A build ls ng bs l. unfold get_library, with_line. unfold pop at 1 2 3. rewrite !hd_nth, !nth_tl, !tl_skip, !skip_skip. split.
  - destruct (get_unsigned (nth 1 ls [])) as [[g r]|] eqn:U1; [|discriminate]. destruct (get_unsigned r) as [[nm q]|] eqn:U2; [|discriminate].
    destruct (get_bounds _ _) as [b| | |] eqn:B; try discriminate. cbn [sbind]. destruct (get_materials _ _ _ _ _) as [ms| | |] eqn:M; try discriminate. cbn [sbind]. intros H. inversion H; subst.
    apply get_unsigned_iff in U1, U2. apply get_bounds_iff in B. destruct B as [bn [B1 [B2 ->]]]. change (1 + 1 + 1) with 3 in M. apply get_materials_iff in M. destruct M as [mats [M1 [M2 M3]]].
    exists nm, bn, mats. split; [|auto]. split; [eauto|]. split; [assumption|]. split; [assumption|]. auto.
  - intros [nm [bn [mats [[[r [q [U1 U2]]] [B1 [B2 [M1 M2]]]] [-> F]]]]]. apply get_unsigned_iff in U1, U2. rewrite U1, U2.
    rewrite (proj2 (get_bounds_iff _ _ (map num_dec bn))) by eauto. cbn [sbind]. assert (G : get_materials pop build (Z.to_nat ng) (Z.to_nat nm) (skipn 3 ls) = SVal l); [|unfold pop in G |- *; cbn [Nat.add] in *; rewrite G; reflexivity].
    apply get_materials_iff.
    exists mats. auto.
Qed.

(** ** Reading always ends *)
Lemma doubles_ends : forall fuel s, List.length s <= fuel -> s <> [] -> doubles fuel s <> SMore /\ doubles fuel s <> SUB.
Proof.
  induction fuel as [|fuel IH]; intros s L N; [destruct s; [congruence|cbn in L; lia]|]. cbn [doubles]. destruct (get_double s) as [[v r]|] eqn:G; [|split; discriminate].
  destruct r as [|c r]; [split; discriminate|]. destruct (get_double_sound _ _ _ G) as [b [n [_ [E [Nm _]]]]]. destruct (num_nonblank n (proj1 Nm)) as [_ X].
  assert (0 < List.length (num_text n)) by (destruct (num_text n); [congruence|cbn; lia]). rewrite E, !app_length in L.
  destruct (IH (c :: r) ltac:(lia) ltac:(discriminate)). destruct (doubles fuel (c :: r)); cbn [sbind]; split; congruence.
Qed.
Lemma explode_ends : forall s, explode_doubles s <> SMore.
Proof.
  intros s. unfold explode_doubles, sanitize. destruct (existsb high s); cbn [sbind]; [discriminate|]. destruct (trim (map tolower s)) as [|c t] eqn:T; [discriminate|].
  apply doubles_ends; [lia|discriminate].
Qed.
Lemma get_rows_ends : forall n k ls, get_rows pop n k ls <> SMore.
Proof.
  induction n as [|n IH]; intros k ls; cbn [get_rows]; [discriminate|]. unfold with_line. unfold pop at 1. pose proof (explode_ends (hd [] ls)). destruct (explode_doubles (hd [] ls)); cbn [sbind]; try congruence.
  destruct (negb _); [discriminate|]. specialize (IH k (tl ls)). destruct (get_rows pop n k (tl ls)); cbn [sbind]; congruence.
Qed.
Lemma get_bounds_ends : forall n s, get_bounds n s <> SMore /\ get_bounds n s <> SUB.
Proof.
  induction n as [|n IH]; intros s; cbn [get_bounds]; [split; discriminate|]. destruct (get_double s) as [[v r]|]; [|split; discriminate]. destruct (IH r). destruct (get_bounds n r); cbn [sbind]; split; congruence.
Qed.
Lemma get_materials_ends : forall A (build : list Dec -> list Dec -> list Dec -> list Dec -> list (list Dec) -> SOut A),
  (forall a b c d e, build a b c d e <> SMore) -> forall n ng ls, get_materials pop build ng n ls <> SMore.
Proof.
  intros A build Hb. induction n as [|n IH]; intros ng ls; cbn [get_materials]; [discriminate|]. unfold with_line. unfold pop at 1.
  pose proof (get_rows_ends ng 4 (tl ls)). destruct (get_rows pop ng 4 (tl ls)) as [[v t]| | |]; cbn [sbind fst snd]; try congruence.
  pose proof (get_rows_ends ng ng t). destruct (get_rows pop ng ng t) as [[w u]| | |]; cbn [sbind fst snd]; try congruence.
  match goal with |- sbind (build ?a ?b ?c ?d ?e) _ <> _ => pose proof (Hb a b c d e); destruct (build a b c d e) end; cbn [sbind]; try congruence.
  specialize (IH ng u). destruct (get_materials pop build ng n u); cbn [sbind]; congruence.
Qed.
Lemma read_library_ends : forall A (build : list Dec -> list Dec -> list Dec -> list Dec -> list (list Dec) -> SOut A) text,
  (forall a b c d e, build a b c d e <> SMore) -> read_library build text <> SMore.
Proof.
  intros A build text Hb. rewrite read_library_lines. unfold get_library, with_line. unfold pop at 1 2 3. destruct (get_unsigned _) as [[ng r]|]; [|discriminate]. destruct (get_unsigned r) as [[nm q]|]; [|discriminate].
  match goal with |- sbind (get_bounds ?a ?b) _ <> _ => pose proof (get_bounds_ends a b) as [X _]; destruct (get_bounds a b) end; cbn [sbind]; try congruence.
  match goal with |- sbind (get_materials pop build ?a ?b ?c) _ <> _ => pose proof (get_materials_ends A build Hb b a c) as Y; destruct (get_materials pop build a b c) end; cbn [sbind]; congruence.
Qed.
