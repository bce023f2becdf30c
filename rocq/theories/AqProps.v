(** C126 - C129: quadratures a user writes down, quadrature files, assignment and the weight update. *)
From Coq Require Import ZArith List Lia Bool Reals Lra.
From Verif Require Import RUtil FpModel FpProps MeshModel MeshProofs AngModel AngProofs AngProps AqModel.
Import ListNotations.
Open Scope R_scope.

(** The interval standing for the comparison with one is the comparison on bit patterns. *)
Definition bits_one : Z := 4607182418800017408.
Lemma value_one : forall k, (-199 <= k <= 199)%Z -> value (bits_one + k) = if (k <? 0)%Z then 1 + IZR k / 2 ^ 53 else 1 + IZR k / 2 ^ 52.
Proof.
  intros k K. unfold value, sign_bit, mag_bits, bits_one, two63.
  destruct (Z.leb_spec 9223372036854775808 (4607182418800017408 + k)); [lia|]. destruct (Z.ltb_spec (4607182418800017408 + k) 9223372036854775808); [|lia].
  unfold mag, two52.
  assert (P53 : powerRZ 2 (-53) = / 2 ^ 53) by (cbn; f_equal; ring). assert (P52 : powerRZ 2 (-52) = / 2 ^ 52) by (cbn; f_equal; ring).
  destruct (Z.ltb_spec k 0) as [N|N].
  - assert (E : ((4607182418800017408 + k) / 4503599627370496 = 1022)%Z) by (symmetry; apply (Z.div_unique _ _ 1022 (4503599627370496 + k)); lia).
    assert (M : ((4607182418800017408 + k) mod 4503599627370496 = 4503599627370496 + k)%Z) by (symmetry; apply (Z.mod_unique _ _ 1022 (4503599627370496 + k)); lia).
    rewrite E, M. change (1022 =? 0)%Z with false. cbv iota. change (1022 - 1075)%Z with (-53)%Z. rewrite P53, !plus_IZR. field.
  - assert (E : ((4607182418800017408 + k) / 4503599627370496 = 1023)%Z) by (symmetry; apply (Z.div_unique _ _ 1023 k); lia).
    assert (M : ((4607182418800017408 + k) mod 4503599627370496 = k)%Z) by (symmetry; apply (Z.mod_unique _ _ 1023 k); lia).
    rewrite E, M. change (1023 =? 0)%Z with false. cbv iota. change (1023 - 1075)%Z with (-52)%Z. rewrite P52, !plus_IZR. field.
Qed.
Lemma near_one_bits : forall b, finite b -> sign_bit b = false -> fp_equiv_ulp b bits_one = Some (near_one (value b)).
Proof.
  intros b F Sb.
  assert (FK : forall k, (-199 <= k <= 199)%Z -> finite (bits_one + k) /\ sign_bit (bits_one + k) = false).
  { intros k K. unfold sign_bit. split; [|unfold bits_one, two63; destruct (Z.leb_spec 9223372036854775808 (4607182418800017408 + k)); [lia|reflexivity]].
    unfold finite. split; [unfold bits_one, two63; lia|]. unfold mag_bits, bits_one, two63, two52. destruct (Z.ltb_spec (4607182418800017408 + k) 9223372036854775808); [|lia]. apply Z.div_lt_upper_bound; lia. }
  destruct (FK (-199)%Z ltac:(lia)) as [F1 S1]. destruct (FK 199%Z ltac:(lia)) as [F2 S2]. destruct (FK 0%Z ltac:(lia)) as [F0 S0]. rewrite Z.add_0_r in F0, S0.
  pose proof (value_one (-199)%Z ltac:(lia)) as V1. pose proof (value_one 199%Z ltac:(lia)) as V2. cbv iota beta in V1, V2. change (-199 <? 0)%Z with true in V1. change (199 <? 0)%Z with false in V2. cbv iota in V1, V2.
  assert (U : fp_equiv_ulp b bits_one = Some (Z.abs (b - bits_one) <? 200)%Z).
  { destruct (C76_ulp b bits_one F F0 ltac:(congruence) ltac:(congruence)) as [[E D]|[E D]]; rewrite E; f_equal; symmetry;
    (assert (MB : mag_bits b = b) by (unfold sign_bit in Sb; unfold mag_bits; apply Z.leb_gt in Sb; destruct (Z.ltb_spec b two63); [reflexivity|lia]));
    rewrite MB in D; change (mag_bits bits_one) with bits_one in D; [apply Z.ltb_lt|apply Z.ltb_ge]; lia. }
  rewrite U. f_equal. unfold near_one.
  pose proof (C76_order b (bits_one + -199) F F1 Sb S1) as O1. pose proof (C76_order (bits_one + 199) b F2 F S2 Sb) as O2. rewrite V1 in O1. rewrite V2 in O2.
  assert (V1' : 1 + -199 / 2 ^ 53 = 1 - 199 / 2 ^ 53) by lra. rewrite V1' in O1. clear V1 V1' V2 U FK.
  destruct (Rleb_spec (1 - 199 / 2 ^ 53) (value b)) as [A|A], (Rleb_spec (value b) (1 + 199 / 2 ^ 52)) as [B|B]; cbn [andb];
    [apply Z.ltb_lt|apply Z.ltb_ge|apply Z.ltb_ge|apply Z.ltb_ge].
  - assert (~ (b < bits_one + -199)%Z) by (intros C; apply O1 in C; lra). assert (~ (bits_one + 199 < b)%Z) by (intros C; apply O2 in C; lra). lia.
  - assert ((bits_one + 199 < b)%Z) by (apply O2; lra). lia.
  - assert ((b < bits_one + -199)%Z) by (apply O1; lra). lia.
  - assert ((b < bits_one + -199)%Z) by (apply O1; lra). lia.
Qed.

(** ** C126: accepted user quadratures *)

(** The length of a direction. *)
Definition norm (d : Dir) : R := sqrt (ox d * ox d + oy d * oy d + oz d * oz d).
(** Equal to one up to the tolerance of the comparison. *)
Definition about_one (x : R) : Prop := 1 - 199 / 2 ^ 53 <= x <= 1 + 199 / 2 ^ 52.
Lemma near_one_spec : forall x, near_one x = true <-> about_one x.
Proof. intros x. unfold near_one, about_one. rewrite andb_true_iff. destruct (Rleb_spec (1 - 199 / 2 ^ 53) x), (Rleb_spec x (1 + 199 / 2 ^ 52)); split; intros [? ?]; split; congruence || lra || reflexivity. Qed.
Lemma about_one_1 : about_one 1.
Proof. unfold about_one. assert (0 < 2 ^ 53) by (apply pow_lt; lra). assert (0 < 2 ^ 52) by (apply pow_lt; lra). assert (0 < 199 / 2 ^ 53) by (apply Rdiv_lt_0_compat; lra). assert (0 < 199 / 2 ^ 52) by (apply Rdiv_lt_0_compat; lra). lra. Qed.

Lemma angle_inv : forall x a, angle_of x = Some a -> 0 < weight a /\ x_weight x = Some (weight a) /\
  ((exists cx cy cz, x_ox x = Some cx /\ x_oy x = Some cy /\ x_oz x = Some cz /\ x_alpha x = None /\ x_theta x = None /\
      adir a = dir_cosines cx cy cz /\ -1 < cx < 1 /\ -1 < cy < 1 /\ -1 < cz < 1 /\ about_one (norm (adir a))) \/
   (exists al t, x_alpha x = Some al /\ x_ox x = None /\ x_oy x = None /\ x_oz x = None /\ (x_theta x = Some t \/ x_theta x = None /\ t = 0) /\
      adir a = dir_angles al t /\ - (PI / 2) < t < PI / 2 /\ 0 < al < 2 * PI /\ al <> PI / 2 /\ al <> PI /\ al <> 3 * (PI / 2))).
Proof.
  intros x a E. unfold angle_of in E.
  destruct (Rleb_spec (or_else (x_weight x) 0) 0) as [W|W]; [discriminate|].
  assert (XW : x_weight x = Some (or_else (x_weight x) 0)) by (destruct (x_weight x); [reflexivity|cbn [or_else] in W; lra]).
  destruct (x_ox x) as [cx|] eqn:X; cbn [given or_else] in E.
  - destruct (x_alpha x) eqn:A; cbn [given orb] in E; [discriminate|]. destruct (x_theta x) eqn:T; cbn [given orb] in E; [discriminate|].
    destruct (Rleb_spec cx (-1)); cbn [orb] in E; [discriminate|]. destruct (Rleb_spec 1 cx); cbn [orb] in E; [discriminate|].
    destruct (Rleb_spec (or_else (x_oy x) 2) (-1)); cbn [orb] in E; [discriminate|]. destruct (Rleb_spec 1 (or_else (x_oy x) 2)); cbn [orb] in E; [discriminate|].
    destruct (Rleb_spec (or_else (x_oz x) 2) (-1)); cbn [orb] in E; [discriminate|]. destruct (Rleb_spec 1 (or_else (x_oz x) 2)); cbn [orb] in E; [discriminate|].
    match type of E with context [near_one ?e] => destruct (near_one e) eqn:N end; cbn [negb] in E; [|discriminate]. injection E as <-. cbn [weight adir].
    split; [lra|]. split; [exact XW|]. left. destruct (x_oy x) as [cy|] eqn:Y; cbn [or_else] in *; [|lra]. destruct (x_oz x) as [cz|] eqn:Zz; cbn [or_else] in *; [|lra].
    exists cx, cy, cz. apply near_one_spec in N. unfold norm, dir_cosines. cbn [ox oy oz]. do 6 (split; [reflexivity|]). do 3 (split; [lra|]). exact N.
  - destruct (x_alpha x) as [al|] eqn:A; cbn [given] in E; [|discriminate].
    destruct (x_oy x) eqn:Y; cbn [given orb] in E; [discriminate|]. destruct (x_oz x) eqn:Zz; cbn [given orb] in E; [discriminate|]. cbn [or_else] in E.
    destruct (Rleb_spec (or_else (x_theta x) 0) (- (PI / 2))); cbn [orb] in E; [discriminate|]. destruct (Rleb_spec (PI / 2) (or_else (x_theta x) 0)); cbn [orb] in E; [discriminate|].
    destruct (Rltb_spec al 0); cbn [orb] in E; [discriminate|]. destruct (Rleb_spec (2 * PI) al); cbn [orb] in E; [discriminate|].
    destruct (Reqb_spec al 0); cbn [orb] in E; [discriminate|]. destruct (Reqb_spec al (PI / 2)); cbn [orb] in E; [discriminate|].
    destruct (Reqb_spec al PI); cbn [orb] in E; [discriminate|]. destruct (Reqb_spec al (3 * (PI / 2))); cbn [orb] in E; [discriminate|].
    injection E as <-. cbn [weight adir]. split; [lra|]. split; [exact XW|]. right. exists al, (or_else (x_theta x) 0).
    do 4 (split; [reflexivity|]). split; [destruct (x_theta x); [left|right]; cbn [or_else]; auto|]. split; [reflexivity|]. split; [lra|]. split; [lra|]. auto.
Qed.
Lemma angles_inv : forall xs l, angles_of xs = Some l -> Forall2 (fun x a => angle_of x = Some a) xs l.
Proof.
  induction xs as [|x xs IH]; cbn [angles_of]; intros l E; [injection E as <-; constructor|].
  destruct (angle_of x) eqn:A; [|discriminate]. destruct (angles_of xs); [|discriminate]. injection E as <-. constructor; auto.
Qed.
Lemma user_inv : forall xs l, user_angles xs = Some l -> Forall2 (fun x a => angle_of x = Some a) xs l /\ Forall first_octant l /\ about_one (wsum l).
Proof.
  intros xs l E. unfold user_angles in E. destruct (angles_of xs) as [m|] eqn:A; [|discriminate]. destruct (existsb outside m) eqn:O; [discriminate|].
  rewrite fold_wsum in E. destruct (near_one (0 + wsum m)) eqn:N; [|discriminate]. cbn [negb] in E. injection E as <-. apply near_one_spec in N. rewrite Rplus_0_l in N.
  split; [apply angles_inv; exact A|]. split; [|exact N]. apply Forall_forall. intros a I n.
  assert (Q : outside a = false). { destruct (outside a) eqn:Q; [|reflexivity]. assert (existsb outside m = true) by (apply existsb_exists; exists a; auto). congruence. }
  unfold outside in Q. apply orb_false_iff in Q. destruct Q as [Q Qz]. apply orb_false_iff in Q. destruct Q as [Qx Qy].
  destruct (Rltb_spec (ox (adir a)) 0); [discriminate|]. destruct (Rltb_spec (oy (adir a)) 0); [discriminate|]. destruct (Rltb_spec (oz (adir a)) 0); [discriminate|]. destruct n; cbn [cosine]; lra.
Qed.

(** C126: what an accepted user quadrature satisfies: one angle per tag, in order, with the weight written down, which
    is positive; weights sum to one; directions have unit length and no negative component; at least one angle. *)
Theorem C126_accepted : forall xs l, user_angles xs = Some l ->
  l <> [] /\ about_one (wsum l) /\
  Forall2 (fun x a => x_weight x = Some (weight a) /\ 0 < weight a /\ about_one (norm (adir a)) /\ (forall n, 0 <= cosine (adir a) n) /\
             (forall c, x_ox x = Some c -> ox (adir a) = c) /\ (forall c, x_oy x = Some c -> oy (adir a) = c) /\ (forall c, x_oz x = Some c -> oz (adir a) = c) /\
             (forall al, x_alpha x = Some al -> alpha (adir a) = al) /\ (forall t, x_theta x = Some t -> theta (adir a) = t)) xs l.
Proof.
  intros xs l E. destruct (user_inv xs l E) as (F & O & W). split; [|split; [exact W|]].
  - intros ->. unfold about_one in W. cbn [wsum fold_right] in W. assert (B : 199 / 2 ^ 53 < 1). { apply Rmult_lt_reg_r with (2 ^ 53); [apply pow_lt; lra|]. unfold Rdiv. rewrite Rmult_assoc, Rinv_l, Rmult_1_r by (apply pow_nonzero; lra). cbn. lra. } unfold wsum in W. cbn in W, B. lra.
  - clear E W. induction F as [|x a xs l A F IH]; [constructor|]. inversion O as [|? ? Oa Ol]; subst. constructor; [|apply IH; exact Ol].
    destruct (angle_inv x a A) as (P & XW & C). split; [exact XW|]. split; [exact P|].
    destruct C as [(cx & cy & cz & X & Y & Zz & Al & T & D & _ & _ & _ & N)|(al & t & Al & X & Y & Zz & T & D & _)].
    + split; [exact N|]. split; [exact Oa|]. rewrite X, Y, Zz, Al, T, D. unfold dir_cosines. cbn [ox oy oz]. repeat split; intros; congruence.
    + split; [|split; [exact Oa|]].
      * unfold norm. rewrite D, dir_angles_unit, sqrt_1. apply about_one_1.
      * rewrite X, Y, Zz, Al, D. unfold dir_angles. cbn [alpha theta]. repeat split; intros; try congruence. destruct T as [T|[T _]]; congruence.
Qed.
Print Assumptions C126_accepted.
Lemma block_of : forall {A} (bs : list (list A)) n o, (forall b, In b bs -> length b = n) -> firstn n (skipn (o * n) (concat bs)) = nth o bs [].
Proof.
  intros A bs. induction bs as [|b bs IH]; intros n o H; cbn [concat].
  - rewrite skipn_nil, firstn_nil. destruct o; reflexivity.
  - pose proof (H b (or_introl eq_refl)) as Hb. destruct o as [|o].
    + cbn [Nat.mul skipn nth]. rewrite <- Hb, firstn_app, Nat.sub_diag, firstn_all. cbn [firstn]. apply app_nil_r.
    + cbn [nth]. rewrite skipn_app, skipn_all2 by (rewrite Hb; cbn; lia). cbn [app]. replace (S o * n - length b)%nat with (o * n)%nat by (rewrite Hb; cbn; lia). apply IH. intros c I. apply H. right. exact I.
Qed.
(** C126: the quadrature has eight angles per tag, each in the octant of its place, with the weight of its tag, so
    that reflecting and reversing (C14, C15) apply; the weights of each octant sum to one. *)
Theorem C126_octants : forall xs na np q, user_quad xs na np = Some q ->
  length (q_angles q) = (8 * length xs)%nat /\ q_ndir q = length xs /\
  (forall o, (o < 8)%nat -> about_one (wsum (firstn (q_ndir q) (skipn (o * q_ndir q) (q_angles q))))) /\
  forall o i x, (o < 8)%nat -> nth_error xs i = Some x -> exists a b, angle_of x = Some a /\ nth_error (q_angles q) (o * length xs + i) = Some b /\
    weight b = weight a /\ forall n, cosine (adir b) n = octant_sign o n * cosine (adir a) n.
Proof.
  intros xs na np q E. unfold user_quad in E. destruct (user_angles xs) as [l|] eqn:U; [|discriminate]. injection E as <-. unfold quad_of. cbn [q_angles q_ndir].
  destruct (user_inv xs l U) as (F & O & W). assert (L : length l = length xs) by (symmetry; clear -F; induction F; cbn; congruence).
  split; [rewrite expand_length, L; reflexivity|]. split; [exact L|]. split.
  - intros o H. replace (wsum (firstn (length l) (skipn (o * length l) (expand l)))) with (wsum l); [exact W|].
    assert (LM : forall p, (p < 8)%nat -> length (flat_map (fun a => match to_octant a p with Some b => [b] | None => [] end) l) = length l).
    { intros p Hp. clear -Hp. induction l as [|a l IH]; [reflexivity|]. cbn [flat_map]. destruct (to_octant_cos a p Hp) as (b & -> & _). cbn [app length]. congruence. }
    assert (WM : forall p, (p < 8)%nat -> wsum (flat_map (fun a => match to_octant a p with Some b => [b] | None => [] end) l) = wsum l).
    { intros p Hp. clear -Hp. induction l as [|a l IH]; [reflexivity|]. cbn [flat_map]. destruct (to_octant_cos a p Hp) as (b & -> & Wb & _). cbn [app]. unfold wsum in *. cbn [fold_right map]. rewrite Wb. f_equal. exact IH. }
    set (bs := l :: map (fun p => flat_map (fun a => match to_octant a p with Some b => [b] | None => [] end) l) [1; 2; 3; 4; 5; 6; 7]%nat).
    assert (E : expand l = concat bs) by (unfold expand, bs; cbn [concat map flat_map]; reflexivity). rewrite E.
    assert (B : forall b, In b bs -> length b = length l). { intros b [<-|I]; [reflexivity|]. apply in_map_iff in I. destruct I as (p & <- & I). apply LM. cbn in I. lia. }
    rewrite (block_of bs (length l) o B). unfold bs. destruct o as [|o]; [reflexivity|]. cbn [nth]. rewrite (nth_indep _ [] (flat_map (fun a => match to_octant a 1 with Some b => [b] | None => [] end) l)) by (cbn; lia).
    rewrite (map_nth (fun p => flat_map (fun a => match to_octant a p with Some b => [b] | None => [] end) l)). symmetry. apply WM. do 7 (destruct o as [|o]; [cbn [nth]; lia|]). lia.
  - intros o i x H X. assert (A : exists a, nth_error l i = Some a /\ angle_of x = Some a).
    { clear -F X. revert i X. induction F as [|y a ys m A F IH]; intros [|i] X; cbn in X |- *; try discriminate; [injection X as ->; eauto|apply IH; exact X]. }
    destruct A as (a & N & A). assert (Fa : first_octant a) by (rewrite Forall_forall in O; apply O; eapply nth_error_In; exact N).
    destruct (expand_cos l o i a H N Fa) as (b & B1 & B2 & B3). rewrite <- L. exists a, b. auto.
Qed.
Print Assumptions C126_octants.
(** C126: an angle off the axes whose polar angle, when written down, is positive: the reciprocal sine used by the
    sweeps is right and positive, and its eight images are eight different directions. *)
Theorem C126_usable : forall x a, angle_of x = Some a -> (forall n, 0 < cosine (adir a) n) -> (x_alpha x <> None -> 0 < theta (adir a)) ->
  0 < sin (theta (adir a)) /\ rsintheta (adir a) * sin (theta (adir a)) = 1 /\ 0 < rsintheta (adir a) /\
  forall o p b c, (o < 8)%nat -> (p < 8)%nat -> o <> p -> to_octant a o = Some b -> to_octant a p = Some c -> exists n, cosine (adir b) n <> cosine (adir c) n.
Proof.
  intros x a E P T. destruct (angle_inv x a E) as (_ & _ & C).
  assert (G : 0 < sin (theta (adir a)) /\ rsintheta (adir a) = 1 / sin (theta (adir a))).
  { destruct C as [(cx & cy & cz & _ & _ & _ & _ & _ & D & _ & _ & B & _)|(al & t & Al & _ & _ & _ & _ & D & B & _)].
    - rewrite D. unfold dir_cosines. cbn [theta rsintheta]. split; [|reflexivity]. rewrite sin_acos by lra. apply sqrt_lt_R0. unfold Rsqr. nra.
    - assert (Tp : 0 < t) by (rewrite D in T; apply T; congruence). rewrite D. unfold dir_angles. cbn [theta rsintheta]. split; [|reflexivity]. apply sin_gt_0; [exact Tp|]. pose proof PI_RGT_0. lra. }
  destruct G as [G1 G2]. split; [exact G1|]. rewrite G2. split; [field; lra|]. split; [apply Rdiv_lt_0_compat; lra|].
  intros o p b c Ho Hp N B C'. destruct (to_octant_cos a o Ho) as (b' & B' & _ & Cb). destruct (to_octant_cos a p Hp) as (c' & C'' & _ & Cc). rewrite B in B'. injection B' as <-. rewrite C' in C''. injection C'' as <-.
  assert (D : exists n, octant_sign o n <> octant_sign p n).
  { clear -Ho Hp N. octs Ho; octs Hp; try congruence; first [exists X_NORM; cbn; lra|exists Y_NORM; cbn; lra|exists Z_NORM; cbn; lra]. }
  destruct D as (n & D). exists n. rewrite Cb, Cc. pose proof (P n) as Pn. rewrite Rabs_right by lra. intros Q. apply D. apply Rmult_eq_reg_r with (cosine (adir a) n); lra.
Qed.
Print Assumptions C126_usable.
Lemma user_one : forall x a, angle_of x = Some a -> first_octant a -> weight a = 1 -> user_angles [x] = Some [a].
Proof.
  intros x a E O W. unfold user_angles. cbn [angles_of]. rewrite E. cbn [existsb fold_left]. rewrite W, Rplus_0_l.
  assert (Q : outside a = false). { unfold outside. pose proof (O X_NORM). pose proof (O Y_NORM). pose proof (O Z_NORM). cbn [cosine] in *. rewrite !Rltb_false by assumption. reflexivity. }
  rewrite Q. cbn [orb]. replace (near_one 1) with true by (symmetry; apply near_one_spec, about_one_1). reflexivity.
Qed.
Lemma angle_by_angles : forall al t, - (PI / 2) < t < PI / 2 -> 0 < al < 2 * PI -> al <> PI / 2 -> al <> PI -> al <> 3 * (PI / 2) ->
  angle_of (mkXAng (Some 1) None None None (Some al) (Some t)) = Some (mkAngle (dir_angles al t) 1).
Proof.
  intros al t T A N1 N2 N3. unfold angle_of. cbn [x_weight x_ox x_oy x_oz x_alpha x_theta given or_else orb].
  destruct (Rleb_spec 1 0); [lra|]. destruct (Rleb_spec t (- (PI / 2))); [lra|]. destruct (Rleb_spec (PI / 2) t); [lra|]. destruct (Rltb_spec al 0); [lra|]. destruct (Rleb_spec (2 * PI) al); [lra|].
  destruct (Reqb_spec al 0); [lra|]. destruct (Reqb_spec al (PI / 2)); [lra|]. destruct (Reqb_spec al PI); [lra|]. destruct (Reqb_spec al (3 * (PI / 2))); [lra|]. reflexivity.
Qed.
(** C126, first failure: an angle lying in a coordinate plane is accepted (the test is for negative components only),
    and its images coincide. *)
Theorem C126_axis_refuted : exists x a b, user_angles [x] = Some [a] /\ ox (adir a) = 0 /\ to_octant a 1 = Some b /\ forall n, cosine (adir b) n = cosine (adir a) n.
Proof.
  exists (mkXAng (Some 1) (Some 0) (Some (3 / 5)) (Some (4 / 5)) None None), (mkAngle (dir_cosines 0 (3 / 5) (4 / 5)) 1). eexists. split; [|split; [reflexivity|split; [reflexivity|]]].
  - apply user_one; [|intros []; cbn; lra|reflexivity]. unfold angle_of. cbn [x_weight x_ox x_oy x_oz x_alpha x_theta given or_else orb].
    destruct (Rleb_spec 1 0); [lra|]. destruct (Rleb_spec 0 (-1)); [lra|]. destruct (Rleb_spec (3 / 5) (-1)); [lra|]. destruct (Rleb_spec 1 (3 / 5)); [lra|]. destruct (Rleb_spec (4 / 5) (-1)); [lra|]. destruct (Rleb_spec 1 (4 / 5)); [lra|]. cbn [orb].
    replace (0 * 0 + 3 / 5 * (3 / 5) + 4 / 5 * (4 / 5)) with 1 by field. rewrite sqrt_1. replace (near_one 1) with true by (symmetry; apply near_one_spec, about_one_1). reflexivity.
  - intros []; cbn [cosine adir ox oy oz dir_cosines]; rewrite ?Rabs_R0, ?Rabs_right by lra; lra.
Qed.
Print Assumptions C126_axis_refuted.
(** C126, second failure: a vertical angle is accepted, either written down or because the polar angle was left out;
    the sine of which the reciprocal is stored is zero. *)
Theorem C126_vertical_refuted : forall t, t = None \/ t = Some 0 ->
  exists a, user_angles [mkXAng (Some 1) None None None (Some (PI / 4)) t] = Some [a] /\ sin (theta (adir a)) = 0 /\ oz (adir a) = 1.
Proof.
  intros t T. pose proof PI_RGT_0. exists (mkAngle (dir_angles (PI / 4) 0) 1). split; [|cbn [adir dir_angles theta oz]; split; [apply sin_0|apply cos_0]].
  apply user_one; [|intros []; cbn [cosine adir dir_angles ox oy oz]; rewrite ?sin_0, ?cos_0; lra|reflexivity].
  rewrite <- (angle_by_angles (PI / 4) 0) by lra. destruct T as [->| ->]; reflexivity.
Qed.
Print Assumptions C126_vertical_refuted.
(** C126, third failure: a negative polar angle with an azimuthal angle in the third quadrant is a first-octant
    direction, so it is accepted; the stored reciprocal sine is negative.  When the rays of a MoC sweep are laid out
    and the azimuthal angle is replaced by a nearby one in the first quadrant, the direction leaves the octant. *)
Theorem C126_negative_refuted : exists x a, user_angles [x] = Some [a] /\ (forall n, 0 < cosine (adir a) n) /\ rsintheta (adir a) < 0 /\
  forall new, 0 < new < PI / 2 -> exists l' b, modularise (fun _ => new) 1 [0%nat] (expand [a]) = Some l' /\
    nth_error l' 0 = Some b /\ ox (adir b) < 0 /\ oy (adir b) < 0.
Proof.
  pose proof PI_RGT_0 as PP. assert (Q : 0 < PI / 4 < PI / 2) by lra. pose proof (cos_gt_0 (PI / 4) ltac:(lra) ltac:(lra)) as C4. pose proof (sin_gt_0 (PI / 4) ltac:(lra) ltac:(lra)) as S4.
  exists (mkXAng (Some 1) None None None (Some (PI / 4 + PI)) (Some (- (PI / 4)))), (mkAngle (dir_angles (PI / 4 + PI) (- (PI / 4))) 1).
  assert (P : forall n, 0 < cosine (dir_angles (PI / 4 + PI) (- (PI / 4))) n).
  { intros []; cbn [cosine dir_angles ox oy oz]; rewrite ?neg_cos, ?neg_sin, ?sin_neg, ?cos_neg; nra. }
  split; [|split; [exact P|split]].
  - apply user_one; [apply angle_by_angles; lra| |reflexivity]. intros n. left. apply P.
  - cbn [adir dir_angles rsintheta]. rewrite sin_neg. unfold Rdiv. rewrite Rmult_1_l. apply Rinv_lt_0_compat. lra.
  - intros new N. set (a := mkAngle (dir_angles (PI / 4 + PI) (- (PI / 4))) 1). set (b := mkAngle (dir_angles new (theta (adir a))) (weight a)). exists (expand [b]), b.
    split; [|split; [reflexivity|]].
    + cbn [modularise]. change (nth_error (expand [a]) 0) with (Some a). cbv iota beta. fold b. change 1%nat with (length [a]). rewrite (modify_angle_ok [a] [b] 0 b eq_refl). reflexivity.
    + unfold b, a. cbn [adir dir_angles theta ox oy]. rewrite sin_neg. pose proof (cos_gt_0 new ltac:(lra) ltac:(lra)). pose proof (sin_gt_0 new ltac:(lra) ltac:(lra)). nra.
Qed.
Print Assumptions C126_negative_refuted.
(** Two angles, one written as cosines and one as angles. *)
Example C126_instance : exists l, user_angles [mkXAng (Some (1 / 4)) (Some (1 / 3)) (Some (2 / 3)) (Some (2 / 3)) None None;
    mkXAng (Some (3 / 4)) None None None (Some (PI / 6)) (Some (PI / 3))] = Some l /\ length l = 2%nat /\ Forall (fun a => forall n, 0 < cosine (adir a) n) l.
Proof.
  pose proof PI_RGT_0 as PP. exists [mkAngle (dir_cosines (1 / 3) (2 / 3) (2 / 3)) (1 / 4); mkAngle (dir_angles (PI / 6) (PI / 3)) (3 / 4)].
  pose proof (cos_gt_0 (PI / 6) ltac:(lra) ltac:(lra)) as C6. pose proof (sin_gt_0 (PI / 6) ltac:(lra) ltac:(lra)) as S6. pose proof (cos_gt_0 (PI / 3) ltac:(lra) ltac:(lra)) as C3. pose proof (sin_gt_0 (PI / 3) ltac:(lra) ltac:(lra)) as S3.
  split; [|split; [reflexivity|constructor; [intros []; cbn; lra|constructor; [intros []; cbn [cosine adir dir_angles ox oy oz]; nra|constructor]]]].
  unfold user_angles. cbn [angles_of]. unfold angle_of. cbn [x_weight x_ox x_oy x_oz x_alpha x_theta given or_else orb].
  destruct (Rleb_spec (1 / 4) 0); [lra|]. destruct (Rleb_spec (3 / 4) 0); [lra|]. destruct (Rleb_spec (1 / 3) (-1)); [lra|]. destruct (Rleb_spec 1 (1 / 3)); [lra|]. destruct (Rleb_spec (2 / 3) (-1)); [lra|]. destruct (Rleb_spec 1 (2 / 3)); [lra|]. cbn [orb].
  replace (1 / 3 * (1 / 3) + 2 / 3 * (2 / 3) + 2 / 3 * (2 / 3)) with 1 by field. rewrite sqrt_1. replace (near_one 1) with true by (symmetry; apply near_one_spec, about_one_1). cbn [negb].
  destruct (Rleb_spec (PI / 3) (- (PI / 2))); [lra|]. destruct (Rleb_spec (PI / 2) (PI / 3)); [lra|]. destruct (Rltb_spec (PI / 6) 0); [lra|]. destruct (Rleb_spec (2 * PI) (PI / 6)); [lra|].
  destruct (Reqb_spec (PI / 6) 0); [lra|]. destruct (Reqb_spec (PI / 6) (PI / 2)); [lra|]. destruct (Reqb_spec (PI / 6) PI); [lra|]. destruct (Reqb_spec (PI / 6) (3 * (PI / 2))); [lra|]. cbn [orb existsb fold_left weight].
  replace (0 + 1 / 4 + 3 / 4) with 1 by field. replace (near_one 1) with true by (symmetry; apply near_one_spec, about_one_1). unfold outside. cbn [adir dir_angles dir_cosines ox oy oz].
  rewrite !Rltb_false by nra. reflexivity.
Qed.

(** ** C127: quadrature files *)

(** The stored reciprocal sine belongs to the polar component. *)
Definition sine_ok (a : Angle) : Prop := rsintheta (adir a) = 1 / sin (acos (oz (adir a))).
Lemma read_all : forall l f, f_ox f = map (fun a => ox (adir a)) l -> f_oy f = map (fun a => oy (adir a)) l -> f_oz f = map (fun a => oz (adir a)) l ->
  f_weight f = map weight l -> f_theta f = map (fun a => theta (adir a)) l -> f_alpha f = map (fun a => alpha (adir a)) l -> Forall sine_ok l ->
  forall n i, (i + n = length l)%nat -> read_angles f (seq i n) = Some (skipn i l).
Proof.
  intros l f X Y Zz W T A F n. induction n as [|n IH]; intros i L.
  - cbn [seq read_angles]. rewrite skipn_all2 by lia. reflexivity.
  - cbn [seq read_angles]. rewrite IH by lia. unfold read_angle. rewrite X, Y, Zz, W, T, A, !nth_error_map.
    destruct (nth_error l i) as [a|] eqn:N; [|apply nth_error_None in N; lia]. cbn [option_map].
    assert (S : sine_ok a) by (rewrite Forall_forall in F; apply F; eapply nth_error_In; exact N).
    assert (K : skipn i l = a :: skipn (Datatypes.S i) l). { clear -N. revert i N. induction l as [|b l IH]; intros [|i] N; cbn in N |- *; try discriminate; [congruence|]. apply IH. exact N. }
    rewrite K. f_equal. f_equal. unfold sine_ok in S. destruct a as [[x y z al th rs] w]. cbn [adir ox oy oz alpha theta rsintheta dir_cosines weight] in *. rewrite S. reflexivity.
Qed.
(** C127: writing and reading back returns the same angles, counts and octants; it compares equal to the original
    under any comparison that accepts a number as equal to itself. *)
Theorem C127_round_trip : forall q, length (q_angles q) = (8 * q_ndir q)%nat -> Forall sine_ok (q_angles q) ->
  exists p, read_quad (write_quad q) = QOk p /\ q_angles p = q_angles q /\ q_ndir p = q_ndir q /\ q_npol p = q_npol q /\ q_nazi p = q_nazi q /\
    forall same, (forall v, same v v = true) -> quad_eq same q p = true.
Proof.
  intros q L F. unfold read_quad. cbn [write_quad f_ox f_oy f_oz f_weight f_npol f_nazi]. rewrite !map_length, Nat.eqb_refl. cbn [negb orb]. rewrite L.
  replace ((8 * q_ndir q) mod 8 =? 0)%nat with true by (symmetry; rewrite Nat.mul_comm; apply Nat.eqb_eq, Nat.mod_mul; lia). cbn [negb].
  rewrite (read_all (q_angles q) (write_quad q) eq_refl eq_refl eq_refl eq_refl eq_refl eq_refl F (8 * q_ndir q) 0) by lia. cbn [skipn].
  eexists. split; [reflexivity|]. cbn [q_angles q_ndir q_npol q_nazi]. split; [reflexivity|]. rewrite Nat.mul_comm, Nat.div_mul by lia. do 3 (split; [reflexivity|]).
  intros same R. unfold quad_eq. cbn [q_ndir q_angles]. rewrite Nat.eqb_refl. cbn [andb]. clear L F. induction (q_angles q) as [|a l IH]; [reflexivity|]. cbn [angles_eq]. rewrite IH. unfold angle_eq, dir_eq. rewrite !R. reflexivity.
Qed.
Print Assumptions C127_round_trip.
(** C127: the condition holds for what the generators make: angles given by cosines, angles given by a polar angle
    between zero and pi, and everything the expansion to the other octants adds. *)
Theorem C127_made : forall t na np oct1, Forall (fun a => (exists x y z, adir a = dir_cosines x y z) \/ (exists al th, adir a = dir_angles al th /\ 0 <= th <= PI)) oct1 ->
  length (q_angles (quad_of t na np oct1)) = (8 * q_ndir (quad_of t na np oct1))%nat /\ Forall sine_ok (q_angles (quad_of t na np oct1)).
Proof.
  intros t na np oct1 F. cbn [quad_of q_angles q_ndir]. split; [apply expand_length|]. unfold expand. apply Forall_app. split.
  - eapply Forall_impl; [|exact F]. intros a [(x & y & z & E)|(al & th & E & B)]; unfold sine_ok; rewrite E; [reflexivity|]. cbn [dir_angles rsintheta oz]. rewrite acos_cos by exact B. reflexivity.
  - apply Forall_forall. intros b I. apply in_flat_map in I. destruct I as (o & Io & I). apply in_flat_map in I. destruct I as (a & _ & I). unfold to_octant in I.
    destruct (dir_octant (adir a) o) as [d|] eqn:D; [|destruct I]. destruct I as [<-|[]]. unfold sine_ok. cbn [adir]. unfold dir_octant in D. do 8 (destruct o as [|o]; [injection D as <-; reflexivity|]). discriminate.
Qed.
Print Assumptions C127_made.
(** C127: what an accepted file gives: a multiple of eight angles, angle i made of entry i of every array. *)
Theorem C127_accepted : forall f q, read_quad f = QOk q ->
  length (q_angles q) = length (f_ox f) /\ length (q_angles q) = length (f_oy f) /\ length (q_angles q) = length (f_oz f) /\ length (q_angles q) = length (f_weight f) /\
  length (q_angles q) = (8 * q_ndir q)%nat /\ q_npol q = f_npol f /\ q_nazi q = f_nazi f /\
  forall i a, nth_error (q_angles q) i = Some a -> nth_error (f_ox f) i = Some (ox (adir a)) /\ nth_error (f_oy f) i = Some (oy (adir a)) /\ nth_error (f_oz f) i = Some (oz (adir a)) /\
    nth_error (f_weight f) i = Some (weight a) /\ nth_error (f_theta f) i = Some (theta (adir a)) /\ nth_error (f_alpha f) i = Some (alpha (adir a)) /\ sine_ok a.
Proof.
  intros f q E. unfold read_quad in E. destruct (Nat.eqb_spec (length (f_ox f)) (length (f_oy f))) as [Ly|]; cbn [negb orb] in E; [|discriminate].
  destruct (Nat.eqb_spec (length (f_ox f)) (length (f_oz f))) as [Lz|]; cbn [negb orb] in E; [|discriminate]. destruct (Nat.eqb_spec (length (f_ox f)) (length (f_weight f))) as [Lw|]; cbn [negb orb] in E; [|discriminate].
  destruct (Nat.eqb_spec (length (f_ox f) mod 8) 0) as [M|]; cbn [negb] in E; [|discriminate]. destruct (read_angles f (seq 0 (length (f_ox f)))) as [l|] eqn:R; [|discriminate]. injection E as <-. cbn [q_angles q_ndir q_npol q_nazi].
  assert (G : forall n i m, read_angles f (seq i n) = Some m -> length m = n /\ forall k a, nth_error m k = Some a -> read_angle f (i + k) = Some a).
  { induction n as [|n IH]; intros i m H; cbn [seq read_angles] in H; [injection H as <-; split; [reflexivity|intros [|k] a Q; discriminate]|].
    destruct (read_angle f i) as [b|] eqn:Q; [|discriminate]. destruct (read_angles f (seq (S i) n)) as [m'|] eqn:Q'; [|discriminate]. injection H as <-. destruct (IH (S i) m' Q') as [L K].
    split; [cbn; congruence|]. intros [|k] a N; cbn in N; [rewrite Nat.add_0_r; congruence|]. rewrite <- Nat.add_succ_comm. apply K. exact N. }
  destruct (G _ _ _ R) as [L K]. rewrite L. do 4 (split; [congruence|]). split; [pose proof (Nat.div_mod (length (f_ox f)) 8 (Nat.neq_succ_0 7)) as DM; rewrite M, Nat.add_0_r in DM; exact DM|]. do 2 (split; [reflexivity|]).
  intros i a N. apply K in N. cbn [Nat.add] in N. unfold read_angle in N.
  destruct (nth_error (f_ox f) i); [|discriminate]. destruct (nth_error (f_oy f) i); [|discriminate]. destruct (nth_error (f_oz f) i); [|discriminate]. destruct (nth_error (f_weight f) i); [|discriminate].
  destruct (nth_error (f_theta f) i); [|discriminate]. destruct (nth_error (f_alpha f) i); [|discriminate]. injection N as <-. unfold sine_ok. cbn [adir dir_cosines ox oy oz theta alpha rsintheta weight]. auto 10.
Qed.
Print Assumptions C127_accepted.
Definition file8 (th : list R) : QFile := mkQFile (-1) (-1) (repeat 1 8) th (repeat (1 / 3) 8) (repeat (2 / 3) 8) (repeat (2 / 3) 8) (repeat 1 8).
(** C127, failures: the lengths of the polar and azimuthal arrays are not compared with the others, so a file that is
    too short is read out of bounds instead of being rejected; the octants are not checked, so that an accepted
    quadrature can be one where reflecting does nothing; and a quadrature with a negative polar angle (C126) comes
    back with another reciprocal sine. *)
Theorem C127_short_refuted : (length (f_theta (file8 [])) < length (f_ox (file8 [])))%nat /\ read_quad (file8 []) = QUB.
Proof. split; [cbn; lia|]. unfold read_quad. cbn [file8 f_ox f_oy f_oz f_weight]. rewrite !repeat_length. change (8 =? 8)%nat with true. change (8 mod 8 =? 0)%nat with true. cbn [negb orb seq read_angles]. unfold read_angle. cbn [file8 f_ox f_oy f_oz f_weight f_theta nth_error repeat]. reflexivity. Qed.
Print Assumptions C127_short_refuted.
Theorem C127_layout_refuted : exists q k a b, read_quad (file8 (repeat 1 8)) = QOk q /\ q_ndir q = 1%nat /\ reflect 1 0 X_NORM = Some (Z.of_nat k) /\
  nth_error (q_angles q) 0 = Some a /\ nth_error (q_angles q) k = Some b /\ ox (adir b) = ox (adir a) /\ ox (adir a) <> 0.
Proof.
  exists (mkQuad IMPORT 1 (repeat (mkAngle (mkDir (1 / 3) (2 / 3) (2 / 3) 1 1 (1 / sin (acos (2 / 3)))) 1) 8) (-1) (-1)), 1%nat. do 2 eexists. split; [reflexivity|]. split; [reflexivity|]. split; [reflexivity|]. split; [reflexivity|]. split; [reflexivity|]. split; [reflexivity|]. cbn [adir ox]. lra.
Qed.
Print Assumptions C127_layout_refuted.
Theorem C127_negative_refuted : exists x q p a b, user_quad [x] None None = Some q /\ read_quad (write_quad q) = QOk p /\
  nth_error (q_angles q) 0 = Some a /\ nth_error (q_angles p) 0 = Some b /\ rsintheta (adir a) < 0 /\ 0 < rsintheta (adir b).
Proof.
  destruct C126_negative_refuted as (x & a & U & P & N & _). exists x, (quad_of USER (-1) (-1) [a]).
  assert (Q : exists l, read_angles (write_quad (quad_of USER (-1) (-1) [a])) (seq 0 8) = Some l).
  { cbn [seq read_angles]. unfold read_angle. cbn [write_quad quad_of f_ox f_oy f_oz f_weight f_theta f_alpha q_angles]. unfold expand, to_octant. cbn [flat_map dir_octant app map nth_error]. eexists. reflexivity. }
  destruct Q as (l & Q). exists (mkQuad IMPORT 1 l (-1) (-1)), a.
  assert (H : exists b, nth_error l 0 = Some b /\ rsintheta (adir b) = 1 / sin (acos (oz (adir a)))).
  { cbn [seq read_angles] in Q. destruct (read_angle (write_quad (quad_of USER (-1) (-1) [a])) 0) as [b|] eqn:B; [|discriminate].
    match type of Q with match ?e with _ => _ end = _ => destruct e end; [|discriminate]. injection Q as <-. exists b. split; [reflexivity|].
    unfold read_angle in B. cbn [write_quad quad_of f_ox f_oy f_oz f_weight f_theta f_alpha q_angles expand app map nth_error] in B. injection B as <-. reflexivity. }
  destruct H as (b & H1 & H2). exists b. unfold user_quad. rewrite U. split; [reflexivity|]. split; [|split; [reflexivity|split; [exact H1|split; [exact N|]]]].
  - unfold read_quad. cbn [write_quad f_ox f_oy f_oz f_weight quad_of q_angles]. rewrite !map_length, expand_length. cbn [length]. change (8 * 1)%nat with 8%nat. change (8 =? 8)%nat with true. change (8 mod 8 =? 0)%nat with true. cbn [negb orb]. fold (quad_of USER (-1) (-1) [a]). change (mkQFile _ _ _ _ _ _ _ _) with (write_quad (quad_of USER (-1) (-1) [a])). rewrite Q. reflexivity.
  - cbn [q_angles]. rewrite H2. apply Rdiv_lt_0_compat; [lra|].
    destruct (user_inv [x] [a] U) as (F & _). inversion F as [|? ? ? ? A _]; subst. destruct (angle_inv x a A) as (_ & _ & C).
    assert (B : -1 < oz (adir a) < 1).
    { pose proof (P Z_NORM) as Pz. cbn [cosine] in Pz. destruct C as [(cx & cy & cz & _ & _ & _ & _ & _ & D & _ & _ & B & _)|(al & t & _ & _ & _ & _ & _ & D & B & _)].
      - rewrite D. cbn [dir_cosines oz]. lra.
      - rewrite D in *. cbn [dir_angles oz rsintheta] in *. pose proof (P X_NORM) as Px. cbn [cosine dir_angles ox] in Px. pose proof (sin2_cos2 t) as SC. unfold Rsqr in SC. assert (sin t <> 0) by (intros Z0; rewrite Z0, Rmult_0_l in Px; lra). assert (0 < sin t * sin t) by (destruct (Rtotal_order (sin t) 0) as [|[|]]; nra). nra. }
    rewrite sin_acos by lra. apply sqrt_lt_R0. unfold Rsqr. nra.
Qed.
Print Assumptions C127_negative_refuted.
Example C127_instance : length (q_angles (quad_of LS (-1) (-1) [ang1; ang2])) = 16%nat /\ Forall sine_ok (q_angles (quad_of LS (-1) (-1) [ang1; ang2])).
Proof. destruct (C127_made LS (-1) (-1) [ang1; ang2]) as [A B]; [|split; assumption]. constructor; [|constructor; [|constructor]]; left; do 3 eexists; reflexivity. Qed.

(** ** C128: assigning a quadrature *)

(** C128: an assignment is refused exactly when the numbers of polar or azimuthal angles differ; an accepted one makes
    a copy of everything. *)
Theorem C128_assign : forall dst src, (assign dst src = Some src <-> q_npol dst = q_npol src /\ q_nazi dst = q_nazi src) /\
  (assign dst src = None <-> q_npol dst <> q_npol src \/ q_nazi dst <> q_nazi src).
Proof.
  intros dst src. unfold assign. destruct src as [t n l p a]. cbn [q_npol q_nazi q_type q_ndir q_angles].
  destruct (Z.eqb_spec (q_npol dst) p), (Z.eqb_spec (q_nazi dst) a); cbn [negb orb]; split; split; intros H; try discriminate; try reflexivity; try tauto; destruct H; contradiction.
Qed.
Print Assumptions C128_assign.
(** C128: between product quadratures an accepted assignment never changes the number of angles. *)
Theorem C128_product : forall t u azi pol azi' pol' dst src, quad_of t (Z.of_nat (length azi)) (Z.of_nat (length pol)) (gen_product azi pol) = dst ->
  quad_of u (Z.of_nat (length azi')) (Z.of_nat (length pol')) (gen_product azi' pol') = src -> assign dst src <> None ->
  q_ndir dst = q_ndir src /\ length (q_angles dst) = length (q_angles src).
Proof.
  assert (G : forall azi pol, length (gen_product azi pol) = (length azi * length pol)%nat).
  { intros azi pol. unfold gen_product. rewrite map_length. induction azi as [|a azi IH]; [reflexivity|]. cbn [flat_map]. rewrite app_length, map_length, IH. reflexivity. }
  intros t u azi pol azi' pol' dst src <- <- A. unfold quad_of in *. cbn [q_ndir q_angles] in *. rewrite !expand_length, !G. unfold assign in A. cbn [q_npol q_nazi] in A.
  destruct (Z.eqb_spec (Z.of_nat (length pol)) (Z.of_nat (length pol'))) as [E|]; cbn [negb orb] in A; [|congruence]. destruct (Z.eqb_spec (Z.of_nat (length azi)) (Z.of_nat (length azi'))) as [E'|]; cbn [negb orb] in A; [|congruence].
  apply Nat2Z.inj in E, E'. rewrite E, E'. auto.
Qed.
Print Assumptions C128_product.
(** C128, failure: user-specified (and level-symmetric) quadratures carry no counts, so the check passes for any two
    of them and the number of angles changes under its user. *)
Theorem C128_user_refuted : exists xs ys dst src new, user_quad xs None None = Some dst /\ user_quad ys None None = Some src /\ assign dst src = Some new /\
  length (q_angles dst) = 8%nat /\ length (q_angles new) = 16%nat.
Proof.
  destruct C126_vertical_refuted with (t := Some 0) as (a & U & _); [auto|]. destruct C126_instance as (l & V & L & _).
  do 3 eexists. do 2 eexists. unfold user_quad. split; [rewrite U; reflexivity|]. split; [rewrite V; reflexivity|]. split; [reflexivity|]. cbn [q_angles q_ndir quad_of]. rewrite !expand_length, L. auto.
Qed.
Print Assumptions C128_user_refuted.
Example C128_instance : exists azi pol azi' pol', assign (quad_of CHEB_GAUSS (Z.of_nat (length azi)) (Z.of_nat (length pol)) (gen_product azi pol))
  (quad_of CHEB_YAMAMOTO (Z.of_nat (length azi')) (Z.of_nat (length pol')) (gen_product azi' pol')) <> None /\ azi <> azi' /\ pol' = gen_yamamoto.
Proof. exists [(1, 1)], [(1, 1); (1, 2); (1, 3)], [(1, 2)], gen_yamamoto. split; [discriminate|]. split; [|reflexivity]. intros E. injection E. lra. Qed.
