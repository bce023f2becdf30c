(** C53: rational approximation.  C81: modularised ray counts and spacings. *)
From Coq Require Import List Lia Bool Reals ZArith Lra Psatz Znumtheory.
From Verif Require Import RUtil MatModel RatModel RatProofs RayModel RayProofs.
Import ListNotations.
Open Scope R_scope.

(** C53.  With a bound on the denominator the search ends and returns a fraction in lowest terms in [0,1] with a denominator
    no larger than the bound.  It is as close as Dirichlet's theorem promises, up to the tolerance. *)
Theorem C53_rational_approximation : forall fuel t tol max_d, 0 <= t <= 1 -> 0 <= tol -> (1 <= max_d)%Z -> (2 * max_d <= INT_MAX)%Z -> (2 * max_d <= Z.of_nat fuel)%Z ->
  exists p q, rational_approximation fuel t tol max_d = Some (Got (p, q)) /\ (0 <= p <= q)%Z /\ (1 <= q <= max_d)%Z /\ rel_prime p q /\
    Rabs (IZR p / IZR q - t) <= tol + 1 / (IZR q * IZR (max_d + 1)).
Proof.
  intros fuel t tol max_d Ht Hp Hd Hm Hf. destruct (rat_bounded fuel t tol max_d Ht Hd Hm Hf) as ([p q] & E & G1 & G2 & G3 & G4). cbn [fst snd] in *.
  exists p, q. repeat (split; [assumption|]).
  assert (0 < 1 / (IZR q * IZR (max_d + 1))).
  { assert (1 <= IZR q) by (apply (IZR_le 1); lia). assert (1 <= IZR (max_d + 1)) by (apply (IZR_le 1); lia). unfold Rdiv. rewrite Rmult_1_l. apply Rinv_0_lt_compat. nra. }
  destruct G4 as [G|[[G _]|[_ G]]]; lra.
Qed.
Print Assumptions C53_rational_approximation.

(** C53.  Without a tolerance the result is the nearest fraction of bounded denominator on one side of the target. *)
Theorem C53_nearest_on_its_side : forall fuel t max_d, 0 <= t <= 1 -> (1 <= max_d)%Z -> (2 * max_d <= INT_MAX)%Z -> (2 * max_d <= Z.of_nat fuel)%Z ->
  exists p q, rational_approximation fuel t 0 max_d = Some (Got (p, q)) /\ forall p' q', (1 <= q' <= max_d)%Z ->
    ~ (t < IZR p' / IZR q' < IZR p / IZR q) /\ ~ (IZR p / IZR q < IZR p' / IZR q' < t).
Proof.
  intros fuel t max_d Ht Hd Hm Hf. destruct (rat_bounded fuel t 0 max_d Ht Hd Hm Hf) as ([p q] & E & G1 & G2 & G3 & G4). cbn [fst snd] in *.
  exists p, q. split; [assumption|]. destruct G4 as [G|[[_ G]|[G _]]]; [|exact G|lra]. pose proof (Rabs_pos (IZR p / IZR q - t)). lra.
Qed.
Print Assumptions C53_nearest_on_its_side.

(** C53.  Without a bound, any tolerance of at least 2/(2^31-1) is met. *)
Theorem C53_within_tolerance : forall fuel t tol, 0 <= t <= 1 -> 2 / tol <= IZR INT_MAX -> 0 < tol -> 1 / tol < INR fuel ->
  exists p q, rational_approximation (S fuel) t tol 0 = Some (Got (p, q)) /\ Rabs (IZR p / IZR q - t) < tol /\ (0 <= p <= q)%Z /\ (1 <= q)%Z /\ rel_prime p q.
Proof. intros fuel t tol Ht Hm Hp Hf. destruct (rat_tol fuel t tol Ht Hm Hp Hf) as ([p q] & H). exists p, q. exact H. Qed.
Print Assumptions C53_within_tolerance.

(** C53.  Without a bound and without a tolerance the search overflows int, for target zero. *)
Theorem C53_unbounded_refuted : exists fuel t, 0 <= t <= 1 /\ rational_approximation fuel t 0 0 = Some Undef.
Proof.
  exists (S (Z.to_nat (INT_MAX - 1))), 0. split; [lra|]. unfold rational_approximation. cbn [Z.eqb]. rewrite !Rltb_false by apply Rabs_pos. apply rat_zero; unfold INT_MAX; lia.
Qed.
Print Assumptions C53_unbounded_refuted.

(** C53.  "Closest possible" is refuted: for 1/5 with denominators up to 3 the result is 0 although 1/3 is closer. *)
Theorem C53_closest_refuted : exists t max_d p q p' q', 0 <= t <= 1 /\ (1 <= max_d)%Z /\ (forall fuel, (6 <= fuel)%nat -> rational_approximation fuel t 0 max_d = Some (Got (p, q))) /\
  (1 <= q' <= max_d)%Z /\ Rabs (IZR p' / IZR q' - t) < Rabs (IZR p / IZR q - t).
Proof.
  exists (1 / 5), 3%Z, 0%Z, 1%Z, 1%Z, 3%Z. split; [lra|]. split; [lia|]. split; [|split; [lia|rewrite Rabs_right, Rabs_left by lra; lra]].
  intros fuel Hf. unfold rational_approximation. cbn [Z.eqb]. rewrite !Rltb_false by apply Rabs_pos.
  apply (rat_loop_mono 4); [|lia]. cbn [rat_loop]. rewrite !(fun x => Rltb_false (Rabs x) 0 (Rabs_pos x)).
  change ((1 <=? 3)%Z) with true. cbn [andb negb]. change (INT_MAX <? 0 + 1)%Z with false. change (INT_MAX <? 1 + 1)%Z with false. cbn [orb].
  rewrite (Rltb_false (IZR (0 + 1) / IZR (1 + 1))) by (change (IZR (0 + 1)) with 1; change (IZR (1 + 1)) with 2; lra).
  change (1 + 1 <=? 3)%Z with true. cbn [andb negb]. change (INT_MAX <? 0 + (0 + 1))%Z with false. change (INT_MAX <? 1 + (1 + 1))%Z with false. cbn [orb].
  rewrite (Rltb_false (IZR (0 + (0 + 1)) / IZR (1 + (1 + 1)))) by (change (IZR (0 + (0 + 1))) with 1; change (IZR (1 + (1 + 1))) with 3; lra).
  change (1 + (1 + 1) <=? 3)%Z with true. cbn [andb negb]. change (INT_MAX <? 0 + (0 + (0 + 1)))%Z with false. change (INT_MAX <? 1 + (1 + (1 + 1)))%Z with false. cbn [orb].
  rewrite (Rltb_false (IZR (0 + (0 + (0 + 1))) / IZR (1 + (1 + (1 + 1))))) by (change (IZR (0 + (0 + (0 + 1)))) with 1; change (IZR (1 + (1 + (1 + 1)))) with 4; lra).
  reflexivity.
Qed.
Print Assumptions C53_closest_refuted.

(** A target strictly between fractions, with bound and tolerance, meets the hypotheses. *)
Example C53_instance : 0 <= 7 / 22 <= 1 /\ 0 <= 1 / 1000 /\ (1 <= 50)%Z /\ (2 * 50 <= INT_MAX)%Z /\ (2 * 50 <= Z.of_nat 100)%Z /\ 2 / (1 / 1000) <= IZR INT_MAX /\ 1 / (1 / 1000) < INR 1001.
Proof. unfold INT_MAX. rewrite (INR_IZR_INZ 1001). change (Z.of_nat 1001) with 1001%Z. repeat split; try lia; lra. Qed.

(** ** Modularisation *)
Lemma ceil_ge : forall r, r <= IZR (ceil r).
Proof. intros r. unfold ceil. rewrite opp_IZR. destruct (base_Int_part (- r)). lra. Qed.
Lemma ceil_lt : forall r, IZR (ceil r) < r + 1.
Proof. intros r. unfold ceil. rewrite opp_IZR. destruct (base_Int_part (- r)). lra. Qed.
Lemma ceil_pos : forall r, 0 < r -> (1 <= ceil r)%Z.
Proof. intros r H. pose proof (ceil_ge r). assert (0 < ceil r)%Z by (apply lt_IZR; lra). lia. Qed.
Lemma to_int_got : forall z w, to_int z = Got w -> w = z.
Proof. intros z w. unfold to_int. destruct (_ && _)%bool; congruence. Qed.
Lemma to_int_ok : forall z, (0 <= z <= INT_MAX)%Z -> to_int z = Got z.
Proof. intros z H. unfold to_int. destruct (Z.leb_spec (- INT_MAX - 1) z); [|unfold INT_MAX in *; lia]. destruct (Z.leb_spec z INT_MAX); [reflexivity|lia]. Qed.
Lemma even_up_ge : forall n m, (1 <= n)%Z -> even_up n = Got m -> (n <= m <= n + 1)%Z /\ Z.even m = true.
Proof.
  intros n m Hn E. unfold even_up in E. apply to_int_got in E. subst m. rewrite Z.rem_mod_nonneg by lia. pose proof (Z.mod_pos_bound n 2 ltac:(lia)).
  split; [lia|]. rewrite Z.even_spec. exists ((n + 1) / 2)%Z. pose proof (Z.div_mod n 2 ltac:(lia)). pose proof (Z.div_mod (n + 1) 2 ltac:(lia)). pose proof (Z.mod_pos_bound (n + 1) 2 ltac:(lia)). lia.
Qed.

(** The spacing in closed form. *)
Lemma mod_space_sq : forall hx hy Nx Ny, 0 < hx -> 0 < hy -> (1 <= Nx)%Z -> (1 <= Ny)%Z ->
  0 < mod_space hx hy Nx Ny /\ mod_space hx hy Nx Ny * mod_space hx hy Nx Ny * ((hy * IZR Nx) * (hy * IZR Nx) + (hx * IZR Ny) * (hx * IZR Ny)) = (hx * hy) * (hx * hy).
Proof.
  intros hx hy Nx Ny Hx Hy HNx HNy. destruct (alpha_facts hx hy Nx Ny Hx Hy HNx HNy) as (A & C & Sn & U). unfold mod_space. set (a := mod_alpha hx hy Nx Ny) in *.
  assert (1 <= IZR Nx) by now apply (IZR_le 1). assert (1 <= IZR Ny) by now apply (IZR_le 1). split.
  - apply Rdiv_lt_0_compat; nra.
  - rewrite Sn in U. replace (hx * hy * (hx * hy)) with (hx * hy * (hx * hy) * (cos a * cos a + cos a * (hy * IZR Nx / (hx * IZR Ny)) * (cos a * (hy * IZR Nx / (hx * IZR Ny))))) by (rewrite U; ring).
    field. split; lra.
Qed.
Lemma mod_space_le : forall hx hy Nx Ny s, 0 < hx -> 0 < hy -> (1 <= Nx)%Z -> (1 <= Ny)%Z -> 0 < s ->
  (hx * hy) * (hx * hy) <= s * s * ((hy * IZR Nx) * (hy * IZR Nx) + (hx * IZR Ny) * (hx * IZR Ny)) -> mod_space hx hy Nx Ny <= s.
Proof.
  intros hx hy Nx Ny s Hx Hy HNx HNy Hs H. destruct (mod_space_sq hx hy Nx Ny Hx Hy HNx HNy) as [P Q]. rewrite <- Q in H.
  assert (1 <= IZR Nx) by now apply (IZR_le 1). assert (1 <= IZR Ny) by now apply (IZR_le 1).
  apply Rmult_le_reg_r in H; [|assert (0 < hy * IZR Nx) by nra; assert (0 < hx * IZR Ny) by nra; nra]. nra.
Qed.

(** C81.  TRIG: the counts are positive and even, the spacing between rays never exceeds the one requested, and the
    slope of the angle changes by a factor that tends to one as the spacing tends to zero. *)
Theorem C81_trig : forall alpha hx hy s Nx Ny, 0 < alpha < PI / 2 -> 0 < hx -> 0 < hy -> 0 < s -> modularize_trig alpha hx hy s = Got (Nx, Ny) ->
  (1 <= Nx)%Z /\ (1 <= Ny)%Z /\ Z.even Nx = true /\ Z.even Ny = true /\ mod_space hx hy Nx Ny <= s /\
  tan alpha / (1 + 2 * s / (hy * cos alpha)) < tan (mod_alpha hx hy Nx Ny) < tan alpha * (1 + 2 * s / (hx * sin alpha)).
Proof.
  intros alpha hx hy s Nx Ny Ha Hx Hy Hs E. pose proof PI_RGT_0. assert (Sp : 0 < sin alpha) by (apply sin_gt_0; lra). assert (Cp : 0 < cos alpha) by (apply cos_gt_0; lra).
  unfold modularize_trig in E. rewrite !Rabs_right in E by lra.
  set (rx := hx / s * sin alpha) in *. set (ry := hy / s * cos alpha) in *.
  assert (Px : 0 < rx). { unfold rx. apply Rmult_lt_0_compat; auto. now apply Rdiv_lt_0_compat. }
  assert (Py : 0 < ry). { unfold ry. apply Rmult_lt_0_compat; auto. now apply Rdiv_lt_0_compat. }
  destruct (to_int (ceil rx)) as [cx| |] eqn:E1; try discriminate. apply to_int_got in E1. destruct (to_int (ceil ry)) as [cy| |] eqn:E2; try discriminate. apply to_int_got in E2.
  cbn [bind] in E. destruct (even_up cx) as [nx| |] eqn:E3; try discriminate. cbn [bind] in E. destruct (even_up cy) as [ny| |] eqn:E4; try discriminate. injection E as <- <-.
  pose proof (ceil_pos rx Px). pose proof (ceil_pos ry Py). subst cx cy. apply even_up_ge in E3; auto. apply even_up_ge in E4; auto. destruct E3 as [E3 V3], E4 as [E4 V4].
  pose proof (ceil_ge rx). pose proof (ceil_ge ry). pose proof (ceil_lt rx). pose proof (ceil_lt ry).
  assert (Lx : rx <= IZR nx < rx + 2). { destruct E3 as [L1 L2]. apply IZR_le in L1. apply IZR_le in L2. rewrite plus_IZR in L2. lra. }
  assert (Ly : ry <= IZR ny < ry + 2). { destruct E4 as [L1 L2]. apply IZR_le in L1. apply IZR_le in L2. rewrite plus_IZR in L2. lra. }
  repeat (split; [assumption || lia|]).
  assert (Hsc : sin alpha * sin alpha + cos alpha * cos alpha = 1) by (pose proof (sin2_cos2 alpha) as Q; unfold Rsqr in Q; lra).
  assert (Sx : s * rx = hx * sin alpha) by (unfold rx; field; lra). assert (Sy : s * ry = hy * cos alpha) by (unfold ry; field; lra).
  split.
  - apply mod_space_le; auto; try lia.
    replace (hx * hy * (hx * hy)) with (hy * hy * ((hx * sin alpha) * (hx * sin alpha)) + hx * hx * ((hy * cos alpha) * (hy * cos alpha))) by (rewrite <- (Rmult_1_r (hx * hy * (hx * hy))), <- Hsc; ring).
    rewrite <- Sx, <- Sy.
    assert (rx * rx <= IZR nx * IZR nx) by nra. assert (ry * ry <= IZR ny * IZR ny) by nra.
    assert (0 <= hy * hy * (s * s) * (IZR nx * IZR nx - rx * rx)) by (apply Rmult_le_pos; nra). assert (0 <= hx * hx * (s * s) * (IZR ny * IZR ny - ry * ry)) by (apply Rmult_le_pos; nra). lra.
  - unfold mod_alpha. rewrite tan_atan. unfold tan.
    assert (T : sin alpha / cos alpha = hy * rx / (hx * ry)). { unfold rx, ry. field. repeat split; lra. }
    replace (2 * s / (hy * cos alpha)) with (2 / ry) by (rewrite <- Sy; field; lra). replace (2 * s / (hx * sin alpha)) with (2 / rx) by (rewrite <- Sx; field; lra). rewrite T.
    replace (hy * rx / (hx * ry) / (1 + 2 / ry)) with (hy * rx / (hx * (ry + 2))) by (field; repeat split; lra).
    replace (hy * rx / (hx * ry) * (1 + 2 / rx)) with (hy * (rx + 2) / (hx * ry)) by (field; repeat split; lra).
    assert (Fr : forall a b c d, 0 < a -> a <= b -> 0 < c -> c < d -> hy * a / (hx * d) < hy * b / (hx * c)).
    { intros a b c d Pa Pb Pc Pd. apply (Rmult_lt_reg_r (hx * c * d)); [apply Rmult_lt_0_compat; nra|].
      replace (hy * a / (hx * d) * (hx * c * d)) with (hy * (a * c)) by (field; split; lra). replace (hy * b / (hx * c) * (hx * c * d)) with (hy * (b * d)) by (field; split; lra).
      apply Rmult_lt_compat_l; nra. }
    assert (Fr2 : forall a b c d, 0 < a -> a < b -> 0 < c -> c <= d -> hy * a / (hx * d) < hy * b / (hx * c)).
    { intros a b c d Pa Pb Pc Pd. apply (Rmult_lt_reg_r (hx * c * d)); [apply Rmult_lt_0_compat; nra|].
      replace (hy * a / (hx * d) * (hx * c * d)) with (hy * (a * c)) by (field; split; lra). replace (hy * b / (hx * c) * (hx * c * d)) with (hy * (b * d)) by (field; split; lra).
      apply Rmult_lt_compat_l; nra. }
    split; [apply Fr; lra|apply Fr2; lra].
Qed.
Print Assumptions C81_trig.

(** C81.  TRIG never overflows when the domain is less than 2^31 - 2 nominal spacings wide. *)
Theorem C81_trig_defined : forall alpha hx hy s, 0 < alpha < PI / 2 -> 0 < hx -> 0 < hy -> 0 < s -> hx / s <= IZR (INT_MAX - 2) -> hy / s <= IZR (INT_MAX - 2) ->
  exists Nx Ny, modularize_trig alpha hx hy s = Got (Nx, Ny).
Proof.
  intros alpha hx hy s Ha Hx Hy Hs Bx By. pose proof PI_RGT_0. assert (Sp : 0 < sin alpha) by (apply sin_gt_0; lra). assert (Cp : 0 < cos alpha) by (apply cos_gt_0; lra).
  assert (0 < hx / s) by now apply Rdiv_lt_0_compat. assert (0 < hy / s) by now apply Rdiv_lt_0_compat.
  assert (G : forall v f, 0 < v -> v <= IZR (INT_MAX - 2) -> 0 < f <= 1 -> exists c, to_int (ceil (v * f)) = Got c /\ exists n, even_up c = Got n).
  { intros v f Hv Hb Hf. assert (0 < v * f) by nra. assert (v * f <= v) by nra. pose proof (ceil_pos (v * f) ltac:(lra)). pose proof (ceil_lt (v * f)) as Lt.
    assert (ceil (v * f) < INT_MAX - 2 + 1)%Z by (apply lt_IZR; rewrite plus_IZR; lra). exists (ceil (v * f)). split; [apply to_int_ok; lia|].
    eexists. unfold even_up. apply to_int_ok. rewrite Z.rem_mod_nonneg by lia. pose proof (Z.mod_pos_bound (ceil (v * f)) 2 ltac:(lia)). lia. }
  unfold modularize_trig. rewrite !Rabs_right by lra. destruct (SIN_bound alpha), (COS_bound alpha).
  destruct (G (hx / s) (sin alpha) ltac:(lra) Bx ltac:(lra)) as (cx & -> & nx & Ex). destruct (G (hy / s) (cos alpha) ltac:(lra) By ltac:(lra)) as (cy & -> & ny & Ey).
  cbn [bind]. rewrite Ex. cbn [bind]. rewrite Ey. cbn [bind]. eauto.
Qed.
Print Assumptions C81_trig_defined.

(** C81.  Repeating the rays of a pin across a core of identical pins changes neither angle nor spacing. *)
Theorem C81_pin_modular : forall hx hy Nx Ny nx ny, 0 < hx -> 0 < hy -> (1 <= Nx)%Z -> (1 <= Ny)%Z -> (1 <= nx)%Z -> (1 <= ny)%Z ->
  let N := scale_counts nx ny (Nx, Ny) in
  mod_alpha (IZR nx * hx) (IZR ny * hy) (fst N) (snd N) = mod_alpha hx hy Nx Ny /\ mod_space (IZR nx * hx) (IZR ny * hy) (fst N) (snd N) = mod_space hx hy Nx Ny.
Proof.
  intros hx hy Nx Ny nx ny Hx Hy HNx HNy Hnx Hny. cbn [scale_counts fst snd].
  apply (IZR_le 1) in HNx, HNy, Hnx, Hny.
  assert (E : mod_alpha (IZR nx * hx) (IZR ny * hy) (Nx * nx) (Ny * ny) = mod_alpha hx hy Nx Ny).
  { unfold mod_alpha. rewrite !mult_IZR. f_equal. field. repeat split; lra. }
  split; [exact E|]. unfold mod_space. rewrite E, mult_IZR. field. split; lra.
Qed.
Print Assumptions C81_pin_modular.

Lemma tan_compl : forall a, tan (PI / 2 - a) = cos a / sin a.
Proof. intros a. unfold tan. rewrite sin_shift, cos_shift. reflexivity. Qed.

(** C81.  RATIONAL: the counts are positive; for angles up to 45 degrees, and beyond when the domain is at least as high as
    wide, the spacing never exceeds the one requested; in a square domain the slope changes by less than 0.002. *)
Theorem C81_rational : forall fuel alpha hx hy s Nx Ny, (500 < fuel)%nat -> 0 < alpha < PI / 2 -> 0 < hx -> 0 < hy -> 0 < s ->
  modularize_rational (S fuel) alpha hx hy s = Some (Got (Nx, Ny)) ->
  (1 <= Nx)%Z /\ (1 <= Ny)%Z /\ (alpha <= PI / 4 \/ hx <= hy -> mod_space hx hy Nx Ny <= s) /\
  (hx = hy -> if Rleb alpha (PI / 4) then Rabs (tan (mod_alpha hx hy Nx Ny) - tan alpha) < 2 / 1000 else Rabs (/ tan (mod_alpha hx hy Nx Ny) - / tan alpha) < 2 / 1000).
Proof.
  intros fuel alpha hx hy s Nx Ny Hf Ha Hx Hy Hs E. pose proof PI_RGT_0.
  assert (Sp : 0 < sin alpha) by (apply sin_gt_0; lra). assert (Cp : 0 < cos alpha) by (apply cos_gt_0; lra).
  unfold modularize_rational in E. set (m := if Rltb alpha (PI / 4) then tan alpha else tan (PI / 2 - alpha)) in *.
  assert (Hm : 0 <= m <= 1).
  { unfold m. destruct (Rltb_spec alpha (PI / 4)) as [L|L].
    - split; [apply Rlt_le, tan_gt_0; lra|]. rewrite <- tan_PI4. apply Rlt_le, tan_increasing; lra.
    - split; [apply Rlt_le, tan_gt_0; lra|]. rewrite <- tan_PI4. destruct (Req_dec alpha (PI / 4)) as [->|Ne]; [right; f_equal; lra|apply Rlt_le, tan_increasing; lra]. }
  destruct (rat_tol fuel m (2 / 1000) Hm ltac:(unfold INT_MAX; lra) ltac:(lra)) as ([p q] & Er & Near & Pq & Q1 & _).
  { apply lt_INR in Hf. rewrite (INR_IZR_INZ 500) in Hf. change (Z.of_nat 500) with 500%Z in Hf. lra. }
  unfold rational_counts in E. rewrite Er in E. cbn [option_map bind fst snd] in *. destruct (Z.eqb_spec p 0) as [Zp|Zp]; [discriminate|].
  set (k := ceil (hx / IZR p * Rabs (sin (atan (IZR p * hy / (IZR q * hx)))) / s)) in *.
  destruct (to_int k) as [k'| |] eqn:E1; try discriminate. apply to_int_got in E1. cbn [bind] in E. unfold imul in E.
  destruct (to_int (p * k')) as [nx| |] eqn:E2; try discriminate. apply to_int_got in E2. cbn [bind] in E.
  destruct (to_int (q * k')) as [ny| |] eqn:E3; try discriminate. apply to_int_got in E3. cbn [bind] in E.
  assert (P1 : (1 <= p)%Z) by lia. pose proof (IZR_le 1 p P1) as Rp. pose proof (IZR_le 1 q Q1) as Rq.
  destruct (alpha_facts hx hy p q Hx Hy P1 Q1) as (A & C & Sn & U).
  assert (Ea : atan (IZR p * hy / (IZR q * hx)) = mod_alpha hx hy p q). { unfold mod_alpha. f_equal. field. lra. }
  assert (Tp : 0 < hy * IZR p / (hx * IZR q)) by (apply Rdiv_lt_0_compat; nra).
  assert (Es : hx / IZR p * Rabs (sin (atan (IZR p * hy / (IZR q * hx)))) / s = mod_space hx hy p q / s).
  { rewrite Ea, Rabs_right by (rewrite Sn; nra). rewrite Sn. unfold mod_space. field. repeat split; lra. }
  destruct (mod_space_sq hx hy p q Hx Hy P1 Q1) as [M0 M1].
  assert (K1 : (1 <= k)%Z). { unfold k. rewrite Es. apply ceil_pos. now apply Rdiv_lt_0_compat. }
  assert (K2 : mod_space hx hy p q <= s * IZR k). { pose proof (ceil_ge (mod_space hx hy p q / s)) as G. unfold k. rewrite Es. apply (Rmult_le_compat_l s) in G; [|lra]. replace (s * (mod_space hx hy p q / s)) with (mod_space hx hy p q) in G by (field; lra). exact G. }
  pose proof (IZR_le 1 k K1) as Rk. subst k'.
  assert (Sc : (hx * hy) * (hx * hy) <= s * s * ((hy * IZR (p * k)) * (hy * IZR (p * k)) + (hx * IZR (q * k)) * (hx * IZR (q * k)))).
  { rewrite <- M1, !mult_IZR. set (D := hy * IZR p * (hy * IZR p) + hx * IZR q * (hx * IZR q)). assert (0 <= D). { unfold D. pose proof (Rle_0_sqr (hy * IZR p)). pose proof (Rle_0_sqr (hx * IZR q)). unfold Rsqr in *. lra. }
    replace (s * s * (hy * (IZR p * IZR k) * (hy * (IZR p * IZR k)) + hx * (IZR q * IZR k) * (hx * (IZR q * IZR k)))) with (s * IZR k * (s * IZR k) * D) by (unfold D; ring). apply Rmult_le_compat_r; auto. nra. }
  assert (Rat : forall a b, (1 <= a)%Z -> (1 <= b)%Z -> IZR (a * k) / IZR (b * k) = IZR a / IZR b).
  { intros a b H1 H2. apply (IZR_le 1) in H1, H2. rewrite !mult_IZR. field. lra. }
  destruct (Rltb_spec (PI / 4) alpha) as [Sw|Sw]; injection E as <- <-; subst nx ny; (split; [nia|]); (split; [nia|]); (split; [intros Hd|intros ->]).
  - destruct Hd as [Hd|Hd]; [lra|]. apply mod_space_le; auto; try nia. eapply Rle_trans; [exact Sc|]. apply Rmult_le_compat_l; [nra|].
    rewrite !mult_IZR. assert (IZR p <= IZR q) by (apply IZR_le; lia).
    assert (0 <= (hy * hy - hx * hx) * ((IZR q * IZR q - IZR p * IZR p) * (IZR k * IZR k))) by (apply Rmult_le_pos; [nra|apply Rmult_le_pos; nra]). lra.
  - destruct (Rleb_spec alpha (PI / 4)); [lra|]. unfold mod_alpha. rewrite tan_atan.
    replace (hy * IZR (q * k) / (hy * IZR (p * k))) with (IZR q / IZR p) by (rewrite !mult_IZR; field; lra).
    replace (/ (IZR q / IZR p)) with (IZR p / IZR q) by (field; lra). replace (/ tan alpha) with m; [exact Near|].
    unfold m. rewrite Rltb_false by lra. rewrite tan_compl. unfold tan. field. lra.
  - apply mod_space_le; auto; nia.
  - destruct (Rleb_spec alpha (PI / 4)); [|lra]. unfold mod_alpha. rewrite tan_atan.
    replace (hy * IZR (p * k) / (hy * IZR (q * k))) with (IZR p / IZR q) by (rewrite !mult_IZR; field; lra). replace (tan alpha) with m; [exact Near|].
    unfold m. destruct (Rltb_spec alpha (PI / 4)); [reflexivity|]. replace alpha with (PI / 4) by lra. f_equal. lra.
Qed.
Print Assumptions C81_rational.

(** C81.  RATIONAL is undefined for shallow angles: the approximating fraction is 0/1. *)
Theorem C81_shallow_refuted : exists alpha, 0 < alpha < PI / 2 /\ forall fuel hx hy s, modularize_rational fuel alpha hx hy s = Some Undef.
Proof.
  pose proof PI2_1. assert (T : tan (atan (1 / 1000)) = 1 / 1000) by apply tan_atan. destruct (atan_bound (1 / 1000)).
  assert (0 < atan (1 / 1000)) by (rewrite <- atan_0; apply atan_increasing; lra). assert (atan (1 / 1000) < PI / 4) by (rewrite <- atan_1; apply atan_increasing; lra).
  exists (atan (1 / 1000)). split; [lra|]. intros fuel hx hy s. unfold modularize_rational, rational_counts, rational_approximation. rewrite (Rltb_true (atan (1 / 1000))) by lra. rewrite T.
  rewrite (Rltb_true (Rabs (0 / 1 - 1 / 1000))) by (rewrite Rabs_left by lra; lra). reflexivity.
Qed.
Print Assumptions C81_shallow_refuted.

Lemma rat_half : forall fuel, rational_approximation (S fuel) (1 / 2) (2 / 1000) 0 = Some (Got (1, 2)%Z).
Proof.
  intros fuel. unfold rational_approximation. cbn [Z.eqb]. rewrite Rltb_false by (rewrite Rabs_left by lra; lra). rewrite Rltb_false by (rewrite Rabs_right by lra; lra).
  cbn [rat_loop]. change (1 <=? INT_MAX)%Z with true. cbn [andb negb]. change (INT_MAX <? 0 + 1)%Z with false. change (INT_MAX <? 1 + 1)%Z with false. cbn [orb].
  change (IZR (0 + 1)) with 1. change (IZR (1 + 1)) with 2. rewrite Rltb_true by (replace (1 / 2 - 1 / 2) with 0 by ring; rewrite Rabs_R0; lra). reflexivity.
Qed.
Lemma ceil_one : ceil 1 = 1%Z.
Proof. pose proof (ceil_ge 1) as A. pose proof (ceil_lt 1) as B. apply (le_IZR 1) in A. replace (1 + 1) with 2 in B by ring. apply (lt_IZR _ 2) in B. lia. Qed.

(** C81.  In a domain wider than high RATIONAL replaces the slope 1/2 by 1/4 ... *)
Theorem C81_rational_slope_refuted : exists alpha hx hy s Nx Ny, 0 < alpha < PI / 4 /\ 0 < hx /\ 0 < hy /\ 0 < s /\
  (forall fuel, modularize_rational (S fuel) alpha hx hy s = Some (Got (Nx, Ny))) /\ tan alpha = 1 / 2 /\ tan (mod_alpha hx hy Nx Ny) = 1 / 4.
Proof.
  pose proof PI2_1. assert (T : tan (atan (1 / 2)) = 1 / 2) by apply tan_atan.
  assert (0 < atan (1 / 2)) by (rewrite <- atan_0; apply atan_increasing; lra). assert (L : atan (1 / 2) < PI / 4) by (rewrite <- atan_1; apply atan_increasing; lra).
  destruct (alpha_facts 2 1 1 2 ltac:(lra) ltac:(lra) ltac:(lia) ltac:(lia)) as (A & C & Sn & U).
  exists (atan (1 / 2)), 2, 1, (2 * sin (mod_alpha 2 1 1 2)), 1%Z, 2%Z. assert (Sp : 0 < sin (mod_alpha 2 1 1 2)) by (apply sin_gt_0; lra).
  split; [lra|]. split; [lra|]. split; [lra|]. split; [lra|]. split; [|split; [exact T|unfold mod_alpha; rewrite tan_atan; field]].
  intros fuel. unfold modularize_rational. rewrite Rltb_true by lra. rewrite Rltb_false by lra. unfold rational_counts. rewrite T, rat_half. cbn [option_map bind Z.eqb].
  replace (atan (1 * 1 / (2 * 2))) with (mod_alpha 2 1 1 2) by (unfold mod_alpha; f_equal; field). rewrite Rabs_right by lra.
  replace (2 / 1 * sin (mod_alpha 2 1 1 2) / (2 * sin (mod_alpha 2 1 1 2))) with 1 by (field; lra). rewrite ceil_one. reflexivity.
Qed.
Print Assumptions C81_rational_slope_refuted.

(** ... and for slope 2 lays the rays out farther apart than requested. *)
Theorem C81_rational_spacing_refuted : exists alpha hx hy s Nx Ny, PI / 4 < alpha < PI / 2 /\ 0 < hx /\ 0 < hy /\ 0 < s /\
  (forall fuel, modularize_rational (S fuel) alpha hx hy s = Some (Got (Nx, Ny))) /\ s < mod_space hx hy Nx Ny.
Proof.
  pose proof PI2_1. assert (T : tan (atan (1 / 2)) = 1 / 2) by apply tan_atan.
  assert (0 < atan (1 / 2)) by (rewrite <- atan_0; apply atan_increasing; lra). assert (L : atan (1 / 2) < PI / 4) by (rewrite <- atan_1; apply atan_increasing; lra).
  destruct (alpha_facts 2 1 1 2 ltac:(lra) ltac:(lra) ltac:(lia) ltac:(lia)) as (A & C & Sn & U).
  set (s := 2 * sin (mod_alpha 2 1 1 2)). exists (PI / 2 - atan (1 / 2)), 2, 1, s, 2%Z, 1%Z. assert (Sp : 0 < sin (mod_alpha 2 1 1 2)) by (apply sin_gt_0; lra).
  assert (0 < s) by (unfold s; lra).
  split; [lra|]. split; [lra|]. split; [lra|]. split; [lra|]. split.
  - intros fuel. unfold modularize_rational. rewrite Rltb_false by lra. rewrite Rltb_true by lra. replace (PI / 2 - (PI / 2 - atan (1 / 2))) with (atan (1 / 2)) by ring.
    unfold rational_counts. rewrite T, rat_half. cbn [option_map bind Z.eqb].
    replace (atan (1 * 1 / (2 * 2))) with (mod_alpha 2 1 1 2) by (unfold mod_alpha; f_equal; field). rewrite Rabs_right by lra. unfold s.
    replace (2 / 1 * sin (mod_alpha 2 1 1 2) / (2 * sin (mod_alpha 2 1 1 2))) with 1 by (field; lra). rewrite ceil_one. reflexivity.
  - destruct (mod_space_sq 2 1 2 1 ltac:(lra) ltac:(lra) ltac:(lia) ltac:(lia)) as [M0 M1].
    assert (E : s * s * 17 = 4). { unfold s. rewrite Sn in *. set (c := cos (mod_alpha 2 1 1 2)) in *. assert (c * c * 17 = 16) by nra. nra. }
    assert (M2 : mod_space 2 1 2 1 * mod_space 2 1 2 1 * 8 = 4) by nra. nra.
Qed.
Print Assumptions C81_rational_spacing_refuted.

(** Accepted inputs exist for both methods. *)
Example C81_instance : (exists N, modularize_trig (PI / 6) 3 2 (1 / 10) = Got N) /\ exists N, modularize_rational 501 (atan (1 / 2)) 2 1 (2 * sin (mod_alpha 2 1 1 2)) = Some (Got N).
Proof.
  pose proof PI_RGT_0. split.
  - destruct (C81_trig_defined (PI / 6) 3 2 (1 / 10)) as (a & b & E); try lra; [unfold INT_MAX; change (2147483647 - 2)%Z with 2147483645%Z; lra..|eauto].
  - assert (L : 0 < atan (1 / 2) < PI / 4) by (split; [rewrite <- atan_0|rewrite <- atan_1]; apply atan_increasing; lra).
    exists (1, 2)%Z. unfold modularize_rational. rewrite Rltb_true by lra. rewrite Rltb_false by lra. unfold rational_counts. rewrite tan_atan, rat_half. cbn [option_map bind Z.eqb].
    replace (atan (1 * 1 / (2 * 2))) with (mod_alpha 2 1 1 2) by (unfold mod_alpha; f_equal; field).
    destruct (alpha_facts 2 1 1 2 ltac:(lra) ltac:(lra) ltac:(lia) ltac:(lia)) as (A & _). assert (Sp : 0 < sin (mod_alpha 2 1 1 2)) by (apply sin_gt_0; lra). rewrite Rabs_right by lra.
    replace (2 / 1 * sin (mod_alpha 2 1 1 2) / (2 * sin (mod_alpha 2 1 1 2))) with 1 by (field; lra). rewrite ceil_one. reflexivity.
Qed.
