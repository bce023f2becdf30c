(** C163: modularising keeps the order of the azimuthal angles. *)
From Coq Require Import List Lia Bool Reals ZArith Lra.
From Verif Require Import RUtil MatModel AngModel RayModel RayProofs RatModel RatProofs RatProps.
Import ListNotations.
Open Scope R_scope.

(** The fraction of a result. *)
Definition frac (r : Z * Z) : R := IZR (fst r) / IZR (snd r).
Lemma mediant_between : forall a b c d, (1 <= b)%Z -> (1 <= d)%Z -> (b * c - a * d = 1)%Z -> IZR a / IZR b < IZR (a + c) / IZR (b + d) < IZR c / IZR d.
Proof.
  intros a b c d B D E. pose proof (mediant_left a b c d B D E) as L. pose proof (mediant_right a b c d B D E) as U. apply IZR_le in B, D.
  assert (0 < 1 / (IZR b * IZR (b + d))) by (apply Rdiv_lt_0_compat; [lra|apply Rmult_lt_0_compat; rewrite ?plus_IZR; lra]). assert (0 < 1 / (IZR d * IZR (b + d))) by (apply Rdiv_lt_0_compat; [lra|apply Rmult_lt_0_compat; rewrite ?plus_IZR; lra]). lra.
Qed.
Lemma loop_within : forall f t tol a b c d r, (1 <= b)%Z -> (1 <= d)%Z -> (b * c - a * d = 1)%Z -> rat_loop f t tol INT_MAX a b c d = Some (Got r) -> IZR a / IZR b <= frac r <= IZR c / IZR d.
Proof.
  induction f as [|f IH]; intros t tol a b c d r B D E H; pose proof (mediant_between a b c d B D E) as M; cbn [rat_loop] in H.
  - destruct (negb _); [|discriminate]. injection H as <-. unfold frac. destruct (INT_MAX <? b)%Z; cbn [fst snd]; lra.
  - destruct (negb _). { injection H as <-. unfold frac. destruct (INT_MAX <? b)%Z; cbn [fst snd]; lra. }
    destruct (_ || _); [discriminate|]. destruct (Rltb (Rabs (t - IZR (a + c) / IZR (b + d))) tol).
    + injection H as <-. unfold frac. destruct (b + d <=? INT_MAX)%Z; [cbn [fst snd]; lra|]. destruct (b <? d)%Z; cbn [fst snd]; lra.
    + destruct (Rltb (IZR (a + c) / IZR (b + d)) t); apply IH in H; try lia; lra.
Qed.
(** The first mediant within the tolerance rises with the target. *)
Lemma loop_rises : forall f g s t tol a b c d r q, s <= t -> (1 <= b <= INT_MAX)%Z -> (1 <= d <= INT_MAX)%Z -> (b * c - a * d = 1)%Z -> rat_loop f s tol INT_MAX a b c d = Some (Got r) -> rat_loop g t tol INT_MAX a b c d = Some (Got q) -> frac r <= frac q.
Proof.
  induction f as [|f IH]; intros g s t tol a b c d r q ST B D E H K; [cbn [rat_loop] in H; destruct (Z.leb_spec b INT_MAX); [|lia]; destruct (Z.leb_spec d INT_MAX); [discriminate|lia]|].
  destruct g as [|g]; [cbn [rat_loop] in K; destruct (Z.leb_spec b INT_MAX); [|lia]; destruct (Z.leb_spec d INT_MAX); [discriminate|lia]|].
  cbn [rat_loop] in H, K. destruct (Z.leb_spec b INT_MAX); [|lia]. destruct (Z.leb_spec d INT_MAX); [|lia]. cbn [andb negb] in H, K. destruct (Z.ltb_spec INT_MAX (a + c)); [discriminate|]. destruct (Z.ltb_spec INT_MAX (b + d)); [discriminate|]. cbn [orb] in H, K.
  destruct (Z.leb_spec (b + d) INT_MAX); [|lia]. pose proof (mediant_between a b c d ltac:(lia) ltac:(lia) E) as M. set (m := IZR (a + c) / IZR (b + d)) in *.
  destruct (Rltb_spec (Rabs (s - m)) tol) as [Hs|Hs], (Rltb_spec (Rabs (t - m)) tol) as [Ht|Ht].
  - injection H as <-. injection K as <-. apply Rle_refl.
  - injection H as <-. destruct (Rltb_spec m t).
    + apply loop_within in K; try lia. unfold frac at 1. cbn [fst snd]. fold m. fold m in K. lra.
    + exfalso. apply Rabs_def2 in Hs. rewrite Rabs_left1 in Ht by lra. lra.
  - injection K as <-. destruct (Rltb_spec m s).
    + exfalso. apply Rabs_def2 in Ht. rewrite Rabs_right in Hs by lra. lra.
    + apply loop_within in H; try lia. unfold frac at 2. cbn [fst snd]. fold m. fold m in H. lra.
  - destruct (Rltb_spec m s), (Rltb_spec m t); try lra.
    + eapply IH; [exact ST| | | |exact H|exact K]; lia.
    + apply loop_within in H; try lia. apply loop_within in K; try lia. fold m in H, K. lra.
    + eapply IH; [exact ST| | | |exact H|exact K]; lia.
Qed.
Lemma approx_range : forall f t tol r, rational_approximation f t tol 0 = Some (Got r) -> 0 <= frac r <= 1.
Proof.
  intros f t tol r H. unfold rational_approximation in H. cbn [Z.eqb] in H. destruct (Rltb _ _); [injection H as <-; unfold frac; cbn [fst snd]; lra|]. destruct (Rltb _ _); [injection H as <-; unfold frac; cbn [fst snd]; lra|].
  apply loop_within in H; try lia. lra.
Qed.
Lemma approx_rises : forall f g s t tol r q, 0 <= s -> s <= t -> t <= 1 -> rational_approximation f s tol 0 = Some (Got r) -> rational_approximation g t tol 0 = Some (Got q) -> frac r <= frac q.
Proof.
  intros f g s t tol r q S0 ST T1 H K. pose proof (approx_range _ _ _ _ H) as HR. pose proof (approx_range _ _ _ _ K) as KR. unfold rational_approximation in H, K. cbn [Z.eqb] in H, K.
  replace (0 / 1) with 0 in * by field. replace (1 / 1) with 1 in * by field.
  destruct (Rltb_spec (Rabs (0 - s)) tol) as [A|A]. { injection H as <-. unfold frac at 1. cbn [fst snd]. lra. }
  rewrite Rabs_left1 in A by lra. destruct (Rltb_spec (Rabs (0 - t)) tol) as [B|B]; [rewrite Rabs_left1 in B by lra; lra|].
  destruct (Rltb_spec (Rabs (1 - s)) tol) as [A1|A1].
  - rewrite Rabs_right in A1 by lra. destruct (Rltb_spec (Rabs (1 - t)) tol) as [B1|B1]; [|rewrite Rabs_right in B1 by lra; lra]. injection H as <-. injection K as <-. lra.
  - destruct (Rltb_spec (Rabs (1 - t)) tol) as [B1|B1]; [injection K as <-; unfold frac at 2; cbn [fst snd]; lra|]. eapply loop_rises; [exact ST| | | |exact H|exact K]; unfold INT_MAX; lia.
Qed.

(** The slope the counts stand for. *)
Lemma counts_slope : forall f m hx hy s swap Nx Ny, rational_counts f m hx hy s swap = Some (Got (Nx, Ny)) -> (1 <= Nx)%Z -> (1 <= Ny)%Z ->
  exists r, rational_approximation f m (2 / 1000) 0 = Some (Got r) /\ 0 < frac r <= 1 /\ IZR Nx / IZR Ny = (if swap then / frac r else frac r).
Proof.
  intros f m hx hy s swap Nx Ny H PX PY. unfold rational_counts in H. destruct (rational_approximation f m (2 / 1000) 0) as [o|] eqn:E; [|discriminate]. cbn [option_map] in H. injection H as H. destruct o as [[p q]| |]; try discriminate. cbn [bind] in H.
  destruct (Z.eqb_spec p 0) as [|P0]; [discriminate|]. destruct (to_int (ceil _)) as [sc| |]; try discriminate. cbn [bind] in H. unfold imul, to_int in H. destruct (_ && _); [|discriminate]. cbn [bind] in H. destruct (_ && _); [|discriminate]. cbn [bind] in H.
  exists (p, q). split; [reflexivity|]. pose proof (approx_range _ _ _ _ E) as RG. unfold frac in *. cbn [fst snd] in *.
  assert (Q : (p * sc = if swap then Ny else Nx)%Z /\ (q * sc = if swap then Nx else Ny)%Z) by (destruct swap; injection H as <- <-; auto). destruct Q as [Q1 Q2].
  assert (SC : sc <> 0%Z) by (intros ->; destruct swap; lia). assert (Q0 : q <> 0%Z) by (intros ->; destruct swap; lia).
  assert (RX : IZR sc <> 0) by (apply not_0_IZR; exact SC). assert (RQ : IZR q <> 0) by (apply not_0_IZR; exact Q0). assert (RP : IZR p <> 0) by (apply not_0_IZR; exact P0).
  assert (N0 : IZR p / IZR q <> 0) by (unfold Rdiv; apply Rmult_integral_contrapositive_currified; [exact RP|apply Rinv_neq_0_compat; exact RQ]). split; [lra|].
  destruct swap; rewrite <- Q1, <- Q2, !mult_IZR; field; auto.
Qed.
Lemma slope_alpha : forall hx hy Nx Ny Mx My, 0 < hx -> 0 < hy -> (1 <= Nx)%Z -> (1 <= Ny)%Z -> (1 <= Mx)%Z -> (1 <= My)%Z -> IZR Nx / IZR Ny <= IZR Mx / IZR My -> mod_alpha hx hy Nx Ny <= mod_alpha hx hy Mx My.
Proof.
  intros hx hy Nx Ny Mx My Hx Hy A B C D H. apply IZR_le in A, B, C, D. unfold mod_alpha. assert (L : hy * IZR Nx / (hx * IZR Ny) <= hy * IZR Mx / (hx * IZR My)).
  { replace (hy * IZR Nx / (hx * IZR Ny)) with (hy / hx * (IZR Nx / IZR Ny)) by (field; lra). replace (hy * IZR Mx / (hx * IZR My)) with (hy / hx * (IZR Mx / IZR My)) by (field; lra). apply Rmult_le_compat_l; [apply Rlt_le, Rdiv_lt_0_compat; assumption|exact H]. }
  destruct L as [L|L]; [left; apply atan_increasing; exact L|right; rewrite L; reflexivity].
Qed.
(** C163: of two azimuthal angles of the first quadrant the larger one is not given the smaller modular angle, whatever the size of the
    domain and the spacing. *)
Theorem C163_rational : forall f g a b hx hy s Nx Ny Mx My, (500 < f)%nat -> (500 < g)%nat -> 0 < a -> a <= b -> b < PI / 2 -> 0 < hx -> 0 < hy -> 0 < s ->
  modularize_rational (S f) a hx hy s = Some (Got (Nx, Ny)) -> modularize_rational (S g) b hx hy s = Some (Got (Mx, My)) -> mod_alpha hx hy Nx Ny <= mod_alpha hx hy Mx My.
Proof.
  intros f g a b hx hy s Nx Ny Mx My Hf Hg A AB B Hx Hy Hs H K.
  destruct (C81_rational f a hx hy s Nx Ny Hf ltac:(lra) Hx Hy Hs H) as (N1 & N2 & _). destruct (C81_rational g b hx hy s Mx My Hg ltac:(lra) Hx Hy Hs K) as (M1 & M2 & _).
  apply slope_alpha; try assumption. unfold modularize_rational in H, K. destruct (counts_slope _ _ _ _ _ _ _ _ H N1 N2) as (r & Er & Rr & ->). destruct (counts_slope _ _ _ _ _ _ _ _ K M1 M2) as (q & Eq & Rq & ->).
  assert (T : forall x y, 0 < x -> x <= y -> y < PI / 2 -> 0 < tan x <= tan y).
  { intros x y X XY Y. split; [apply tan_gt_0; lra|]. destruct XY as [L|L]; [left; apply tan_increasing; lra|subst; right; reflexivity]. }
  pose proof PI_RGT_0 as PP. destruct (Rltb_spec a (PI / 4)) as [A4|A4].
  - destruct (Rltb_spec (PI / 4) a); [lra|]. destruct (Rltb_spec b (PI / 4)) as [B4|B4].
    + destruct (Rltb_spec (PI / 4) b); [lra|]. destruct (T a b A AB B). assert (tan b <= 1) by (rewrite <- tan_PI4; apply (T b (PI / 4)); lra). eapply approx_rises; [| | |exact Er|exact Eq]; lra.
    + destruct (Rltb_spec (PI / 4) b) as [B5|B5].
      * apply Rle_trans with 1; [lra|]. rewrite <- Rinv_1 at 1. apply Rinv_le_contravar; lra.
      * assert (b = PI / 4) as -> by lra. replace (PI / 2 - PI / 4) with (PI / 4) in Eq by field. rewrite tan_PI4 in Eq. unfold rational_approximation in Eq. cbn [Z.eqb] in Eq. rewrite Rltb_false in Eq by (rewrite Rabs_left; lra). rewrite Rltb_true in Eq by (replace (1 / 1 - 1) with 0 by field; rewrite Rabs_R0; lra). injection Eq as <-. unfold frac at 2. cbn [fst snd]. lra.
  - destruct (Rltb_spec b (PI / 4)); [lra|]. destruct (Rltb_spec (PI / 4) a) as [A5|A5].
    + destruct (Rltb_spec (PI / 4) b); [|lra]. apply Rinv_le_contravar; [lra|]. destruct (T (PI / 2 - b) (PI / 2 - a)) as [T1 T2]; try lra. assert (tan (PI / 2 - a) <= 1) by (rewrite <- tan_PI4; apply (T (PI / 2 - a) (PI / 4)); lra). eapply approx_rises; [| | |exact Eq|exact Er]; lra.
    + assert (a = PI / 4) as -> by lra. replace (PI / 2 - PI / 4) with (PI / 4) in Er by field. rewrite tan_PI4 in Er. unfold rational_approximation in Er. cbn [Z.eqb] in Er. rewrite Rltb_false in Er by (rewrite Rabs_left; lra). rewrite Rltb_true in Er by (replace (1 / 1 - 1) with 0 by field; rewrite Rabs_R0; lra). injection Er as <-. unfold frac at 1. cbn [fst snd].
      destruct (Rltb_spec (PI / 4) b) as [B5|B5]; [replace (1 / 1) with (/ 1) by field; apply Rinv_le_contravar; lra|]. assert (b = PI / 4) as -> by lra. replace (PI / 2 - PI / 4) with (PI / 4) in Eq by field. rewrite tan_PI4 in Eq. unfold rational_approximation in Eq. cbn [Z.eqb] in Eq. rewrite Rltb_false in Eq by (rewrite Rabs_left; lra). rewrite Rltb_true in Eq by (replace (1 / 1 - 1) with 0 by field; rewrite Rabs_R0; lra). injection Eq as <-. unfold frac. cbn [fst snd]. lra.
Qed.
Print Assumptions C163_rational.

Lemma ceil_rises : forall x y, x <= y -> (ceil x <= ceil y)%Z.
Proof.
  intros x y H. unfold ceil. destruct (base_Int_part (- x)) as [A1 A2], (base_Int_part (- y)) as [B1 B2]. assert (L : IZR (Int_part (- y)) < IZR (Int_part (- x) + 1)) by (rewrite plus_IZR; lra). apply lt_IZR in L. lia.
Qed.
Lemma ceil_nneg : forall x, 0 <= x -> (0 <= ceil x)%Z.
Proof. intros x H. replace 0%Z with (ceil 0); [apply ceil_rises; exact H|]. unfold ceil. rewrite Ropp_0. replace (Int_part 0) with 0%Z; [reflexivity|]. unfold Int_part. rewrite <- (tech_up 0 1); [reflexivity|lra|lra]. Qed.
Lemma even_rises : forall a b c d, (0 <= a)%Z -> (a <= b)%Z -> even_up a = Got c -> even_up b = Got d -> (c <= d)%Z.
Proof.
  intros a b c d A AB H K. unfold even_up, to_int in *. destruct (_ && _)%bool; [|discriminate]. injection H as <-. destruct (_ && _)%bool; [|discriminate]. injection K as <-.
  pose proof (Z.rem_bound_pos a 2 A ltac:(lia)). pose proof (Z.rem_bound_pos b 2 ltac:(lia) ltac:(lia)). assert (a = b \/ (a < b)%Z) as [->|L] by lia; lia.
Qed.
Theorem C163_trig : forall a b hx hy s Nx Ny Mx My, 0 < a -> a <= b -> b < PI / 2 -> 0 < hx -> 0 < hy -> 0 < s ->
  modularize_trig a hx hy s = Got (Nx, Ny) -> modularize_trig b hx hy s = Got (Mx, My) -> (Nx <= Mx)%Z /\ (My <= Ny)%Z /\ mod_alpha hx hy Nx Ny <= mod_alpha hx hy Mx My.
Proof.
  intros a b hx hy s Nx Ny Mx My A AB B Hx Hy Hs H K. destruct (C81_trig a hx hy s Nx Ny ltac:(lra) Hx Hy Hs H) as (N1 & N2 & _). destruct (C81_trig b hx hy s Mx My ltac:(lra) Hx Hy Hs K) as (M1 & M2 & _).
  assert (Sa : 0 < sin a) by (apply sin_gt_0; lra). assert (Ca : 0 < cos a) by (apply cos_gt_0; lra). assert (Sb : 0 < sin b) by (apply sin_gt_0; lra). assert (Cb : 0 < cos b) by (apply cos_gt_0; lra).
  assert (SS : sin a <= sin b) by (apply sin_incr_1; lra). assert (CC : cos b <= cos a) by (apply cos_decr_1; lra).
  unfold modularize_trig in H, K. rewrite !Rabs_right in H, K by lra. assert (Qx : 0 < hx / s) by (apply Rdiv_lt_0_compat; assumption). assert (Qy : 0 < hy / s) by (apply Rdiv_lt_0_compat; assumption).
  assert (X0 : (0 <= ceil (hx / s * sin a))%Z) by (apply ceil_nneg, Rmult_le_pos; lra). assert (Y0 : (0 <= ceil (hy / s * cos b))%Z) by (apply ceil_nneg, Rmult_le_pos; lra).
  assert (XX : (ceil (hx / s * sin a) <= ceil (hx / s * sin b))%Z) by (apply ceil_rises, Rmult_le_compat_l; lra). assert (YY : (ceil (hy / s * cos b) <= ceil (hy / s * cos a))%Z) by (apply ceil_rises, Rmult_le_compat_l; lra).
  unfold to_int at 1 2 in H. unfold to_int at 1 2 in K. destruct (_ && _)%bool in H; [|discriminate]. cbn [bind] in H. destruct (_ && _)%bool in H; [|discriminate]. cbn [bind] in H. destruct (_ && _)%bool in K; [|discriminate]. cbn [bind] in K. destruct (_ && _)%bool in K; [|discriminate]. cbn [bind] in K.
  destruct (even_up (ceil (hx / s * sin a))) as [x1| |] eqn:X1; try discriminate. cbn [bind] in H. destruct (even_up (ceil (hy / s * cos a))) as [y1| |] eqn:Y1; try discriminate. cbn [bind] in H. injection H as <- <-.
  destruct (even_up (ceil (hx / s * sin b))) as [x2| |] eqn:X2; try discriminate. cbn [bind] in K. destruct (even_up (ceil (hy / s * cos b))) as [y2| |] eqn:Y2; try discriminate. cbn [bind] in K. injection K as <- <-.
  assert (LX := even_rises _ _ _ _ X0 XX X1 X2). assert (LY := even_rises _ _ _ _ Y0 YY Y2 Y1). split; [exact LX|]. split; [exact LY|]. apply slope_alpha; try assumption.
  apply IZR_le in LX, LY, N1, N2, M1, M2. apply Rle_trans with (IZR x2 / IZR y1); unfold Rdiv; [apply Rmult_le_compat_r; [left; apply Rinv_0_lt_compat; lra|exact LX]|apply Rmult_le_compat_l; [lra|apply Rinv_le_contravar; lra]].
Qed.
Print Assumptions C163_trig.
(** Angles that differ may become the same. *)
Lemma ceil_is : forall x n, IZR n - 1 < x -> x <= IZR n -> ceil x = n.
Proof.
  intros x n A B. pose proof (ceil_ge x) as C. pose proof (ceil_lt x) as D. assert (E : (n - 1 < ceil x)%Z) by (apply lt_IZR; rewrite minus_IZR; lra). assert (F : (ceil x < n + 1)%Z) by (apply lt_IZR; rewrite plus_IZR; lra). lia.
Qed.
Lemma trig_30 : forall h n m, 0 < h -> h / 2 = IZR n -> IZR m - 1 < h * (sqrt 3 / 2) <= IZR m -> (0 <= n)%Z -> (n + 1 <= INT_MAX)%Z -> (0 <= m)%Z -> (m + 1 <= INT_MAX)%Z ->
  modularize_trig (PI / 6) h h 1 = Got (n + Z.rem n 2, m + Z.rem m 2)%Z /\ modularize_trig (PI / 3) h h 1 = Got (m + Z.rem m 2, n + Z.rem n 2)%Z.
Proof.
  intros h n m H En Em N0 N1 M0 M1. assert (Q : 0 < sqrt 3) by (apply sqrt_lt_R0; lra). assert (G : forall k, (0 <= k)%Z -> (k + 1 <= INT_MAX)%Z -> to_int k = Got k /\ even_up k = Got (k + Z.rem k 2)%Z).
  { intros k K0 K1. pose proof (Z.rem_bound_pos k 2 K0 ltac:(lia)). unfold even_up. split; apply to_int_ok; lia. }
  unfold modularize_trig. rewrite sin_PI6, cos_PI6, sin_PI3, cos_PI3. rewrite !Rabs_right by lra. replace (h / 1 * (1 / 2)) with (h / 2) by field. replace (h / 1 * (sqrt 3 / 2)) with (h * (sqrt 3 / 2)) by field.
  rewrite (ceil_is (h / 2) n) by lra. rewrite (ceil_is (h * (sqrt 3 / 2)) m) by lra. destruct (G n N0 N1) as [-> G2]. destruct (G m M0 M1) as [-> G4]. cbn [bind]. rewrite G2, G4. cbn [bind]. split; reflexivity.
Qed.
Lemma root3 : 17 / 10 < sqrt 3 < 18 / 10.
Proof. split; [rewrite <- (sqrt_square (17 / 10)) by lra|rewrite <- (sqrt_square (18 / 10)) by lra]; apply sqrt_lt_1; lra. Qed.
(** C163 refuted for strict order: 30 and 60 degrees become the same angle in a square of two ray spacings. *)
Theorem C163_strict_refuted : exists a b hx hy s N, 0 < a /\ a < b /\ b < PI / 2 /\ 0 < hx /\ 0 < hy /\ 0 < s /\ modularize_trig a hx hy s = Got N /\ modularize_trig b hx hy s = Got N.
Proof.
  pose proof PI_RGT_0. pose proof root3. exists (PI / 6), (PI / 3), 2, 2, 1, (2, 2)%Z. do 6 (split; [lra|]). apply (trig_30 2 1 2); try lra; try lia; unfold INT_MAX; lia.
Qed.
Print Assumptions C163_strict_refuted.
(** 30 and 60 degrees with four ray spacings, and the slopes 1/2 and 2. *)
Example C163_instance : modularize_trig (PI / 6) 4 4 1 = Got (2, 4)%Z /\ modularize_trig (PI / 3) 4 4 1 = Got (4, 2)%Z /\
  modularize_rational 502 (atan (1 / 2)) 1 1 1 = Some (Got (1, 2)%Z) /\ modularize_rational 502 (PI / 2 - atan (1 / 2)) 1 1 1 = Some (Got (2, 1)%Z) /\ 0 < atan (1 / 2) <= PI / 2 - atan (1 / 2).
Proof.
  pose proof PI_RGT_0. pose proof root3. destruct (trig_30 4 2 4) as [T1 T2]; try lra; try lia; try (unfold INT_MAX; lia). split; [exact T1|]. split; [exact T2|].
  assert (L : 0 < atan (1 / 2) < PI / 4) by (split; [rewrite <- atan_0|rewrite <- atan_1]; apply atan_increasing; lra). assert (T : tan (atan (1 / 2)) = 1 / 2) by apply tan_atan.
  assert (Sg : 0 < sin (atan (1 / 2)) <= 1) by (split; [apply sin_gt_0; lra|apply SIN_bound]).
  assert (C : ceil (1 / 1 * Rabs (sin (atan (1 * 1 / (2 * 1)))) / 1) = 1%Z) by (replace (1 * 1 / (2 * 1)) with (1 / 2) by field; rewrite Rabs_right by lra; apply ceil_is; lra).
  split; [|split; [|lra]].
  - unfold modularize_rational. rewrite Rltb_true by lra. rewrite Rltb_false by lra. unfold rational_counts. rewrite T, rat_half. cbn [option_map bind Z.eqb]. rewrite C. reflexivity.
  - unfold modularize_rational. rewrite Rltb_false by lra. rewrite Rltb_true by lra. replace (PI / 2 - (PI / 2 - atan (1 / 2))) with (atan (1 / 2)) by ring. unfold rational_counts. rewrite T, rat_half. cbn [option_map bind Z.eqb]. rewrite C. reflexivity.
Qed.
