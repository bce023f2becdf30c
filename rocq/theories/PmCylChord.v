(** C93 for cylindrical pins. *)
From Coq Require Import Reals ZArith List Bool Lra Lia Psatz Permutation.
From Verif Require Import RUtil StdAlg StdAlgProofs GeomModel GeomProofs CoreModel TallyProofs PmModel PmProps PmTraceProps PmCylTrace.
Import ListNotations.
Local Open Scope R_scope.

Definition rad (p : Point2) : R := sqrt (ptx p * ptx p + pty p * pty p).
Lemma rad_sq : forall p, rad p * rad p = ptx p * ptx p + pty p * pty p.
Proof. intro p. apply sqrt_sqrt. nra. Qed.
Lemma rad_lt : forall p r, 0 <= r -> (rad p < r <-> ptx p * ptx p + pty p * pty p < r * r).
Proof.
  intros p r H. rewrite <- rad_sq. assert (0 <= rad p) by apply sqrt_pos. split; nra.
Qed.
Lemma ring_of_same : forall radii x y, (forall r, In r radii -> (x < r <-> y < r)) -> ring_of x radii = ring_of y radii.
Proof.
  induction radii as [|r radii IH]; intros x y H; [reflexivity|]. cbn [ring_of]. pose proof (H r (or_introl eq_refl)) as Q.
  assert (E : Rltb x r = Rltb y r) by (destruct (Rltb_spec x r), (Rltb_spec y r); try reflexivity; tauto). rewrite E. destruct (Rltb y r); [reflexivity|]. f_equal. apply IH. intros s Hs. apply H. right. assumption.
Qed.

Section CylChord.
Variables (pitch : R) (radii : list R) (n : Z) (ls : list Line) (a b : Point2) (cps : list Point2).
Hypothesis rise : pty a < pty b.
Hypothesis Ia : inside pitch a.
Hypothesis Ib : inside pitch b.
Hypothesis Rpos : Forall (fun r => 0 <= r /\ r * r < ptx a * ptx a + pty a * pty a /\ r * r < ptx b * ptx b + pty b * pty b) radii.
Let l : Line := {| p1 := a; p2 := b |}.
Hypothesis Ec : circle_points radii l = Some cps.
Hypothesis N2 : (2 <= n)%Z.
Hypothesis even : (n mod 2 = 0)%Z.
Hypothesis lines_ok : forall i, (i < Z.to_nat n)%nat -> has_line (pitch / 2) ls (cos (ray_dir n i)) (sin (ray_dir n i)).
Let pts := cps ++ trace_points ls l.

Lemma ab_neq : a <> b.
Proof. intro E. rewrite E in rise. lra. Qed.

(** The crossings of the rings. *)
Lemma circles_found_gen : forall rr qs, Forall (fun r => 0 <= r /\ r * r < ptx a * ptx a + pty a * pty a /\ r * r < ptx b * ptx b + pty b * pty b) rr -> circle_points rr l = Some qs ->
  forall z, In z qs <-> exists r, In r rr /\ on_segment l z /\ ptx z * ptx z + pty z * pty z = r * r.
Proof.
  induction rr as [|r rr IH]; intros qs F E z.
  - cbn in E. injection E as <-. split; [intros []|intros [r [[] _]]].
  - inversion F as [|? ? [F1 [F2 F3]] F4]; subst. cbn [circle_points] in E.
    assert (O1 : outside {| cc := origin; cr := r |} (p1 l)) by (unfold outside, power, l, origin; cbn; lra). assert (O2 : outside {| cc := origin; cr := r |} (p2 l)) by (unfold outside, power, l, origin; cbn; lra).
    assert (ON : forall z, on_circle {| cc := origin; cr := r |} z <-> ptx z * ptx z + pty z * pty z = r * r) by (intro w; unfold on_circle, power, origin; cbn; split; intro Q; lra).
    destruct (intersect_lc_spec l {| cc := origin; cr := r |} O1 O2 ab_neq) as [[E1 H]|[p [q [E1 [H _]]]]]; rewrite E1 in E; destruct (circle_points rr l) as [ps|] eqn:Ep; try discriminate; injection E as <-.
    + rewrite (IH ps F4 eq_refl z). split; [intros [s [A B]]; exists s; split; [right|]; assumption|]. intros [s [[<-|A] [B C]]]; [exfalso; apply (H z B); apply ON; assumption|exists s; auto].
    + cbn [In]. rewrite (IH ps F4 eq_refl z). split.
      * intros [A|[A|[s [A B]]]]; [| |exists s; split; [right|]; assumption]; (exists r; split; [left; reflexivity|]); (destruct (proj2 (H z)) as [U V]; [subst z; auto|]; split; [exact U|apply ON; exact V]).
      * intros [s [[<-|A] [B C]]]; [|right; right; exists s; auto]. destruct (proj1 (H z)) as [U|U]; [split; [exact B|apply ON; exact C]|left; auto|right; left; auto].
Qed.
Lemma circles_found : forall z r, In r radii -> on_segment l z -> ptx z * ptx z + pty z * pty z = r * r -> In z pts.
Proof. intros z r I S E. apply in_or_app. left. apply (circles_found_gen radii cps Rpos Ec). exists r. auto. Qed.
Lemma pts_on : Forall (on_segment l) pts.
Proof.
  apply Forall_forall. intros z Hz. apply in_app_or in Hz. destruct Hz as [Hz|Hz].
  - apply (circles_found_gen radii cps Rpos Ec) in Hz. destruct Hz as [r [_ [S _]]]. exact S.
  - apply trace_points_in in Hz. destruct Hz as [li [_ E]]. apply intersect_ll_sound in E. apply E.
Qed.
(** The crossings of the azimuthal lines. *)
Lemma line_found : forall i k z, (i < Z.to_nat n)%nat -> 0 <= k -> ptx z = k * cos (ray_dir n i) -> pty z = k * sin (ray_dir n i) -> on_segment l z ->
  cos (ray_dir n i) * (pty b - pty a) - sin (ray_dir n i) * (ptx b - ptx a) <> 0 -> In z pts.
Proof.
  intros i k z Hi Hk Ex Ey S NP. apply in_or_app. right. apply trace_points_in. destruct (lines_ok i Hi) as [m [Hm [I B]]].
  eexists. split; [exact I|]. apply intersect_ll_complete; [| |exact S].
  - unfold cross, l, origin. cbn [p1 p2 ptx pty]. intro Q. apply NP. apply (Rmult_eq_reg_l m); [|lra]. rewrite Rmult_0_r, <- Q. ring.
  - pose proof (chord_inside pitch a b z Ia Ib S) as [X Y]. rewrite Ex in X. rewrite Ey in Y. specialize (B k Hk X Y).
    exists (k / m). split; [split; [apply Rmult_le_pos; [lra|left; apply Rinv_0_lt_compat; lra]|apply (Rmult_le_reg_r m); [lra|]; replace (k / m * m) with k by (field; lra); lra]|].
    unfold at_param, origin. cbn [p1 p2 ptx pty]. rewrite Ex, Ey. split; field; lra.
Qed.

Variables y1 y2 : R.
Hypothesis gap : forall z, In z pts -> y1 < pty z < y2 -> False.
Hypothesis range : pty a <= y1 /\ y2 <= pty b.

(** A point of the chord at a fraction of the way between two others. *)
Lemma chord_mix : forall p q t, on_segment l p -> on_segment l q -> 0 <= t <= 1 -> on_segment l {| ptx := ptx p + t * (ptx q - ptx p); pty := pty p + t * (pty q - pty p) |}.
Proof.
  intros p q t [s [Hs [Xs Ys]]] [w [Hw [Xw Yw]]] Ht. exists (s + t * (w - s)). split; [nra|]. unfold at_param. cbn [ptx pty]. rewrite Xs, Ys, Xw, Yw. split; ring.
Qed.
Lemma mix_gap : forall p q t, y1 < pty p < y2 -> y1 < pty q < y2 -> 0 <= t <= 1 -> y1 < pty p + t * (pty q - pty p) < y2.
Proof. intros p q t A B C. clear - A B C. set (u := pty p) in *. set (v := pty q) in *. destruct (Rle_dec u v); [assert (0 <= t * (v - u) <= v - u) by (split; nra)|assert (v - u <= t * (v - u) <= 0) by (split; nra)]; lra. Qed.

Lemma same_ring : forall p q r, on_segment l p -> on_segment l q -> y1 < pty p < y2 -> y1 < pty q < y2 -> In r radii -> rad p < r -> rad q < r.
Proof.
  intros p q r Sp Sq Gp Gq Ir H. assert (R0 : 0 <= r) by (rewrite Forall_forall in Rpos; apply (Rpos r Ir)). apply rad_lt in H; [|assumption]. apply rad_lt; [assumption|].
  apply Rnot_le_lt. intro Q.
  set (dx := ptx q - ptx p). set (dy := pty q - pty p). set (A := dx * dx + dy * dy). set (B := ptx p * dx + pty p * dy). set (C := ptx p * ptx p + pty p * pty p - r * r).
  assert (Q' : 0 <= A + 2 * B + C) by (unfold A, B, C, dx, dy; nra). assert (HC : C < 0) by (unfold C; lra).
  assert (HA : 0 < A).
  { unfold A. destruct (Req_dec dx 0) as [E1|E1]; [|pose proof (Rsqr_pos_lt dx E1) as Z; unfold Rsqr in Z; nra]. destruct (Req_dec dy 0) as [E2|E2]; [|pose proof (Rsqr_pos_lt dy E2) as Z; unfold Rsqr in Z; nra].
    exfalso. assert (B = 0) by (unfold B; rewrite E1, E2; ring). assert (A = 0) by (unfold A; rewrite E1, E2; ring). lra. }
  set (D := B * B - A * C). assert (HD : B * B < D) by (unfold D; nra). set (sq := sqrt D). assert (SS : sq * sq = D) by (apply sqrt_sqrt; nra). assert (S0 : 0 <= sq) by apply sqrt_pos.
  assert (L1 : B < sq) by nra. assert (AB : 0 < A + B) by lra. assert (L2 : sq <= A + B) by (apply Rnot_lt_le; intro U; assert ((A + B) * (A + B) < sq * sq) by nra; rewrite SS in *; unfold D in *; nra).
  set (t := (sq - B) / A). assert (T : 0 <= t <= 1).
  { unfold t. split; [apply Rmult_le_pos; [lra|left; apply Rinv_0_lt_compat; lra]|]. apply (Rmult_le_reg_r A); [assumption|]. replace ((sq - B) / A * A) with (sq - B) by (field; lra). lra. }
  apply (gap {| ptx := ptx p + t * dx; pty := pty p + t * dy |}); [|cbn [pty]; apply mix_gap; assumption].
  apply (circles_found _ r Ir); [apply chord_mix; assumption|]. cbn [ptx pty].
  assert (Rt : A * t = sq - B) by (unfold t; field; lra).
  assert (Z : A * (A * (t * t) + 2 * B * t + C) = 0) by (replace (A * (A * (t * t) + 2 * B * t + C)) with ((A * t) * (A * t) + 2 * B * (A * t) + A * C) by ring; rewrite Rt; replace ((sq - B) * (sq - B) + 2 * B * (sq - B) + A * C) with (sq * sq - B * B + A * C) by ring; rewrite SS; unfold D; ring).
  apply Rmult_integral in Z. destruct Z as [Z|Z]; [lra|].
  replace ((ptx p + t * dx) * (ptx p + t * dx) + (pty p + t * dy) * (pty p + t * dy)) with (A * (t * t) + 2 * B * t + C + r * r) by (unfold A, B, C; ring). lra.
Qed.

(** ** Sectors *)
Lemma dir0 : cos (ray_dir n 0) = 1 /\ sin (ray_dir n 0) = 0.
Proof. assert (E : ray_dir n 0 = 0) by (unfold ray_dir; cbn [INR]; unfold Rdiv; ring). rewrite E, cos_0, sin_0. auto. Qed.
Lemma Nn : 2 <= IZR n.
Proof. apply (IZR_le 2). assumption. Qed.
Lemma dirn : forall i, ray_dir n (i + Z.to_nat n) = ray_dir n i + 2 * PI.
Proof. intro i. pose proof Nn. unfold ray_dir. rewrite plus_INR. rewrite (INR_IZR_INZ (Z.to_nat n)), Z2Nat.id by lia. field. lra. Qed.
Lemma dir_half : forall i, exists j, (j < Z.to_nat n)%nat /\ cos (ray_dir n j) = - cos (ray_dir n i) /\ sin (ray_dir n j) = - sin (ray_dir n i).
Proof.
  intro i. pose proof Nn as Q. set (m := Z.to_nat (n / 2)).
  assert (E : n = (2 * (n / 2))%Z) by (pose proof (Z.div_mod n 2 ltac:(lia)); lia).
  assert (M : INR m = IZR n / 2) by (unfold m; rewrite INR_IZR_INZ, Z2Nat.id by (apply Z.div_pos; lia); rewrite E at 2; rewrite mult_IZR; field).
  assert (P : forall j, cos (ray_dir n (j mod Z.to_nat n)) = cos (ray_dir n j) /\ sin (ray_dir n (j mod Z.to_nat n)) = sin (ray_dir n j)).
  { intro j. rewrite (Nat.div_mod j (Z.to_nat n)) at 2 4 by lia. generalize (j mod Z.to_nat n)%nat as r. intro r. induction (j / Z.to_nat n)%nat as [|k IH].
    - rewrite Nat.mul_0_r. auto.
    - replace (Z.to_nat n * S k + r)%nat with ((Z.to_nat n * k + r) + Z.to_nat n)%nat by lia. rewrite dirn, cos_plus, sin_plus, cos_2PI, sin_2PI, !Rmult_1_r, !Rmult_0_r. destruct IH as [I1 I2]. rewrite I1, I2. split; ring. }
  exists ((i + m) mod Z.to_nat n)%nat. split; [apply Nat.mod_upper_bound; lia|]. destruct (P (i + m)%nat) as [P1 P2]. rewrite P1, P2.
  assert (D : ray_dir n (i + m) = ray_dir n i + PI) by (unfold ray_dir; rewrite plus_INR, M; field; lra). rewrite D, neg_cos, neg_sin. auto.
Qed.
Lemma dir_wrap : forall i, (i <= Z.to_nat n)%nat -> exists j, (j < Z.to_nat n)%nat /\ cos (ray_dir n j) = cos (ray_dir n i) /\ sin (ray_dir n j) = sin (ray_dir n i).
Proof.
  intros i H. destruct (Nat.eq_dec i (Z.to_nat n)) as [->|N]; [|exists i; split; [lia|auto]].
  exists 0%nat. split; [lia|]. pose proof (dirn 0) as D. cbn [Nat.add] in D. rewrite D, cos_plus, sin_plus, cos_2PI, sin_2PI. split; ring.
Qed.

(** No point of the gap lies on a sector boundary the chord crosses. *)
Lemma on_boundary : forall i k z, (i <= Z.to_nat n)%nat -> ptx z = k * cos (ray_dir n i) -> pty z = k * sin (ray_dir n i) -> on_segment l z -> y1 < pty z < y2 ->
  cos (ray_dir n i) * (pty b - pty a) - sin (ray_dir n i) * (ptx b - ptx a) <> 0 -> False.
Proof.
  intros i k z Hi Ex Ey S G NP. apply (gap z); [|assumption]. destruct (Rle_dec 0 k) as [K|K].
  - destruct (dir_wrap i Hi) as [j [Hj [C1 C2]]]. apply (line_found j k z Hj K); rewrite ?C1, ?C2; assumption.
  - destruct (dir_half i) as [j [Hj [C1 C2]]]. apply (line_found j (- k) z Hj); rewrite ?C1, ?C2; try lra; assumption.
Qed.
Lemma origin_not_in : forall z, on_segment l z -> y1 < pty z < y2 -> pty z <> 0.
Proof.
  intros z S G E. destruct dir0 as [C0 S0]. apply (on_boundary 0 (ptx z) z); rewrite ?C0, ?S0; try lia; try lra; assumption.
Qed.

(** Sides of a direction. *)
Definition side (c s : R) (p : Point2) : R := c * pty p - s * ptx p.
Lemma side_polar : forall p al th, polar p al -> side (cos th) (sin th) p = rad p * sin (al - th).
Proof. intros p al th [_ [X Y]]. unfold side. rewrite sin_minus. fold (rad p) in X, Y. rewrite X, Y at 1. ring. Qed.
Lemma side_zero : forall th p, side (cos th) (sin th) p = 0 -> exists k, ptx p = k * cos th /\ pty p = k * sin th.
Proof.
  intros th p H. exists (ptx p * cos th + pty p * sin th). unfold side in H. pose proof (sin2_cos2 th) as Q. unfold Rsqr in Q. set (c := cos th) in *. set (s := sin th) in *. split.
  - replace (ptx p) with (ptx p * (s * s + c * c)) at 1 by (rewrite Q; ring). replace (ptx p * (s * s + c * c)) with ((ptx p * c + pty p * s) * c - s * (c * pty p - s * ptx p)) by ring. rewrite H. ring.
  - replace (pty p) with (pty p * (s * s + c * c)) at 1 by (rewrite Q; ring). replace (pty p * (s * s + c * c)) with ((ptx p * c + pty p * s) * s + c * (c * pty p - s * ptx p)) by ring. rewrite H. ring.
Qed.
Lemma side_chord : forall c s p q, on_segment l p -> on_segment l q -> side c s p <> side c s q -> c * (pty b - pty a) - s * (ptx b - ptx a) <> 0.
Proof.
  intros c s p q [t [Ht [Xt Yt]]] [w [Hw [Xw Yw]]] N E. apply N. unfold side. rewrite Xt, Yt, Xw, Yw. unfold l. cbn [p1 p2].
  replace (c * (pty a + t * (pty b - pty a)) - s * (ptx a + t * (ptx b - ptx a))) with (c * pty a - s * ptx a + t * (c * (pty b - pty a) - s * (ptx b - ptx a))) by ring.
  replace (c * (pty a + w * (pty b - pty a)) - s * (ptx a + w * (ptx b - ptx a))) with (c * pty a - s * ptx a + w * (c * (pty b - pty a) - s * (ptx b - ptx a))) by ring. rewrite E. ring.
Qed.

(** A side of a boundary direction does not change sign within the gap, unless the chord is parallel to it. *)
Lemma side_keeps : forall i p q, (i <= Z.to_nat n)%nat -> on_segment l p -> on_segment l q -> y1 < pty p < y2 -> y1 < pty q < y2 ->
  0 < side (cos (ray_dir n i)) (sin (ray_dir n i)) p -> 0 < side (cos (ray_dir n i)) (sin (ray_dir n i)) q.
Proof.
  intros i p q Hi Sp Sq Gp Gq H. apply Rnot_le_lt. intro Q. set (c := cos (ray_dir n i)) in *. set (s := sin (ray_dir n i)) in *. set (f := side c s p) in *. set (g := side c s q) in *.
  set (t := f / (f - g)). assert (T : 0 <= t <= 1).
  { unfold t. split; [apply Rmult_le_pos; [lra|left; apply Rinv_0_lt_compat; lra]|]. apply (Rmult_le_reg_r (f - g)); [lra|]. replace (f / (f - g) * (f - g)) with f by (field; lra). lra. }
  set (z := {| ptx := ptx p + t * (ptx q - ptx p); pty := pty p + t * (pty q - pty p) |}).
  assert (Z : side c s z = 0).
  { unfold z, side. cbn [ptx pty]. replace (c * (pty p + t * (pty q - pty p)) - s * (ptx p + t * (ptx q - ptx p))) with ((1 - t) * f + t * g) by (unfold f, g, side; ring). unfold t. field. lra. }
  destruct (side_zero (ray_dir n i) z Z) as [k [Kx Ky]].
  apply (on_boundary i k z Hi Kx Ky); [apply chord_mix; assumption|unfold z; cbn [pty]; apply mix_gap; assumption|].
  apply (side_chord c s p q Sp Sq). fold f g. lra.
Qed.

Lemma same_sector : forall p q ia, on_segment l p -> on_segment l q -> y1 < pty p < y2 -> y1 < pty q < y2 -> (0 <= ia < n)%Z -> in_sector n ia (alpha p) -> in_sector n ia (alpha q).
Proof.
  intros p q ia Sp Sq Gp Gq Hia Hs. pose proof Nn as N2'. pose proof PI_RGT_0 as PP. assert (Yp : pty p <> 0) by (apply origin_not_in; assumption). assert (Yq : pty q <> 0) by (apply origin_not_in; assumption).
  destruct (C70_alpha p Yp) as [Pp _]. destruct (C70_alpha q Yq) as [Pq Aq0]. set (al := alpha p) in *. set (be := alpha q) in *.
  assert (Rp : 0 < rad p) by (apply sqrt_lt_R0; nra). assert (Rq : 0 < rad q) by (apply sqrt_lt_R0; nra).
  set (i := Z.to_nat ia). assert (Hi : (i < Z.to_nat n)%nat) by (unfold i; lia).
  assert (T1 : 2 * PI * IZR ia / IZR n = ray_dir n i) by (unfold ray_dir, i; rewrite INR_IZR_INZ, Z2Nat.id by lia; reflexivity).
  assert (T2 : 2 * PI * IZR (ia + 1) / IZR n = ray_dir n (S i)) by (unfold ray_dir, i; rewrite S_INR, INR_IZR_INZ, Z2Nat.id, plus_IZR by lia; reflexivity).
  unfold in_sector in *. rewrite T1, T2 in *. set (t1 := ray_dir n i) in *. set (t2 := ray_dir n (S i)) in *.
  assert (W : 0 < t2 - t1 <= PI).
  { assert (E : t2 - t1 = 2 * PI / IZR n) by (unfold t2, t1, ray_dir; rewrite S_INR; field; lra). rewrite E. split; [apply Rdiv_lt_0_compat; lra|]. apply (Rmult_le_reg_r (IZR n)); [lra|]. replace (2 * PI / IZR n * IZR n) with (2 * PI) by (field; lra). nra. }
  assert (B1 : 0 <= t1) by (unfold t1, ray_dir; apply Rmult_le_pos; [pose proof (pos_INR i); nra|left; apply Rinv_0_lt_compat; lra]).
  assert (B2 : t2 <= 2 * PI).
  { unfold t2, ray_dir. apply (Rmult_le_reg_r (IZR n)); [lra|]. replace (2 * PI * INR (S i) / IZR n * IZR n) with (2 * PI * INR (S i)) by (field; lra). apply Rmult_le_compat_l; [lra|]. unfold i. rewrite S_INR, INR_IZR_INZ, Z2Nat.id by lia. rewrite <- (plus_IZR ia 1). apply IZR_le. lia. }
  destruct Hs as [H1 H2]. destruct Pp as [[Pa Pb] Pc]. destruct Pq as [[Qa Qb] Qc].
  destruct (Req_dec al t1) as [E|NE].
  - (* on the boundary: the chord runs along it, through the centre *)
    assert (Z : side (cos t1) (sin t1) p = 0) by (rewrite (side_polar p al t1 (conj (conj Pa Pb) Pc)), E; replace (t1 - t1) with 0 by ring; rewrite sin_0; ring).
    destruct (side_zero t1 p Z) as [kp [Xp Yp']].
    assert (Zq : side (cos t1) (sin t1) q = 0).
    { destruct (Req_dec (side (cos t1) (sin t1) q) 0) as [|NZ]; [assumption|exfalso]. apply (on_boundary i kp p ltac:(lia) Xp Yp' Sp Gp). apply (side_chord _ _ p q Sp Sq). fold t1. lra. }
    destruct (side_zero t1 q Zq) as [kq [Xq Yq']].
    assert (SN : sin t1 <> 0) by (intro Q; rewrite Q in Yp'; lra).
    assert (KP : kp = rad p).
    { destruct Pc as [_ Y]. fold (rad p) in Y. rewrite E in Y. apply (Rmult_eq_reg_r (sin t1)); [lra|assumption]. }
    destruct (Rle_dec kq 0) as [K|K].
    + exfalso. set (t := kp / (kp - kq)). assert (T : 0 <= t <= 1).
      { unfold t. split; [apply Rmult_le_pos; [lra|left; apply Rinv_0_lt_compat; lra]|]. apply (Rmult_le_reg_r (kp - kq)); [lra|]. replace (kp / (kp - kq) * (kp - kq)) with kp by (field; lra). lra. }
      pose proof (chord_mix p q t Sp Sq T) as Sz. pose proof (mix_gap p q t Gp Gq T) as Gz.
      apply (origin_not_in _ Sz); cbn [pty]; [assumption|]. rewrite Yp', Yq'. unfold t. field. lra.
    + assert (KQ : rad q = kq).
      { unfold rad. rewrite Xq, Yq'. replace (kq * cos t1 * (kq * cos t1) + kq * sin t1 * (kq * sin t1)) with ((kq * kq) * (sin t1 * sin t1 + cos t1 * cos t1)) by ring. pose proof (sin2_cos2 t1) as Q. unfold Rsqr in Q. rewrite Q, Rmult_1_r. apply sqrt_square. lra. }
      assert (BE : be = t1).
      { apply (C70_unique q); [right; assumption|split; [lra|exact Qc]|]. split; [lra|]. fold (rad q). rewrite KQ. auto. }
      rewrite BE. lra.
  - assert (S1 : 0 < side (cos t1) (sin t1) p).
    { rewrite (side_polar p al t1 (conj (conj Pa Pb) Pc)). apply Rmult_lt_0_compat; [assumption|]. apply sin_gt_0; lra. }
    assert (S2 : 0 < side (cos (ray_dir n (S i) + PI)) (sin (ray_dir n (S i) + PI)) p).
    { fold t2. rewrite (side_polar p al (t2 + PI) (conj (conj Pa Pb) Pc)). apply Rmult_lt_0_compat; [assumption|].
      replace (al - (t2 + PI)) with (- (t2 - al + PI)) by ring. rewrite sin_neg, neg_sin, Ropp_involutive. apply sin_gt_0; lra. }
    pose proof (side_keeps i p q ltac:(lia) Sp Sq Gp Gq S1) as Q1. fold t1 in Q1.
    assert (Q2 : 0 < side (cos (t2 + PI)) (sin (t2 + PI)) q).
    { destruct (dir_half (S i)) as [j [Hj [C1 C2]]]. fold t2 in S2. rewrite neg_cos, neg_sin in *. fold t2 in C1, C2. rewrite <- C1, <- C2 in *. apply (side_keeps j p q ltac:(lia) Sp Sq Gp Gq S2). }
    rewrite (side_polar q be t1 (conj (conj Qa Qb) Qc)) in Q1. rewrite (side_polar q be (t2 + PI) (conj (conj Qa Qb) Qc)) in Q2.
    assert (U1 : 0 < sin (be - t1)) by nra. assert (U2 : 0 < sin (t2 - be)).
    { replace (t2 - be) with (- (be - (t2 + PI)) - PI) by ring. rewrite sin_minus, sin_PI, cos_PI, sin_neg. nra. }
    destruct (Rle_dec t1 be) as [L|L].
    + split; [assumption|]. apply Rnot_le_lt. intro V.
      assert (be - t1 < PI).
      { apply Rnot_le_lt. intro V2. assert (sin (be - t1) <= 0) by (apply sin_le_0; lra). lra. }
      assert (sin (be - t2) >= 0) by (apply Rle_ge, sin_ge_0; lra). replace (t2 - be) with (- (be - t2)) in U2 by ring. rewrite sin_neg in U2. lra.
    + exfalso. assert (be - t1 < - PI).
      { apply Rnot_le_lt. intro V2. assert (0 <= sin (t1 - be)) by (apply sin_ge_0; lra). replace (be - t1) with (- (t1 - be)) in U1 by ring. rewrite sin_neg in U1. lra. }
      assert (sin (t2 - be) <= 0) by (apply sin_le_0; lra). lra.
Qed.

Lemma cyl_same : forall pm p q, cp_pitch pm = pitch -> cp_radii pm = radii -> cp_azi pm = n -> on_segment l p -> on_segment l q -> y1 < pty p < y2 -> y1 < pty q < y2 -> cyl_find_reg pm p = cyl_find_reg pm q.
Proof.
  intros pm p q Ep Er Ea Sp Sq Gp Gq. unfold cyl_find_reg, cyl_n_reg. rewrite Ep, Er, Ea. fold (rad p) (rad q).
  pose proof (chord_inside pitch a b p Ia Ib Sp) as [A1 A2]. pose proof (chord_inside pitch a b q Ia Ib Sq) as [B1 B2]. rewrite !Rltb_false by lra. cbn [orb].
  rewrite (ring_of_same radii (rad p) (rad q)) by (intros r Ir; split; intro H; [apply (same_ring p q)|apply (same_ring q p)]; assumption).
  assert (Yp : pty p <> 0) by (apply origin_not_in; assumption). assert (Yq : pty q <> 0) by (apply origin_not_in; assumption).
  destruct (C70_alpha p Yp) as [[Pp _] _]. destruct (C70_alpha q Yq) as [[Pq _] _].
  destruct (C94_cyl_total [] 0 n (alpha p) I (Rle_refl 0) ltac:(lia) Pp) as [_ [ia Hs]].
  destruct (polar_sector n ia (alpha p) ltac:(lia) Pp Hs) as [Bia E1].
  pose proof (same_sector p q ia Sp Sq Gp Gq Bia Hs) as Hq. destruct (polar_sector n ia (alpha q) ltac:(lia) Pq Hq) as [_ E2]. rewrite E1, E2. reflexivity.
Qed.
End CylChord.

Lemma circle_points_some : forall rr a b, pty a < pty b -> Forall (fun r => 0 <= r /\ r * r < ptx a * ptx a + pty a * pty a /\ r * r < ptx b * ptx b + pty b * pty b) rr -> exists cps, circle_points rr {| p1 := a; p2 := b |} = Some cps.
Proof.
  induction rr as [|r rr IH]; intros a b H F; [eexists; reflexivity|]. inversion F as [|? ? [F1 [F2 F3]] F4]; subst. destruct (IH a b H F4) as [ps E]. cbn [circle_points].
  assert (O1 : outside {| cc := origin; cr := r |} a) by (unfold outside, power, origin; cbn; lra). assert (O2 : outside {| cc := origin; cr := r |} b) by (unfold outside, power, origin; cbn; lra).
  assert (N : a <> b) by (intros ->; lra).
  destruct (intersect_lc_spec {| p1 := a; p2 := b |} {| cc := origin; cr := r |} O1 O2 N) as [[E1 _]|[p [q [E1 _]]]]; rewrite E1, E; eexists; reflexivity.
Qed.
Lemma growing_last : forall xs r0 x, growing r0 xs -> In x xs -> r0 < x <= last xs r0.
Proof.
  assert (M : forall xs r0, growing r0 xs -> r0 <= last xs r0).
  { induction xs as [|x xs IH]; intros r0 G; [cbn; lra|]. rewrite last_cons'. cbn in G. destruct G as [G1 G2]. specialize (IH x G2). lra. }
  induction xs as [|y xs IH]; intros r0 x G I; [destruct I|]. rewrite last_cons'. cbn in G. destruct G as [G1 G2]. destruct I as [<-|I]; [split; [assumption|apply M; assumption]|]. specialize (IH y x G2 I). lra.
Qed.

(** The region of ring [ir] and sector [ia]. *)
Definition in_zone (radii : list R) (n : Z) (p : Point2) (r : Reg) : Prop :=
  forall ir ia al, in_ring radii (sqrt (ptx p * ptx p + pty p * pty p)) ir -> polar p al -> in_sector n ia al -> r = RIdx (Z.of_nat ir * n + ia).

(** A chord that rises through a cylindrical pin of two, four or six sectors, starting and ending outside the rings, on whose
    crossing points the comparison is exact: the lengths add up to the chord and every piece lies in the region reported. *)
Theorem C93_cyl : forall id pitch xs azi sub pm eqp a b, cyl_ctor id pitch xs azi sub = PVal pm ->
  growing 0 xs -> Forall (fun k => (1 <= k)%Z) sub -> In azi [2; 4; 6]%Z -> REAL_FUZZ < pitch / 2 -> pitch / 2 < 10 ^ 11 ->
  pty a < pty b -> inside pitch a -> inside pitch b -> last xs 0 < dist2 a origin -> last xs 0 < dist2 b origin ->
  exists pts, cyl_points pm a b = Some pts /\
  ((forall p q, In p pts -> In q pts -> eqp p q = true -> p = q) ->
   forall u, sort_gives pts u ->
   exists cuts, describes a b (in_zone (cp_radii pm) azi) cuts (trace_result eqp (cyl_find_reg pm) u)
   /\ Rsum (map fst (trace_result eqp (cyl_find_reg pm) u)) = dist2 b a).
Proof.
  intros id pitch xs azi sub pm eqp a b H G K A F1 F2 Rise Ia Ib Oa Ob.
  assert (A1 : (2 <= azi)%Z /\ (azi mod 2 = 0)%Z) by (cbn in A; destruct A as [<-|[<-|[<-|[]]]]; split; try reflexivity; lia). destruct A1 as [A1 A2].
  assert (INV : cp_pitch pm = pitch /\ cp_azi pm = azi /\ cp_lines pm = azi_lines pitch azi /\ growing 0 (cp_radii pm) /\ last (cp_radii pm) 0 = last xs 0).
  { pose proof H as H0. unfold cyl_ctor, base_ctor in H. destruct (Z.ltb_spec id 0); [discriminate|]. destruct (Rleb_spec pitch 0) as [P|P]; [discriminate|]. cbn [pbind] in H. destruct xs as [|x0 xs]; [discriminate|].
    set (xs' := x0 :: xs) in *. destruct (negb (ordered xs')); [discriminate|]. destruct (Rltb_spec (pitch * 0.5) (last xs' 0)); [discriminate|].
    destruct (negb (Z.rem azi 2 =? 0)%Z || (8 <? azi)%Z); [discriminate|]. destruct (Nat.eqb_spec (length sub) (length xs')) as [L|L]; [|discriminate]. cbn [negb] in H.
    destruct (mesh_radii xs' sub 0 0) as [radii| |] eqn:M; try discriminate. cbn [pbind] in H. destruct radii as [|q0 radii]; [discriminate|]. injection H as <-.
    destruct (mesh_radii_spec xs' sub 0 azi (Rle_refl 0) G L K ltac:(lia)) as [rr [E [_ [E2 [E3 _]]]]]. rewrite M in E. injection E as <-. cbn [cp_pitch cp_azi cp_lines cp_radii]. auto. }
  destruct INV as [E1 [E2 [E3 [E4 E5]]]].
  assert (RP : Forall (fun r => 0 <= r /\ r * r < ptx a * ptx a + pty a * pty a /\ r * r < ptx b * ptx b + pty b * pty b) (cp_radii pm)).
  { apply Forall_forall. intros r Ir. destruct (growing_last _ _ _ E4 Ir) as [B1 B2]. rewrite E5 in B2. split; [lra|].
    assert (D : forall p, dist2 p origin * dist2 p origin = ptx p * ptx p + pty p * pty p) by (intro p; unfold dist2, origin; cbn [ptx pty]; rewrite sqrt_sqrt by nra; ring).
    split; [rewrite <- D|rewrite <- D]; apply Rmult_le_0_lt_compat; lra. }
  destruct (circle_points_some (cp_radii pm) a b Rise RP) as [cps Ec].
  unfold cyl_points. rewrite Ec. eexists. split; [reflexivity|]. intros X u S.
  assert (LO : forall i, (i < Z.to_nat azi)%nat -> has_line (pitch / 2) (cp_lines pm) (cos (ray_dir azi i)) (sin (ray_dir azi i))) by (intros i Hi; rewrite E3; apply C96_azimuthal; assumption).
  apply (describe a b eqp (cyl_find_reg pm) _ _ u Rise S (pts_on (cp_radii pm) (cp_lines pm) a b cps Rise RP Ec) X).
  intros y1 y2 B1 B2 Gap p q Sp Sq Gp Gq. unfold in_zone. intros ir ia al Hr Hp Hs.
  rewrite <- (cyl_same pitch (cp_radii pm) azi (cp_lines pm) a b cps Rise Ia Ib RP Ec A1 A2 LO y1 y2 Gap pm p q E1 eq_refl E2 Sp Sq Gp Gq).
  destruct (C94_cyl id pitch xs azi sub pm p H ltac:(lia)) as [Q _].
  pose proof (chord_inside pitch a b p Ia Ib Sp) as [I1 I2].
  apply (Q ir ia al I1 I2); [|exact Hr|exact Hp|exact Hs].
  apply (origin_not_in pitch azi (cp_lines pm) a b cps Rise Ia Ib A1 A2 LO y1 y2 Gap p Sp Gp).
Qed.
Print Assumptions C93_cyl.
(** The same without assuming the comparison exact: the lengths reach a point taken for the end. *)
Theorem C93_cyl_lengths : forall pm eqp a b pts u, pty a < pty b -> Forall (fun r => 0 <= r /\ r * r < ptx a * ptx a + pty a * pty a /\ r * r < ptx b * ptx b + pty b * pty b) (cp_radii pm) ->
  cyl_points pm a b = Some pts -> sort_gives pts u ->
  exists e, on_segment {| p1 := a; p2 := b |} e /\ (e = b \/ eqp e b = true) /\ Forall (fun s => 0 <= fst s) (trace_result eqp (cyl_find_reg pm) u)
  /\ Rsum (map fst (trace_result eqp (cyl_find_reg pm) u)) + dist2 b e = dist2 b a.
Proof.
  intros pm eqp a b pts u H RP E S. unfold cyl_points in E. destruct (circle_points (cp_radii pm) {| p1 := a; p2 := b |}) as [cps|] eqn:Ec; [|discriminate]. injection E as <-.
  destruct (lengths a b H eqp (cyl_find_reg pm) _ u S (pts_on (cp_radii pm) (cp_lines pm) a b cps H RP Ec)) as [e [A [B [C [D F]]]]]. exists e. auto.
Qed.
Print Assumptions C93_cyl_lengths.

(** ** Horizontal chords and instances *)
Definition exact_eq (p q : Point2) : bool := Reqb (ptx p) (ptx q) && Reqb (pty p) (pty q).
Lemma exact_eq_spec : forall p q, exact_eq p q = true -> p = q.
Proof. intros [x y] [z w] H. unfold exact_eq in H. cbn in H. apply andb_true_iff in H. destruct H as [A B]. destruct (Reqb_spec x z); [|discriminate]. destruct (Reqb_spec y w); [|discriminate]. subst. reflexivity. Qed.

Lemma rect21 : exists pm, rect_ctor 0 2 2 1 = PVal pm /\ rp_lines pm = [{| p1 := {| ptx := 0; pty := -1 |}; p2 := {| ptx := 0; pty := 1 |} |}].
Proof.
  unfold rect_ctor, base_ctor. cbn [Z.ltb Z.compare]. destruct (Rleb_spec 2 0); [lra|]. cbn [pbind]. change (2 <? 1)%Z with false. change (1 <? 1)%Z with false. cbv iota. eexists. split; [reflexivity|]. cbn [rp_lines].
  change (Z.to_nat 2) with 2%nat. change (Z.to_nat 1) with 1%nat. unfold rect_lines, divisions, interior. cbn [seq map tl removelast app INR]. repeat (f_equal; try lra).
Qed.

(** A horizontal chord: the points compare equal, the order given by the sort may stay the one they were put in (start, end,
    crossing), and the lengths do not add up. *)
Theorem C93_horizontal_refuted : exists pm a b u, rect_ctor 0 2 2 1 = PVal pm /\ inside 2 a /\ inside 2 b /\ a <> b /\ u = rect_points pm a b /\ sort_gives (rect_points pm a b) u
  /\ Rsum (map fst (trace_result exact_eq (rect_find_reg pm) u)) = 3 /\ dist2 b a = 2.
Proof.
  destruct rect21 as [pm [E L]]. set (a := {| ptx := -1; pty := 0 |}). set (b := {| ptx := 1; pty := 0 |}).
  assert (P : rect_points pm a b = [a; b; origin]).
  { unfold rect_points, trace_points. rewrite L. cbn [flat_map]. rewrite (intersect_ll_complete _ _ origin); [reflexivity| | |].
    - unfold cross, a, b. cbn. lra.
    - exists (1/2). unfold at_param, origin. cbn. lra.
    - exists (1/2). unfold at_param, origin, a, b. cbn. lra. }
  exists pm, a, b, (rect_points pm a b). split; [exact E|]. split; [unfold inside, a; cbn; rewrite Rabs_left, Rabs_R0; lra|]. split; [unfold inside, b; cbn; rewrite Rabs_right, Rabs_R0; lra|].
  split; [intro Q; injection Q; lra|]. split; [reflexivity|]. split; [split; [apply Permutation_refl|rewrite P; cbn; lra]|].
  assert (D1 : dist2 b a = 2).
  { unfold dist2, a, b. cbn [ptx pty]. replace ((1 - -1) * (1 - -1) + (0 - 0) * (0 - 0)) with (2 * 2) by ring. apply sqrt_square. lra. }
  assert (D2 : dist2 origin b = 1).
  { unfold dist2, b, origin. cbn [ptx pty]. replace ((0 - 1) * (0 - 1) + (0 - 0) * (0 - 0)) with (1 * 1) by ring. apply sqrt_square. lra. }
  split; [|exact D1]. rewrite P. unfold trace_result, unique. cbn [uniq].
  assert (X1 : exact_eq a b = false) by (unfold exact_eq, a, b; cbn; rewrite Reqb_neq by lra; reflexivity). assert (X2 : exact_eq b origin = false) by (unfold exact_eq, b, origin; cbn; rewrite Reqb_neq by lra; reflexivity).
  rewrite X1, X2. cbn [segments map fst]. rewrite D1, D2. cbn. lra.
Qed.
Print Assumptions C93_horizontal_refuted.

(** A slanting chord through the same pin with the comparison of the code, and one through a cylindrical pin. *)
Example C93_instance : exists pm, rect_ctor 0 2 2 1 = PVal pm /\
  let a := {| ptx := -1; pty := -1/2 |} in let b := {| ptx := 1; pty := 1/2 |} in
  inside 2 a /\ inside 2 b /\ sort_gives (rect_points pm a b) [a; origin; b]
  /\ (forall p q, In p (rect_points pm a b) -> In q (rect_points pm a b) -> point_eq Reqb p q = true -> p = q).
Proof.
  destruct rect21 as [pm [E L]]. exists pm. split; [exact E|]. cbv zeta. set (a := {| ptx := -1; pty := -1/2 |}). set (b := {| ptx := 1; pty := 1/2 |}).
  assert (P : rect_points pm a b = [a; b; origin]).
  { unfold rect_points, trace_points. rewrite L. cbn [flat_map]. rewrite (intersect_ll_complete _ _ origin); [reflexivity| | |].
    - unfold cross, a, b. cbn. lra.
    - exists (1/2). unfold at_param, origin. cbn. lra.
    - exists (1/2). unfold at_param, origin, a, b. cbn. lra. }
  split; [apply inside_bounds; unfold a; cbn; lra|]. split; [apply inside_bounds; unfold b; cbn; lra|]. rewrite P. split; [split; [apply perm_skip, perm_swap|unfold a, b, origin; cbn; lra]|].
  assert (F1 : REAL_FUZZ < 1/2) by (unfold REAL_FUZZ; apply (Rmult_lt_reg_r (2 ^ 52)); [apply pow_lt; lra|]; replace (200 / 2 ^ 52 * 2 ^ 52) with 200 by (field; apply pow_nonzero; lra); lra).
  assert (NE : forall x y, 1/2 <= x - y \/ 1/2 <= y - x -> fp_equiv Reqb x y = false).
  { intros x y H. unfold fp_equiv, fp_equiv_abs. rewrite Rltb_false; [rewrite Reqb_neq by lra; destruct (negb (eqb (Rltb x 0) (Rltb y 0))); reflexivity|]. destruct H; [rewrite Rabs_right by lra|rewrite Rabs_left by lra]; lra. }
  intros p q Ip Iq. unfold point_eq. cbn in Ip, Iq.
  destruct Ip as [<-|[<-|[<-|[]]]], Iq as [<-|[<-|[<-|[]]]]; try reflexivity; unfold a, b, origin; cbn [ptx pty]; rewrite NE by lra; discriminate.
Qed.
Example C93_cyl_instance : exists pm, cyl_ctor 0 2 [1/2] 4 [1%Z] = PVal pm /\ growing 0 [1/2] /\ inside 2 {| ptx := -1; pty := -1/2 |} /\ inside 2 {| ptx := 1; pty := 1/2 |} /\ REAL_FUZZ < 2 / 2
  /\ 1/2 < dist2 {| ptx := -1; pty := -1/2 |} origin /\ 1/2 < dist2 {| ptx := 1; pty := 1/2 |} origin.
Proof.
  destruct (C59_cyl 0 2 [1/2] 4 [1%Z]) as [pm [E _]]; [lia|lra|discriminate|cbn; lra|cbn; lra|reflexivity|repeat constructor; lia|cbn; auto|].
  exists pm. split; [exact E|]. split; [cbn; lra|]. split; [apply inside_bounds; cbn; lra|]. split; [apply inside_bounds; cbn; lra|].
  split; [unfold REAL_FUZZ; apply (Rmult_lt_reg_r (2 ^ 52)); [apply pow_lt; lra|]; replace (200 / 2 ^ 52 * 2 ^ 52) with 200 by (field; apply pow_nonzero; lra); lra|].
  unfold dist2, origin. cbn [ptx pty]. split; (rewrite <- (sqrt_square (1/2)) at 1 by lra; apply sqrt_lt_1; lra).
Qed.
