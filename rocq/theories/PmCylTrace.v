(** C93, C96: azimuthal lines and ray segments inside a cylindrical pin. *)
From Coq Require Import Reals ZArith List Bool Lra Lia Psatz Permutation.
From Verif Require Import RUtil StdAlg StdAlgProofs GeomModel GeomProofs CoreModel TallyProofs PmModel PmProps PmTraceProps.
Import ListNotations.
Local Open Scope R_scope.

(** ** The azimuthal lines *)
Lemma fuzz_pos : 0 < REAL_FUZZ.
Proof. unfold REAL_FUZZ. apply Rdiv_lt_0_compat; [lra|apply pow_lt; lra]. Qed.
Lemma box_try_skip : forall ok d q lo hi v st, (ok = false \/ Rabs d <= REAL_FUZZ \/ fst st <= d \/ v <= lo \/ hi <= v) -> box_try ok d q lo hi v st = st.
Proof.
  intros ok d q lo hi v st H. unfold box_try. destruct ok; [|reflexivity]. destruct H as [H|[H|[H|[H|H]]]]; [discriminate| | | |].
  - rewrite (Rltb_false REAL_FUZZ) by assumption. reflexivity.
  - rewrite (Rltb_false d) by assumption. rewrite Bool.andb_false_r. reflexivity.
  - rewrite (Rltb_false lo) by assumption. rewrite !Bool.andb_false_r. reflexivity.
  - rewrite (Rltb_false v) by assumption. rewrite !Bool.andb_false_r. reflexivity.
Qed.
Lemma box_try_take : forall d q lo hi v st, REAL_FUZZ < Rabs d -> d < fst st -> lo < v -> v < hi -> box_try true d q lo hi v st = (Rabs d, Some q).
Proof. intros d q lo hi v st A B C D. unfold box_try. rewrite !Rltb_true by assumption. reflexivity. Qed.

Lemma Reqb_neq : forall x y, x <> y -> Reqb x y = false.
Proof. intros x y H. destruct (Reqb_spec x y); [contradiction|reflexivity]. Qed.

(** From the centre of a square the intersection found is the one behind, except on the diagonals, where there is none. *)
Theorem C96_centre : forall h c s, REAL_FUZZ < h -> h < 10 ^ 11 -> c * c + s * s = 1 ->
  let lo := {| ptx := - h; pty := - h |} in let hi := {| ptx := h; pty := h |} in
  (Rabs s < Rabs c -> box_intersect lo hi origin c s = Some {| ptx := - (h / Rabs c) * c; pty := - (h / Rabs c) * s |})
  /\ (Rabs c < Rabs s -> box_intersect lo hi origin c s = Some {| ptx := - (h / Rabs s) * c; pty := - (h / Rabs s) * s |})
  /\ (Rabs c = Rabs s -> box_intersect lo hi origin c s = None).
Proof.
  intros h c s H1 H2 N lo hi. pose proof fuzz_pos as F. unfold box_intersect, lo, hi, origin. cbn [ptx pty].
  assert (BIG : forall v w, v * v + w * w = 1 -> Rabs w < Rabs v -> v <> 0 /\ h <= h / Rabs v <= 2 * h).
  { intros v w E L. assert (P : 0 < Rabs v) by (pose proof (Rabs_pos w); lra). split; [intros ->; rewrite Rabs_R0 in P; lra|].
    assert (Q : Rabs v * Rabs v = v * v) by (rewrite <- Rabs_mult; apply Rabs_right; nra). assert (Q' : Rabs w * Rabs w = w * w) by (rewrite <- Rabs_mult; apply Rabs_right; nra).
    pose proof (Rabs_pos w). assert (1/2 < Rabs v) by nra. assert (Rabs v <= 1) by nra.
    split; (apply (Rmult_le_reg_r (Rabs v)); [assumption|]); replace (h / Rabs v * Rabs v) with h by (field; lra); nra. }
  assert (OUT : forall v w, w <> 0 -> Rabs w <= Rabs v -> forall k, Rabs k = h -> v * (k / w) <= - h \/ h <= v * (k / w)).
  { intros v w Nw L k K. assert (P : 0 < Rabs w) by (apply Rabs_pos_lt; assumption). assert (Q : h <= Rabs (v * (k / w))).
    { unfold Rdiv. rewrite !Rabs_mult, Rabs_inv, K. apply (Rmult_le_reg_r (Rabs w)); [assumption|]. replace (Rabs v * (h * / Rabs w) * Rabs w) with (Rabs v * h) by (field; lra). nra. }
    unfold Rabs in Q. destruct (Rcase_abs (v * (k / w))); lra. }
  assert (IN : forall v w, v <> 0 -> Rabs w < Rabs v -> forall k, Rabs k = h -> - h < w * (k / v) < h).
  { intros v w Nv L k K. enough (Q : Rabs (w * (k / v)) < h) by (apply Rabs_def2 in Q; lra). unfold Rdiv. rewrite !Rabs_mult, Rabs_inv, K. assert (P : 0 < Rabs v) by (apply Rabs_pos_lt; assumption).
    apply (Rmult_lt_reg_r (Rabs v)); [assumption|]. replace (Rabs w * (h * / Rabs v) * Rabs v) with (Rabs w * h) by (field; lra). nra. }
  assert (AD : forall v, v <> 0 -> Rabs ((- h - 0) / v) = h / Rabs v /\ Rabs ((h - 0) / v) = h / Rabs v).
  { intros v Nv. unfold Rdiv. rewrite !Rabs_mult, !Rabs_inv. rewrite (Rabs_left (- h - 0)), (Rabs_right (h - 0)) by lra. split; f_equal; ring. }
  assert (K1 : Rabs (- h - 0) = h) by (rewrite Rabs_left; lra). assert (K2 : Rabs (h - 0) = h) by (rewrite Rabs_right; lra).
  assert (T12 : 2 * h < 1000000000000) by lra.
  split; [|split].
  - intro L. destruct (BIG c s N L) as [Nc B]. destruct (AD c Nc) as [A1 A2]. rewrite (Reqb_neq c 0) by assumption. cbn [negb].
    destruct (IN c s Nc L (- h - 0) K1) as [I1 I2]. destruct (IN c s Nc L (h - 0) K2) as [I3 I4].
    rewrite (box_try_take ((- h - 0) / c)) by (rewrite ?A1; cbn [fst]; try lra; pose proof (Rle_abs ((- h - 0) / c)); lra). rewrite A1.
    assert (SK : forall k st q, Rabs k = h -> box_try (negb (Reqb s 0)) (k / s) q (- h) h (0 + c * (k / s)) st = st).
    { intros k st q Kk. apply box_try_skip. destruct (Reqb_spec s 0) as [E|E]; [left; reflexivity|]. right; right; right. destruct (OUT c s E ltac:(lra) k Kk); [left|right]; lra. }
    rewrite !SK by assumption.
    destruct (Rlt_dec 0 c) as [P|P].
    + assert (E : (h - 0) / c = h / Rabs c) by (rewrite Rabs_right by lra; f_equal; ring). rewrite box_try_skip by (right; right; left; cbn [fst]; rewrite E; lra). cbn [snd]. rewrite (Rabs_right c) by lra. f_equal. f_equal; field; lra.
    + assert (c < 0) by lra. rewrite box_try_take; [cbn [snd]; f_equal; rewrite Rabs_left by assumption; f_equal; field; lra|rewrite A2; lra| |lra|lra].
      cbn [fst]. assert (Z : (h - 0) / c < 0) by (apply (Rmult_lt_reg_r (- c)); [lra|]; replace ((h - 0) / c * - c) with (- h) by (field; lra); lra). lra.
  - intro L. destruct (BIG s c ltac:(lra) L) as [Nc B]. destruct (AD s Nc) as [A1 A2]. rewrite (Reqb_neq s 0) by assumption. cbn [negb].
    destruct (IN s c Nc L (- h - 0) K1) as [I1 I2]. destruct (IN s c Nc L (h - 0) K2) as [I3 I4].
    assert (SK : forall k st q, Rabs k = h -> box_try (negb (Reqb c 0)) (k / c) q (- h) h (0 + s * (k / c)) st = st).
    { intros k st q Kk. apply box_try_skip. destruct (Reqb_spec c 0) as [E|E]; [left; reflexivity|]. right; right; right. destruct (OUT s c E ltac:(lra) k Kk); [left|right]; lra. }
    rewrite !SK by assumption.
    rewrite (box_try_take ((- h - 0) / s)) by (rewrite ?A1; cbn [fst]; try lra; pose proof (Rle_abs ((- h - 0) / s)); lra). rewrite A1.
    destruct (Rlt_dec 0 s) as [P|P].
    + assert (E : (h - 0) / s = h / Rabs s) by (rewrite Rabs_right by lra; f_equal; ring). rewrite box_try_skip by (right; right; left; cbn [fst]; rewrite E; lra). cbn [snd]. rewrite (Rabs_right s) by lra. f_equal. f_equal; field; lra.
    + assert (s < 0) by lra. rewrite box_try_take; [cbn [snd]; f_equal; rewrite Rabs_left by assumption; f_equal; field; lra|rewrite A2; lra| |lra|lra].
      cbn [fst]. assert (Z : (h - 0) / s < 0) by (apply (Rmult_lt_reg_r (- s)); [lra|]; replace ((h - 0) / s * - s) with (- h) by (field; lra); lra). lra.
  - intro L. assert (Nc : c <> 0 /\ s <> 0).
    { split; intro Z; rewrite Z, Rabs_R0 in L; [symmetry in L|]; apply (fun H => Req_le _ _ H) in L; [assert (s = 0)|assert (c = 0)]; try (subst; lra).
      - destruct (Req_dec s 0); [assumption|]. pose proof (Rabs_pos_lt s H). lra.
      - destruct (Req_dec c 0); [assumption|]. pose proof (Rabs_pos_lt c H). lra. }
    destruct Nc as [Nc Ns].
    assert (SK1 : forall k st q, Rabs k = h -> box_try (negb (Reqb c 0)) (k / c) q (- h) h (0 + s * (k / c)) st = st).
    { intros k st q Kk. apply box_try_skip. right; right; right. destruct (OUT s c Nc ltac:(lra) k Kk); [left|right]; lra. }
    assert (SK2 : forall k st q, Rabs k = h -> box_try (negb (Reqb s 0)) (k / s) q (- h) h (0 + c * (k / s)) st = st).
    { intros k st q Kk. apply box_try_skip. right; right; right. destruct (OUT c s Ns ltac:(lra) k Kk); [left|right]; lra. }
    rewrite !SK1, !SK2 by assumption. reflexivity.
Qed.
Print Assumptions C96_centre.

(** ** A ray that enters a box *)
Definition strictly_in (lo hi p : Point2) : Prop := ptx lo < ptx p < ptx hi /\ pty lo < pty p < pty hi.
Definition on_side (lo hi q : Point2) : Prop :=
  ((ptx q = ptx lo \/ ptx q = ptx hi) /\ pty lo < pty q < pty hi) \/ ((pty q = pty lo \/ pty q = pty hi) /\ ptx lo < ptx q < ptx hi).
Definition along (p : Point2) (ox oy t : R) : Point2 := {| ptx := ptx p + ox * t; pty := pty p + oy * t |}.
(** The ray from [p] runs inside the box until it leaves at [q], at the distance [t], through the inside of a side. *)
Definition leaves (lo hi p : Point2) (ox oy t : R) (q : Point2) : Prop :=
  0 < t /\ q = along p ox oy t /\ on_side lo hi q /\ forall s, 0 < s < t -> strictly_in lo hi (along p ox oy s).

Lemma box_try_cases : forall ok d q lo hi v st, box_try ok d q lo hi v st = st \/
  (ok = true /\ REAL_FUZZ < Rabs d /\ lo < v /\ v < hi /\ box_try ok d q lo hi v st = (Rabs d, Some q)).
Proof.
  intros ok d q lo hi v st. unfold box_try. destruct ok; [|left; reflexivity]. destruct (Rltb_spec REAL_FUZZ (Rabs d)); [|left; reflexivity]. destruct (Rltb_spec d (fst st)); [|left; reflexivity].
  destruct (Rltb_spec lo v); [|left; reflexivity]. destruct (Rltb_spec v hi); [|left; reflexivity]. right. auto.
Qed.

(** Started on the boundary (anywhere not strictly inside) the point where the ray leaves the box is found. *)
Theorem C96_entering : forall lo hi p ox oy t q, ~ strictly_in lo hi p -> leaves lo hi p ox oy t q -> REAL_FUZZ < t < 10 ^ 12 -> box_intersect lo hi p ox oy = Some q.
Proof.
  intros lo hi p ox oy t q Np [Ht [Eq [Side In]]] [Tf Tb]. pose proof fuzz_pos as F.
  assert (T12 : t < 1000000000000) by lra.
  (* a crossing of the line with an open side is q, or it is p *)
  assert (ONLY : forall d, on_side lo hi (along p ox oy d) -> REAL_FUZZ < Rabs d -> d = t).
  { intros d Sd Fd. destruct (Rtotal_order d t) as [L|[L|L]]; [|assumption|]; exfalso.
    - assert (Nd : d <> 0) by (intros ->; rewrite Rabs_R0 in Fd; lra). destruct (Rdichotomy _ _ Nd) as [D|D].
      + (* behind: then p is strictly inside *)
        apply Np. specialize (In (t / 2) ltac:(lra)). unfold strictly_in, on_side, along in *. cbn [ptx pty] in *. destruct In as [[A1 A2] [B1 B2]].
        set (w := - d / (t / 2 - d)). assert (W : 0 < w < 1) by (unfold w; split; [apply Rdiv_lt_0_compat; lra|apply (Rmult_lt_reg_r (t / 2 - d)); [lra|]; replace (- d / (t / 2 - d) * (t / 2 - d)) with (- d) by (field; lra); lra]).
        assert (Wd : w * (t / 2) + (1 - w) * d = 0) by (unfold w; field; lra).
        assert (X : ptx p = w * (ptx p + ox * (t / 2)) + (1 - w) * (ptx p + ox * d)) by (replace (w * (ptx p + ox * (t / 2)) + (1 - w) * (ptx p + ox * d)) with (ptx p + ox * (w * (t / 2) + (1 - w) * d)) by ring; rewrite Wd; ring).
        assert (Y : pty p = w * (pty p + oy * (t / 2)) + (1 - w) * (pty p + oy * d)) by (replace (w * (pty p + oy * (t / 2)) + (1 - w) * (pty p + oy * d)) with (pty p + oy * (w * (t / 2) + (1 - w) * d)) by ring; rewrite Wd; ring).
        assert (CX : ptx lo <= ptx p + ox * d <= ptx hi) by (destruct Sd as [[[S|S] _]|[_ S]]; lra). assert (CY : pty lo <= pty p + oy * d <= pty hi) by (destruct Sd as [[_ S]|[[S|S] _]]; lra).
        split; split; nra.
      + specialize (In d ltac:(lra)). unfold strictly_in, on_side in *. destruct Sd as [[[S|S] _]|[[S|S] _]]; lra.
    - (* beyond: then q is strictly inside *)
      specialize (In (t / 2) ltac:(lra)). subst q. unfold strictly_in, on_side, along in *. cbn [ptx pty] in *. destruct In as [[A1 A2] [B1 B2]].
      set (w := (d - t) / (d - t / 2)). assert (W : 0 < w < 1) by (unfold w; split; [apply Rdiv_lt_0_compat; lra|apply (Rmult_lt_reg_r (d - t / 2)); [lra|]; replace ((d - t) / (d - t / 2) * (d - t / 2)) with (d - t) by (field; lra); lra]).
      assert (Wd : w * (t / 2) + (1 - w) * d = t) by (unfold w; field; lra).
      assert (X : ptx p + ox * t = w * (ptx p + ox * (t / 2)) + (1 - w) * (ptx p + ox * d)) by (rewrite <- Wd at 1; ring).
      assert (Y : pty p + oy * t = w * (pty p + oy * (t / 2)) + (1 - w) * (pty p + oy * d)) by (rewrite <- Wd at 1; ring).
      assert (CX : ptx lo <= ptx p + ox * d <= ptx hi) by (destruct Sd as [[[S|S] _]|[_ S]]; lra). assert (CY : pty lo <= pty p + oy * d <= pty hi) by (destruct Sd as [[_ S]|[[S|S] _]]; lra).
      assert (Z1 : ptx lo < ptx p + ox * t < ptx hi) by (split; nra). assert (Z2 : pty lo < pty p + oy * t < pty hi) by (split; nra).
      destruct Side as [[[S|S] _]|[[S|S] _]]; lra. }
  (* the state after any number of tests *)
  set (P := fun st : R * option Point2 => (st = (1000000000000, None) \/ st = (t, Some q))).
  assert (STEP : forall (ok : bool) d qd l h v st, (ok = true -> qd = along p ox oy d) -> (ok = true -> l < v < h -> on_side lo hi qd) -> P st -> P (box_try ok d qd l h v st)).
  { intros ok d qd l h v st E S Hst. destruct (box_try_cases ok d qd l h v st) as [Q|[Q1 [Q2 [Q3 [Q4 Q5]]]]]; [rewrite Q; assumption|]. rewrite Q5. right.
    specialize (E Q1). specialize (S Q1 (conj Q3 Q4)). rewrite E in *. assert (Dt : d = t) by (apply ONLY; assumption). rewrite Dt, Rabs_right by lra. rewrite Eq. reflexivity. }
  (* the test of the side it leaves through *)
  assert (HIT : forall d qd l h v st, d = t -> qd = q -> l < v < h -> P st -> box_try true d qd l h v st = (t, Some q)).
  { intros d qd l h v st -> -> [V1 V2] [-> | ->].
    - rewrite box_try_take by (cbn [fst]; try rewrite Rabs_right by lra; lra). rewrite Rabs_right by lra. reflexivity.
    - rewrite box_try_skip by (right; right; left; cbn [fst]; lra). reflexivity. }
  unfold box_intersect. cbv zeta.
  set (s0 := (1000000000000, @None Point2)).
  set (d1 := (ptx lo - ptx p) / ox). set (d2 := (ptx hi - ptx p) / ox). set (d3 := (pty lo - pty p) / oy). set (d4 := (pty hi - pty p) / oy).
  assert (X1 : negb (Reqb ox 0) = true -> {| ptx := ptx lo; pty := pty p + oy * d1 |} = along p ox oy d1).
  { intro O. destruct (Reqb_spec ox 0) as [Z|Z]; [discriminate|]. unfold along, d1. f_equal. field. assumption. }
  assert (X2 : negb (Reqb ox 0) = true -> {| ptx := ptx hi; pty := pty p + oy * d2 |} = along p ox oy d2).
  { intro O. destruct (Reqb_spec ox 0) as [Z|Z]; [discriminate|]. unfold along, d2. f_equal. field. assumption. }
  assert (X3 : negb (Reqb oy 0) = true -> {| ptx := ptx p + ox * d3; pty := pty lo |} = along p ox oy d3).
  { intro O. destruct (Reqb_spec oy 0) as [Z|Z]; [discriminate|]. unfold along, d3. f_equal. field. assumption. }
  assert (X4 : negb (Reqb oy 0) = true -> {| ptx := ptx p + ox * d4; pty := pty hi |} = along p ox oy d4).
  { intro O. destruct (Reqb_spec oy 0) as [Z|Z]; [discriminate|]. unfold along, d4. f_equal. field. assumption. }
  assert (P0 : P s0) by (left; reflexivity).
  set (s1 := box_try (negb (Reqb ox 0)) d1 {| ptx := ptx lo; pty := pty p + oy * d1 |} (pty lo) (pty hi) (pty p + oy * d1) s0).
  assert (P1 : P s1) by (apply STEP; [exact X1|intros _ V; left; cbn [ptx pty]; auto|exact P0]).
  set (s2 := box_try (negb (Reqb ox 0)) d2 {| ptx := ptx hi; pty := pty p + oy * d2 |} (pty lo) (pty hi) (pty p + oy * d2) s1).
  assert (P2 : P s2) by (apply STEP; [exact X2|intros _ V; left; cbn [ptx pty]; auto|exact P1]).
  set (s3 := box_try (negb (Reqb oy 0)) d3 {| ptx := ptx p + ox * d3; pty := pty lo |} (ptx lo) (ptx hi) (ptx p + ox * d3) s2).
  assert (P3 : P s3) by (apply STEP; [exact X3|intros _ V; right; cbn [ptx pty]; auto|exact P2]).
  set (s4 := box_try (negb (Reqb oy 0)) d4 {| ptx := ptx p + ox * d4; pty := pty hi |} (ptx lo) (ptx hi) (ptx p + ox * d4) s3).
  assert (P4 : P s4) by (apply STEP; [exact X4|intros _ V; right; cbn [ptx pty]; auto|exact P3]).
  (* it cannot be left with nothing *)
  assert (KEEP : forall (ok : bool) d qd l h v, (ok = true -> qd = along p ox oy d) -> (ok = true -> l < v < h -> on_side lo hi qd) -> box_try ok d qd l h v (t, Some q) = (t, Some q)).
  { intros ok d qd l h v E S. destruct (box_try_cases ok d qd l h v (t, Some q)) as [Q|[Q1 [Q2 [Q3 [Q4 Q5]]]]]; [assumption|]. rewrite Q5.
    specialize (E Q1). specialize (S Q1 (conj Q3 Q4)). rewrite E in *. assert (Dt : d = t) by (apply ONLY; assumption). rewrite Dt, Rabs_right by lra. rewrite Eq. reflexivity. }
  assert (K2 : s1 = (t, Some q) -> s2 = (t, Some q)) by (intro Q; unfold s2; rewrite Q; apply KEEP; [exact X2|intros _ V; left; cbn [ptx pty]; auto]).
  assert (K3 : s2 = (t, Some q) -> s3 = (t, Some q)) by (intro Q; unfold s3; rewrite Q; apply KEEP; [exact X3|intros _ V; right; cbn [ptx pty]; auto]).
  assert (K4 : s3 = (t, Some q) -> s4 = (t, Some q)) by (intro Q; unfold s4; rewrite Q; apply KEEP; [exact X4|intros _ V; right; cbn [ptx pty]; auto]).
  enough (Q : s4 = (t, Some q)) by (rewrite Q; reflexivity).
  (* not parallel to the side it leaves through *)
  pose proof (In (t / 2) ltac:(lra)) as Mid. unfold strictly_in, along in Mid. cbn [ptx pty] in Mid. rewrite Eq in Side. unfold on_side, along in Side. cbn [ptx pty] in Side.
  destruct Side as [[[S|S] V]|[[S|S] V]].
  - assert (Nx : ox <> 0) by (intros ->; lra). apply K4, K3, K2. unfold s1. rewrite Reqb_neq by assumption. cbn [negb].
    assert (D : d1 = t) by (unfold d1; rewrite <- S; field; assumption). apply HIT; [assumption|rewrite X1, D, Eq by (rewrite Reqb_neq by assumption; reflexivity); reflexivity|rewrite D; lra|exact P0].
  - assert (Nx : ox <> 0) by (intros ->; lra). apply K4, K3. unfold s2. rewrite Reqb_neq by assumption. cbn [negb].
    assert (D : d2 = t) by (unfold d2; rewrite <- S; field; assumption). apply HIT; [assumption|rewrite X2, D, Eq by (rewrite Reqb_neq by assumption; reflexivity); reflexivity|rewrite D; lra|exact P1].
  - assert (Ny : oy <> 0) by (intros ->; lra). apply K4. unfold s3. rewrite Reqb_neq by assumption. cbn [negb].
    assert (D : d3 = t) by (unfold d3; rewrite <- S; field; assumption). apply HIT; [assumption|rewrite X3, D, Eq by (rewrite Reqb_neq by assumption; reflexivity); reflexivity|rewrite D; lra|exact P2].
  - assert (Ny : oy <> 0) by (intros ->; lra). unfold s4. rewrite Reqb_neq by assumption. cbn [negb].
    assert (D : d4 = t) by (unfold d4; rewrite <- S; field; assumption). apply HIT; [assumption|rewrite X4, D, Eq by (rewrite Reqb_neq by assumption; reflexivity); reflexivity|rewrite D; lra|exact P3].
Qed.
Print Assumptions C96_entering.

(** From inside the box the point behind is returned; through a corner nothing is found, even from the boundary. *)
Theorem C96_refuted :
  (exists lo hi p ox oy t q q', leaves lo hi p ox oy t q /\ REAL_FUZZ < t < 10 ^ 12 /\ box_intersect lo hi p ox oy = Some q' /\ q' = along p ox oy (- t) /\ q' <> q)
  /\ box_intersect {| ptx := 0; pty := 0 |} {| ptx := 1; pty := 1 |} {| ptx := 0; pty := 1/2 |} 1 (1/2) = None.
Proof.
  pose proof fuzz_pos as F. assert (F1 : REAL_FUZZ < 1) by (unfold REAL_FUZZ; apply (Rmult_lt_reg_r (2 ^ 52)); [apply pow_lt; lra|]; replace (200 / 2 ^ 52 * 2 ^ 52) with 200 by (field; apply pow_nonzero; lra); lra).
  split.
  - exists {| ptx := -1; pty := -1 |}, {| ptx := 1; pty := 1 |}, origin, 1, 0, 1, {| ptx := 1; pty := 0 |}, {| ptx := -1; pty := 0 |}.
    split; [|split; [lra|split; [|split; [|intro E; injection E; lra]]]].
    + split; [lra|]. split; [unfold along, origin; cbn; f_equal; ring|]. split; [left; cbn; lra|]. intros s Hs. unfold strictly_in, along, origin. cbn. lra.
    + destruct (C96_centre 1 1 0 F1 ltac:(lra) ltac:(lra)) as [H _]. rewrite Rabs_R0, Rabs_R1 in H. replace (-1) with (- (1)) by ring. rewrite H by lra. f_equal. f_equal; field.
    + unfold along, origin. cbn. f_equal; ring.
  - unfold box_intersect. cbn [ptx pty]. rewrite !box_try_skip; [reflexivity| | | |].
    + right; left. replace ((0 - 0) / 1) with 0 by field. rewrite Rabs_R0. lra.
    + right; right; right; right. lra.
    + right; right; right; left. lra.
    + right; right; right; right. lra.
Qed.
Print Assumptions C96_refuted.
Example C96_instance : leaves {| ptx := 0; pty := 0 |} {| ptx := 4; pty := 3 |} {| ptx := 0; pty := 1 |} (4/5) (3/5) (10/3) {| ptx := 8/3; pty := 3 |}
  /\ ~ strictly_in {| ptx := 0; pty := 0 |} {| ptx := 4; pty := 3 |} {| ptx := 0; pty := 1 |}.
Proof.
  split.
  - split; [lra|]. split; [unfold along; cbn; f_equal; field|]. split; [right; cbn; lra|]. intros s Hs. unfold strictly_in, along. cbn. lra.
  - unfold strictly_in. cbn. lra.
Qed.

(** ** The azimuthal lines of a pin *)
(** The line list has, for every sector boundary, a line from the centre along it to the edge of the pin. *)
Definition ray_dir (n : Z) (i : nat) : R := 2 * PI * INR i / IZR n.
Definition has_line (h : R) (ls : list Line) (c s : R) : Prop :=
  exists m, 0 < m /\ In {| p1 := origin; p2 := {| ptx := m * c; pty := m * s |} |} ls /\ (forall k, 0 <= k -> Rabs (k * c) <= h -> Rabs (k * s) <= h -> k <= m).

Lemma azi_lines_has : forall pitch n i c s, REAL_FUZZ < pitch / 2 -> pitch / 2 < 10 ^ 11 -> (i < Z.to_nat n)%nat -> cos (ray_dir n i) = - c -> sin (ray_dir n i) = - s -> Rabs c <> Rabs s -> (0 < n)%Z ->
  has_line (pitch / 2) (azi_lines pitch n) c s.
Proof.
  intros pitch n i c s H1 H2 Hi Hc Hs N Hn. pose proof fuzz_pos as F. assert (Nn : 0 < IZR n) by (apply IZR_lt; assumption).
  assert (EA : INR i * (2 * PI / IZR n) = ray_dir n i) by (unfold ray_dir; field; lra). set (h := pitch / 2) in *.
  assert (CS : - c * - c + - s * - s = 1) by (rewrite <- Hc, <- Hs; pose proof (sin2_cos2 (ray_dir n i)) as Q; unfold Rsqr in Q; lra).
  destruct (C96_centre h (- c) (- s) H1 H2 CS) as [A [B _]]. rewrite !Rabs_Ropp in A, B.
  assert (MEM : forall q, box_intersect {| ptx := - h; pty := - h |} {| ptx := h; pty := h |} origin (- c) (- s) = Some q -> In {| p1 := origin; p2 := q |} (azi_lines pitch n)).
  { intros q E. unfold azi_lines. apply in_map_iff. exists i. split; [|apply in_seq; lia]. rewrite EA, Hc, Hs. replace (0.5 * pitch) with h by (unfold h; lra). rewrite E. reflexivity. }
  assert (BND : forall v k : R, 0 < Rabs v -> 0 <= k -> Rabs (k * v) <= h -> k <= h / Rabs v).
  { intros v k Hv Hk Q. rewrite Rabs_mult, (Rabs_right k) in Q by lra. apply (Rmult_le_reg_r (Rabs v)); [assumption|]. replace (h / Rabs v * Rabs v) with h by (field; lra). assumption. }
  destruct (Rlt_dec (Rabs s) (Rabs c)) as [L|L].
  - assert (P : 0 < Rabs c) by (pose proof (Rabs_pos s); lra). exists (h / Rabs c). split; [apply Rdiv_lt_0_compat; lra|]. split; [|intros k Hk K1 K2; apply (BND c); assumption].
    specialize (A L). apply MEM in A. replace (h / Rabs c * c) with (- (h / Rabs c) * - c) by ring. replace (h / Rabs c * s) with (- (h / Rabs c) * - s) by ring. exact A.
  - assert (L' : Rabs c < Rabs s) by lra. assert (P : 0 < Rabs s) by (pose proof (Rabs_pos c); lra). exists (h / Rabs s). split; [apply Rdiv_lt_0_compat; lra|]. split; [|intros k Hk K1 K2; apply (BND s); assumption].
    specialize (B L'). apply MEM in B. replace (h / Rabs s * c) with (- (h / Rabs s) * - c) by ring. replace (h / Rabs s * s) with (- (h / Rabs s) * - s) by ring. exact B.
Qed.

Lemma cos_turns : forall i, cos (2 * PI * INR i) = 1.
Proof. intro i. replace (2 * PI * INR i) with (0 + 2 * INR i * PI) by ring. rewrite cos_period. apply cos_0. Qed.
Lemma off_diagonal : forall n i, In n [2; 4; 6]%Z -> Rabs (cos (ray_dir n i)) <> Rabs (sin (ray_dir n i)).
Proof.
  intros n i H E. set (a := ray_dir n i) in *.
  assert (Q : cos a * cos a = sin a * sin a).
  { assert (S : forall v, Rabs v * Rabs v = v * v) by (intro v; rewrite <- Rabs_mult; apply Rabs_right; nra). rewrite <- (S (cos a)), <- (S (sin a)), E. reflexivity. }
  assert (Z : cos (2 * a) = 0) by (rewrite cos_2a; lra). pose proof (cos_turns i) as T.
  assert (C2 : cos (4 * a) = - 1) by (replace (4 * a) with (2 * (2 * a)) by ring; rewrite cos_2a_cos, Z; ring).
  cbn in H. destruct H as [<-|[<-|[<-|[]]]]; unfold ray_dir in a.
  - replace (2 * a) with (2 * PI * INR i + (2 * PI * INR i - 2 * PI * INR i)) in Z by (unfold a; field). replace (2 * PI * INR i + (2 * PI * INR i - 2 * PI * INR i)) with (2 * PI * INR i) in Z by ring. lra.
  - replace (4 * a) with (2 * PI * INR i) in C2 by (unfold a; field). lra.
  - replace (2 * PI * INR i) with (4 * a + 2 * a) in T by (unfold a; field). rewrite cos_plus, Z, C2 in T. assert (S4 : sin (4 * a) = 2 * sin (2 * a) * cos (2 * a)) by (replace (4 * a) with (2 * (2 * a)) by ring; apply sin_2a). rewrite S4, Z in T. lra.
Qed.

(** With two, four or six sectors every sector boundary is drawn: by the line of the opposite one. *)
Theorem C96_azimuthal : forall pitch n i, REAL_FUZZ < pitch / 2 -> pitch / 2 < 10 ^ 11 -> In n [2; 4; 6]%Z -> (i < Z.to_nat n)%nat ->
  has_line (pitch / 2) (azi_lines pitch n) (cos (ray_dir n i)) (sin (ray_dir n i)).
Proof.
  intros pitch n i H1 H2 Hn Hi. set (m := Z.to_nat (n / 2)).
  assert (E : (Z.to_nat n = 2 * m)%nat /\ (0 < n)%Z /\ INR m = IZR n / 2).
  { unfold m. cbn in Hn. destruct Hn as [<-|[<-|[<-|[]]]]; (split; [reflexivity|split; [lia|]]).
    - change (Z.to_nat (2 / 2)) with 1%nat. cbn [INR]. lra.
    - change (Z.to_nat (4 / 2)) with 2%nat. cbn [INR]. lra.
    - change (Z.to_nat (6 / 2)) with 3%nat. cbn [INR]. lra. }
  destruct E as [E1 [E2 E3]]. assert (Nn : 0 < IZR n) by (apply IZR_lt; assumption).
  pose proof (off_diagonal n i Hn) as OD.
  destruct (Nat.lt_ge_cases i m) as [L|L].
  - apply (azi_lines_has pitch n (i + m)); try assumption; [lia| |].
    + assert (Q : ray_dir n (i + m) = ray_dir n i + PI) by (unfold ray_dir; rewrite plus_INR, E3; field; lra). rewrite Q, neg_cos. ring.
    + assert (Q : ray_dir n (i + m) = ray_dir n i + PI) by (unfold ray_dir; rewrite plus_INR, E3; field; lra). rewrite Q, neg_sin. ring.
  - assert (Q : ray_dir n i = ray_dir n (i - m) + PI) by (unfold ray_dir; rewrite minus_INR, E3 by assumption; field; lra).
    apply (azi_lines_has pitch n (i - m)); try assumption; [lia| |].
    + rewrite Q, neg_cos. ring.
    + rewrite Q, neg_sin. ring.
Qed.
Print Assumptions C96_azimuthal.

(** With eight sectors the diagonal boundaries are missing (in exact arithmetic): their lines shrink to the centre. *)
Theorem C96_eight_refuted : forall pitch, REAL_FUZZ < pitch / 2 -> pitch / 2 < 10 ^ 11 ->
  nth_error (azi_lines pitch 8) 1 = Some {| p1 := origin; p2 := origin |} /\ ~ has_line (pitch / 2) (azi_lines pitch 8) (cos (ray_dir 8 1)) (sin (ray_dir 8 1)).
Proof.
  intros pitch H1 H2. pose proof fuzz_pos as F. pose proof PI_RGT_0 as PP. set (h := pitch / 2) in *.
  assert (L : forall i, INR i * (2 * PI / 8) = ray_dir 8 i) by (intro i; unfold ray_dir; field).
  assert (HH : 0.5 * pitch = h) by (unfold h; lra).
  assert (D : forall i, Rabs (cos (ray_dir 8 i)) = Rabs (sin (ray_dir 8 i)) -> box_intersect {| ptx := - h; pty := - h |} {| ptx := h; pty := h |} origin (cos (ray_dir 8 i)) (sin (ray_dir 8 i)) = None).
  { intros i Q. destruct (C96_centre h (cos (ray_dir 8 i)) (sin (ray_dir 8 i)) H1 H2) as [_ [_ R]]; [pose proof (sin2_cos2 (ray_dir 8 i)) as SC; unfold Rsqr in SC; lra|]. apply R. exact Q. }
  assert (A1 : ray_dir 8 1 = PI / 4) by (unfold ray_dir; cbn [INR]; field).
  assert (C1 : cos (PI / 4) = sin (PI / 4)) by (rewrite cos_PI4, sin_PI4; reflexivity).
  split.
  - unfold azi_lines. rewrite nth_error_map. change (nth_error (seq 0 (Z.to_nat 8)) 1) with (Some 1%nat). cbn [option_map]. rewrite L, HH, D by (rewrite A1, C1; reflexivity). reflexivity.
  - intros [m [Hm [I B]]]. unfold azi_lines in I. apply in_map_iff in I. destruct I as [i [E Ii]]. rewrite L, HH in E. apply in_seq in Ii.
    assert (S4 : 0 < sin (PI / 4)) by (apply sin_gt_0; lra). rewrite A1, C1 in *.
    (* the end of the line would be on the diagonal *)
    destruct (C96_centre h (cos (ray_dir 8 i)) (sin (ray_dir 8 i)) H1 H2) as [Q1 [Q2 Q3]]; [pose proof (sin2_cos2 (ray_dir 8 i)) as SC; unfold Rsqr in SC; lra|].
    set (c := cos (ray_dir 8 i)) in *. set (s := sin (ray_dir 8 i)) in *.
    destruct (Rtotal_order (Rabs s) (Rabs c)) as [T|[T|T]].
    + rewrite Q1 in E by assumption. injection E as E1 E2. assert (c = s) by (assert (0 < h / Rabs c) by (apply Rdiv_lt_0_compat; [lra|pose proof (Rabs_pos s); lra]); nra). rewrite H in T. lra.
    + rewrite Q3 in E by (symmetry; assumption). injection E as E1 E2. nra.
    + rewrite Q2 in E by assumption. injection E as E1 E2. assert (c = s) by (assert (0 < h / Rabs s) by (apply Rdiv_lt_0_compat; [lra|pose proof (Rabs_pos c); lra]); nra). rewrite H in T. lra.
Qed.
Print Assumptions C96_eight_refuted.
