(** Property theorems for the region a particle is in, given the way it is heading: C104. *)
From Coq Require Import Reals ZArith List Bool Lia Lra Psatz.
From Verif Require Import RUtil StdAlg StdAlgProofs GeomModel GeomProofs TallyProofs MeshModel CoreModel CoreProofs AngModel PmModel PmProps PmTraceProps PmCylTrace PmCylChord ScatModel XsModel PartModel PartProps.
Import ListNotations.
Local Open Scope R_scope.

(** ** Rectangular pins *)
(** The column (or row) a coordinate is in when heading along [o]: on an edge it is the one being entered. *)
Definition column_ahead (pitch : R) (n c : nat) (x o : R) : Prop :=
  edge pitch n c < x < edge pitch n (S c) \/ (x = edge pitch n c /\ 0 < o) \/ (x = edge pitch n (S c) /\ o <= 0).
(** Every edge is either where the coordinate is or beyond the tolerances. *)
Definition resolved (eqv : R -> R -> bool) (pitch : R) (n : nat) (x : R) : Prop :=
  forall i, (i <= n)%nat -> x = edge pitch n i \/ (REAL_FUZZ * Rabs x < Rabs (x - edge pitch n i) /\ eqv x (edge pitch n i) = false).
Lemma FUZZ_pos : 0 < REAL_FUZZ.
Proof. unfold REAL_FUZZ. apply Rdiv_lt_0_compat; [lra|apply pow_lt; lra]. Qed.
Lemma edge_div : forall pitch n i, (0 < n)%nat -> (i <= n)%nat -> nth_error (divisions pitch n) i = Some (edge pitch n i).
Proof. intros pitch n i Hn Hi. rewrite divisions_nth by exact Hi. f_equal. unfold edge, Rdiv. lra. Qed.
Lemma edge_lt : forall pitch n i j, 0 < pitch -> (0 < n)%nat -> (i < j <= n)%nat -> edge pitch n i < edge pitch n j.
Proof. intros pitch n i j P N H. apply (divisions_increasing pitch n P N i j); [lia|apply edge_div; lia|apply edge_div; lia]. Qed.
Lemma fuzzy_index : forall l x i, CoreProofs.increasing l -> (i <= length l)%nat -> (forall j v, (j < i)%nat -> nth_error l j = Some v -> fuzzy_lt v x = true) -> (forall v, nth_error l i = Some v -> fuzzy_lt v x = false) -> lower_bound fuzzy_lt l x = Some i.
Proof.
  intros l x i I L Lo Hi. destruct (lower_bound_spec R fuzzy_lt l x (fuzzy_partitioned l x I)) as (k & E & Lk & LoK & HiK). rewrite E. f_equal.
  destruct (Nat.lt_trichotomy k i) as [C|[C|C]]; [|exact C|]; exfalso.
  - destruct (nth_error l k) as [v|] eqn:N; [|apply nth_error_None in N; lia]. specialize (Lo k v C N). pose proof (HiK k v (le_n k) N). congruence.
  - destruct (nth_error l i) as [v|] eqn:N; [|apply nth_error_None in N; lia]. specialize (LoK i v C N). specialize (Hi v eq_refl). congruence.
Qed.
Lemma axis_index_ahead : forall eqv pitch n c x o, 0 < pitch -> (c < n)%nat -> (forall y, eqv y y = true) -> resolved eqv pitch n x -> column_ahead pitch n c x o -> axis_index eqv (divisions pitch n) n x o = Some (Z.of_nat c).
Proof.
  intros eqv pitch n c x o P Hc RF RS A. assert (N : (0 < n)%nat) by lia. pose proof FUZZ_pos as FZ.
  assert (I : CoreProofs.increasing (divisions pitch n)) by exact (divisions_increasing pitch n P N).
  assert (X0 : 0 <= REAL_FUZZ * Rabs x) by (apply Rmult_le_pos; [lra|apply Rabs_pos]).
  assert (LO : forall i, (i <= n)%nat -> edge pitch n i < x -> fuzzy_lt (edge pitch n i) x = true).
  { intros i Hi L. apply fuzzy_lt_iff. destruct (RS i Hi) as [E|[E _]]; [lra|]. rewrite (Rabs_right (x - edge pitch n i)) in E by lra. lra. }
  assert (HI : forall i, x <= edge pitch n i -> fuzzy_lt (edge pitch n i) x = false) by (intros i L; apply fuzzy_lt_false; lra).
  assert (IDX : forall i, (i <= n)%nat -> (forall j, (j < i)%nat -> edge pitch n j < x) -> x <= edge pitch n i -> lower_bound fuzzy_lt (divisions pitch n) x = Some i).
  { intros i Hi Hlo Hhi. apply fuzzy_index; [exact I|rewrite divisions_length; lia| |].
    - intros j v Hj E. rewrite edge_div in E by lia. injection E as <-. apply LO; [lia|]. apply Hlo. exact Hj.
    - intros v E. rewrite edge_div in E by lia. injection E as <-. apply HI. exact Hhi. }
  assert (MN : forall j, (j < S c)%nat -> j = c \/ edge pitch n j < edge pitch n c) by (intros j Hj; destruct (Nat.eq_dec j c); [left; assumption|right; apply edge_lt; try assumption; lia]).
  unfold axis_index. destruct A as [[A1 A2]|[[A1 A2]|[A1 A2]]].
  - rewrite (IDX (S c)); [|lia|intros j Hj; destruct (MN j Hj) as [->|]; lra|lra]. rewrite edge_div by lia. destruct (RS (S c) ltac:(lia)) as [E|[_ E]]; [lra|]. rewrite E. f_equal. lia.
  - rewrite (IDX c); [|lia|intros j Hj; rewrite A1; apply edge_lt; try assumption; lia|lra]. rewrite edge_div by lia. rewrite <- A1, RF, Rltb_true by exact A2. f_equal. lia.
  - rewrite (IDX (S c)); [|lia|intros j Hj; rewrite A1; apply edge_lt; try assumption; lia|lra]. rewrite edge_div by lia. rewrite <- A1, RF, Rltb_false by exact A2. f_equal. lia.
Qed.
(** In a rectangular pin, a particle not leaving through a side is in the region of the column and row ahead of it. *)
Theorem C104_rect : forall eqv id pitch nx ny pm p d i j, rect_ctor id pitch nx ny = PVal pm -> (forall y, eqv y y = true) ->
  (Z.of_nat i < nx)%Z -> (Z.of_nat j < ny)%Z -> resolved eqv pitch (Z.to_nat nx) (ptx p) -> resolved eqv pitch (Z.to_nat ny) (pty p) ->
  column_ahead pitch (Z.to_nat nx) i (ptx p) (ox d) -> column_ahead pitch (Z.to_nat ny) j (pty p) (oy d) ->
  (ox d < 0 -> - (pitch / 2) + REAL_FUZZ <= ptx p) -> (0 < ox d -> ptx p <= pitch / 2 - REAL_FUZZ) -> (oy d < 0 -> - (pitch / 2) + REAL_FUZZ <= pty p) -> (0 < oy d -> pty p <= pitch / 2 - REAL_FUZZ) ->
  rect_find_reg_dir eqv pm p d = Some (Z.of_nat j * nx + Z.of_nat i)%Z.
Proof.
  intros eqv id pitch nx ny pm p d i j C RF Hi Hj RX RY AX AY L1 L2 L3 L4. destruct (rect_ctor_inv _ _ _ _ _ C) as (P & NX & NY & E1 & E2 & E3 & E4 & E5 & _).
  unfold rect_find_reg_dir. rewrite E1, E2, E3, E4, E5. replace (0.5 * pitch) with (pitch / 2) by (unfold Rdiv; lra).
  assert (K : forall a b c e, (a < 0 -> b <= e) -> (0 < a -> e <= c) -> Rltb e b && Rltb a 0 = false /\ Rltb c e && Rltb 0 a = false).
  { intros a b c e H1 H2. split; [destruct (Rltb_spec a 0) as [Q|Q]|destruct (Rltb_spec 0 a) as [Q|Q]]; try apply andb_false_r; rewrite Rltb_false by auto; reflexivity. }
  destruct (K _ _ _ _ L1 L2) as [-> ->]. destruct (K _ _ _ _ L3 L4) as [-> ->]. cbn [orb].
  rewrite (axis_index_ahead eqv pitch (Z.to_nat nx) i) by (try assumption; lia). rewrite (axis_index_ahead eqv pitch (Z.to_nat ny) j) by (try assumption; lia). f_equal. rewrite Z2Nat.id by lia. lia.
Qed.
Print Assumptions C104_rect.
(** Leaving through a side gives no region. *)
Theorem C104_rect_leaves : forall eqv id pitch nx ny pm p d, rect_ctor id pitch nx ny = PVal pm ->
  (ptx p < - (pitch / 2) + REAL_FUZZ /\ ox d < 0) \/ (pitch / 2 - REAL_FUZZ < ptx p /\ 0 < ox d) \/ (pty p < - (pitch / 2) + REAL_FUZZ /\ oy d < 0) \/ (pitch / 2 - REAL_FUZZ < pty p /\ 0 < oy d) ->
  rect_find_reg_dir eqv pm p d = Some (-1)%Z.
Proof.
  intros eqv id pitch nx ny pm p d C H. destruct (rect_ctor_inv _ _ _ _ _ C) as (P & NX & NY & E1 & _). unfold rect_find_reg_dir. rewrite E1. replace (0.5 * pitch) with (pitch / 2) by (unfold Rdiv; lra).
  destruct H as [[A B]|[[A B]|[[A B]|[A B]]]]; rewrite (Rltb_true _ _ A), (Rltb_true _ _ B); cbn [andb]; rewrite ?orb_true_r; reflexivity.
Qed.
Print Assumptions C104_rect_leaves.
(** Refuted past a side: a point beyond the last edge heading back in makes the code read past the end of the edges. *)
Theorem C104_rect_refuted : exists pm p d, rect_ctor 0 2 2 2 = PVal pm /\ ptx p = 2 /\ ox d = -1 /\ forall eqv, rect_find_reg_dir eqv pm p d = None.
Proof.
  destruct (rect_ctor 0 2 2 2) as [pm| |] eqn:C; [|exfalso|exfalso]; try (unfold rect_ctor, base_ctor in C; cbn [Z.ltb Z.compare] in C; destruct (Rleb_spec 2 0); [lra|]; cbn [pbind] in C; change (2 <? 1)%Z with false in C; discriminate).
  exists pm, {| ptx := 2; pty := 1/2 |}, (mkDir (-1) 0 0 0 0 0). split; [reflexivity|]. cbn [ptx ox]. split; [reflexivity|]. split; [reflexivity|]. intro eqv.
  destruct (rect_ctor_inv _ _ _ _ _ C) as (P & NX & NY & E1 & E2 & E3 & E4 & E5 & _). pose proof fuzz_small as FZ. unfold rect_find_reg_dir. cbn [ptx pty ox oy]. rewrite E1, E4.
  rewrite (Rltb_false 2 (- (0.5 * 2) + REAL_FUZZ)), (Rltb_false 0 (-1)), (Rltb_false 0 0) by lra. rewrite !andb_false_r. cbn [andb orb].
  unfold axis_index. change (Z.to_nat 2) with 2%nat. rewrite (fuzzy_index (divisions 2 2) 2 3); [|exact (divisions_increasing 2 2 ltac:(lra) ltac:(lia))|rewrite divisions_length; lia| |].
  - rewrite (proj2 (nth_error_None (divisions 2 2) 3)) by (rewrite divisions_length; lia). reflexivity.
  - intros j v Hj E. rewrite edge_div in E by lia. injection E as <-. apply fuzzy_lt_iff. rewrite Rabs_right by lra. assert (edge 2 2 j <= 1); [|lra]. unfold edge. destruct j as [|[|[|]]]; cbn [INR]; lra || lia.
  - intros v E. assert (3 < length (divisions 2 2))%nat by (apply nth_error_Some; congruence). rewrite divisions_length in *. lia.
Qed.
Print Assumptions C104_rect_refuted.
Example C104_instance : (forall y, Reqb y y = true) /\ column_ahead 2 2 1 0 1 /\ column_ahead 2 2 0 0 (-1) /\ resolved Reqb 2 2 0.
Proof.
  assert (E0 : edge 2 2 0 = -1) by (unfold edge; cbn [INR]; lra). assert (E1 : edge 2 2 1 = 0) by (unfold edge; cbn [INR]; lra). assert (E2 : edge 2 2 2 = 1) by (unfold edge; cbn [INR]; lra).
  split; [intro y; destruct (Reqb_spec y y); congruence|]. split; [right; left; split; lra|]. split; [right; right; split; lra|].
  intros i Hi. pose proof FUZZ_pos. destruct i as [|[|[|]]]; [right|left|right|lia]; [| lra |].
  - rewrite E0, Rabs_R0, Rabs_right by lra. split; [lra|]. destruct (Reqb_spec 0 (-1)); [lra|reflexivity].
  - rewrite E2, Rabs_R0, Rabs_left by lra. split; [lra|]. destruct (Reqb_spec 0 1); [lra|reflexivity].
Qed.

(** ** Cylindrical pins *)
(** The ring ahead of a point at radius [r]; [out] tells whether it heads away from the centre. *)
Definition ring_ahead (radii : list R) (r : R) (out : bool) (ir : nat) : Prop :=
  (ir <= length radii)%nat /\ (forall k x, nth_error radii k = Some x -> (k < ir)%nat -> x < r \/ (x = r /\ out = true)) /\
  (forall k x, nth_error radii k = Some x -> (ir <= k)%nat -> r < x \/ (x = r /\ out = false)).
(** The sector ahead of a point off the x axis at azimuth [a] heading along [da]; on a line between sectors it is the one on the
    side it turns to. *)
Definition sector_ahead (n ia : Z) (a da : R) : Prop :=
  (0 <= ia < n)%Z /\ let s := 2 * PI / IZR n in
  ((IZR ia * s < a < IZR (ia + 1) * s) /\ (forall k, REAL_FUZZ <= Rabs (IZR k * s - a))) \/ (a = IZR ia * s /\ 0 < da - a < PI) \/ (a = IZR (ia + 1) * s /\ - PI < da - a < 0).
Definition ring_resolved (ulp : R -> R -> bool) (radii : list R) (r : R) : Prop :=
  forall x, In x radii -> x = r \/ (REAL_FUZZ * r < Rabs (r - x) /\ ulp r x = false).
Lemma growing_increasing : forall l r0, growing r0 l -> CoreProofs.increasing l /\ forall v, In v l -> r0 < v.
Proof.
  induction l as [|x l IH]; intros r0 G.
  - split; [intros i j a b _ E; destruct i; discriminate|intros v []].
  - destruct G as [G1 G2]. destruct (IH x G2) as [I J]. split.
    + intros i j a b L Ea Eb. destruct j as [|j]; [lia|]. cbn [nth_error] in Eb. destruct i as [|i]; cbn [nth_error] in Ea.
      * injection Ea as <-. apply J. apply nth_error_In with j. exact Eb.
      * apply (I i j); [lia|exact Ea|exact Eb].
    + intros v [<-|H]; [exact G1|]. specialize (J v H). lra.
Qed.
Lemma Int_part_eq : forall x k, IZR k <= x < IZR k + 1 -> Int_part x = k.
Proof.
  intros x k [A B]. destruct (base_Int_part x) as [C D]. apply Z.le_antisymm.
  - apply Z.lt_succ_r, lt_IZR. rewrite succ_IZR. lra.
  - apply Z.lt_succ_r, lt_IZR. rewrite succ_IZR. lra.
Qed.
Lemma ring_index : forall ulp radii r out ir, CoreProofs.increasing radii -> 0 <= r -> (forall y, ulp y y = true) -> ring_resolved ulp radii r -> ring_ahead radii r out ir ->
  exists i, lower_bound fuzzy_lt radii r = Some i /\ match nth_error radii i with Some v => if ulp r v && out then S i else i | None => i end = ir.
Proof.
  intros ulp radii r out ir I R0 RF RS (L & Lo & Hi). pose proof FUZZ_pos as FZ. assert (FR : 0 <= REAL_FUZZ * r) by (apply Rmult_le_pos; lra).
  assert (LT : forall k x, nth_error radii k = Some x -> x < r -> fuzzy_lt x r = true).
  { intros k x E H. apply fuzzy_lt_iff. destruct (RS x (nth_error_In _ _ E)) as [Q|[Q _]]; [lra|]. rewrite (Rabs_right (r - x)) in Q by lra. rewrite (Rabs_right r) by lra. lra. }
  assert (GE : forall x, r <= x -> fuzzy_lt x r = false) by (intros x H; apply fuzzy_lt_false; rewrite (Rabs_right r) by lra; lra).
  assert (CASE : (exists k, nth_error radii k = Some r) \/ forall k x, nth_error radii k = Some x -> x <> r).
  { destruct (in_dec Req_EM_T r radii) as [Q|Q]; [left; apply In_nth_error; exact Q|right; intros k x E ->; apply Q; apply nth_error_In with k; exact E]. }
  destruct CASE as [[k Ek]|NE].
  - assert (Lk : (k < length radii)%nat) by (apply nth_error_Some; congruence).
    exists k. rewrite Ek, RF. cbn [andb]. split.
    + apply fuzzy_index; [exact I|lia| |].
      * intros j v Hj Ej. apply (LT j); [exact Ej|]. apply (I j k); [exact Hj|exact Ej|exact Ek].
      * intros v E. rewrite Ek in E. injection E as <-. apply GE. lra.
    + destruct (Nat.lt_ge_cases k ir) as [Q|Q].
      * destruct (Lo k r Ek Q) as [X|[_ ->]]; [lra|]. apply Nat.le_antisymm; [exact Q|]. destruct (Nat.lt_ge_cases (S k) ir) as [Q'|]; [|assumption]. exfalso.
        destruct (nth_error radii (S k)) as [v|] eqn:Ev; [|apply nth_error_None in Ev; lia]. assert (r < v) by (apply (I k (S k)); [lia|exact Ek|exact Ev]). destruct (Lo (S k) v Ev Q') as [X|[X _]]; lra.
      * destruct (Hi k r Ek Q) as [X|[_ ->]]; [lra|]. apply Nat.le_antisymm; [|exact Q]. destruct (Nat.lt_ge_cases ir k) as [Q'|]; [|assumption]. exfalso.
        destruct (nth_error radii ir) as [v|] eqn:Ev; [|apply nth_error_None in Ev; lia]. assert (v < r) by (apply (I ir k); [lia|exact Ev|exact Ek]). destruct (Hi ir v Ev (le_n ir)) as [X|[X _]]; lra.
  - exists ir. split.
    + apply fuzzy_index; [exact I|exact L| |].
      * intros j v Hj Ej. apply (LT j); [exact Ej|]. destruct (Lo j v Ej Hj) as [X|[X _]]; [exact X|]. exfalso. exact (NE j v Ej X).
      * intros v E. apply GE. destruct (Hi ir v E (le_n ir)) as [X|[X _]]; lra.
    + destruct (nth_error radii ir) as [v|] eqn:E; [|reflexivity]. destruct (RS v (nth_error_In _ _ E)) as [Q|[_ Q]]; [exfalso; exact (NE ir v E Q)|]. rewrite Q. reflexivity.
Qed.
Lemma sector_index : forall n ia a da, (1 <= n)%Z -> sector_ahead n ia a da -> let s := 2 * PI / IZR n in let closest := Int_part (a / s + 1 / 2) in
  Z.rem (if fp_equiv_abs (IZR closest * s) a then (if Rltb a da then closest else (closest - 1)%Z) else Int_part (a / s)) n = ia.
Proof.
  intros n ia a da N [B H] s closest. pose proof PI_RGT_0 as PP. assert (N0 : 0 < IZR n) by (apply IZR_lt; lia). assert (S0 : 0 < s) by (apply Rdiv_lt_0_compat; lra). pose proof FUZZ_pos as FZ. cbv zeta in H. fold s in H.
  assert (REM : Z.rem ia n = ia) by (apply Z.rem_small; lia). destruct H as [[[H1 H2] H3]|[[H1 H2]|[H1 H2]]].
  - assert (F : fp_equiv_abs (IZR closest * s) a = false) by (unfold fp_equiv_abs; apply Rltb_false; apply H3). rewrite F.
    rewrite (Int_part_eq (a / s) ia); [exact REM|]. rewrite plus_IZR in H2. split.
    + left. apply (Rmult_lt_reg_r s); [exact S0|]. replace (a / s * s) with a by (field; lra). exact H1.
    + apply (Rmult_lt_reg_r s); [exact S0|]. replace (a / s * s) with a by (field; lra). exact H2.
  - assert (C : closest = ia). { unfold closest. apply Int_part_eq. replace (a / s) with (IZR ia) by (rewrite H1; field; lra). lra. }
    rewrite C. assert (F : fp_equiv_abs (IZR ia * s) a = true) by (unfold fp_equiv_abs; apply Rltb_true; rewrite H1, Rminus_diag_eq, Rabs_R0 by reflexivity; exact FZ). rewrite F, Rltb_true by lra. exact REM.
  - assert (C : closest = (ia + 1)%Z). { unfold closest. apply Int_part_eq. replace (a / s) with (IZR (ia + 1)) by (rewrite H1; field; lra). lra. }
    rewrite C. assert (F : fp_equiv_abs (IZR (ia + 1) * s) a = true) by (unfold fp_equiv_abs; apply Rltb_true; rewrite H1, Rminus_diag_eq, Rabs_R0 by reflexivity; exact FZ). rewrite F, Rltb_false by lra. replace (ia + 1 - 1)%Z with ia by lia. exact REM.
Qed.
Definition heads_out (p : Point2) (d : Dir) : bool := Rltb 0 (ptx p * ox d + pty p * oy d).
(** In a cylindrical pin a particle in the pin, off the x axis, is in the ring ahead of it and the sector ahead of it. *)
Theorem C104_cyl : forall ulp id pitch xs azi sub pm p d a ir ia, cyl_ctor id pitch xs azi sub = PVal pm -> growing 0 xs -> Forall (fun k => (1 <= k)%Z) sub -> (1 <= azi)%Z ->
  (forall y, ulp y y = true) -> Rabs (ptx p) <= pitch / 2 -> Rabs (pty p) <= pitch / 2 -> pty p <> 0 ->
  let r := sqrt (ptx p * ptx p + pty p * pty p) in
  ring_resolved ulp (cp_radii pm) r -> ring_ahead (cp_radii pm) r (heads_out p d) ir -> polar p a -> ulp a (2 * PI) = false -> sector_ahead azi ia a (AngModel.alpha d) ->
  cyl_find_reg_dir ulp pm p d = Some (RIdx (Z.of_nat ir * azi + ia)).
Proof.
  intros ulp id pitch xs azi sub pm p d a ir ia C G K A RF BX BY NY r RS RA PO UL SA. destruct (cyl_ctor_inv _ _ _ _ _ _ C G K A) as (P & E1 & E2 & _ & GR). destruct (growing_increasing _ _ GR) as [I _].
  unfold cyl_find_reg_dir. rewrite E1, E2. replace (0.5 * pitch) with (pitch / 2) by (unfold Rdiv; lra). pose proof (Rle_abs (ptx p)). pose proof (Rle_abs (pty p)). pose proof (Rle_abs (- ptx p)) as M1. pose proof (Rle_abs (- pty p)) as M2. rewrite Rabs_Ropp in M1, M2.
  rewrite !(Rltb_false (ptx p) (- (pitch / 2))), !(Rltb_false (pitch / 2) (ptx p)), !(Rltb_false (pty p) (- (pitch / 2))), !(Rltb_false (pitch / 2) (pty p)) by lra. cbn [andb orb]. fold r.
  destruct (ring_index ulp (cp_radii pm) r (heads_out p d) ir I (sqrt_pos _) RF RS RA) as (i & Ei & Er). rewrite Ei.
  assert (EA : alpha p = a) by (apply (C70_unique p); [right; exact NY|apply C70_alpha; exact NY|exact PO]). rewrite EA, UL. fold (heads_out p d). rewrite Er. rewrite (sector_index azi ia a (AngModel.alpha d) A SA).
  destruct RA as [L _]. destruct SA as [[S1 S2] _]. f_equal. unfold cyl_n_reg. rewrite E2.
  assert (BB : (0 <= Z.of_nat ir * azi + ia < (Z.of_nat (length (cp_radii pm)) + 1) * azi)%Z) by nia.
  rewrite (proj2 (Z.leb_le _ _) (proj1 BB)), (proj2 (Z.ltb_lt _ _) (proj2 BB)). reflexivity.
Qed.
Print Assumptions C104_cyl.
Lemma one_ring : exists pm, cyl_ctor 0 2 [1/2] 4 [1%Z] = PVal pm /\ cp_pitch pm = 2 /\ cp_azi pm = 4%Z /\ cp_radii pm = [1/2].
Proof.
  assert (M : mesh_radii [1/2] [1%Z] 0 0 = PVal [1/2]). { cbn [mesh_radii]. change (Z.to_nat 1) with 1%nat. cbn [ring pbind]. rewrite Rltb_false by lra. replace ((1/2 * (1/2) - 0 * 0) / 1 + 0 * 0) with (1/2 * (1/2)) by field. rewrite sqrt_square by lra. reflexivity. }
  eexists. split; [exact (cyl_ctor_eval 0 2 (1/2) [] 4 [1%Z] [1/2] ltac:(lia) ltac:(lra) eq_refl ltac:(cbn; lra) eq_refl ltac:(lia) eq_refl M ltac:(discriminate))|]. repeat split.
Qed.
(** Refuted on a line between sectors when the two angles differ by more than half a turn: a particle on the positive y axis
    heading down and to the right is put in the sector on its left, though every point it comes to lies in the one on its
    right. *)
Theorem C104_cyl_refuted : exists pm p d, cyl_ctor 0 2 [1/2] 4 [1%Z] = PVal pm /\ d = dir_angles (7 * (PI / 4)) (PI / 2) /\ p = {| ptx := 0; pty := 1/4 |} /\
  (forall t, 0 < t < 1/4 -> cyl_find_reg pm {| ptx := ptx p + t * ox d; pty := pty p + t * oy d |} = RIdx 0) /\
  forall ulp, ulp (1/4) (1/2) = false -> ulp (PI / 2) (2 * PI) = false -> cyl_find_reg_dir ulp pm p d = Some (RIdx 1).
Proof.
  destruct one_ring as (pm & C & E1 & E2 & E3). set (d := dir_angles (7 * (PI / 4)) (PI / 2)). exists pm, {| ptx := 0; pty := 1/4 |}, d. pose proof PI_RGT_0 as PP. pose proof FUZZ_pos as FZ. pose proof fuzz_small as FS.
  assert (S2 : 0 < sqrt 2) by (apply sqrt_lt_R0; lra). assert (SS : sqrt 2 * sqrt 2 = 2) by (apply sqrt_sqrt; lra). assert (S3 : 1 < sqrt 2 < 2) by nra.
  assert (OX : ox d = 1 / sqrt 2). { unfold d, dir_angles. cbn [ox]. rewrite sin_PI2, Rmult_1_l. replace (7 * (PI / 4)) with (- (PI / 4) + 2 * PI) by field. rewrite cos_plus, cos_2PI, sin_2PI, cos_neg, cos_PI4. ring. }
  assert (OY : oy d = - (1 / sqrt 2)). { unfold d, dir_angles. cbn [oy]. rewrite sin_PI2, Rmult_1_l. replace (7 * (PI / 4)) with (- (PI / 4) + 2 * PI) by field. rewrite sin_plus, cos_2PI, sin_2PI, sin_neg, sin_PI4. ring. }
  assert (Q : 1/2 < 1 / sqrt 2 < 1). { split; apply (Rmult_lt_reg_r (sqrt 2)); try lra; replace (1 / sqrt 2 * sqrt 2) with 1 by (field; lra); lra. }
  split; [exact C|]. split; [reflexivity|]. split; [reflexivity|]. split.
  - intros t Ht. cbn [ptx pty]. rewrite OX, OY. set (c := 1 / sqrt 2) in *. set (x := 0 + t * c). set (y := 1/4 + t * - c). assert (X : 0 < x < 1/4) by (unfold x; nra). assert (Y : 0 < y < 1/4) by (unfold y; nra).
    destruct (C94_cyl 0 2 [1/2] 4 [1%Z] pm {| ptx := x; pty := y |} C ltac:(lia)) as [H _]. cbn [ptx pty] in H. destruct (C70_alpha {| ptx := x; pty := y |} ltac:(cbn [pty]; lra)) as [PO AP].
    refine (proj1 (H 0%nat 0%Z _ _ _ _ _ PO _)); [rewrite Rabs_right; lra|rewrite Rabs_right; lra|lra| |].
    + rewrite E3. assert (R : sqrt (x * x + y * y) < 1/2). { replace (1/2) with (sqrt (1/2 * (1/2))) by (apply sqrt_square; lra). apply sqrt_lt_1; nra. }
      split; [cbn; lia|]. split; intros k v N L; [lia|]. destruct k as [|k]; cbn in N; [injection N as <-; exact R|destruct k; discriminate].
    + unfold in_sector. unfold alpha, atan2 in *. cbn [ptx pty] in *. rewrite (Rltb_true 0 y), (Rltb_true 0 x) in * by lra. pose proof (atan_bound (y / x)). cbn. lra.
  - intros ulp U1 U2. set (p := {| ptx := 0; pty := 1/4 |}). assert (R : sqrt (ptx p * ptx p + pty p * pty p) = 1/4). { cbn [p ptx pty]. replace (0 * 0 + 1/4 * (1/4)) with (1/4 * (1/4)) by ring. apply sqrt_square. lra. }
    unfold cyl_find_reg_dir, cyl_n_reg. rewrite R, E1, E2, E3. cbn [p ptx pty].
    rewrite (Rltb_false 0 (- (0.5 * 2))), (Rltb_false (0.5 * 2) 0), (Rltb_false (1/4) (- (0.5 * 2))), (Rltb_false (0.5 * 2) (1/4)) by lra. cbn [andb orb].
    rewrite (fuzzy_index [1/2] (1/4) 0); [|intros i j a b L Ea Eb; destruct i as [|[|]], j as [|[|]]; cbn in *; try discriminate; lia|cbn; lia|intros; lia|intros v E; injection E as <-; apply fuzzy_lt_false; rewrite Rabs_right by lra; lra].
    cbn [nth_error]. rewrite U1. cbn [andb].
    assert (A : alpha p = PI / 2). { unfold alpha, atan2. cbn [p ptx pty]. rewrite (Rltb_true 0 (1/4)), (Rltb_false 0 0) by lra. reflexivity. }
    fold p. rewrite A, U2. replace (PI / 2 / (2 * PI / IZR 4)) with 1 by (field; lra). rewrite (Int_part_eq (1 + 1/2) 1) by lra.
    assert (F : fp_equiv_abs (IZR 1 * (2 * PI / IZR 4)) (PI / 2) = true). { unfold fp_equiv_abs. apply Rltb_true. replace (IZR 1 * (2 * PI / IZR 4) - PI / 2) with 0 by field. rewrite Rabs_R0. exact FZ. }
    rewrite F. unfold d, dir_angles. cbn [AngModel.alpha]. rewrite Rltb_true by lra. reflexivity.
Qed.
Print Assumptions C104_cyl_refuted.
Example C104_cyl_instance : ring_ahead [1/2] (1/2) true 1 /\ ring_ahead [1/2] (1/2) false 0 /\ ring_resolved Reqb [1/2] (1/2) /\ sector_ahead 4 1 (PI / 2) (PI / 2 + 1) /\ sector_ahead 4 0 (PI / 2) 1.
Proof.
  assert (K : forall k x, nth_error [1/2] k = Some x -> k = 0%nat /\ x = 1/2) by (intros [|k] x E; cbn in E; [injection E as <-; auto|destruct k; discriminate]). pose proof PI_RGT_0. pose proof PI2_1.
  split; [split; [cbn; lia|split; intros k x E L; destruct (K k x E) as [-> ->]; [right; auto|lia]]|]. split; [split; [cbn; lia|split; intros k x E L; destruct (K k x E) as [-> ->]; [lia|right; auto]]|].
  split; [intros x [<-|[]]; left; reflexivity|]. split; split; try lia; right; [left|right]; (split; [cbn; field|lra]).
Qed.
