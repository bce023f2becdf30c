(** The multiplication factor of the CMFD system does not depend on where the calculation starts (C199). *)
From Coq Require Import List Bool Reals ZArith Lia Lra.
From Verif Require MocKeffProps.
From Verif Require Import RUtil MeshModel MeshSpec MeshProofs BcModel ExpModel SnModel CmfdModel SnEqProps HomProps.
From Verif Require Import BcProofs MocProofs SnProps CmfdProps CmfdMacroProps CmsModel CmsProps CmPosProps.
Import ListNotations.
Open Scope Z_scope.

(** ** What the property speaks about *)
(** What a cell loses and what it gains in a group: removal and leakage with the currents that go with the flux, against fission
    divided by [k] and scattering from the other groups. *)
Definition cm_lost (p : CmProb) (f : Flux) (g : nat) (q : Position) : R := let e := cp_env p g in let i := coarse_cell (cp_m p) q in
  (coarse_volume e i * cm_rm e i * f g i + leakage e (cm_current (cp_m p) (cp_dt p g) (cp_dh p g) (f g)) q)%R.
Definition cm_gained (p : CmProb) (k : R) (f : Flux) (g : nat) (q : Position) : R := let i := coarse_cell (cp_m p) q in
  (coarse_volume (cp_env p g) i * (cp_chi p g i * production p f i / k + arriving p g f i))%R.
(** Some of the neutrons removed from a group do not come out in another. *)
Definition absorbs (p : CmProb) : Prop := forall g i, (g < cp_ng p)%nat -> 0 <= i < n_pin (cp_m p) -> (lsum (fun h => cp_sc p g h i) (filter (fun h => negb (Nat.eqb h g)) (seq 0 (cp_ng p))) < cm_rm (cp_env p g) i)%R.
(** All groups are on one mesh with corrections that are not too large, and nothing in the data is negative. *)
Record cm_steady (p : CmProb) : Prop := { st_good : cp_good p; st_vol : forall g i, coarse_volume (cp_env p g) i = coarse_volume (cp_env p 0) i; st_plain : plain_data p; st_abs : absorbs p;
  st_grp : forall g, (g < cp_ng p)%nat -> cm_sane (cp_env p g) /\ tame (cp_m p) (cp_dt p g) (cp_dh p g) }.
Definition all_positive (p : CmProb) (f : Flux) : Prop := forall g i, (g < cp_ng p)%nat -> 0 <= i < n_pin (cp_m p) -> (0 < f g i)%R.
Definition not_zero (p : CmProb) (f : Flux) : Prop := exists g i, (g < cp_ng p)%nat /\ 0 <= i < n_pin (cp_m p) /\ f g i <> 0%R.
(** The state is balanced with the currents of its own flux. *)
Definition in_balance (p : CmProb) (k : R) (f : Flux) : Prop := balanced p k f (fun g => cm_current (cp_m p) (cp_dt p g) (cp_dh p g) (f g)).

(** ** Leakage out of the part of the mesh where the flux is negative *)
Lemma negative_leak : forall e dt dh x, cm_sane e -> tame (cm_m e) dt dh -> let b := fun q => Rltb (x (coarse_cell (cm_m e) q)) 0 in
  (lsum (leakage e (cm_current (cm_m e) dt dh x)) (filter b (cells_of (cm_m e))) <= 0)%R.
Proof. intros e dt dh x C T b. pose proof (cs_m e C) as M. set (m := cm_m e) in *. set (N := filter b (cells_of m)).
  assert (IN : forall p, In p N -> in_mesh m p /\ (x (coarse_cell m p) < 0)%R). { intros p J. unfold N in J. apply filter_In in J. destruct J as [J B]. apply cells_of_in in J; [|exact M]. unfold b in B. destruct (Rltb_spec (x (coarse_cell m p)) 0); [auto|discriminate]. }
  pose proof (part_cancel e (cm_current m dt dh x) b M) as PC. fold m in PC. fold N in PC. rewrite PC. apply lsum_nonpos. intros p J. apply lsum_nonpos. intros s _. destruct (IN p J) as [P XP].
  destruct (within e b (p, s)) eqn:W; [lra|]. unfold leak. fold m. rewrite (current_out m dt dh x p s M P). set (k := face_index m (face_of p s)). pose proof (area_pos e p s C P) as AP. fold m in AP.
  assert (B : (Rabs (dh k) <= dt k)%R) by (apply T; apply face_index_bounds; [exact M|apply face_of_ok; auto]).
  assert (S1 : (0 <= dt k + signed s (dh k))%R /\ (signed s (dh k) - dt k <= 0)%R) by (unfold Rabs in B; destruct (Rcase_abs (dh k)); destruct s; cbn [signed]; lra).
  assert (BY : (0 <= beyond m x p s)%R). { unfold beyond. unfold within, internal in W. cbn [fst snd] in W. fold m in W. destruct (in_mesh_dec m (move p s)) as [Q|Q]; [|rewrite flux_at_out by exact Q; lra]. rewrite flux_at_in by exact Q. cbn [andb] in W. unfold b in W. destruct (Rltb_spec (x (coarse_cell m (move p s))) 0); [discriminate|lra]. }
  destruct S1 as [S1 S2]. apply below_zero; [exact AP|]. pose proof (above_zero _ (x (coarse_cell m p)) S1 (Rlt_le _ _ XP)). pose proof (above_zero _ _ BY S2). lra. Qed.

(** ** Removal and scattering within a cell *)
Lemma skip_sum : forall (f : nat -> R) g l, lsum f (filter (fun h => negb (Nat.eqb h g)) l) = lsum (fun h => if Nat.eqb h g then 0%R else f h) l.
Proof. intros f g l. rewrite lsum_filter. apply lsum_ext. intros h _. destruct (Nat.eqb h g); reflexivity. Qed.
Lemma negative_cell : forall l (rm f : nat -> R) (sc : nat -> nat -> R), (forall g h, In g l -> In h l -> (0 <= sc h g)%R) ->
  (lsum (fun g => if Rltb (f g) 0 then rm g * f g - lsum (fun h => if Nat.eqb h g then 0 else sc h g * f h) l else 0) l <= lsum (fun h => Rmin (f h) 0 * (rm h - lsum (fun g => if Nat.eqb g h then 0 else sc h g) l)) l)%R.
Proof. intros l rm f sc S0. set (n := fun h => Rmin (f h) 0).
  assert (NN : forall h, (n h <= 0)%R /\ (n h <= f h)%R /\ ((f h < 0)%R -> n h = f h) /\ (~ (f h < 0)%R -> n h = 0%R)). { intros h. unfold n, Rmin. destruct (Rle_dec (f h) 0); repeat split; intros; lra. }
  apply Rle_trans with (lsum (fun g => n g * rm g + lsum (fun h => if Nat.eqb h g then 0 else sc h g * n h * -1) l)%R l).
  - apply lsum_le. intros g Ig. destruct (NN g) as (A & B & C & D). destruct (Rltb_spec (f g) 0) as [L|L].
    + rewrite (C L). enough (lsum (fun h => if Nat.eqb h g then 0 else sc h g * n h)%R l <= lsum (fun h => if Nat.eqb h g then 0 else sc h g * f h)%R l)%R.
      { rewrite (lsum_ext (fun h => if Nat.eqb h g then 0 else sc h g * n h * -1)%R (fun h => (if Nat.eqb h g then 0 else sc h g * n h) * -1)%R) by (intros h _; destruct (Nat.eqb h g); ring). rewrite lsum_scal. lra. }
      apply lsum_le. intros h Ih. destruct (Nat.eqb h g); [lra|]. apply Rmult_le_compat_l; [apply S0; auto|apply NN].
    + rewrite (D L). assert (0 <= lsum (fun h => if Nat.eqb h g then 0 else sc h g * n h * -1)%R l)%R; [|lra]. apply lsum_nonneg. intros h Ih. destruct (Nat.eqb h g); [lra|]. pose proof (above_zero _ _ (S0 g h Ig Ih) (proj1 (NN h))). lra.
  - right. rewrite lsum_plus. rewrite (lsum_swap (fun g h => if Nat.eqb h g then 0 else sc h g * n h * -1)%R l l). rewrite <- lsum_plus. apply lsum_ext. intros h _. fold (n h).
    rewrite (lsum_ext (fun g => if Nat.eqb h g then 0 else sc h g * n h * -1)%R (fun g => (if Nat.eqb g h then 0 else sc h g) * (n h * -1))%R) by (intros g _; rewrite (Nat.eqb_sym h g); destruct (Nat.eqb g h); ring). rewrite lsum_scal. ring. Qed.

Lemma lsum_neg : forall {A} (f : A -> R) l a, In a l -> (forall b, In b l -> (f b <= 0)%R) -> (f a < 0)%R -> (lsum f l < 0)%R.
Proof. intros A f l a I N F. induction l as [|b l IH]; [destruct I|]. cbn [lsum]. pose proof (N b (or_introl eq_refl)). destruct I as [->|I].
  - pose proof (lsum_nonpos f l (fun x Ix => N x (or_intror Ix))). lra.
  - pose proof (IH I (fun x Ix => N x (or_intror Ix))). lra. Qed.

Section Steady.
Context (p : CmProb).
Hypothesis H : cm_steady p.
(** What a group loses in a cell, less what comes from the other groups. *)
Definition cm_net (f : Flux) (g : nat) (q : Position) : R := (cm_lost p f g q - coarse_volume (cp_env p g) (coarse_cell (cp_m p) q) * arriving p g f (coarse_cell (cp_m p) q))%R.

(** A flux of which no cell loses less than arrives is not negative. *)
Lemma net_positive : forall f, (forall g q, (g < cp_ng p)%nat -> in_mesh (cp_m p) q -> (0 <= cm_net f g q)%R) -> not_negative p f.
Proof. intros f P g0 i0 Hg Hi. destruct (Rle_lt_dec 0 (f g0 i0)) as [|Neg]; [assumption|exfalso]. set (m := cp_m p) in *. pose proof (cg_m p (st_good p H)) as M. fold m in M.
  set (b := fun g q => Rltb (f g (coarse_cell m q)) 0). set (V := fun q => coarse_volume (cp_env p 0) (coarse_cell m q)).
  assert (VP : forall q, in_mesh m q -> (0 < V q)%R). { intros q Q. unfold V. destruct (st_grp p H 0%nat) as [C _]; [pose proof (cg_ng p (st_good p H)); lia|]. pose proof (volume_pos _ q C) as W. rewrite (cg_mesh p (st_good p H) 0) in W. exact (W Q). }
  assert (SP : (0 <= lsum (fun g => lsum (cm_net f g) (filter (b g) (cells_of m))) (seq 0 (cp_ng p)))%R).
  { apply lsum_nonneg. intros g Ig. apply in_seq in Ig. apply lsum_nonneg. intros q Iq. apply filter_In in Iq. destruct Iq as [Iq _]. apply cells_of_in in Iq; [|exact M]. apply P; [lia|exact Iq]. }
  set (own := fun g q => (V q * (cm_rm (cp_env p g) (coarse_cell m q) * f g (coarse_cell m q) - arriving p g f (coarse_cell m q)))%R).
  assert (S1 : (lsum (fun g => lsum (cm_net f g) (filter (b g) (cells_of m))) (seq 0 (cp_ng p)) <= lsum (fun g => lsum (own g) (filter (b g) (cells_of m))) (seq 0 (cp_ng p)))%R).
  { apply lsum_le. intros g Ig. apply in_seq in Ig. destruct (st_grp p H g) as [C T]; [lia|]. pose proof (cg_mesh p (st_good p H) g) as EM. pose proof (negative_leak (cp_env p g) (cp_dt p g) (cp_dh p g) (f g) C) as L. rewrite EM in L. specialize (L T). cbv zeta in L. fold m in L. fold (b g) in L.
    rewrite (lsum_ext (cm_net f g) (fun q => own g q + leakage (cp_env p g) (cm_current m (cp_dt p g) (cp_dh p g) (f g)) q)%R) by (intros q _; unfold cm_net, own, cm_lost, V; fold m; rewrite (st_vol p H g); ring). rewrite lsum_plus. lra. }
  assert (S2 : (lsum (fun g => lsum (own g) (filter (b g) (cells_of m))) (seq 0 (cp_ng p)) < 0)%R).
  { rewrite (lsum_ext (fun g => lsum (own g) (filter (b g) (cells_of m))) (fun g => lsum (fun q => if b g q then own g q else 0%R) (cells_of m))) by (intros; apply lsum_filter).
    rewrite (lsum_swap (fun g q => if b g q then own g q else 0%R)).
    assert (CL : forall q, in_mesh m q -> (lsum (fun g => if b g q then own g q else 0) (seq 0 (cp_ng p)) <= V q * lsum (fun h => Rmin (f h (coarse_cell m q)) 0 * (cm_rm (cp_env p h) (coarse_cell m q) - lsum (fun g => if Nat.eqb g h then 0 else cp_sc p h g (coarse_cell m q)) (seq 0 (cp_ng p)))) (seq 0 (cp_ng p)))%R).
    { intros q Q. set (i := coarse_cell m q). pose proof (coarse_cell_bounds _ _ Q) as I. fold i in I.
      pose proof (negative_cell (seq 0 (cp_ng p)) (fun g => cm_rm (cp_env p g) i) (fun g => f g i) (fun h g => cp_sc p h g i)) as N. cbv beta in N.
      assert (SC : forall g h, In g (seq 0 (cp_ng p)) -> In h (seq 0 (cp_ng p)) -> (0 <= cp_sc p h g i)%R) by (intros g h Ig Ih; apply in_seq in Ig; apply in_seq in Ih; apply (st_plain p H g h i); auto; lia). specialize (N SC).
      apply Rle_trans with (2 := Rmult_le_compat_l _ _ _ (Rlt_le _ _ (VP q Q)) N). right. rewrite <- lsum_scale. apply lsum_ext. intros g _. unfold b, own. fold i. unfold arriving. rewrite skip_sum. destruct (Rltb (f g i) 0); ring. }
    assert (TM : forall q h, in_mesh m q -> In h (seq 0 (cp_ng p)) -> (0 < cm_rm (cp_env p h) (coarse_cell m q) - lsum (fun g => if Nat.eqb g h then 0 else cp_sc p h g (coarse_cell m q)) (seq 0 (cp_ng p)))%R).
    { intros q h Q Ih. apply in_seq in Ih. pose proof (st_abs p H h (coarse_cell m q) ltac:(lia) (coarse_cell_bounds _ _ Q)) as A. rewrite skip_sum in A. lra. }
    assert (MN : forall a : R, (Rmin a 0 <= 0)%R) by (intros; apply Rmin_r).
    assert (LE : forall q, in_mesh m q -> (lsum (fun h => Rmin (f h (coarse_cell m q)) 0 * (cm_rm (cp_env p h) (coarse_cell m q) - lsum (fun g => if Nat.eqb g h then 0 else cp_sc p h g (coarse_cell m q)) (seq 0 (cp_ng p)))) (seq 0 (cp_ng p)) <= 0)%R).
    { intros q Q. apply lsum_nonpos. intros h Ih. rewrite Rmult_comm. apply below_zero; [now apply TM|apply MN]. }
    destruct (cell_of_position m i0 M Hi) as [Q0 E0]. apply (lsum_neg _ _ (coarse_position m i0)); [now apply cells_of_in| |].
    - intros q Iq. apply cells_of_in in Iq; [|exact M]. apply Rle_trans with (1 := CL q Iq). apply below_zero; [now apply VP|now apply LE].
    - apply Rle_lt_trans with (1 := CL _ Q0). apply Rlt_le_trans with (V (coarse_position m i0) * 0)%R; [|lra]. apply Rmult_lt_compat_l; [now apply VP|]. apply (lsum_neg _ _ g0); [apply in_seq; lia| |].
      + intros h Ih. rewrite Rmult_comm. apply below_zero; [now apply TM|apply MN].
      + rewrite E0. pose proof (TM _ g0 Q0 ltac:(apply in_seq; lia)) as T0. rewrite E0 in T0. assert (Em : Rmin (f g0 i0) 0 = f g0 i0) by (unfold Rmin; destruct (Rle_dec (f g0 i0) 0); lra). rewrite Em. clear - Neg T0. set (w := (cm_rm _ _ - _)%R) in *. clearbody w. nra. }
  lra. Qed.

Lemma flux_at_lin : forall c (x y : Z -> R) i, flux_at (fun j => x j + c * y j)%R i = (flux_at x i + c * flux_at y i)%R.
Proof. intros c x y i. unfold flux_at. destruct (0 <=? i); ring. Qed.
Lemma net_lin : forall c x y g q, cm_net (fun g i => x g i + c * y g i)%R g q = (cm_net x g q + c * cm_net y g q)%R.
Proof. intros c x y g q. unfold cm_net, cm_lost. set (i := coarse_cell (cp_m p) q). set (e := cp_env p g).
  assert (A : arriving p g (fun g i => x g i + c * y g i)%R i = (arriving p g x i + c * arriving p g y i)%R). { unfold arriving. rewrite <- lsum_scale, <- lsum_plus. apply lsum_ext. intros. ring. }
  assert (B : leakage e (cm_current (cp_m p) (cp_dt p g) (cp_dh p g) (fun i => x g i + c * y g i)%R) q = (leakage e (cm_current (cp_m p) (cp_dt p g) (cp_dh p g) (x g)) q + c * leakage e (cm_current (cp_m p) (cp_dt p g) (cp_dh p g) (y g)) q)%R).
  { unfold leakage. rewrite <- lsum_scale, <- lsum_plus. apply lsum_ext. intros s _. unfold leak, cm_current. destruct (coarse_neigh_cells (cp_m p) (face_index (cm_m e) (face_of q s))) as [c1 c2]. rewrite !flux_at_lin. destruct s; cbn [outward]; ring. }
  cbv zeta. rewrite A, B. ring. Qed.
Lemma net_scal : forall c x g q, cm_net (fun g i => c * x g i)%R g q = (c * cm_net x g q)%R.
Proof. intros c x g q. assert (Z0 : cm_net (fun _ _ => 0%R) g q = 0%R). { pose proof (net_lin (-1) (fun _ _ => 0%R) (fun _ _ => 0%R) g q) as E. assert (cm_net (fun _ _ => (0 + -1 * 0)%R) g q = cm_net (fun _ _ => 0%R) g q); [|lra]. replace (0 + -1 * 0)%R with 0%R by ring. reflexivity. }
  rewrite <- (Rplus_0_l (c * cm_net x g q)), <- Z0, <- net_lin. unfold cm_net, cm_lost, leakage, leak, cm_current, arriving. cbv zeta. f_equal.
  - f_equal; [ring|]. apply lsum_ext. intros s _. destruct (coarse_neigh_cells _ _) as [c1 c2]. unfold flux_at. destruct (0 <=? c1), (0 <=? c2); rewrite ?Rplus_0_l; reflexivity.
  - f_equal. apply lsum_ext. intros. ring. Qed.
Lemma net_monotone : forall x y, (forall g q, (g < cp_ng p)%nat -> in_mesh (cp_m p) q -> (cm_net x g q <= cm_net y g q)%R) -> forall g i, (g < cp_ng p)%nat -> 0 <= i < n_pin (cp_m p) -> (x g i <= y g i)%R.
Proof. intros x y L g i Hg Hi. assert (not_negative p (fun g i => y g i + -1 * x g i)%R) as N; [|specialize (N g i Hg Hi); cbv beta in N; lra]. apply net_positive. intros g' q' Hg' Hq'. rewrite net_lin. specialize (L g' q' Hg' Hq'). lra. Qed.

(** Fission in a cell that goes to a group. *)
Definition cm_fis (f : Flux) (g : nat) (q : Position) : R := (coarse_volume (cp_env p g) (coarse_cell (cp_m p) q) * (cp_chi p g (coarse_cell (cp_m p) q) * production p f (coarse_cell (cp_m p) q)))%R.
Lemma fis_le : forall x y g q, (g < cp_ng p)%nat -> in_mesh (cp_m p) q -> (forall g i, (g < cp_ng p)%nat -> 0 <= i < n_pin (cp_m p) -> (x g i <= y g i)%R) -> (cm_fis x g q <= cm_fis y g q)%R.
Proof. intros x y g q Hg Q L. unfold cm_fis. pose proof (coarse_cell_bounds _ _ Q) as I. destruct (st_grp p H g Hg) as [C _]. pose proof (volume_pos _ q C) as V. rewrite (cg_mesh p (st_good p H) g) in V. specialize (V Q).
  apply Rmult_le_compat_l; [lra|]. apply Rmult_le_compat_l; [apply (st_plain p H g g); auto|]. unfold production. apply lsum_le. intros h Ih. apply in_seq in Ih. apply Rmult_le_compat_l; [apply (st_plain p H h h); auto; lia|apply L; [lia|exact I]]. Qed.
Lemma production_scal : forall c x i, production p (fun g i => c * x g i)%R i = (c * production p x i)%R.
Proof. intros c x i. unfold production. rewrite <- lsum_scale. apply lsum_ext. intros. ring. Qed.
Lemma arriving_scal : forall c x g i, arriving p g (fun g i => c * x g i)%R i = (c * arriving p g x i)%R.
Proof. intros c x g i. unfold arriving. rewrite <- lsum_scale. apply lsum_ext. intros. ring. Qed.
Lemma gained_fis : forall k x g q, cm_gained p k x g q = (cm_fis x g q / k + coarse_volume (cp_env p g) (coarse_cell (cp_m p) q) * arriving p g x (coarse_cell (cp_m p) q))%R.
Proof. intros. unfold cm_gained, cm_fis, Rdiv. cbv zeta. ring. Qed.

Lemma factor_step : forall k1 k2 x y t, (0 < k1)%R -> (0 < k2)%R -> (0 <= t)%R -> (forall g q, (g < cp_ng p)%nat -> in_mesh (cp_m p) q -> (cm_gained p k1 x g q <= cm_lost p x g q)%R) ->
  (forall g q, (g < cp_ng p)%nat -> in_mesh (cp_m p) q -> (cm_lost p y g q <= cm_gained p k2 y g q)%R) -> (forall g i, (g < cp_ng p)%nat -> 0 <= i < n_pin (cp_m p) -> (t * y g i <= x g i)%R) ->
  forall g i, (g < cp_ng p)%nat -> 0 <= i < n_pin (cp_m p) -> (t * (k2 / k1) * y g i <= x g i)%R.
Proof. intros k1 k2 x y t K1 K2 T X Y L. apply (net_monotone (fun g i => t * (k2 / k1) * y g i)%R x). intros g q Hg Q. rewrite net_scal. specialize (X g q Hg Q). specialize (Y g q Hg Q). rewrite gained_fis in X, Y.
  assert (NY : (cm_net y g q <= cm_fis y g q / k2)%R) by (unfold cm_net; lra). assert (NX : (cm_fis x g q / k1 <= cm_net x g q)%R) by (unfold cm_net; lra).
  assert (R0 : (0 < k2 / k1)%R) by (apply Rdiv_lt_0_compat; auto). assert (C0 : (0 <= t * (k2 / k1))%R) by (apply Rmult_le_pos; lra). apply Rle_trans with (1 := Rmult_le_compat_l _ _ _ C0 NY). apply Rle_trans with (2 := NX).
  replace (t * (k2 / k1) * (cm_fis y g q / k2))%R with (t * cm_fis y g q / k1)%R by (field; lra). apply Rmult_le_compat_r; [left; now apply Rinv_0_lt_compat|].
  replace (t * cm_fis y g q)%R with (cm_fis (fun g i => t * y g i)%R g q) by (unfold cm_fis; rewrite production_scal; ring). now apply fis_le. Qed.
Lemma factor_le : forall k1 k2 x y, (0 < k1)%R -> (0 < k2)%R -> all_positive p x -> (forall g q, (g < cp_ng p)%nat -> in_mesh (cp_m p) q -> (cm_gained p k1 x g q <= cm_lost p x g q)%R) ->
  (forall g q, (g < cp_ng p)%nat -> in_mesh (cp_m p) q -> (cm_lost p y g q <= cm_gained p k2 y g q)%R) -> (exists g i, (g < cp_ng p)%nat /\ 0 <= i < n_pin (cp_m p) /\ (0 < y g i)%R) -> (k2 <= k1)%R.
Proof. intros k1 k2 x y K1 K2 P X Y (g0 & i0 & Hg & Hi & Y0). destruct (Rle_lt_dec k2 k1) as [|N]; [assumption|exfalso].
  destruct (MocKeffProps.start_factor (fun i h => x h (Z.of_nat i)) (fun i h => y h (Z.of_nat i)) (Z.to_nat (n_pin (cp_m p))) (cp_ng p) (Z.to_nat i0) g0) as (t & _ & T0 & Tb).
  - intros i h I Hh. apply P; [exact Hh|lia].
  - cbv beta. rewrite Z2Nat.id by lia. lra.
  - cbv beta in T0. rewrite Z2Nat.id in T0 by lia. specialize (T0 Y0).
    assert (B0 : forall g i, (g < cp_ng p)%nat -> 0 <= i < n_pin (cp_m p) -> (t * y g i <= x g i)%R). { intros g i Gg I. specialize (Tb (Z.to_nat i) g ltac:(lia) Gg). cbv beta in Tb. rewrite Z2Nat.id in Tb by lia. exact Tb. }
    assert (Q : (1 < k2 / k1)%R) by (apply (Rmult_lt_reg_r k1); [exact K1|]; unfold Rdiv; rewrite Rmult_assoc, Rinv_l by lra; lra).
    assert (G : forall n g i, (g < cp_ng p)%nat -> 0 <= i < n_pin (cp_m p) -> (t * (k2 / k1) ^ n * y g i <= x g i)%R).
    { induction n as [|n IH]; intros g i Gg I; [cbn [pow]; rewrite Rmult_1_r; now apply B0|]. assert (TP : (0 <= t * (k2 / k1) ^ n)%R) by (apply Rmult_le_pos; [lra|]; apply pow_le; lra).
      pose proof (factor_step k1 k2 x y _ K1 K2 TP X Y IH g i Gg I) as S0. cbn [pow]. replace (t * (k2 / k1 * (k2 / k1) ^ n))%R with (t * (k2 / k1) ^ n * (k2 / k1))%R by ring. exact S0. }
    destruct (MocKeffProps.grows _ (t * y g0 i0) (x g0 i0) Q) as (n & Hb); [now apply Rmult_lt_0_compat|]. specialize (G n g0 i0 Hg Hi). replace (t * (k2 / k1) ^ n * y g0 i0)%R with (t * y g0 i0 * (k2 / k1) ^ n)%R in G by ring. lra. Qed.
End Steady.

Lemma steady_eq : forall p k f g q, in_balance p k f -> (g < cp_ng p)%nat -> in_mesh (cp_m p) q -> cm_lost p f g q = cm_gained p k f g q.
Proof. intros p k f g q B Hg Q. exact (B g q Hg Q). Qed.
Lemma steady_neg : forall p k f, cm_steady p -> in_balance p k f -> in_balance p k (fun g i => -1 * f g i)%R.
Proof. intros p k f H B g q Hg Q e i. pose proof (net_scal p (-1) f g q) as E. unfold cm_net in E. rewrite arriving_scal in E. pose proof (steady_eq p k f g q B Hg Q) as S0. unfold cm_gained in S0. cbv zeta in S0. fold e i in S0, E. rewrite production_scal, arriving_scal.
  assert (L : cm_lost p (fun g i => -1 * f g i)%R g q = (-1 * cm_lost p f g q)%R) by lra. change (cm_lost p (fun g i => -1 * f g i)%R g q = (coarse_volume e i * (cp_chi p g i * (-1 * production p f i) / k + -1 * arriving p g f i))%R). rewrite L, S0. unfold Rdiv. ring. Qed.

(** ** C199 *)
(** With a positive flux of which no cell gains more than it loses, [k1] is not less than the multiplication factor of any balanced
    flux. *)
Theorem C199_above : forall p k1 k2 f1 f2, cm_steady p -> (0 < k1)%R -> (0 < k2)%R -> all_positive p f1 -> (forall g q, (g < cp_ng p)%nat -> in_mesh (cp_m p) q -> (cm_gained p k1 f1 g q <= cm_lost p f1 g q)%R) ->
  in_balance p k2 f2 -> not_zero p f2 -> (k2 <= k1)%R.
Proof. intros p k1 k2 f1 f2 H K1 K2 P X B (g0 & i0 & Hg & Hi & N). destruct (Rlt_le_dec 0 (f2 g0 i0)) as [Y0|Y0].
  - apply (factor_le p H k1 k2 f1 f2); auto; [|eauto]. intros g q Gg Q. right. now apply steady_eq.
  - apply (factor_le p H k1 k2 f1 (fun g i => -1 * f2 g i)%R); auto; [|exists g0, i0; split; [exact Hg|split; [exact Hi|lra]]]. intros g q Gg Q. right. apply steady_eq; auto. now apply steady_neg. Qed.
Print Assumptions C199_above.
(** With a flux of which no cell loses more than it gains, [k2] is not more than the multiplication factor of a balanced positive
    flux. *)
Theorem C199_below : forall p k1 k2 f1 f2, cm_steady p -> (0 < k1)%R -> (0 < k2)%R -> in_balance p k1 f1 -> all_positive p f1 -> not_negative p f2 -> not_zero p f2 ->
  (forall g q, (g < cp_ng p)%nat -> in_mesh (cp_m p) q -> (cm_lost p f2 g q <= cm_gained p k2 f2 g q)%R) -> (k2 <= k1)%R.
Proof. intros p k1 k2 f1 f2 H K1 K2 B P N2 (g0 & i0 & Hg & Hi & N) Y. apply (factor_le p H k1 k2 f1 f2); auto.
  - intros g q Gg Q. right. symmetry. now apply steady_eq.
  - exists g0, i0. split; [exact Hg|]. split; [exact Hi|]. specialize (N2 g0 i0 Hg Hi). lra. Qed.
Print Assumptions C199_below.
(** Balanced positive fluxes have one multiplication factor. *)
Theorem C199_unique : forall p k1 k2 f1 f2, cm_steady p -> (0 < k1)%R -> (0 < k2)%R -> in_balance p k1 f1 -> all_positive p f1 -> in_balance p k2 f2 -> all_positive p f2 -> k1 = k2.
Proof. intros p k1 k2 f1 f2 H K1 K2 B1 P1 B2 P2. assert (NZ : forall f, all_positive p f -> not_zero p f).
  { intros f P. exists 0%nat, 0. pose proof (cg_ng p (st_good p H)) as Ng. pose proof (cg_m p (st_good p H)) as M. assert (0 <= 0 < n_pin (cp_m p)) by (unfold mesh_ok, n_pin in *; nia). split; [lia|]. split; [assumption|]. pose proof (P 0%nat 0 ltac:(lia) ltac:(assumption)). lra. }
  apply Rle_antisym; [apply (C199_above p k2 k1 f2 f1)|apply (C199_above p k1 k2 f1 f2)]; auto; intros g q Gg Q; right; symmetry; now apply steady_eq. Qed.
Print Assumptions C199_unique.
(** Two passes of the solver that change nothing, whatever fluxes, eigenvalues and tolerances they had, have the same eigenvalue. *)
Theorem C199_solver : forall p kt1 pt1 rr1 r1 n1 l1 l1' b1 kt2 pt2 rr2 r2 n2 l2 l2' b2, cm_steady p -> solves p ->
  cm_pass (cp_ops p) kt1 pt1 rr1 r1 (cp_scale p) n1 l1 = Some (l1', b1) -> same_flux p (l_s l1) (l_s l1') -> (0 < l_k l1)%R -> all_positive p (l_s l1) ->
  cm_pass (cp_ops p) kt2 pt2 rr2 r2 (cp_scale p) n2 l2 = Some (l2', b2) -> same_flux p (l_s l2) (l_s l2') -> (0 < l_k l2)%R -> all_positive p (l_s l2) -> l_k l1 = l_k l2.
Proof. intros p kt1 pt1 rr1 r1 n1 l1 l1' b1 kt2 pt2 rr2 r2 n2 l2 l2' b2 H SV E1 A1 K1 P1 E2 A2 K2 P2. apply (C199_unique p _ _ (l_s l1) (l_s l2) H K1 K2); auto.
  - exact (C131_stationary p _ _ _ _ _ _ _ _ (st_good p H) SV E1 A1 ltac:(lra)).
  - exact (C131_stationary p _ _ _ _ _ _ _ _ (st_good p H) SV E2 A2 ltac:(lra)). Qed.
Print Assumptions C199_solver.
(** More fission does not make the multiplication factor smaller. *)
Definition with_nf (p : CmProb) (nf : nat -> Z -> R) : CmProb := mkCP (cp_m p) (cp_env p) (cp_dt p) (cp_dh p) (cp_ng p) nf (cp_chi p) (cp_sc p) (cp_solver p).
Theorem C199_fissile : forall p nf k1 k2 f1 f2, cm_steady p -> (forall g i, (g < cp_ng p)%nat -> 0 <= i < n_pin (cp_m p) -> (cp_nf p g i <= nf g i)%R) -> (0 < k1)%R -> (0 < k2)%R ->
  in_balance p k1 f1 -> not_zero p f1 -> in_balance (with_nf p nf) k2 f2 -> all_positive p f2 -> (k1 <= k2)%R.
Proof. intros p nf k1 k2 f1 f2 H L K1 K2 B1 N1 B2 P2. apply (C199_above p k2 k1 f2 f1); auto. intros g q Gg Q. pose proof (steady_eq (with_nf p nf) k2 f2 g q B2 Gg Q) as E. change (cm_lost (with_nf p nf) f2 g q) with (cm_lost p f2 g q) in E. rewrite E. unfold cm_gained. cbn [with_nf cp_m cp_env cp_chi]. cbv zeta.
  pose proof (coarse_cell_bounds _ _ Q) as I. destruct (st_grp p H g Gg) as [C _]. pose proof (volume_pos _ q C) as V. rewrite (cg_mesh p (st_good p H) g) in V. specialize (V Q). apply Rmult_le_compat_l; [lra|]. change (arriving (with_nf p nf) g f2) with (arriving p g f2). apply Rplus_le_compat_r. apply Rmult_le_compat_r; [left; now apply Rinv_0_lt_compat|]. apply Rmult_le_compat_l; [apply (st_plain p H g g); auto|].
  unfold production. cbn [with_nf cp_ng cp_nf]. apply lsum_le. intros h Ih. apply in_seq in Ih. apply Rmult_le_compat_r; [left; apply P2; [lia|exact I]|]. apply L; [lia|exact I]. Qed.
Print Assumptions C199_fissile.

(** ** One pass brackets the multiplication factor *)
(** No group feeds one of higher energy. *)
Definition no_upscatter (p : CmProb) : Prop := forall g h i, (g < h)%nat -> (h < cp_ng p)%nat -> 0 <= i < n_pin (cp_m p) -> cp_sc p h g i = 0%R.
Fixpoint ascending (l : list nat) : Prop := match l with [] => True | a :: r => (forall b, In b r -> (a < b)%nat) /\ ascending r end.
Lemma seq_ascending : forall n s, ascending (seq s n).
Proof. induction n as [|n IH]; intros s; cbn [seq ascending]; [exact I|]. split; [|apply IH]. intros b B. apply in_seq in B. lia. Qed.
Lemma inner_down : forall p fs gs f acc, solves p -> no_upscatter p -> ascending gs -> (forall g, In g gs -> (g < cp_ng p)%nat) ->
  forall g i, In g gs -> 0 <= i < n_pin (cp_m p) -> row_val p g (fst (cm_inner p fs gs f acc) g) i = cm_source p g fs (fst (cm_inner p fs gs f acc)) i.
Proof. intros p fs gs. induction gs as [|h r IH]; intros f acc SV NU AS GS g i Gi I; [destruct Gi|]. cbn [cm_inner ascending] in *. destruct AS as [A1 A2].
  set (x := cp_solver p h (cm_source p h fs f) (f h)) in *. set (f1 := set_group f h x) in *. set (acc1 := (acc + _)%R) in *.
  assert (N : ~ In h r) by (intros C; specialize (A1 h C); lia). pose proof (inner_other p fs r f1 acc1 h N) as O. assert (F1 : f1 h = x) by (unfold f1, set_group; rewrite Nat.eqb_refl; reflexivity). destruct Gi as [<-|Gi].
  - rewrite O, F1. unfold x. rewrite (SV h _ _ i (GS h (or_introl eq_refl)) I). unfold cm_source. do 2 f_equal. unfold in_scat. apply lsum_ext. intros k Hk. apply in_groups in Hk. destruct (Nat.eqb_spec k h) as [|D]; [reflexivity|].
    destruct (in_dec Nat.eq_dec k r) as [K|K]; [rewrite (NU h k i (A1 k K) Hk I); ring|]. rewrite (inner_other p fs r f1 acc1 k K). unfold f1, set_group. destruct (Nat.eqb_spec k h); [contradiction|reflexivity].
  - apply IH; auto. intros g' G'. apply GS. now right. Qed.
Theorem C199_bracket : forall p ktol ptol rred r0 max_iter l l' b lo hi k f, cm_steady p -> solves p -> no_upscatter p -> cm_pass (cp_ops p) ktol ptol rred r0 (cp_scale p) max_iter l = Some (l', b) -> (0 < l_k l)%R -> all_positive p (l_s l) -> (0 < lo)%R ->
  (forall g i, (g < cp_ng p)%nat -> 0 <= i < n_pin (cp_m p) -> (lo * l_s l g i <= l_s l' g i <= hi * l_s l g i)%R) -> (0 < k)%R -> in_balance p k f -> all_positive p f -> (lo * l_k l <= k <= hi * l_k l)%R.
Proof. intros p ktol ptol rred r0 max_iter l l' b lo hi k f H SV NU P K1 P1 Lo Bd K B Pf. pose proof (st_good p H) as G. unfold cm_pass in P. cbn [cp_ops op_fis op_inner op_tf op_diff] in P. unfold fission_src in P. rewrite rdiv_ok in P by lra. cbv iota in P. set (fs := fun i => (fis_rate p (l_s l) i * (1 / l_k l))%R) in P.
  pose proof (inner_down p fs (cp_groups p) (l_s l) 0%R SV NU (seq_ascending _ _) (fun g => proj1 (in_groups p g))) as R0. destruct (cm_inner p fs (cp_groups p) (l_s l) 0) as [s2 ri]. cbn [fst] in R0.
  destruct (rdiv (l_k l * total_fis p s2) (l_tf l)) as [k'|]; [|discriminate]. destruct (rdiv (sqrt ri) (cp_scale p)) as [r1|]; [|discriminate]. injection P as P _. subst l'. cbn [l_s] in Bd.
  assert (LS : forall g q, (g < cp_ng p)%nat -> in_mesh (cp_m p) q -> cm_lost p s2 g q = (cm_fis p (l_s l) g q / l_k l + coarse_volume (cp_env p g) (coarse_cell (cp_m p) q) * arriving p g s2 (coarse_cell (cp_m p) q))%R).
  { intros g q Gg Q. pose proof (coarse_cell_bounds _ _ Q) as I. specialize (R0 g _ (proj2 (in_groups p g) Gg) I). unfold row_val in R0. pose proof (C42_row (cp_env p g) (cp_dt p g) (cp_dh p g) (s2 g) q) as T. rewrite (cg_mesh p G g) in T. rewrite (T (cg_m p G) Q) in R0. unfold cm_lost. cbv zeta. rewrite R0. unfold cm_source. rewrite arriving_eq. unfold fs, cm_fis, production, fis_rate, cp_groups, Rdiv. ring. }
  assert (G0 : (0 < cp_ng p)%nat) by apply (cg_ng p G). assert (I0 : 0 <= 0 < n_pin (cp_m p)) by (pose proof (cg_m p G) as M; unfold mesh_ok, n_pin in *; nia).
  assert (HL : (0 < hi)%R). { pose proof (Bd 0%nat 0 G0 I0). pose proof (P1 0%nat 0 G0 I0) as X. pose proof (Rmult_lt_0_compat _ _ Lo X). destruct (Rlt_le_dec 0 hi); [assumption|]. exfalso. pose proof (Rmult_le_compat_r _ _ _ (Rlt_le _ _ X) r). lra. }
  assert (P2 : all_positive p s2). { intros g i Gg I. pose proof (Bd g i Gg I). pose proof (Rmult_lt_0_compat _ _ Lo (P1 g i Gg I)). lra. }
  assert (NZ : forall h, all_positive p h -> not_zero p h). { intros h Ph. exists 0%nat, 0. split; [exact G0|]. split; [exact I0|]. pose proof (Ph 0%nat 0 G0 I0). lra. }
  assert (FS : forall c h g q, cm_fis p (fun g i => c * h g i)%R g q = (c * cm_fis p h g q)%R) by (intros; unfold cm_fis; rewrite production_scal; ring).
  pose proof (Rinv_0_lt_compat _ K1) as IK. split.
  - apply (C199_below p k (lo * l_k l) f s2); auto; [now apply Rmult_lt_0_compat|intros g i Gg I; left; now apply P2|]. intros g q Gg Q. rewrite (LS g q Gg Q), gained_fis. apply Rplus_le_compat_r.
    pose proof (fis_le p H (fun g i => lo * l_s l g i)%R s2 g q Gg Q (fun g i Gg I => proj1 (Bd g i Gg I))) as F. rewrite FS in F. replace (cm_fis p (l_s l) g q / l_k l)%R with (lo * cm_fis p (l_s l) g q / (lo * l_k l))%R by (field; lra). apply Rmult_le_compat_r; [left; apply Rinv_0_lt_compat; now apply Rmult_lt_0_compat|exact F].
  - apply (C199_above p (hi * l_k l) k s2 f); auto; [now apply Rmult_lt_0_compat|]. intros g q Gg Q. rewrite (LS g q Gg Q), gained_fis. apply Rplus_le_compat_r.
    pose proof (fis_le p H s2 (fun g i => hi * l_s l g i)%R g q Gg Q (fun g i Gg I => proj2 (Bd g i Gg I))) as F. rewrite FS in F. replace (cm_fis p (l_s l) g q / l_k l)%R with (hi * cm_fis p (l_s l) g q / (hi * l_k l))%R by (field; lra). apply Rmult_le_compat_r; [left; apply Rinv_0_lt_compat; now apply Rmult_lt_0_compat|exact F]. Qed.
Print Assumptions C199_bracket.

(** Two cells and two groups: fluxes 3 and 1 with a correction of -3/8 in group 0, 7/6 and 5/6 in group 1; half of what is removed
    from group 0 comes out in group 1. *)
Definition prob3 : CmProb := mkCP two (fun g => match g with O => env2 (at2 3 1) (1 / 2) (fun _ => 1%R) true | _ => env2 (at2 (7 / 6) (5 / 6)) (1 / 3) (fun _ => 1%R) true end) (fun _ => only3 1) (fun g => only3 (match g with O => - 3 / 8 | _ => 0 end)%R) 2
  (fun g => match g with O => at2 (35 / 24) (5 / 8) | _ => fun _ => 0%R end) (fun g _ => match g with O => 1%R | _ => 0%R end) (fun h g => match h, g with O, Datatypes.S O => fun _ => (1 / 2)%R | _, _ => fun _ => 0%R end)
  (fun g b _ => match g with O => inv2 (13 / 8) (- 11 / 8) (- 5 / 8) (19 / 8) b | _ => inv2 2 (-1) (-1) 2 b end).
Definition flux3 : Flux := fun g => cm_flux (cp_env prob3 g).
Lemma prob3_steady : cm_steady prob3.
Proof. constructor.
  - constructor; [unfold mesh_ok; cbn; lia| |cbn; lia]. intros [|g]; reflexivity.
  - intros [|g] i; reflexivity.
  - intros g h i Gg Hh I. change (cp_ng prob3) with 2%nat in *. assert (g = 0 \/ g = 1)%nat as [-> | ->] by lia; assert (h = 0 \/ h = 1)%nat as [-> | ->] by lia; cbn; unfold at2; destruct (i =? 0); lra.
  - intros g i Gg I. change (cp_ng prob3) with 2%nat in *. assert (g = 0 \/ g = 1)%nat as [-> | ->] by lia; cbn; lra.
  - intros g Gg. change (cp_ng prob3) with 2%nat in Gg. assert (g = 0 \/ g = 1)%nat as [-> | ->] by lia; cbn [prob3 cp_env cp_dt cp_dh cp_m]; (split; [apply env2_sane|]); intros is _; unfold only3; destruct (is =? 3); unfold Rabs; destruct (Rcase_abs _); lra. Qed.
Lemma prob3_balance : in_balance prob3 (5 / 4) flux3.
Proof. intros g q G Q e i. change (cp_ng prob3) with 2%nat in G. change (cp_m prob3) with two in *.
  assert (g = 0 \/ g = 1)%nat as [-> | ->] by lia; destruct (two_pos q Q) as [-> | ->]; unfold leakage, leak, production, arriving, flux3; cbn [lsum AllSurfaces]; unfold e, i; cbn [prob3 cp_env cp_ng seq filter Nat.eqb negb lsum cp_nf cp_sc cp_chi cp_dt cp_dh];
  unfold coarse_area, coarse_volume; cbn [env2 cm_dx cm_dy cm_dz cm_rm cm_m cm_cur cm_flux outward];
  repeat match goal with |- context [face_index ?m ?f] => let v := eval vm_compute in (face_index m f) in change (face_index m f) with v end;
  unfold cm_current; repeat match goal with |- context [coarse_neigh_cells ?m ?f] => let v := eval vm_compute in (coarse_neigh_cells m f) in change (coarse_neigh_cells m f) with v end; cbv iota beta zeta;
  repeat match goal with |- context [coarse_cell ?m ?f] => let v := eval vm_compute in (coarse_cell m f) in change (coarse_cell m f) with v end; unfold only3, flux_at, at2;
  repeat match goal with |- context [Z.eqb ?a ?b] => let v := eval vm_compute in (Z.eqb a b) in change (Z.eqb a b) with v end;
  repeat match goal with |- context [Z.leb ?a ?b] => let v := eval vm_compute in (Z.leb a b) in change (Z.leb a b) with v end; cbv iota; field. Qed.
Lemma prob3_positive : all_positive prob3 flux3.
Proof. intros g i Gg I. change (cp_ng prob3) with 2%nat in Gg. assert (g = 0 \/ g = 1)%nat as [-> | ->] by lia; cbn; unfold at2; destruct (i =? 0); lra. Qed.
(** So no flux of this problem has another multiplication factor with positive fluxes, or a larger one at all. *)
Example C199_instance : cm_steady prob3 /\ in_balance prob3 (5 / 4) flux3 /\ all_positive prob3 flux3 /\ not_zero prob3 flux3 /\
  (forall k f, (0 < k)%R -> in_balance prob3 k f -> all_positive prob3 f -> k = (5 / 4)%R) /\ forall k f, (0 < k)%R -> in_balance prob3 k f -> not_zero prob3 f -> (k <= 5 / 4)%R.
Proof. pose proof prob3_steady as H. pose proof prob3_balance as B. pose proof prob3_positive as P. split; [exact H|]. split; [exact B|]. split; [exact P|]. split; [exists 0%nat, 0; split; [cbn; lia|]; split; [change (n_pin (cp_m prob3)) with 2; lia|]; pose proof (P 0%nat 0 ltac:(cbn; lia) ltac:(change (n_pin (cp_m prob3)) with 2; lia)); lra|]. split.
  - intros k f K Bk Pk. apply (C199_unique prob3 k (5 / 4) f flux3); auto; lra.
  - intros k f K Bk Nk. apply (C199_above prob3 (5 / 4) k flux3 f); auto; [lra|]. intros g q Gg Q. right. symmetry. now apply steady_eq. Qed.
Lemma prob3_solves : solves prob3.
Proof. assert (RW : forall g x, (g < 2)%nat -> row_val prob3 g x 0 = match g with O => 13 / 8 * x 0%Z + - 11 / 8 * x 1%Z | _ => 2 * x 0%Z + -1 * x 1%Z end%R /\ row_val prob3 g x 1 = match g with O => - 5 / 8 * x 0%Z + 19 / 8 * x 1%Z | _ => -1 * x 0%Z + 2 * x 1%Z end%R).
  { intros g x G. assert (g = 0 \/ g = 1)%nat as [-> | ->] by lia; unfold row_val; cbn [prob3 cp_env cp_dt cp_dh].
    - destruct (rows2 (env2 (at2 3 1) (1 / 2) (fun _ => 1%R) true) (- 3 / 8) x ltac:(eauto)) as [-> ->]. cbn [env2 cm_rm]. split; field.
    - destruct (rows2 (env2 (at2 (7 / 6) (5 / 6)) (1 / 3) (fun _ => 1%R) true) 0 x ltac:(eauto)) as [-> ->]. cbn [env2 cm_rm]. split; field. }
  intros g b x i G I. change (cp_ng prob3) with 2%nat in G. destruct (RW g (cp_solver prob3 g b x) G) as [R0 R1]. assert (g = 0 \/ g = 1)%nat as [-> | ->] by lia; destruct (two_cells i I) as [-> | ->]; rewrite ?R0, ?R1; cbn [prob3 cp_solver]; unfold inv2, at2; change (0 =? 0) with true; change (1 =? 0) with false; cbv iota; field. Qed.
(** A pass from these fluxes changes nothing. *)
Example C199_solver_instance : solves prob3 /\ exists l l' b, l_s l = flux3 /\ l_k l = (5 / 4)%R /\ cm_pass (cp_ops prob3) 1 1 1 0 (cp_scale prob3) 7 l = Some (l', b) /\ same_flux prob3 (l_s l) (l_s l').
Proof. split; [apply prob3_solves|]. pose proof prob3_steady as H. assert (K : keeps_solutions prob3). { apply C173_solver; [apply H| |apply prob3_solves]. intros g Gg. destruct (st_grp _ H g Gg) as [C T]. split; [exact C|]. split; [|exact T]. intros i _. change (cp_ng prob3) with 2%nat in Gg. assert (g = 0 \/ g = 1)%nat as [-> | ->] by lia; cbn; lra. }
  assert (R0 : rows_hold prob3 (fun i => (fis_rate prob3 flux3 i * (1 / (5 / 4)))%R) flux3). { apply (rows_of_balance prob3 (5 / 4) flux3 _ (st_good _ H) prob3_balance). intros g q Gg Q. pose proof (C42_row (cp_env prob3 g) (cp_dt prob3 g) (cp_dh prob3 g) (flux3 g) q) as T. rewrite (cg_mesh _ (st_good _ H) g) in T. exact (T (cg_m _ (st_good _ H)) Q). }
  assert (NT : total_fis prob3 flux3 <> 0%R). { unfold total_fis, fis_rate, flux3. change (cp_cells prob3) with [0; 1]. change (cp_groups prob3) with [0%nat; 1%nat]. cbn [lsum prob3 cp_nf cp_env env2 cm_flux]. unfold at2. change (0 =? 0) with true. change (1 =? 0) with false. cbv iota. lra. }
  destruct (pass_keep prob3 1 1 1 7 (5 / 4) flux3 (st_good _ H) K ltac:(lra) NT R0 (mkLoop flux3 (5 / 4)%R (fun _ => 0%R) (total_fis prob3 flux3) 0)) as (l' & E & (S0 & _) & _); [unfold held; cbn [l_s l_k l_tf]; split; [intros g i _ _; reflexivity|auto]|].
  eexists _, l', _. split; [|split; [|split; [exact E|exact S0]]]; reflexivity. Qed.
(** A pass from fluxes of one and an eigenvalue of one: the new fluxes are between 9/20 and 29/20 of the old. *)
Example C199_bracket_instance : no_upscatter prob3 /\ exists l l' b, l_s l = (fun _ _ => 1%R) /\ l_k l = 1%R /\ cm_pass (cp_ops prob3) 1 1 1 1 (cp_scale prob3) 7 l = Some (l', b) /\
  forall g i, (g < cp_ng prob3)%nat -> 0 <= i < n_pin (cp_m prob3) -> (9 / 20 * l_s l g i <= l_s l' g i <= 29 / 20 * l_s l g i)%R.
Proof. split; [intros g h i L Hh I; change (cp_ng prob3) with 2%nat in Hh; assert (g = 0 /\ h = 1)%nat as [-> ->] by lia; reflexivity|].
  set (l := @mkLoop Flux (Z -> R) (fun (_ : nat) (_ : Z) => 1%R) 1%R (fun _ : Z => 0%R) 1%R 0). set (fs := fun i => (fis_rate prob3 (l_s l) i * (1 / 1))%R).
  assert (IN : forall i, 0 <= i < 2 -> forall g, (g < 2)%nat -> (9 / 20 <= fst (cm_inner prob3 fs (cp_groups prob3) (l_s l) 0) g i <= 29 / 20)%R).
  { assert (FS : fs 0 = (35 / 24)%R /\ fs 1 = (5 / 8)%R). { unfold fs, fis_rate. change (cp_groups prob3) with [0%nat; 1%nat]. cbn [lsum prob3 cp_nf l l_s]. unfold at2. change (0 =? 0) with true. change (1 =? 0) with false. cbv iota. split; field. } destruct FS as [F0 F1].
    intros i I g Hg. change (cp_groups prob3) with [0%nat; 1%nat]. unfold cm_inner. cbn [fst l l_s]. unfold set_group, cm_source, in_scat. change (cp_groups prob3) with [0%nat; 1%nat]. cbn [lsum prob3 cp_solver cp_chi cp_sc cp_env Nat.eqb].
    unfold coarse_volume. cbn [env2 cm_dx cm_dy cm_dz].
    assert (i = 0 \/ i = 1) as [-> | ->] by lia; assert (g = 0 \/ g = 1)%nat as [-> | ->] by lia; cbn [Nat.eqb]; unfold inv2, at2; change (0 =? 0) with true; change (1 =? 0) with false; cbv iota; rewrite ?F0, ?F1; lra. }
  assert (E : exists l' b, cm_pass (cp_ops prob3) 1 1 1 1 (cp_scale prob3) 7 l = Some (l', b) /\ l_s l' = fst (cm_inner prob3 fs (cp_groups prob3) (l_s l) 0)).
  { unfold cm_pass. cbn [cp_ops op_fis op_inner op_tf op_diff]. unfold fission_src. change (l_k l) with 1%R. rewrite (rdiv_ok 1 1) by lra. cbv iota. change (fun i : Z => (fis_rate prob3 (l_s l) i * (1 / 1))%R) with fs. destruct (cm_inner prob3 fs (cp_groups prob3) (l_s l) 0) as [s2 ri]. cbn [fst]. change (l_tf l) with 1%R. rewrite (rdiv_ok _ 1) by lra. pose proof (scale_pos prob3 (st_good _ prob3_steady)). rewrite (rdiv_ok _ (cp_scale prob3)) by lra. eexists _, _. split; reflexivity. }
  destruct E as (l' & b & E & S0). exists l, l', b. split; [reflexivity|]. split; [reflexivity|]. split; [exact E|]. intros g i Gg I. rewrite S0. change (l_s l g i) with 1%R. rewrite !Rmult_1_r. apply IN; assumption. Qed.
