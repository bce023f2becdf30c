(** C47: the pin flux of the Sn sweepers. *)
From Coq Require Import List Lia Bool Reals ZArith Arith Lra.
From Verif Require Import RUtil ListUtil McModel MocModel StdAlg CoreModel ExpModel SnModel SnEqProps SnProps SnPinModel.
Import ListNotations.
Open Scope nat_scope.

(** Specification: value of group g in region i, and the difference of two vectors. *)
Definition at_rg (fl : list (list R)) (i g : nat) : option R := match nth_error fl i with Some row => nth_error row g | None => None end.
Fixpoint sq_diff (a b : list R) : R := match a, b with x :: a', y :: b' => ((x - y) * (x - y) + sq_diff a' b')%R | _, _ => 0%R end.

(** What is true: the flux is installed, nothing else changes, and the flux reads back. *)
Lemma set_loop : forall g pf i fl res fl' r, set_pin_loop g i pf fl res = Some (fl', r) -> length fl' = length fl /\
  forall j g', at_rg fl' j g' = if (i <=? j) && (j <? i + length pf) && (g' =? g) then nth_error pf (j - i) else at_rg fl j g'.
Proof.
  intros g pf. induction pf as [|v pf IH]; intros i fl res fl' r H; cbn [set_pin_loop] in H.
  - injection H as <- <-. split; [reflexivity|]. intros j g'. cbn [length]. destruct (Nat.leb_spec i j); [|reflexivity]. destruct (Nat.ltb_spec j (i + 0)); [lia|]. reflexivity.
  - destruct (nth_error fl 1) as [row1|] eqn:E1; [|discriminate]. destruct (nth_error fl i) as [row|] eqn:Ei; [|discriminate]. destruct (nth_error row1 g) as [f1|]; [|discriminate]. destruct (set_nth row g v) as [row'|] eqn:Er; [|discriminate]. destruct (set_nth fl i row') as [fl1|] eqn:Ef; [|discriminate].
    apply IH in H. destruct H as [L H]. destruct (set_nth_spec _ _ _ _ Er) as (_ & Lg & Ar). destruct (set_nth_spec _ _ _ _ Ef) as (Lf & Li & Af). split; [congruence|]. intros j g'. rewrite H. cbn [length].
    assert (Q : at_rg fl1 j g' = if (j =? i) && (g' =? g) then Some v else at_rg fl j g').
    { unfold at_rg. rewrite Af. destruct (Nat.eqb_spec j i) as [->|N]; [|reflexivity]. rewrite Ei, Ar. destruct (g' =? g); reflexivity. }
    rewrite Q. clear H Q. destruct (Nat.eqb_spec g' g) as [Eg|N]; [|now rewrite !andb_false_r]. rewrite !andb_true_r. destruct (Nat.eqb_spec j i) as [->|N].
    + destruct (Nat.leb_spec (S i) i); [lia|]. destruct (Nat.leb_spec i i); [|lia]. destruct (Nat.ltb_spec i (i + S (length pf))); [|lia]. cbn [andb]. now rewrite Nat.sub_diag.
    + destruct (Nat.leb_spec (S i) j), (Nat.leb_spec i j); try lia; cbn [andb]; [|reflexivity]. destruct (Nat.ltb_spec j (S i + length pf)), (Nat.ltb_spec j (i + S (length pf))); try lia; [|reflexivity]. replace (j - i) with (S (j - S i)) by lia. reflexivity.
Qed.
Lemma get_col_spec : forall g fl l, get_col g fl = Some l <-> length l = length fl /\ forall i, i < length fl -> at_rg fl i g = nth_error l i.
Proof.
  intros g fl. induction fl as [|row fl IH]; intros l; cbn [get_col].
  - split.
    + intros H. injection H as <-. split; [reflexivity|]. intros i Hi. cbn in Hi. lia.
    + intros [L _]. destruct l; [reflexivity|discriminate].
  - split.
    + intros H. destruct (nth_error row g) as [v|] eqn:E; [|discriminate]. destruct (get_col g fl) as [l1|] eqn:E1; [|discriminate]. injection H as <-. destruct (proj1 (IH l1) eq_refl) as [L A]. split; [cbn; lia|]. intros [|i] Hi; [exact E|]. cbn in Hi. apply A. lia.
    + intros [L A]. destruct l as [|v l]; [discriminate|]. assert (A0 := A 0 ltac:(cbn; lia)). unfold at_rg in A0. cbn in A0. rewrite A0. rewrite (proj2 (IH l)); [reflexivity|]. cbn in L. split; [lia|]. intros i Hi. apply (A (S i)). cbn. lia.
Qed.
Theorem C47_installs : forall g pf fl fl' r, length pf = length fl -> set_pin_flux g pf fl = Some (fl', r) ->
  get_col g fl' = Some pf /\ length fl' = length fl /\ forall i g', g' <> g -> at_rg fl' i g' = at_rg fl i g'.
Proof.
  intros g pf fl fl' r L H. unfold set_pin_flux in H. destruct (set_pin_loop g 0 pf fl 0) as [[f0 r0]|] eqn:E; [|discriminate]. injection H as <- <-. apply set_loop in E. destruct E as [Lf A]. split; [|split; [exact Lf|]].
  - apply get_col_spec. split; [congruence|]. intros i Hi. rewrite A, Nat.eqb_refl, Nat.sub_0_r. destruct (Nat.leb_spec 0 i); [|lia]. destruct (Nat.ltb_spec i (0 + length pf)); [reflexivity|lia].
  - intros i g' N. rewrite A. destruct (Nat.eqb_spec g' g); [contradiction|]. now rewrite andb_false_r.
Qed.
Print Assumptions C47_installs.
(** The update is defined exactly when every region and region 1 exist. *)
Theorem C47_defined : forall g pf fl, length pf = length fl -> Forall (fun row => g < length row) fl -> 2 <= length fl -> exists fl' r, set_pin_flux g pf fl = Some (fl', r).
Proof.
  intros g pf fl L F L2. unfold set_pin_flux. assert (D : forall pf i fl res, i + length pf <= length fl -> 2 <= length fl -> Forall (fun row : list R => g < length row) fl -> exists o, set_pin_loop g i pf fl res = Some o).
  { clear. induction pf as [|v pf IH]; intros i fl res Hi L2 F; cbn [set_pin_loop]; [eauto|]. cbn in Hi.
    destruct (nth_error fl 1) as [row1|] eqn:E1; [|apply nth_error_None in E1; exfalso; clear - E1 L2; lia]. destruct (nth_error fl i) as [row|] eqn:Ei; [|apply nth_error_None in Ei; lia]. assert (Fr := proj1 (Forall_forall _ _) F row (nth_error_In _ _ Ei)). assert (F1 := proj1 (Forall_forall _ _) F row1 (nth_error_In _ _ E1)).
    cbv beta in F1, Fr. destruct (nth_error row1 g) as [f1|] eqn:Eg; [|apply nth_error_None in Eg; lia]. destruct (set_nth_def row g v Fr) as (row' & Er & Lr). rewrite Er. destruct (set_nth_def fl i row') as (fl1 & Ef & _); [lia|]. rewrite Ef.
    destruct (set_nth_spec _ _ _ _ Ef) as (Lf & _ & Af). apply IH; [lia|lia|]. apply Forall_forall. intros x Ix. apply In_nth_error in Ix. destruct Ix as (j & Ej). rewrite Af in Ej. destruct (j =? i); [injection Ej as <-; lia|]. apply (proj1 (Forall_forall _ _) F). eapply nth_error_In; eauto. }
  destruct (D pf 0 fl 0%R ltac:(lia) L2 F) as ([fl' r] & ->). eauto.
Qed.
Print Assumptions C47_defined.
Example C47_instance : set_pin_flux 1 [5; 6]%R [[1; 2]; [3; 4]]%R = Some ([[1; 5]; [3; 6]]%R, sqrt (0 + (4 - 5) * (4 - 5) + (4 - 6) * (4 - 6))).
Proof. reflexivity. Qed.

(** What is false: the value returned is not the difference between the old and the new flux: region 1 is used for every
    region.  Installing the flux that is already there reports a difference, a one-region problem reads outside the array. *)
Theorem C47_residual_refuted : (exists g pf fl fl' r, get_col g fl = Some pf /\ set_pin_flux g pf fl = Some (fl', r) /\ (r <> 0)%R) /\
  (exists g old pf fl fl' r, get_col g fl = Some old /\ set_pin_flux g pf fl = Some (fl', r) /\ (r < sqrt (sq_diff old pf))%R) /\
  (forall g v row, set_pin_flux g [v] [row] = None).
Proof.
  split; [|split].
  - exists 0, [1; 2]%R, [[1]; [2]]%R, [[1]; [2]]%R, (sqrt (0 + (2 - 1) * (2 - 1) + (2 - 2) * (2 - 2))). split; [reflexivity|]. split; [reflexivity|]. apply Rgt_not_eq. apply sqrt_lt_R0. lra.
  - exists 0, [5; 1]%R, [1; 1]%R, [[5]; [1]]%R, [[1]; [1]]%R, (sqrt (0 + (1 - 1) * (1 - 1) + (1 - 1) * (1 - 1))). split; [reflexivity|]. split; [reflexivity|]. apply sqrt_lt_1; cbn [sq_diff]; lra.
  - intros g v row. reflexivity.
Qed.
Print Assumptions C47_residual_refuted.

(** ** Macroplane treatment *)
Definition mean (m : MP) (k : nat) : R := (fold_right (fun p s => nth k (snd p) 0 * fst p + s) 0 (mp_pl m) / mp_h m)%R.
Lemma axpy_spec : forall hz pl acc r, axpy hz pl acc = Some r -> length pl = length r /\ length acc = length r /\ forall k, nth k r 0%R = (nth k acc 0 + nth k pl 0 * hz)%R.
Proof.
  intros hz pl. induction pl as [|p pl IH]; intros [|a acc] r H; cbn in H; try discriminate.
  - injection H as <-. split; [reflexivity|]. split; [reflexivity|]. intros [|k]; cbn; lra.
  - destruct (axpy hz pl acc) as [r1|] eqn:E; [|discriminate]. injection H as <-. destruct (IH _ _ E) as (L1 & L2 & A). split; [cbn; lia|]. split; [cbn; lia|]. intros [|k]; cbn; [lra|apply A].
Qed.
Lemma axpy_def : forall hz pl acc, length pl = length acc -> exists r, axpy hz pl acc = Some r.
Proof. intros hz pl. induction pl as [|p pl IH]; intros [|a acc] L; cbn in *; try discriminate; [eauto|]. destruct (IH acc) as (r & ->); [lia|]. eauto. Qed.
Lemma acc_spec : forall pls acc r, acc_planes pls acc = Some r -> length r = length acc /\ Forall (fun p => length (snd p) = length acc) pls /\ forall k, nth k r 0%R = (nth k acc 0 + fold_right (fun p s => nth k (snd p) 0 * fst p + s) 0 pls)%R.
Proof.
  induction pls as [|[hz pl] pls IH]; intros acc r H; cbn in H.
  - injection H as <-. split; [reflexivity|]. split; [constructor|]. intros k. cbn. lra.
  - destruct (axpy hz pl acc) as [a|] eqn:E; [|discriminate]. destruct (axpy_spec _ _ _ _ E) as (L1 & L2 & A). destruct (IH _ _ H) as (L & F & B). split; [congruence|]. split; [constructor; [cbn; congruence|]; eapply Forall_impl; [|exact F]; cbn; congruence|]. intros k. rewrite B, A. cbn. lra.
Qed.
Lemma acc_def : forall pls acc, Forall (fun p => length (snd p) = length acc) pls -> exists r, acc_planes pls acc = Some r.
Proof.
  induction pls as [|[hz pl] pls IH]; intros acc F; cbn; [eauto|]. apply Forall_cons_iff in F. destruct F as [F1 F]. cbn in F1. destruct (axpy_def hz pl acc F1) as (r & E). rewrite E. destruct (axpy_spec _ _ _ _ E) as (_ & L & _). apply IH. eapply Forall_impl; [|exact F]. cbn. congruence.
Qed.
Lemma div_all_spec : forall h l, h <> 0%R -> div_all l h = Some (map (fun v => v / h)%R l).
Proof. intros h l N. induction l as [|v l IH]; cbn; [reflexivity|]. rewrite rdiv_ok by auto. now rewrite IH. Qed.
Lemma div_each_spec : forall a b r, div_each a b = Some r -> length a = length r /\ length b = length r /\ forall k, k < length r -> nth k b 0%R <> 0%R /\ nth k r 0%R = (nth k a 0 / nth k b 0)%R.
Proof.
  induction a as [|x a IH]; intros [|y b] r H; cbn in H; try discriminate.
  - injection H as <-. split; [reflexivity|]. split; [reflexivity|]. intros k Hk. cbn in Hk. lia.
  - destruct (rdiv x y) as [v|] eqn:E; [|discriminate]. destruct (div_each a b) as [q|] eqn:Eq; [|discriminate]. injection H as <-. destruct (IH _ _ Eq) as (L1 & L2 & A). split; [cbn; lia|]. split; [cbn; lia|]. apply rdiv_some in E. intros [|k] Hk; cbn in *; [tauto|]. apply A. lia.
Qed.
Lemma div_each_def : forall a b, length a = length b -> (forall k, k < length b -> nth k b 0%R <> 0%R) -> exists r, div_each a b = Some r.
Proof.
  induction a as [|x a IH]; intros [|y b] L N; cbn in *; try discriminate; [eauto|]. rewrite rdiv_ok by (apply (N 0); lia). destruct (IH b) as (r & ->); [lia|intros k Hk; apply (N (S k)); lia|]. eauto.
Qed.
Lemma scale_spec : forall ratio pls r, scale_planes pls ratio = Some r -> map fst r = map fst pls /\ Forall (fun p => length (snd p) = length ratio) r /\ forall k, k < length ratio ->
  fold_right (fun p s => nth k (snd p) 0 * fst p + s)%R 0%R r = (fold_right (fun p s => nth k (snd p) 0 * fst p + s) 0 pls / nth k ratio 0)%R.
Proof.
  intros ratio. induction pls as [|[hz pl] pls IH]; intros r H; cbn in H.
  - injection H as <-. split; [reflexivity|]. split; [constructor|]. intros k Hk. cbn. unfold Rdiv. ring.
  - destruct (div_each pl ratio) as [p|] eqn:E; [|discriminate]. destruct (scale_planes pls ratio) as [q|] eqn:Eq; [|discriminate]. injection H as <-. destruct (div_each_spec _ _ _ E) as (L1 & L2 & A). destruct (IH _ eq_refl) as (M & F & B). split; [cbn; now rewrite M|]. split; [constructor; [cbn; congruence|exact F]|].
    intros k Hk. cbn [fold_right fst snd]. destruct (A k ltac:(lia)) as [N ->]. rewrite B by auto. unfold Rdiv. ring.
Qed.
Lemma scale_def : forall ratio pls, Forall (fun p => length (snd p) = length ratio) pls -> (forall k, k < length ratio -> nth k ratio 0%R <> 0%R) -> exists r, scale_planes pls ratio = Some r.
Proof.
  intros ratio. induction pls as [|[hz pl] pls IH]; intros F N; cbn; [eauto|]. apply Forall_cons_iff in F. destruct F as [F1 F]. cbn in F1. destruct (div_each_def pl ratio F1 N) as (p & ->). destruct (IH F N) as (q & ->). eauto.
Qed.
Definition mp_ok (n : nat) (m : MP) : Prop := mp_h m <> 0%R /\ Forall (fun p => length (snd p) = n) (mp_pl m).
Lemma get_mp_spec : forall n m, mp_ok n m -> exists l, get_mp n m = Some l /\ length l = n /\ forall k, k < n -> nth k l 0%R = mean m k.
Proof.
  intros n m [H F]. unfold get_mp. destruct (acc_def (mp_pl m) (repeat 0%R n)) as (r & E); [now rewrite repeat_length|]. rewrite E. destruct (acc_spec _ _ _ E) as (L & _ & A). rewrite repeat_length in L. rewrite div_all_spec by auto. eexists. split; [reflexivity|]. split; [now rewrite map_length|].
  intros k Hk. rewrite (nth_indep _ 0%R (0 / mp_h m)%R) by (rewrite map_length; lia). rewrite (map_nth (fun v => v / mp_h m)%R r 0%R k), A. unfold mean. rewrite nth_repeat. f_equal. ring.
Qed.
(** The pin flux on the macroplane mesh is the height-weighted mean, and with non-zero old means and new values it is installed:
    it reads back exactly and every region keeps its share of the macroplane's flux. *)
Theorem C47_plane_round_trip : forall n ms pf, Forall (mp_ok n) ms -> Forall2 (fun m v => length v = n /\ forall k, k < n -> nth k v 0%R <> 0%R /\ mean m k <> 0%R) ms pf ->
  exists ms' r, set_pin_plane n pf ms = Some (ms', r) /\ get_pin_plane n ms' = Some pf /\ map mp_h ms' = map mp_h ms /\ Forall2 (fun m m' => map fst (mp_pl m') = map fst (mp_pl m)) ms ms'.
Proof.
  intros n ms pf F F2. unfold set_pin_plane. assert (G : exists old, get_pin_plane n ms = Some old /\ exists ms', set_mps ms old pf = Some ms' /\ get_pin_plane n ms' = Some pf /\ map mp_h ms' = map mp_h ms /\ Forall2 (fun m m' => map fst (mp_pl m') = map fst (mp_pl m)) ms ms').
  { revert pf F2. induction ms as [|m ms IH]; intros pf F2; inversion F2 as [|m0 v ms0 pf' LN F2' Q1 Q2]; subst.
    - exists []. split; [reflexivity|]. exists []. repeat split; constructor.
    - destruct LN as [Lv Nv]. apply Forall_cons_iff in F. destruct F as [Fm F]. destruct (IH F pf' F2') as (old & E1 & ms' & E2 & E3 & E4 & E5). destruct (get_mp_spec n m Fm) as (l & El & Ll & Al). exists (l :: old). cbn [get_pin_plane]. rewrite El, E1. split; [reflexivity|]. cbn [set_mps].
      destruct (div_each_def l v) as (ratio & Er); [lia|intros k Hk; apply (Nv k); lia|]. rewrite Er. destruct (div_each_spec _ _ _ Er) as (R1 & R2 & Ra). assert (Nr : forall k, k < length ratio -> nth k ratio 0%R <> 0%R).
      { intros k Hk. destruct (Ra k Hk) as [_ ->]. destruct (Nv k ltac:(lia)) as [N1 N2]. rewrite Al by lia. apply Rmult_integral_contrapositive_currified; [exact N2|now apply Rinv_neq_0_compat]. }
      destruct Fm as [Hm Fp]. destruct (scale_def ratio (mp_pl m)) as (q & Eq); [eapply Forall_impl; [|exact Fp]; cbn; lia|exact Nr|]. rewrite Eq, E2. destruct (scale_spec _ _ _ Eq) as (Sf & Sl & Sa). eexists. split; [reflexivity|]. cbn [get_pin_plane map mp_h].
      assert (Ok' : mp_ok n (mkMP (mp_h m) q)) by (split; [exact Hm|]; cbn; eapply Forall_impl; [|exact Sl]; cbn; lia). destruct (get_mp_spec n _ Ok') as (l' & El' & Ll' & Al'). rewrite El', E3. split; [|split; [now rewrite E4|constructor; [exact Sf|exact E5]]]. f_equal. f_equal.
      apply (nth_ext _ _ 0%R 0%R); [lia|]. intros k Hk. rewrite Al' by lia. unfold mean. cbn [mp_pl mp_h]. rewrite Sa by lia. destruct (Ra k ltac:(lia)) as [_ ->]. rewrite Al by lia. destruct (Nv k ltac:(lia)) as [N1 N2]. unfold mean in *. set (sm := fold_right _ _ _) in *. assert (sm <> 0%R) by (intros E; rewrite E in N2; apply N2; unfold Rdiv; ring). field. auto. }
  destruct G as (old & -> & ms' & -> & A & B & C). exists ms', (sqrt 0). auto.
Qed.
Print Assumptions C47_plane_round_trip.
Example C47_plane_instance : let m := mkMP 3 [(1%R, [1; 2]%R); (2%R, [4; 5]%R)] in mp_ok 2 m /\ mean m 0 = 3%R /\ mean m 1 = 4%R.
Proof. cbv zeta. unfold mp_ok, mean. cbn. split; [split; [lra|repeat constructor]|split; lra]. Qed.
(** On the macroplane mesh the residual is always reported as zero. *)
Theorem C47_plane_residual_refuted : exists n pf ms ms' r old, get_pin_plane n ms = Some [old] /\ pf <> [old] /\ set_pin_plane n pf ms = Some (ms', r) /\ r = 0%R.
Proof.
  destruct (C47_plane_round_trip 1 [mkMP 1 [(1%R, [1%R])]] [[2%R]]) as (ms' & r & E & _).
  - repeat constructor. cbn. lra.
  - constructor; [|constructor]. split; [reflexivity|]. intros k Hk. assert (k = 0) by lia. subst. unfold mean. cbn. split; lra.
  - destruct (get_mp_spec 1 (mkMP 1 [(1%R, [1%R])])) as (l & El & Ll & Al); [repeat constructor; cbn; lra|]. exists 1, [[2%R]], [mkMP 1 [(1%R, [1%R])]], ms', r, l. split; [cbn [get_pin_plane]; now rewrite El|]. split.
    + intros Q. injection Q as <-. specialize (Al 0 ltac:(lia)). unfold mean in Al. cbn in Al. lra.
    + split; [exact E|]. unfold set_pin_plane in E. destruct (get_pin_plane _ _); [|discriminate]. destruct (set_mps _ _ _); [|discriminate]. injection E as _ <-. apply sqrt_0.
Qed.
Print Assumptions C47_plane_residual_refuted.
