(** C59, C94: areas and regions of the pin meshes. *)
From Coq Require Import Reals ZArith List Bool Lra Lia Psatz.
From Verif Require Import RUtil StdAlg StdAlgProofs GeomModel GeomProofs CoreModel PmModel.
Import ListNotations.
Local Open Scope R_scope.

Lemma Rsum_repeat : forall a n, Rsum (repeat a n) = INR n * a.
Proof. intros a n. induction n; [cbn; lra|]. cbn [repeat]. change (Rsum (a :: repeat a n)) with (a + Rsum (repeat a n)). rewrite IHn, S_INR. lra. Qed.
Lemma Forall_repeat' : forall (P : R -> Prop) a n, P a -> Forall P (repeat a n).
Proof. intros P a n H. induction n; cbn; constructor; assumption. Qed.

(** The areas of an accepted rectangular pin: one per region, positive, adding up to the pin. *)
Theorem C59_rect : forall id pitch nx ny pm, rect_ctor id pitch nx ny = PVal pm ->
  Forall (fun a => 0 < a) (rp_areas pm) /\ Rsum (rp_areas pm) = pitch * pitch /\ Z.of_nat (length (rp_areas pm)) = (nx * ny)%Z.
Proof.
  intros id pitch nx ny pm H. unfold rect_ctor, base_ctor in H. destruct (id <? 0)%Z; [discriminate|].
  destruct (Rleb_spec pitch 0) as [P|P]; [discriminate|]. cbn [pbind] in H. destruct (Z.ltb_spec nx 1) as [X|X]; [discriminate|]. destruct (Z.ltb_spec ny 1) as [Y|Y]; [discriminate|].
  injection H as <-. cbn [rp_areas].
  assert (HX : 0 < INR (Z.to_nat nx)) by (apply lt_0_INR; lia). assert (HY : 0 < INR (Z.to_nat ny)) by (apply lt_0_INR; lia). apply Rnot_le_lt in P.
  split; [|split].
  - apply Forall_repeat'. apply Rmult_lt_0_compat; apply Rdiv_lt_0_compat; assumption.
  - rewrite Rsum_repeat, mult_INR. field. lra.
  - rewrite repeat_length, Nat2Z.inj_mul, !Z2Nat.id by lia. reflexivity.
Qed.
Print Assumptions C59_rect.

(** ** Cylindrical pins *)
(** Rings that grow from the radius [r0]; what the areas should be. *)
Fixpoint growing (r0 : R) (xs : list R) : Prop := match xs with [] => True | x :: t => r0 < x /\ growing x t end.
Fixpoint spec_areas (xs : list R) (sub : list Z) (r0 : R) (azi : Z) : list R :=
  match xs, sub with
  | x :: xs', k :: sub' => repeat (PI * (x * x - r0 * r0) / IZR (k * azi)) (Z.to_nat (k * azi)) ++ spec_areas xs' sub' x azi
  | _, _ => []
  end.

Lemma last_cons' : forall (A : Type) (a d : A) l, last (a :: l) d = last l a.
Proof. intros A a d l. revert a d. induction l as [|b l IH]; intros a d; [reflexivity|]. change (last (a :: b :: l) d) with (last (b :: l) d). rewrite (IH b d). symmetry. apply (IH b a). Qed.
Lemma last_app' : forall (A : Type) (l m : list A) (d : A), last (l ++ m) d = last m (last l d).
Proof.
  intros A l m d. induction l as [|a l IH] in d |- *; [reflexivity|]. rewrite <- app_comm_cons, !last_cons'. apply IH.
Qed.
Lemma ring_areas_app : forall l m prev azi, ring_areas (l ++ m) prev azi = ring_areas l prev azi ++ ring_areas m (last l prev) azi.
Proof. induction l as [|r l IH]; intros m prev azi; [reflexivity|]. rewrite last_cons'. cbn [app ring_areas]. rewrite IH, app_assoc. reflexivity. Qed.
Lemma ring_spec : forall k vn ri azi, 0 <= vn -> 0 <= ri -> exists l, ring k vn ri = PVal l /\ length l = k /\ 0 <= last l ri /\ last l ri * last l ri = ri * ri + INR k * vn
  /\ ring_areas l ri azi = repeat (PI * vn / IZR azi) (k * Z.to_nat azi) /\ (0 < vn -> growing ri l).
Proof.
  induction k as [|k IH]; intros vn ri azi Hv Hr; cbn [ring].
  - exists []. cbn. repeat split; lra.
  - assert (N : 0 <= vn + ri * ri) by nra. rewrite Rltb_false by assumption.
    destruct (IH vn (sqrt (vn + ri * ri)) azi Hv (sqrt_pos _)) as [l [E [L [P [Q [A G]]]]]]. rewrite E. cbn [pbind].
    assert (SQ : sqrt (vn + ri * ri) * sqrt (vn + ri * ri) = vn + ri * ri) by (apply sqrt_sqrt; assumption).
    exists (sqrt (vn + ri * ri) :: l). split; [reflexivity|]. split; [cbn; lia|]. rewrite last_cons'. split; [assumption|].
    split; [rewrite Q, SQ, S_INR; ring|]. split.
    + cbn [ring_areas]. rewrite A, SQ. replace (vn + ri * ri - ri * ri) with vn by ring. rewrite <- repeat_app. reflexivity.
    + intro Hp. cbn [growing]. split; [|apply G; assumption]. apply Rsqr_incrst_0; unfold Rsqr; [nra|assumption|apply sqrt_pos].
Qed.
Lemma growing_app : forall l m r0, growing r0 l -> growing (last l r0) m -> growing r0 (l ++ m).
Proof. induction l as [|x l IH]; intros m r0 H1 H2; [assumption|]. rewrite last_cons' in H2. cbn in *. destruct H1. auto. Qed.
Lemma mesh_radii_spec : forall xs sub r0 azi, 0 <= r0 -> growing r0 xs -> length sub = length xs -> Forall (fun k => (1 <= k)%Z) sub -> (1 <= azi)%Z ->
  exists radii, mesh_radii xs sub r0 r0 = PVal radii /\ ring_areas radii r0 azi = spec_areas xs sub r0 azi /\ last radii r0 = last xs r0
  /\ growing r0 radii /\ Z.of_nat (length radii) = fold_right Z.add 0%Z sub.
Proof.
  induction xs as [|x xs IH]; intros [|k sub] r0 azi H0 G L K A; try discriminate.
  - exists []. cbn. auto.
  - cbn [growing] in G. destruct G as [G1 G2]. inversion K as [|? ? K1 K2]; subst. cbn [mesh_radii].
    assert (Hk : 0 < IZR k) by (apply IZR_lt; lia).
    assert (Hv : 0 < (x * x - r0 * r0) / IZR k) by (apply Rdiv_lt_0_compat; [nra|assumption]).
    destruct (ring_spec (Z.to_nat k) _ r0 azi (Rlt_le _ _ Hv) H0) as [l [E [Ll [P [Q [Ar Gr]]]]]]. rewrite E. cbn [pbind].
    assert (LX : last l r0 = x).
    { rewrite INR_IZR_INZ, Z2Nat.id in Q by lia. assert (Q' : last l r0 * last l r0 = x * x) by (rewrite Q; field; lra). nra. }
    rewrite LX. destruct (IH sub x azi ltac:(lra) G2 ltac:(cbn in L; lia) K2 A) as [m [Em [Am [Lm [Gm Nm]]]]]. rewrite Em. cbn [pbind].
    exists (l ++ m). split; [reflexivity|]. rewrite ring_areas_app, LX, Am, Ar, last_app', LX, last_cons'. cbn [spec_areas fold_right]. rewrite app_length, Nat2Z.inj_add, Ll, Z2Nat.id, Nm by lia.
    split; [|split; [assumption|split; [apply growing_app; [auto|rewrite LX; assumption]|reflexivity]]].
    f_equal. rewrite Z2Nat.inj_mul, mult_IZR by lia. f_equal. field. split; [apply not_0_IZR; lia|lra].
Qed.
Lemma spec_areas_sum : forall xs sub r0 azi, length sub = length xs -> Forall (fun k => (1 <= k)%Z) sub -> (1 <= azi)%Z ->
  Rsum (spec_areas xs sub r0 azi) = PI * (last xs r0 * last xs r0 - r0 * r0).
Proof.
  induction xs as [|x xs IH]; intros [|k sub] r0 azi L K A; try discriminate; [cbn; lra|].
  inversion K as [|? ? K1 K2]; subst. cbn [spec_areas]. rewrite Rsum_app, Rsum_repeat, last_cons', IH by (cbn in L; try lia; assumption).
  rewrite INR_IZR_INZ, Z2Nat.id by nia. field. apply not_0_IZR. nia.
Qed.
Lemma spec_areas_pos : forall xs sub r0 azi, 0 <= r0 -> growing r0 xs -> Forall (fun k => (1 <= k)%Z) sub -> (1 <= azi)%Z -> Forall (fun a => 0 < a) (spec_areas xs sub r0 azi).
Proof.
  induction xs as [|x xs IH]; intros [|k sub] r0 azi H0 G K A; try constructor. cbn [growing] in G. destruct G as [G1 G2]. inversion K as [|? ? K1 K2]; subst.
  cbn [spec_areas]. apply Forall_app. split; [|apply IH; [lra|assumption|assumption|assumption]]. apply Forall_repeat'.
  apply Rdiv_lt_0_compat; [|apply IZR_lt; nia]. apply Rmult_lt_0_compat; [apply PI_RGT_0|nra].
Qed.
Lemma growing_ordered : forall xs r0, growing r0 xs -> ordered xs = true.
Proof.
  induction xs as [|x xs IH]; intros r0 G; [reflexivity|]. cbn in G. destruct G as [_ G]. destruct xs as [|y xs]; [reflexivity|].
  cbn [ordered]. rewrite Rltb_false by (cbn in G; lra). cbn [negb andb]. apply (IH x). assumption.
Qed.

Lemma PI_lt_4 : PI < 4.
Proof. destruct (PI_ineq 1) as [_ H]. unfold tg_alt, PI_tg in H. cbn in H. lra. Qed.

(** A cylindrical pin with positive increasing radii and at least one subdivision everywhere is built; its areas are
    positive and add up to the pin, and within each material ring they are all equal. *)
Theorem C59_cyl : forall id pitch xs azi sub, (0 <= id)%Z -> 0 < pitch -> xs <> [] -> growing 0 xs -> last xs 0 <= pitch / 2 ->
  length sub = length xs -> Forall (fun k => (1 <= k)%Z) sub -> In azi [2; 4; 6; 8]%Z ->
  exists pm, cyl_ctor id pitch xs azi sub = PVal pm
  /\ cp_areas pm = spec_areas xs sub 0 azi ++ repeat ((pitch * pitch - PI * last xs 0 * last xs 0) / IZR azi) (Z.to_nat azi)
  /\ Forall (fun a => 0 < a) (cp_areas pm) /\ Rsum (cp_areas pm) = pitch * pitch
  /\ Z.of_nat (length (cp_areas pm)) = cyl_n_reg pm /\ growing 0 (cp_radii pm) /\ last (cp_radii pm) 0 = last xs 0.
Proof.
  intros id pitch xs azi sub Hid Hp Nx G Lx Ls K A.
  assert (HA : (1 <= azi)%Z /\ (Z.rem azi 2 =? 0)%Z = true /\ (8 <? azi)%Z = false) by (cbn in A; destruct A as [<-|[<-|[<-|[<-|[]]]]]; (split; [lia|split; reflexivity])).
  destruct HA as [A1 [A2 A3]].
  destruct (mesh_radii_spec xs sub 0 azi ltac:(lra) G Ls K A1) as [radii [E [Ar [Lr [Gr Nr]]]]].
  assert (NR : radii <> []).
  { intros ->. cbn in Nr. destruct xs as [|x xs]; [congruence|]. destruct sub as [|k sub]; [discriminate|]. inversion K as [|? ? K1 K2]; subst.
    cbn [fold_right] in Nr. assert (Q : (0 <= fold_right Z.add 0 sub)%Z) by (clear - K2; induction K2; cbn; lia). lia. }
  unfold cyl_ctor, base_ctor. replace (id <? 0)%Z with false by (symmetry; apply Z.ltb_ge; lia). destruct (Rleb_spec pitch 0); [lra|]. cbn [pbind].
  destruct xs as [|x0 xs]; [congruence|]. set (xs' := x0 :: xs) in *. rewrite (growing_ordered _ _ G). cbn [negb]. rewrite Rltb_false by lra. rewrite A2, A3. cbn [negb orb].
  rewrite Ls, Nat.eqb_refl. cbn [negb]. rewrite E. cbn [pbind]. destruct radii as [|q radii]; [congruence|]. set (rr := q :: radii) in *.
  eexists. split; [reflexivity|]. cbn [cp_areas cp_radii]. rewrite Ar, Lr. split; [reflexivity|].
  assert (L0 : 0 < last xs' 0).
  { clear - G. unfold xs' in *. assert (Q : forall xs r0, growing r0 xs -> r0 <= last xs r0).
    { induction xs0 as [|y l IH]; intros r0 H; [cbn; lra|]. rewrite last_cons'. cbn in H. destruct H as [H1 H2]. specialize (IH y H2). lra. }
    rewrite last_cons'. cbn in G. destruct G as [G1 G2]. specialize (Q xs x0 G2). lra. }
  assert (OUT : 0 < (pitch * pitch - PI * last xs' 0 * last xs' 0) / IZR azi).
  { apply Rdiv_lt_0_compat; [|apply IZR_lt; lia]. pose proof PI_RGT_0.
    pose proof PI_lt_4. set (L := last xs' 0) in *. assert (Q1 : L * L <= pitch / 2 * (pitch / 2)) by (apply Rmult_le_compat; lra).
    assert (Q2 : 0 < L * L) by (apply Rmult_lt_0_compat; assumption). assert (Q3 : PI * (L * L) < 4 * (L * L)) by (apply Rmult_lt_compat_r; assumption).
    rewrite Rmult_assoc. lra. }
  split; [apply Forall_app; split; [apply spec_areas_pos; try assumption; lra|apply Forall_repeat'; assumption]|].
  split; [rewrite Rsum_app, Rsum_repeat, spec_areas_sum by assumption; rewrite INR_IZR_INZ, Z2Nat.id by lia; field; apply not_0_IZR; lia|].
  split; [|split; [assumption|auto]].
  unfold cyl_n_reg. cbn [cp_radii cp_azi]. rewrite app_length, repeat_length, Nat2Z.inj_add, Z2Nat.id, Nr by lia.
  assert (SL : forall xs sub r0, length sub = length xs -> Forall (fun k => (1 <= k)%Z) sub -> Z.of_nat (length (spec_areas xs sub r0 azi)) = (fold_right Z.add 0 sub * azi)%Z).
  { induction xs0 as [|x1 xs1 IH]; intros [|k1 sub1] r1 L1 K1; try discriminate; [reflexivity|]. inversion K1; subst. cbn [spec_areas fold_right].
    rewrite app_length, repeat_length, Nat2Z.inj_add, Z2Nat.id, IH by (cbn in L1; try lia; try assumption; nia). ring. }
  rewrite SL by assumption. ring.
Qed.
Print Assumptions C59_cyl.

(** The regions of a material region are counted right, so the counts add up to the number of regions. *)
Theorem C59_fsrs : forall id pitch xs azi sub pm, cyl_ctor id pitch xs azi sub = PVal pm -> Forall (fun k => (0 <= k)%Z) sub ->
  Forall (fun x => exists k, cyl_n_fsrs pm x = Some k) (seq 0 (S (length xs)))
  /\ fold_right Z.add 0%Z (map (fun x => match cyl_n_fsrs pm x with Some k => k | None => 0%Z end) (seq 0 (S (length xs)))) = cyl_n_reg pm.
Proof.
  intros id pitch xs azi sub pm H K. unfold cyl_ctor, base_ctor in H. destruct (id <? 0)%Z; [discriminate|]. destruct (Rleb pitch 0); [discriminate|]. cbn [pbind] in H.
  destruct xs as [|x0 xs]; [discriminate|]. set (xs' := x0 :: xs) in *. destruct (ordered xs'); [cbn [negb] in H|discriminate]. destruct (Rltb (pitch * 0.5) (last xs' 0)); [discriminate|].
  destruct (negb (Z.rem azi 2 =? 0)%Z || (8 <? azi)%Z); [discriminate|]. destruct (Nat.eqb_spec (length sub) (length xs')) as [L|]; [cbn [negb] in H|discriminate].
  destruct (mesh_radii xs' sub 0 0) as [radii| |] eqn:E; try discriminate. cbn [pbind] in H. destruct radii as [|r0 radii]; [discriminate|]. injection H as <-.
  set (rr := r0 :: radii) in *. unfold cyl_n_fsrs, cyl_n_reg. cbn [cp_xs_radii cp_sub cp_azi cp_radii].
  assert (NR : Z.of_nat (length rr) = fold_right Z.add 0%Z sub).
  { clear - E L K.
    assert (G : forall sub, Forall (fun k => (0 <= k)%Z) sub -> forall ys qq ri rxsi, length sub = length ys -> mesh_radii ys sub rxsi ri = PVal qq -> Z.of_nat (length qq) = fold_right Z.add 0%Z sub); [|exact (G sub K xs' rr 0 0 L E)].
    clear. intros sub K. induction K as [|k sub K1 K2 IH]; intros [|x xs] rr ri rxsi L E; try discriminate.
    - cbn in E. injection E as <-. reflexivity.
    - cbn [mesh_radii] in E. destruct (ring (Z.to_nat k) ((x * x - rxsi * rxsi) / IZR k) ri) as [l| |] eqn:R; try discriminate. cbn [pbind] in E.
      destruct (mesh_radii xs sub x (last l ri)) as [m| |] eqn:M; try discriminate. injection E as <-. rewrite app_length, Nat2Z.inj_add. cbn [fold_right]. rewrite (IH xs m _ _ ltac:(cbn in L; lia) M). f_equal.
      assert (RL : forall n vn r l, ring n vn r = PVal l -> length l = n).
      { clear. induction n as [|n IH]; intros vn r l H; cbn [ring] in H; [injection H as <-; reflexivity|]. destruct (Rltb (vn + r * r) 0); [discriminate|].
        destruct (ring n vn (sqrt (vn + r * r))) as [q| |] eqn:Q; try discriminate. injection H as <-. cbn. f_equal. eapply IH. exact Q. }
      rewrite (RL _ _ _ _ R). apply Z2Nat.id. assumption. }
  split.
  - apply Forall_forall. intros x Hx. apply in_seq in Hx. destruct (Nat.ltb_spec x (length xs')); [|eexists; reflexivity].
    destruct (nth_error sub x) as [k|] eqn:N; [eexists; reflexivity|]. apply nth_error_None in N. lia.
  - rewrite NR, seq_S, map_app, fold_right_app. cbn [map fold_right Nat.add]. rewrite Nat.ltb_irrefl.
    assert (G : forall (l s : list Z) n, map (fun x => match (if (x <? n + length s)%nat then option_map (fun k => (k * azi)%Z) (nth_error (l ++ s) x) else Some azi) with Some k => k | None => 0%Z end) (seq (length l) (length s)) = map (fun k => (k * azi)%Z) s \/ n <> length l).
    { intros l s. revert l. induction s as [|k s IH]; intros l n; [left; reflexivity|]. destruct (Nat.eq_dec n (length l)) as [->|D]; [|right; assumption]. left.
      cbn [seq map length]. replace (length l <? length l + S (length s))%nat with true by (symmetry; apply Nat.ltb_lt; lia).
      rewrite nth_error_app2, Nat.sub_diag by lia. cbn [nth_error option_map]. f_equal.
      destruct (IH (l ++ [k]) (length (l ++ [k]))) as [Q|Q]; [|congruence]. rewrite <- Q. rewrite !app_length. cbn [length]. replace (length l + 1)%nat with (S (length l)) by lia.
      apply map_ext. intro x. replace (S (length l) + length s)%nat with (length l + S (length s))%nat by lia. rewrite <- app_assoc. reflexivity. }
    destruct (G [] sub 0%nat) as [Q|Q]; [|cbn in Q; congruence]. cbn [length app Nat.add] in Q. rewrite L in Q. rewrite Q.
    assert (F : forall s a, fold_right Z.add a (map (fun k => (k * azi)%Z) s) = (fold_right Z.add 0 s * azi + a)%Z) by (induction s as [|k s IH]; intro a; cbn [map fold_right]; [ring|rewrite IH; ring]).
    rewrite F. ring.
Qed.
Print Assumptions C59_fsrs.

(** A pin is built from its checks alone: an equivalent form for evaluating the constructor. *)
Lemma cyl_ctor_eval : forall id pitch x xs azi sub radii, (0 <= id)%Z -> 0 < pitch -> ordered (x :: xs) = true -> last (x :: xs) 0 <= pitch * 0.5 ->
  (Z.rem azi 2 = 0)%Z -> (azi <= 8)%Z -> length sub = length (x :: xs) -> mesh_radii (x :: xs) sub 0 0 = PVal radii -> radii <> [] ->
  cyl_ctor id pitch (x :: xs) azi sub = PVal (mkCyl pitch (x :: xs) azi sub radii (azi_lines pitch azi)
    (ring_areas radii 0 azi ++ repeat ((pitch * pitch - PI * last radii 0 * last radii 0) / IZR azi) (Z.to_nat azi))).
Proof.
  intros id pitch x xs azi sub radii Hid Hp O L A B S M N. unfold cyl_ctor, base_ctor. replace (id <? 0)%Z with false by (symmetry; apply Z.ltb_ge; lia).
  destruct (Rleb_spec pitch 0); [lra|]. cbn [pbind]. rewrite O. cbn [negb]. rewrite Rltb_false by lra.
  replace (Z.rem azi 2 =? 0)%Z with true by (symmetry; apply Z.eqb_eq; assumption). replace (8 <? azi)%Z with false by (symmetry; apply Z.ltb_ge; lia). cbn [negb orb].
  rewrite S, Nat.eqb_refl. cbn [negb]. rewrite M. cbn [pbind]. destruct radii; [congruence|reflexivity].
Qed.

(** The checks let through pins without the property: the number of sectors may be zero or negative (no region at all), a
    radius may be repeated (regions of no area), and radii may be negative (a region of negative area).  With no subdivision
    of the rings the last radius of an empty list is read. *)
Theorem C59_refuted :
  (exists pm, cyl_ctor 0 1 [1/4] 0 [1%Z] = PVal pm /\ cp_areas pm = [] /\ Rsum (cp_areas pm) <> 1 * 1)
  /\ (exists pm, cyl_ctor 0 1 [1/4] (-2) [1%Z] = PVal pm /\ cp_areas pm = [] /\ (cyl_n_reg pm < 0)%Z)
  /\ (exists pm, cyl_ctor 0 1 [1/4; 1/4] 4 [1%Z; 1%Z] = PVal pm /\ nth_error (cp_areas pm) 4 = Some 0)
  /\ (exists pm a, cyl_ctor 0 1 [-1/2; 1/4] 4 [1%Z; 1%Z] = PVal pm /\ nth_error (cp_areas pm) 4 = Some a /\ a < 0)
  /\ cyl_ctor 0 1 [1/4] 4 [0%Z] = PUB.
Proof.
  assert (M1 : exists r, mesh_radii [1/4] [1%Z] 0 0 = PVal [r]).
  { cbn [mesh_radii]. change (Z.to_nat 1) with 1%nat. cbn [ring pbind]. rewrite Rltb_false by lra. cbn [pbind app]. eexists. reflexivity. }
  destruct M1 as [r1 M1].
  assert (O1 : ordered [1/4] = true) by reflexivity.
  split; [|split; [|split; [|split]]].
  - eexists. split; [apply cyl_ctor_eval; try exact M1; try reflexivity; try lia; try lra; try discriminate; cbn [last]; lra|].
    cbn [cp_areas]. change (Z.to_nat 0) with 0%nat. cbn [repeat ring_areas app]. split; [reflexivity|]. cbn. lra.
  - eexists. split; [apply cyl_ctor_eval; try exact M1; try reflexivity; try lia; try lra; try discriminate; cbn [last]; lra|].
    cbn [cp_areas]. change (Z.to_nat (-2)) with 0%nat. cbn [repeat ring_areas app]. split; reflexivity.
  - set (a := sqrt ((1/4 * (1/4) - 0 * 0) / 1 + 0 * 0)). assert (Q : a * a = 1/16) by (unfold a; rewrite sqrt_sqrt; lra).
    assert (M : mesh_radii [1/4; 1/4] [1%Z; 1%Z] 0 0 = PVal [a; sqrt ((1/4 * (1/4) - 1/4 * (1/4)) / 1 + a * a)]).
    { cbn [mesh_radii]. change (Z.to_nat 1) with 1%nat. cbn [ring pbind]. rewrite Rltb_false by lra. fold a. cbn [pbind app last]. rewrite Rltb_false by (rewrite Q; lra). reflexivity. }
    eexists. split; [apply cyl_ctor_eval; try exact M; try reflexivity; try lia; try lra; try discriminate|].
    + cbn [ordered]. rewrite Rltb_false by lra. reflexivity.
    + cbn [last]; lra.
    + cbn [cp_areas ring_areas]. change (Z.to_nat 4) with 4%nat. cbn [repeat app nth_error]. f_equal. rewrite sqrt_sqrt by (rewrite Q; lra). field.
  - set (a := sqrt ((-1/2 * (-1/2) - 0 * 0) / 1 + 0 * 0)). assert (Q : a * a = 1/4) by (unfold a; rewrite sqrt_sqrt; lra).
    assert (M : mesh_radii [-1/2; 1/4] [1%Z; 1%Z] 0 0 = PVal [a; sqrt ((1/4 * (1/4) - -1/2 * (-1/2)) / 1 + a * a)]).
    { cbn [mesh_radii]. change (Z.to_nat 1) with 1%nat. cbn [ring pbind]. rewrite Rltb_false by lra. fold a. cbn [pbind app last]. rewrite Rltb_false by (rewrite Q; lra). reflexivity. }
    eexists. eexists. split; [apply cyl_ctor_eval; try exact M; try reflexivity; try lia; try lra; try discriminate|].
    + cbn [ordered]. rewrite Rltb_false by lra. reflexivity.
    + cbn [last]; lra.
    + cbn [cp_areas ring_areas]. change (Z.to_nat 4) with 4%nat. cbn [repeat app nth_error]. split; [reflexivity|]. rewrite sqrt_sqrt, Q by (rewrite Q; lra). pose proof PI_RGT_0. lra.
  - unfold cyl_ctor, base_ctor. cbn [Z.ltb Z.compare]. destruct (Rleb_spec 1 0); [lra|]. cbn [pbind]. rewrite O1. cbn [negb last]. rewrite Rltb_false by lra. reflexivity.
Qed.
Print Assumptions C59_refuted.

(** Two material rings of three and two sub-rings in four sectors. *)
Example C59_instance : exists pm, cyl_ctor 3 1.26 [0.41; 0.475] 4 [3%Z; 2%Z] = PVal pm
  /\ nth_error (cp_areas pm) 5 = Some (PI * (0.41 * 0.41 - 0 * 0) / IZR (3 * 4)) /\ cyl_n_reg pm = 24%Z /\ Rsum (cp_areas pm) = 1.26 * 1.26 /\ (exists q, rect_ctor 1 1.26 2 3 = PVal q).
Proof.
  destruct (C59_cyl 3 1.26 [0.41; 0.475] 4 [3%Z; 2%Z]) as [pm [E [A [P [Sm [Ln _]]]]]].
  - lia. - lra. - discriminate. - cbn; lra. - cbn [last]; lra. - reflexivity. - repeat constructor; lia. - cbn; auto.
  - exists pm. split; [exact E|]. split; [|split; [|split; [exact Sm|]]].
    + rewrite A. cbn [spec_areas]. change (Z.to_nat (3 * 4)) with 12%nat. reflexivity.
    + rewrite <- Ln, A. rewrite app_length, repeat_length. cbn [spec_areas]. rewrite !app_length, !repeat_length. reflexivity.
    + unfold rect_ctor, base_ctor. cbn [Z.ltb Z.compare]. destruct (Rleb_spec 1.26 0); [lra|]. cbn [pbind]. eexists. reflexivity.
Qed.

(** ** Points and regions *)
From Verif Require Import TallyProofs.

Lemma divisions_nth : forall pitch n i, (i <= n)%nat -> nth_error (divisions pitch n) i = Some (INR i * (pitch / INR n) - 0.5 * pitch).
Proof. intros pitch n i H. unfold divisions. apply (map_nth_error (fun i => INR i * (pitch / INR n) - 0.5 * pitch)). rewrite nth_error_nth' with (d := 0%nat) by (rewrite seq_length; lia). rewrite seq_nth by lia. reflexivity. Qed.
Lemma divisions_length : forall pitch n, length (divisions pitch n) = S n.
Proof. intros. unfold divisions. rewrite map_length, seq_length. reflexivity. Qed.
Lemma divisions_increasing : forall pitch n, 0 < pitch -> (0 < n)%nat -> increasing (divisions pitch n).
Proof.
  intros pitch n Hp Hn i j x y Hij Hx Hy.
  assert (Hj : (j < S n)%nat) by (rewrite <- (divisions_length pitch n); apply nth_error_Some; congruence).
  rewrite divisions_nth in Hx by lia. rewrite divisions_nth in Hy by lia. injection Hx as <-. injection Hy as <-.
  assert (0 < INR n) by (apply lt_0_INR; lia). assert (0 < pitch / INR n) by (apply Rdiv_lt_0_compat; assumption). assert (INR i < INR j) by (apply lt_INR; lia). nra.
Qed.

(** The edges of the cells of a rectangular pin. *)
Definition edge (pitch : R) (n i : nat) : R := INR i * pitch / INR n - pitch / 2.

(** A point of the pin, off its left and bottom edges, lies in exactly one cell, counting the right and the top edge of a
    cell as part of it; that cell is the one returned.  A point outside the pin gives -1. *)
Theorem C94_rect : forall id pitch nx ny pm p, rect_ctor id pitch nx ny = PVal pm ->
  (forall i j, (Z.of_nat i < nx)%Z -> (Z.of_nat j < ny)%Z ->
     edge pitch (Z.to_nat nx) i < ptx p <= edge pitch (Z.to_nat nx) (S i) -> edge pitch (Z.to_nat ny) j < pty p <= edge pitch (Z.to_nat ny) (S j) ->
     rect_find_reg pm p = RIdx (Z.of_nat j * nx + Z.of_nat i))
  /\ ((pitch / 2 < Rabs (ptx p) \/ pitch / 2 < Rabs (pty p)) -> rect_find_reg pm p = RIdx (-1)).
Proof.
  intros id pitch nx ny pm p H. unfold rect_ctor, base_ctor in H. destruct (id <? 0)%Z; [discriminate|].
  destruct (Rleb_spec pitch 0) as [P|P]; [discriminate|]. cbn [pbind] in H. destruct (Z.ltb_spec nx 1) as [X|X]; [discriminate|]. destruct (Z.ltb_spec ny 1) as [Y|Y]; [discriminate|].
  injection H as <-. apply Rnot_le_lt in P. unfold rect_find_reg. cbn [rp_pitch rp_hx rp_hy rp_nx rp_ny].
  assert (HX : 0 < INR (Z.to_nat nx)) by (apply lt_0_INR; lia). assert (HY : 0 < INR (Z.to_nat ny)) by (apply lt_0_INR; lia).
  assert (EG : forall n i, 0 < INR n -> edge pitch n i = INR i * (pitch / INR n) - 0.5 * pitch) by (intros n i Hn; unfold edge, Rdiv; lra).
  assert (IN : forall n i v, 0 < INR n -> (i < n)%nat -> edge pitch n i < v <= edge pitch n (S i) -> Rabs v <= 0.5 * pitch).
  { intros n i v Hn Hi Hv. rewrite !EG in Hv by assumption. assert (Q : 0 < pitch / INR n) by (apply Rdiv_lt_0_compat; assumption).
    assert (0 <= INR i) by apply pos_INR. assert (INR (S i) <= INR n) by (apply le_INR; lia).
    assert (INR (S i) * (pitch / INR n) <= INR n * (pitch / INR n)) by (apply Rmult_le_compat_r; lra). replace (INR n * (pitch / INR n)) with pitch in * by (field; lra).
    apply Rabs_le. split; nra. }
  split.
  - intros i j Hi Hj Bx By. rewrite (Rltb_false (0.5 * pitch) (Rabs (ptx p))) by (apply (IN (Z.to_nat nx) i); [assumption|lia|assumption]).
    rewrite (Rltb_false (0.5 * pitch) (Rabs (pty p))) by (apply (IN (Z.to_nat ny) j); [assumption|lia|assumption]).
    rewrite !EG in Bx, By by assumption.
    rewrite (lower_bound_cell _ (ptx p) i _ _ (divisions_increasing pitch (Z.to_nat nx) P ltac:(lia)) (divisions_nth pitch (Z.to_nat nx) i ltac:(lia)) (divisions_nth pitch (Z.to_nat nx) (S i) ltac:(lia)) Bx).
    rewrite (lower_bound_cell _ (pty p) j _ _ (divisions_increasing pitch (Z.to_nat ny) P ltac:(lia)) (divisions_nth pitch (Z.to_nat ny) j ltac:(lia)) (divisions_nth pitch (Z.to_nat ny) (S j) ltac:(lia)) By).
    cbv zeta. rewrite Nat2Z.inj_mul, !Z2Nat.id by lia.
    replace (nx * (Z.of_nat (S j) - 1) + (Z.of_nat (S i) - 1))%Z with (Z.of_nat j * nx + Z.of_nat i)%Z by lia.
    destruct ((0 <=? Z.of_nat j * nx + Z.of_nat i)%Z && (Z.of_nat j * nx + Z.of_nat i <? nx * ny)%Z) eqn:E; [reflexivity|].
    apply Bool.andb_false_iff in E. destruct E as [E|E]; [apply Z.leb_gt in E; nia|apply Z.ltb_ge in E; nia].
  - intros [O|O].
    + rewrite Rltb_true by lra. reflexivity.
    + destruct (Rltb (0.5 * pitch) (Rabs (ptx p))); [reflexivity|]. rewrite Rltb_true by lra. reflexivity.
Qed.
Print Assumptions C94_rect.

(** On the left edge the region below to the right is returned, a different row of the pin; in the bottom left corner the
    assertion fails. *)
Theorem C94_rect_refuted : exists pm, rect_ctor 0 2 2 2 = PVal pm
  /\ rect_find_reg pm {| ptx := -1; pty := 1/2 |} = RIdx 1
  /\ edge 2 2 1 < 1/2 <= edge 2 2 2
  /\ rect_find_reg pm {| ptx := -1; pty := -1 |} = RAssert.
Proof.
  unfold rect_ctor, base_ctor. cbn [Z.ltb Z.compare]. destruct (Rleb_spec 2 0); [lra|]. cbn [pbind].
  change (2 <? 1)%Z with false. cbv iota. eexists. split; [reflexivity|]. change (Z.to_nat 2) with 2%nat.
  assert (D : divisions 2 2 = [-1; 0; 1]) by (unfold divisions; cbn [seq map INR]; repeat (f_equal; try lra)).
  rewrite D. assert (A1 : Rabs (-1) = 1) by (unfold Rabs; destruct (Rcase_abs (-1)); lra). assert (A2 : Rabs (1/2) = 1/2) by (apply Rabs_right; lra).
  unfold rect_find_reg. cbn [rp_pitch rp_hx rp_hy rp_nx rp_ny ptx pty]. rewrite A1, A2, !Rltb_false by lra.
  assert (I : increasing [-1; 0; 1]) by (rewrite <- D; apply divisions_increasing; [lra|lia]).
  assert (L1 : lower_bound Rltb [-1; 0; 1] (-1) = Some 0%nat).
  { destruct (lower_bound_spec R Rltb [-1; 0; 1] (-1) (increasing_lb _ _ I)) as [k [E [Hk [Lo Hi]]]]. rewrite E. f_equal. destruct k; [reflexivity|].
    specialize (Lo 0%nat (-1) ltac:(lia) eq_refl). rewrite Rltb_false in Lo by lra. discriminate. }
  rewrite L1. rewrite (lower_bound_cell _ (1/2) 1 0 1 I) by (try reflexivity; lra).
  split; [reflexivity|]. split; [unfold edge; cbn [INR]; lra|reflexivity].
Qed.
Print Assumptions C94_rect_refuted.

(** ** The polar angle of a point *)
(** Polar coordinates: [a] is an angle of [p] in [0, 2 PI). *)
Definition polar (p : Point2) (a : R) : Prop :=
  let r := sqrt (ptx p * ptx p + pty p * pty p) in 0 <= a < 2 * PI /\ ptx p = r * cos a /\ pty p = r * sin a.

Lemma cos_atan : forall t, cos (atan t) = 1 / sqrt (1 + t * t) /\ sin (atan t) = t / sqrt (1 + t * t).
Proof.
  intro t. pose proof (atan_bound t) as B. assert (C : 0 < cos (atan t)) by (apply cos_gt_0; lra).
  assert (T : tan (atan t) = t) by apply tan_atan. unfold tan in T.
  assert (S : sin (atan t) = t * cos (atan t)) by (rewrite <- T at 2; field; lra).
  pose proof (sin2_cos2 (atan t)) as Q. unfold Rsqr in Q. rewrite S in Q.
  assert (Hs : 0 < sqrt (1 + t * t)) by (apply sqrt_lt_R0; nra).
  assert (W : sqrt (1 + t * t) * sqrt (1 + t * t) = 1 + t * t) by (apply sqrt_sqrt; nra).
  assert (C1 : cos (atan t) = 1 / sqrt (1 + t * t)).
  { apply Rsqr_inj; [lra|apply Rlt_le, Rdiv_lt_0_compat; lra|]. unfold Rsqr. apply (Rmult_eq_reg_r (sqrt (1 + t * t) * sqrt (1 + t * t))); [|nra].
    replace (1 / sqrt (1 + t * t) * (1 / sqrt (1 + t * t)) * (sqrt (1 + t * t) * sqrt (1 + t * t))) with 1 by (field; lra). rewrite W. lra. }
  split; [exact C1|]. rewrite S, C1. field. lra.
Qed.
Lemma atan_right : forall x y, 0 < x -> let r := sqrt (x * x + y * y) in x = r * cos (atan (y / x)) /\ y = r * sin (atan (y / x)).
Proof.
  intros x y H r. destruct (cos_atan (y / x)) as [C S]. rewrite C, S.
  assert (E : r = x * sqrt (1 + y / x * (y / x))).
  { unfold r. replace (x * x + y * y) with ((x * x) * (1 + y / x * (y / x))) by (field; lra). rewrite sqrt_mult by nra. rewrite sqrt_square by lra. reflexivity. }
  rewrite E. assert (0 < sqrt (1 + y / x * (y / x))) by (apply sqrt_lt_R0; nra). split; field; lra.
Qed.
Lemma atan_left : forall x y, x < 0 -> let r := sqrt (x * x + y * y) in x = - (r * cos (atan (y / x))) /\ y = - (r * sin (atan (y / x))).
Proof.
  intros x y H r. destruct (atan_right (- x) (- y) ltac:(lra)) as [A B].
  replace (- y / - x) with (y / x) in A, B by (field; lra). replace (- x * - x + - y * - y) with (x * x + y * y) in A, B by ring. fold r in A, B. lra.
Qed.
Lemma atan_sign : forall t, (0 < t -> 0 < atan t) /\ (t < 0 -> atan t < 0).
Proof. intro t. split; intro H; rewrite <- atan_0; apply atan_increasing; assumption. Qed.

(** The angle reported for a point off the x axis is its polar angle, strictly between 0 and 2 PI. *)
Theorem C70_alpha : forall p, pty p <> 0 -> polar p (alpha p) /\ 0 < alpha p.
Proof.
  intros [x y] H. cbn [pty] in H. unfold polar, alpha, atan2. cbn [ptx pty]. pose proof PI_RGT_0 as PP.
  destruct (Rltb_spec 0 y) as [Y|Y].
  - destruct (Rltb_spec 0 x) as [X|X].
    + destruct (atan_right x y X) as [A B]. assert (0 < y / x) by (apply Rdiv_lt_0_compat; lra). pose proof (proj1 (atan_sign (y / x)) ltac:(assumption)). pose proof (atan_bound (y / x)). split; [split; [lra|auto]|lra].
    + destruct (Rltb_spec x 0) as [X'|X'].
      * rewrite (Rltb_false y 0) by lra. destruct (atan_left x y X') as [A B]. rewrite neg_cos, neg_sin.
        assert (y / x < 0) by (apply (Rmult_lt_reg_r (- x)); [lra|]; replace (y / x * - x) with (- y) by (field; lra); lra). pose proof (proj2 (atan_sign (y / x)) ltac:(assumption)). pose proof (atan_bound (y / x)). split; [split; [lra|split; lra]|lra].
      * replace x with 0 by lra. rewrite cos_PI2, sin_PI2. replace (0 * 0 + y * y) with (y * y) by ring. rewrite sqrt_square by lra. split; [split; [lra|split; lra]|lra].
  - assert (y < 0) by lra. destruct (Rltb_spec 0 x) as [X|X].
    + destruct (atan_right x y X) as [A B]. rewrite cos_plus, sin_plus, cos_2PI, sin_2PI.
      assert (y / x < 0) by (apply (Rmult_lt_reg_r x); [lra|]; replace (y / x * x) with y by (field; lra); lra). pose proof (proj2 (atan_sign (y / x)) ltac:(assumption)). pose proof (atan_bound (y / x)).
      split; [split; [lra|split; lra]|lra].
    + destruct (Rltb_spec x 0) as [X'|X'].
      * rewrite (Rltb_true y 0) by lra. destruct (atan_left x y X') as [A B]. replace (atan (y / x) - PI + 2 * PI) with (atan (y / x) + PI) by ring. rewrite neg_cos, neg_sin.
        assert (0 < y / x) by (apply (Rmult_lt_reg_r (- x)); [lra|]; replace (y / x * - x) with (- y) by (field; lra); lra). pose proof (proj1 (atan_sign (y / x)) ltac:(assumption)). pose proof (atan_bound (y / x)). split; [split; [lra|split; lra]|lra].
      * rewrite (Rltb_true y 0) by lra. replace x with 0 by lra. replace (- (PI / 2) + 2 * PI) with (PI / 2 + PI) by field. rewrite neg_cos, neg_sin, cos_PI2, sin_PI2.
        replace (0 * 0 + y * y) with ((- y) * (- y)) by ring. rewrite sqrt_square by lra. split; [split; [lra|split; lra]|lra].
Qed.
Print Assumptions C70_alpha.
(** The polar angle is unique, so two different sectors never claim the same point. *)
Theorem C70_unique : forall p a b, (ptx p <> 0 \/ pty p <> 0) -> polar p a -> polar p b -> a = b.
Proof.
  intros [x y] a b N [[A0 A1] [Ax Ay]] [[B0 B1] [Bx By]]. cbn [ptx pty] in *. set (r := sqrt (x * x + y * y)) in *.
  assert (R0 : r <> 0) by (intro E; rewrite E in *; destruct N; lra).
  assert (C : cos a = cos b) by (apply (Rmult_eq_reg_l r); [lra|assumption]). assert (S : sin a = sin b) by (apply (Rmult_eq_reg_l r); [lra|assumption]).
  assert (C1 : cos (a - b) = 1) by (rewrite cos_minus, C, S; pose proof (sin2_cos2 b) as Q; unfold Rsqr in Q; lra).
  assert (Z : forall t, 0 <= t < 2 * PI -> cos t = 1 -> t = 0).
  { intros t Ht Hc. assert (H2 : cos t = 1 - 2 * sin (t / 2) * sin (t / 2)) by (replace t with (2 * (t / 2)) at 1 by field; apply cos_2a_sin).
    assert (Q : sin (t / 2) = 0) by nra. destruct (Req_dec t 0) as [|Nt]; [assumption|]. assert (0 < sin (t / 2)) by (apply sin_gt_0; lra). lra. }
  destruct (Rle_dec b a) as [L|L].
  - assert (a - b = 0) by (apply Z; [lra|assumption]). lra.
  - assert (b - a = 0) by (apply Z; [lra|replace (b - a) with (- (a - b)) by ring; rewrite cos_neg; assumption]). lra.
Qed.
Print Assumptions C70_unique.
(** On the x axis the reported angle is a full turn too big: 2 PI to the right, 3 PI to the left. *)
Theorem C70_refuted : forall x, (0 < x -> alpha {| ptx := x; pty := 0 |} = 2 * PI) /\ (x < 0 -> alpha {| ptx := x; pty := 0 |} = 3 * PI)
  /\ (x <> 0 -> ~ polar {| ptx := x; pty := 0 |} (alpha {| ptx := x; pty := 0 |})).
Proof.
  intro x. assert (P : 0 < x -> alpha {| ptx := x; pty := 0 |} = 2 * PI).
  { intro H. unfold alpha, atan2. cbn [ptx pty]. rewrite (Rltb_false 0 0), (Rltb_true 0 x) by lra. replace (0 / x) with 0 by (field; lra). rewrite atan_0. ring. }
  assert (Q : x < 0 -> alpha {| ptx := x; pty := 0 |} = 3 * PI).
  { intro H. unfold alpha, atan2. cbn [ptx pty]. rewrite (Rltb_false 0 0), (Rltb_false 0 x), (Rltb_true x 0) by lra. replace (0 / x) with 0 by (field; lra). rewrite atan_0. ring. }
  split; [assumption|split; [assumption|]]. intros N [H _]. pose proof PI_RGT_0. destruct (Rdichotomy _ _ N) as [D|D]; [rewrite Q in H by assumption|rewrite P in H by assumption]; lra.
Qed.
Print Assumptions C70_refuted.
Example C70_instance : polar {| ptx := -1; pty := 1 |} (alpha {| ptx := -1; pty := 1 |}) /\ polar {| ptx := -1; pty := 1 |} (3 * PI / 4) /\ alpha {| ptx := -1; pty := 1 |} = 3 * PI / 4.
Proof.
  assert (P : polar {| ptx := -1; pty := 1 |} (3 * PI / 4)).
  { unfold polar. cbn [ptx pty]. pose proof PI_RGT_0. replace (-1 * -1 + 1 * 1) with 2 by ring. replace (3 * PI / 4) with (3 * (PI / 4)) by field. rewrite cos_3PI4, sin_3PI4.
    assert (0 < sqrt 2) by (apply sqrt_lt_R0; lra). split; [lra|split; field; lra]. }
  destruct (C70_alpha {| ptx := -1; pty := 1 |}) as [A _]; [cbn; lra|]. split; [assumption|split; [assumption|]]. apply (C70_unique {| ptx := -1; pty := 1 |}); [left; cbn; lra|assumption|assumption].
Qed.

(** ** Regions of a cylindrical pin *)
(** [r] lies in ring [ir]: inside every radius from the [ir]-th on, and on or outside the ones before. *)
Definition in_ring (radii : list R) (r : R) (ir : nat) : Prop :=
  (ir <= length radii)%nat /\ (forall k x, nth_error radii k = Some x -> (k < ir)%nat -> x <= r) /\ (forall k x, nth_error radii k = Some x -> (ir <= k)%nat -> r < x).
(** The angle [a] lies in sector [ia] of [n] equal sectors. *)
Definition in_sector (n ia : Z) (a : R) : Prop := 2 * PI * IZR ia / IZR n <= a < 2 * PI * IZR (ia + 1) / IZR n.

Lemma ring_of_in : forall radii r ir, in_ring radii r ir -> ring_of r radii = ir.
Proof.
  induction radii as [|x radii IH]; intros r ir [L [A B]]; cbn [ring_of].
  - cbn in L. lia.
  - destruct ir as [|ir].
    + rewrite Rltb_true by (apply (B 0%nat); [reflexivity|lia]). reflexivity.
    + rewrite Rltb_false by (apply (A 0%nat); [reflexivity|lia]). f_equal. apply IH. split; [cbn in L; lia|]. split; intros k y Hk Hl; [apply (A (S k))|apply (B (S k))]; auto; lia.
Qed.
Lemma Int_part_eq : forall r n, IZR n <= r < IZR (n + 1) -> Int_part r = n.
Proof.
  intros r n H. destruct (base_Int_part r) as [A B]. rewrite plus_IZR in H.
  assert (IZR (Int_part r) < IZR (n + 1)) by (rewrite plus_IZR; lra). assert (IZR n < IZR (Int_part r + 1)) by (rewrite plus_IZR; lra).
  apply lt_IZR in H0. apply lt_IZR in H1. lia.
Qed.
Lemma polar_sector : forall n ia a, (1 <= n)%Z -> 0 <= a < 2 * PI -> in_sector n ia a -> (0 <= ia < n)%Z /\ Int_part (a / (2 * PI / IZR n)) = ia.
Proof.
  intros n ia a Hn Ha [S1 S2]. pose proof PI_RGT_0 as P. assert (N : 0 < IZR n) by (apply IZR_lt; lia).
  assert (Q1 : IZR ia * (2 * PI / IZR n) <= a) by (replace (IZR ia * (2 * PI / IZR n)) with (2 * PI * IZR ia / IZR n) by (field; lra); lra).
  assert (Q2 : a < IZR (ia + 1) * (2 * PI / IZR n)) by (replace (IZR (ia + 1) * (2 * PI / IZR n)) with (2 * PI * IZR (ia + 1) / IZR n) by (field; lra); lra).
  set (d := 2 * PI / IZR n) in *. assert (D : 0 < d) by (apply Rdiv_lt_0_compat; lra). assert (ND : IZR n * d = 2 * PI) by (unfold d; field; lra).
  split.
  - split.
    + assert (IZR (-1) < IZR ia) by (apply (Rmult_lt_reg_r d); [assumption|]; rewrite plus_IZR in Q2; lra). apply lt_IZR in H. lia.
    + apply lt_IZR. apply (Rmult_lt_reg_r d); [assumption|]. lra.
  - apply Int_part_eq. split; [apply (Rmult_le_reg_r d)|apply (Rmult_lt_reg_r d)]; try assumption; (replace (a / d * d) with a by (field; lra); assumption).
Qed.

(** A point of the pin off the x axis gets the region of its ring and of the sector its polar angle lies in; a point
    outside the pin gets -1. *)
Theorem C94_cyl : forall id pitch xs azi sub pm p, cyl_ctor id pitch xs azi sub = PVal pm -> (1 <= azi)%Z ->
  (forall ir ia a, Rabs (ptx p) <= pitch / 2 -> Rabs (pty p) <= pitch / 2 -> pty p <> 0 ->
     in_ring (cp_radii pm) (sqrt (ptx p * ptx p + pty p * pty p)) ir -> polar p a -> in_sector azi ia a ->
     cyl_find_reg pm p = RIdx (Z.of_nat ir * azi + ia) /\ (0 <= Z.of_nat ir * azi + ia < cyl_n_reg pm)%Z)
  /\ ((pitch / 2 < Rabs (ptx p) \/ pitch / 2 < Rabs (pty p)) -> cyl_find_reg pm p = RIdx (-1)).
Proof.
  intros id pitch xs azi sub pm p H A.
  assert (F : cp_pitch pm = pitch /\ cp_azi pm = azi).
  { unfold cyl_ctor, base_ctor in H. destruct (id <? 0)%Z; [discriminate|]. destruct (Rleb pitch 0); [discriminate|]. cbn [pbind] in H. destruct xs as [|x0 xs]; [discriminate|].
    set (xs' := x0 :: xs) in *. destruct (negb (ordered xs')); [discriminate|]. destruct (Rltb (pitch * 0.5) (last xs' 0)); [discriminate|].
    destruct (negb (Z.rem azi 2 =? 0)%Z || (8 <? azi)%Z); [discriminate|]. destruct (negb (length sub =? length xs')%nat); [discriminate|].
    destruct (mesh_radii xs' sub 0 0) as [radii| |]; try discriminate. cbn [pbind] in H. destruct radii; [discriminate|]. injection H as <-. auto. }
  destruct F as [F1 F2]. unfold cyl_find_reg, cyl_n_reg. rewrite F1, F2. split.
  - intros ir ia a Hx Hy Ny Hr Ha Hs. rewrite !Rltb_false by lra. cbn [orb]. rewrite (ring_of_in _ _ _ Hr).
    assert (E : alpha p = a) by (apply (C70_unique p); [right; assumption|apply C70_alpha; assumption|assumption]). rewrite E.
    destruct (polar_sector azi ia a A (proj1 Ha) Hs) as [B C]. rewrite C. destruct Hr as [L _].
    assert (BB : (0 <= Z.of_nat ir * azi + ia < (Z.of_nat (length (cp_radii pm)) + 1) * azi)%Z) by nia.
    split; [|exact BB].
    destruct ((0 <=? Z.of_nat ir * azi + ia)%Z && (Z.of_nat ir * azi + ia <? (Z.of_nat (length (cp_radii pm)) + 1) * azi)%Z) eqn:Q; [reflexivity|].
    apply Bool.andb_false_iff in Q. destruct Q as [Q|Q]; [apply Z.leb_gt in Q|apply Z.ltb_ge in Q]; lia.
  - intros [O|O]; [rewrite (Rltb_true (0.5 * pitch) (Rabs (ptx p))) by lra; reflexivity|].
    rewrite (Rltb_true (0.5 * pitch) (Rabs (pty p))) by lra. rewrite Bool.orb_true_r. reflexivity.
Qed.
Print Assumptions C94_cyl.

(** The rings and sectors leave no gap: every point of the pin off the x axis lies in one. *)
Theorem C94_cyl_total : forall radii r n a, growing 0 radii -> 0 <= r -> (1 <= n)%Z -> 0 <= a < 2 * PI ->
  (exists ir, in_ring radii r ir) /\ (exists ia, in_sector n ia a).
Proof.
  intros radii r n a G Hr Hn Ha. split.
  - enough (Q : forall l r0, growing r0 l -> exists ir, in_ring l r ir) by (eapply Q; exact G). clear - Hr.
    assert (M : forall l r0 k x, growing r0 l -> nth_error l k = Some x -> r0 < x).
    { induction l as [|y l IH]; intros r0 k x G N; destruct k; try discriminate; cbn in G; destruct G as [G1 G2]; cbn in N; [injection N as <-; assumption|]. specialize (IH y k x G2 N). lra. }
    induction l as [|y l IH]; intros r0 G.
    + exists 0%nat. split; [cbn; lia|]. split; intros k x N; destruct k; discriminate.
    + cbn in G. destruct G as [G1 G2]. destruct (Rlt_dec r y) as [D|D].
      * exists 0%nat. split; [lia|]. split; [intros; lia|]. intros [|k] x N _; cbn in N; [injection N as <-; assumption|]. specialize (M l y k x G2 N). lra.
      * destruct (IH y G2) as [ir [A [B C]]]. exists (S ir). split; [cbn; lia|]. split; intros [|k] x N L; cbn in N; [injection N as <-; lra|apply (B k); [assumption|lia]|lia|apply (C k); [assumption|lia]].
  - pose proof PI_RGT_0 as P. assert (N : 0 < IZR n) by (apply IZR_lt; lia). set (d := 2 * PI / IZR n). assert (D : 0 < d) by (apply Rdiv_lt_0_compat; lra).
    exists (Int_part (a / d)). destruct (base_Int_part (a / d)) as [A B]. unfold in_sector.
    replace (2 * PI * IZR (Int_part (a / d)) / IZR n) with (IZR (Int_part (a / d)) * d) by (unfold d; field; lra).
    replace (2 * PI * IZR (Int_part (a / d) + 1) / IZR n) with (IZR (Int_part (a / d) + 1) * d) by (unfold d; field; lra). rewrite plus_IZR.
    assert (E : a = a / d * d) by (field; lra). set (q := a / d) in *. rewrite E. split; [apply Rmult_le_compat_r; lra|apply Rmult_lt_compat_r; lra].
Qed.
Print Assumptions C94_cyl_total.

(** On the x axis the angle is a full turn too big and the region is the one of another ring, or the assertion fails. *)
Theorem C94_cyl_refuted : exists pm, cyl_ctor 0 2 [1/2] 4 [1%Z] = PVal pm
  /\ in_ring (cp_radii pm) (1/4) 0
  /\ cyl_find_reg pm {| ptx := 1/4; pty := 0 |} = RIdx 4 /\ cyl_find_reg pm {| ptx := -1/4; pty := 0 |} = RIdx 6
  /\ cyl_find_reg pm {| ptx := 3/4; pty := 0 |} = RAssert.
Proof.
  destruct (C59_cyl 0 2 [1/2] 4 [1%Z]) as [pm [E _]]; [lia|lra|discriminate|cbn; lra|cbn; lra|reflexivity|repeat constructor; lia|cbn; auto|].
  exists pm. split; [exact E|].
  assert (M : mesh_radii [1/2] [1%Z] 0 0 = PVal [1/2]).
  { cbn [mesh_radii]. change (Z.to_nat 1) with 1%nat. cbn [ring pbind]. rewrite Rltb_false by lra. cbn [pbind app].
    replace ((1 / 2 * (1 / 2) - 0 * 0) / 1 + 0 * 0) with (1/2 * (1/2)) by field. rewrite sqrt_square by lra. reflexivity. }
  rewrite (cyl_ctor_eval 0 2 (1/2) [] 4 [1%Z] [1/2]) in E; [|lia|lra|reflexivity|cbn; lra|reflexivity|lia|reflexivity|exact M|discriminate].
  injection E as <-. pose proof PI_RGT_0 as P. unfold cyl_find_reg, cyl_n_reg. cbn [cp_pitch cp_radii cp_azi ptx pty length].
  replace (1 / 4 * (1 / 4) + 0 * 0) with (1/4 * (1/4)) by ring. replace (-1 / 4 * (-1 / 4) + 0 * 0) with (1/4 * (1/4)) by field. replace (3 / 4 * (3 / 4) + 0 * 0) with (3/4 * (3/4)) by ring.
  rewrite !sqrt_square by lra. rewrite (Rabs_right (1/4)), (Rabs_right (3/4)), (Rabs_right 0) by lra. replace (Rabs (-1/4)) with (1/4) by (rewrite Rabs_left by lra; lra). rewrite (Rltb_false (0.5 * 2) (1/4)), (Rltb_false (0.5 * 2) (3/4)), (Rltb_false (0.5 * 2) 0) by lra. cbn [orb ring_of].
  rewrite (Rltb_true (1/4)), (Rltb_false (3/4)) by lra.
  destruct (C70_refuted (1/4)) as [A1 _]. destruct (C70_refuted (-1/4)) as [_ [A2 _]]. destruct (C70_refuted (3/4)) as [A3 _]. rewrite A1, A2, A3 by lra.
  replace (2 * PI / (2 * PI / 4)) with 4 by (field; lra). replace (3 * PI / (2 * PI / 4)) with 6 by (field; lra). rewrite (Int_part_eq 4 4), (Int_part_eq 6 6) by (cbn; lra).
  split; [|split; [reflexivity|split; reflexivity]]. split; [cbn; lia|]. split; intros k x N L; [lia|]. destruct k as [|k]; cbn in N; [injection N as <-; lra|destruct k; discriminate].
Qed.
Print Assumptions C94_cyl_refuted.

Example C94_instance : exists pm, cyl_ctor 0 2 [1/2] 4 [1%Z] = PVal pm /\ cyl_find_reg pm {| ptx := -1/4; pty := 1/4 |} = RIdx 1.
Proof.
  destruct (C59_cyl 0 2 [1/2] 4 [1%Z]) as [pm [E [_ [_ [_ [_ [G L]]]]]]]; [lia|lra|discriminate|cbn; lra|cbn; lra|reflexivity|repeat constructor; lia|cbn; auto|].
  exists pm. split; [exact E|]. pose proof PI_RGT_0 as P. destruct (C94_cyl 0 2 [1/2] 4 [1%Z] pm {| ptx := -1/4; pty := 1/4 |} E ltac:(lia)) as [H _].
  cbn [ptx pty] in H. assert (M : mesh_radii [1/2] [1%Z] 0 0 = PVal [1/2]).
  { cbn [mesh_radii]. change (Z.to_nat 1) with 1%nat. cbn [ring pbind]. rewrite Rltb_false by lra. cbn [pbind app].
    replace ((1 / 2 * (1 / 2) - 0 * 0) / 1 + 0 * 0) with (1/2 * (1/2)) by field. rewrite sqrt_square by lra. reflexivity. }
  rewrite (cyl_ctor_eval 0 2 (1/2) [] 4 [1%Z] [1/2]) in E; [|lia|lra|reflexivity|cbn; lra|reflexivity|lia|reflexivity|exact M|discriminate].
  injection E as <-. cbn [cp_radii] in *.
  assert (S8 : sqrt (-1 / 4 * (-1 / 4) + 1 / 4 * (1 / 4)) = sqrt 2 / 4).
  { replace (-1 / 4 * (-1 / 4) + 1 / 4 * (1 / 4)) with (2 * (1/4 * (1/4))) by field. rewrite sqrt_mult, sqrt_square by lra. field. }
  rewrite S8 in H. assert (S2 : sqrt 2 * sqrt 2 = 2) by (apply sqrt_sqrt; lra). assert (0 < sqrt 2) by (apply sqrt_lt_R0; lra). assert (sqrt 2 < 2) by nra.
  destruct (H 0%nat 1%Z (3 * PI / 4)) as [R _]; [rewrite Rabs_left; lra|rewrite Rabs_right; lra|lra| | |unfold in_sector; cbn; lra|exact R].
  - split; [lia|]. split; intros k x N K; [lia|]. destruct k as [|k]; cbn in N; [injection N as <-; lra|destruct k; discriminate].
  - unfold polar. cbn [ptx pty]. rewrite S8. replace (3 * PI / 4) with (3 * (PI / 4)) by field. rewrite cos_3PI4, sin_3PI4. split; [lra|split; field; lra].
Qed.
