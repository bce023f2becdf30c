(** C129: the weight update of product quadratures after the rays are laid out. *)
From Coq Require Import ZArith List Lia Bool Sorted Reals Lra.
From Verif Require Import RUtil MeshModel MeshProofs AngModel AngProofs AngProps AqModel AqProps.
Import ListNotations.
Open Scope R_scope.

(** ** Specification *)

(** The directions of a product of azimuthal and polar angles, azimuthal angle by azimuthal angle. *)
Definition directions (azi : list R) (pol : list (R * R)) : list Dir := flat_map (fun a => map (fun p => dir_angles a (fst p)) pol) azi.
(** Neighbouring azimuthal angles are told apart by the comparison. *)
Definition told_apart (same : R -> R -> bool) (azi : list R) : Prop :=
  forall i a b, nth_error azi i = Some a -> nth_error azi (S i) = Some b -> same a b = false.
(** The ends of the wedge of the quarter circle around azimuthal angle number [i]: half way to its neighbours. *)
Definition lower (azi : list R) (i : nat) : R := match i with O => 0 | S j => (nth j azi 0 + nth (S j) azi 0) / 2 end.
Definition upper (azi : list R) (i : nat) : R := match nth_error azi (S i) with Some b => (nth i azi 0 + b) / 2 | None => PI / 2 end.
(** A product quadrature, possibly with its azimuthal angles changed; weights are whatever they are. *)
Definition product_like (q : Quad) (azi : list R) (pol : list (R * R)) : Prop :=
  exists oct1, q_angles q = expand oct1 /\ q_ndir q = length oct1 /\ map adir oct1 = directions azi pol /\ q_nazi q = Z.of_nat (length azi).

(** ** Lemmas *)

Lemma sort_sorted : forall l, StronglySorted Rle l -> sort l = l.
Proof.
  induction 1 as [|x l H IH F]; [reflexivity|]. cbn [sort]. rewrite IH. destruct l as [|y r]; [reflexivity|]. cbn [insert]. inversion F; subst. destruct (Rleb_spec x y); [reflexivity|contradiction].
Qed.
Lemma alphas : forall azi pol, map alpha (directions azi pol) = flat_map (fun a => repeat a (length pol)) azi.
Proof.
  intros azi pol. unfold directions. induction azi as [|a azi IH]; [reflexivity|]. cbn [flat_map]. rewrite map_app, IH. f_equal. rewrite map_map. cbn [dir_angles alpha]. clear IH. induction pol; [reflexivity|cbn; congruence].
Qed.
Lemma repeat_sorted : forall azi n, StronglySorted Rle azi -> StronglySorted Rle (flat_map (fun a => repeat a n) azi).
Proof.
  intros azi n. induction 1 as [|a azi H IH F]; [constructor|]. cbn [flat_map]. induction n as [|n IHn].
  - cbn [repeat app]. exact IH.
  - assert (G : forall m, (forall x, In x (flat_map (fun a => repeat a (S n)) azi) -> a <= x) -> StronglySorted Rle (repeat a m ++ flat_map (fun a => repeat a (S n)) azi)).
    { intros m Q. induction m as [|m IHm]; [exact IH|]. cbn [repeat app]. constructor; [exact IHm|]. apply Forall_forall. intros x I. apply in_app_or in I. destruct I as [I|I]; [apply repeat_spec in I; subst; lra|apply Q; exact I]. }
    apply G. intros x I. apply in_flat_map in I. destruct I as (y & I & J). apply repeat_spec in J. subst. rewrite Forall_forall in F. apply F. exact I.
Qed.
Lemma uniq_from_repeat : forall same k n l, (forall a, same a a = true) -> uniq_from same k (repeat k n ++ l) = uniq_from same k l.
Proof. intros same k n l R. induction n as [|n IH]; [reflexivity|]. cbn [repeat app uniq_from]. rewrite R. exact IH. Qed.
Lemma uniq_from_all : forall same k n l, same k (hd k l) = true -> forall a, hd k l = a -> l = repeat a n -> uniq_from same k l = [].
Proof. intros same k n. induction n as [|n IH]; intros l H a E ->; [reflexivity|]. cbn [repeat] in *. cbn [hd] in H. cbn [uniq_from]. rewrite H. destruct n; [reflexivity|]. apply IH with (a := a); cbn [repeat hd]; auto. Qed.
(** Repeating every element changes nothing. *)
Lemma uniq_repeat : forall same n azi k, (forall a, same a a = true) -> uniq_from same k (flat_map (fun a => repeat a (S n)) azi) = uniq_from same k azi.
Proof.
  intros same n azi. induction azi as [|a azi IH]; intros k R; [reflexivity|]. cbn [flat_map]. change (repeat a (S n) ++ flat_map (fun a => repeat a (S n)) azi) with (a :: (repeat a n ++ flat_map (fun a => repeat a (S n)) azi)).
  cbn [uniq_from]. destruct (same k a) eqn:E.
  - rewrite <- (IH k R). clear IH. induction n as [|n IHn]; [reflexivity|]. assert (H : forall m l, uniq_from same k (repeat a m ++ l) = uniq_from same k l). { intros m l. induction m as [|m IHm]; [reflexivity|]. cbn [repeat app uniq_from]. rewrite E. exact IHm. } apply H.
  - rewrite uniq_from_repeat by exact R. rewrite IH by exact R. reflexivity.
Qed.
Lemma uniq_from_length : forall same k l, (length (uniq_from same k l) <= length l)%nat.
Proof. intros same k l. revert k. induction l as [|a l IH]; intros k; [cbn; lia|]. cbn [uniq_from]. destruct (same k a); cbn [length]; [specialize (IH k)|specialize (IH a)]; lia. Qed.
Lemma uniq_apart : forall same l k, told_apart same (k :: l) -> uniq_from same k l = l.
Proof.
  intros same l. induction l as [|a l IH]; intros k H; [reflexivity|]. cbn [uniq_from]. rewrite (H 0%nat k a eq_refl eq_refl). f_equal. apply IH. intros i b c B C. apply (H (S i) b c); assumption.
Qed.
Lemma uniq_short : forall same l k, ~ told_apart same (k :: l) -> (length (uniq_from same k l) < length l)%nat.
Proof.
  intros same l. induction l as [|a l IH]; intros k H.
  - exfalso. apply H. intros i b c B C. destruct i as [|[|i]]; discriminate.
  - cbn [uniq_from]. destruct (same k a) eqn:E; [pose proof (uniq_from_length same k l); cbn [length]; lia|].
    cbn [length]. assert (~ told_apart same (a :: l)). { intros T. apply H. intros [|i] b c B C; [cbn in B, C; congruence|]. apply (T i b c); assumption. } specialize (IH a H0). lia.
Qed.
Lemma wedge_nth : forall azi b0 w i a, wedge azi (b0 :: midpoints azi ++ [PI / 2]) = Some w -> nth_error azi i = Some a ->
  nth_error w i = Some (a, ((match nth_error azi (S i) with Some b => (a + b) / 2 | None => PI / 2 end) - (match i with O => b0 | S j => (nth j azi 0 + a) / 2 end)) / (PI / 2)).
Proof.
  induction azi as [|x azi IH]; intros b0 w i a W N; [destruct i; discriminate|]. destruct azi as [|y azi].
  - cbn in W. injection W as <-. destruct i as [|[|i]]; [|discriminate|discriminate]. cbn in N |- *. injection N as <-. reflexivity.
  - change (wedge (x :: y :: azi) (b0 :: midpoints (x :: y :: azi) ++ [PI / 2])) with
        (match wedge (y :: azi) ((x + y) / 2 :: midpoints (y :: azi) ++ [PI / 2]) with
         | Some l => Some ((x, ((x + y) / 2 - b0) / (PI / 2)) :: l) | None => None end) in W.
    destruct (wedge (y :: azi) ((x + y) / 2 :: midpoints (y :: azi) ++ [PI / 2])) as [w'|] eqn:E; [|discriminate]. injection W as <-. destruct i as [|i].
    + cbn [nth_error] in N |- *. injection N as <-. reflexivity.
    + cbn [nth_error] in N. cbn [nth_error]. rewrite (IH _ w' i a E N). destruct i as [|i]; [cbn [nth_error] in N; injection N as ->; reflexivity|reflexivity].
Qed.
Lemma product_dirs : forall pairs pol, map adir (gen_product pairs pol) = directions (map fst pairs) pol.
Proof.
  intros pairs pol. unfold gen_product, directions. cbn zeta. rewrite map_map. cbn [adir].
  induction pairs as [|a pairs IH]; [reflexivity|]. cbn [flat_map map]. rewrite map_app. f_equal.
  - rewrite map_map. reflexivity.
  - exact IH.
Qed.
Lemma expand_dirs : forall l m, map adir l = map adir m -> map adir (expand l) = map adir (expand m).
Proof.
  intros l m E. unfold expand. rewrite !map_app. f_equal; [exact E|].
  assert (G : forall o, map adir (flat_map (fun a => match to_octant a o with Some b => [b] | None => [] end) l) = map adir (flat_map (fun a => match to_octant a o with Some b => [b] | None => [] end) m)).
  { intros o. revert m E. induction l as [|a l IH]; intros [|b m] E; try discriminate; [reflexivity|]. cbn [map] in E. injection E as Ea El. cbn [flat_map]. rewrite !map_app. rewrite (IH m El). f_equal. unfold to_octant. rewrite Ea. destruct (dir_octant (adir b) o); reflexivity. }
  cbn [flat_map]. rewrite !map_app, !G. reflexivity.
Qed.
Lemma nth_product : forall pairs pol i j a p, nth_error pairs i = Some a -> nth_error pol j = Some p ->
  nth_error (gen_product pairs pol) (i * length pol + j) = Some (mkAngle (dir_angles (fst a) (fst p)) (snd a * snd p / (sumw pairs * sumw pol))).
Proof.
  intros pairs pol i j a p A P. unfold gen_product. cbn zeta. rewrite fold_wsum, wsum_product, Rplus_0_l. rewrite nth_error_map.
  assert (G : nth_error (flat_map (fun a => map (fun p => mkAngle (dir_angles (fst a) (fst p)) (snd a * snd p)) pol) pairs) (i * length pol + j) = Some (mkAngle (dir_angles (fst a) (fst p)) (snd a * snd p))).
  { assert (J : (j < length pol)%nat) by (apply nth_error_Some; congruence). clear - A P J. revert i A. induction pairs as [|b pairs IH]; intros [|i] A; try discriminate; cbn [nth_error] in A; cbn [flat_map].
    - injection A as ->. rewrite nth_error_app1 by (rewrite map_length; cbn; lia). cbn [Nat.mul Nat.add]. rewrite nth_error_map, P. reflexivity.
    - rewrite nth_error_app2 by (rewrite map_length; cbn; lia). rewrite map_length. replace (S i * length pol + j - length pol)%nat with (i * length pol + j)%nat by (cbn; lia). apply IH. exact A. }
  rewrite G. reflexivity.
Qed.
(** What the update works on. *)
Lemma azi_found : forall same q azi pol, (forall a, same a a = true) -> pol <> [] -> StronglySorted Rle azi -> product_like q azi pol ->
  uniq same (sort (map (fun a => alpha (adir a)) (firstn (q_ndir q) (q_angles q)))) = uniq same azi.
Proof.
  intros same q azi pol R P S (oct1 & A & N & D & _). rewrite A, N. unfold expand. rewrite firstn_app, Nat.sub_diag, firstn_all. cbn [firstn]. rewrite app_nil_r.
  rewrite <- (map_map adir alpha), D, alphas. rewrite sort_sorted by (apply repeat_sorted; exact S). destruct pol as [|p0 pol]; [congruence|]. cbn [length].
  destruct azi as [|a azi]; [reflexivity|]. cbn [flat_map]. unfold uniq. cbn [repeat app]. f_equal. rewrite uniq_from_repeat by exact R. apply uniq_repeat. exact R.
Qed.

(** ** C129 *)

(** C129: for a product quadrature whose azimuthal angles rise within the first quadrant, whatever its weights: when
    neighbouring azimuthal angles are told apart, the update succeeds, every one of the angles of all octants keeps
    its direction in its place, and the weight of azimuthal angle i and polar angle j is the fraction of the quarter
    circle between the half-way lines times the polar weight; weights are positive and sum to one in an octant. *)
Theorem C129_update : forall same pol q azi, (forall a, same a a = true) -> pol <> [] -> azi <> [] -> Forall (fun p => 0 < snd p) pol ->
  rising 0 azi -> Forall (fun a => a < PI / 2) azi -> product_like q azi pol -> told_apart same azi ->
  exists q', update_chebyshev_weights same pol q = UOk q' /\ map adir (q_angles q') = map adir (q_angles q) /\ q_ndir q' = q_ndir q /\ q_nazi q' = q_nazi q /\ q_npol q' = q_npol q /\
    wsum (q_angles q') = 8 /\ product_like q' azi pol /\
    forall i j a p, nth_error azi i = Some a -> nth_error pol j = Some p -> exists x, nth_error (q_angles q') (i * length pol + j) = Some x /\
      weight x = (upper azi i - lower azi i) / (PI / 2) * (snd p / sumw pol) /\ 0 < weight x.
Proof.
  intros same pol q azi R Pn An Pp Ri Qd PL T. assert (S : StronglySorted Rle azi).
  { clear -Ri. revert Ri. generalize 0. induction azi as [|a azi IH]; intros b H; [constructor|]. destruct H as [Hb H]. constructor; [apply (IH a H)|].
    clear IH Hb b. revert a H. induction azi as [|c azi IH]; intros a H; [constructor|]. destruct H as [H1 H2]. constructor; [lra|]. apply IH. destruct azi as [|d azi]; [exact I|]. destruct H2 as [H2 H3]. split; [lra|exact H3]. }
  unfold update_chebyshev_weights. rewrite (azi_found same q azi pol R Pn S PL).
  assert (U : uniq same azi = azi). { destruct azi as [|a azi]; [reflexivity|]. unfold uniq. f_equal. apply uniq_apart. exact T. } rewrite U.
  destruct PL as (oct1 & A & N & D & Na). rewrite Na, Z.eqb_refl. cbn [negb]. destruct (C71_azimuthal_weights azi An Ri Qd) as (w & W & F & Sw & Pw). rewrite W.
  assert (L : length (gen_product w pol) = length oct1). { rewrite <- (map_length adir (gen_product w pol)), product_dirs, F, <- D, map_length. reflexivity. }
  rewrite L, N, Nat.eqb_refl. eexists. split; [reflexivity|]. cbn [q_angles q_ndir q_nazi q_npol].
  assert (DD : map adir (gen_product w pol) = map adir oct1) by (rewrite product_dirs, F, D; reflexivity).
  assert (Sp : 0 < sumw pol). { clear -Pp Pn. destruct pol as [|p pol]; [congruence|]. inversion Pp as [|? ? P1 P2]; subst. unfold sumw. cbn [map fold_right]. assert (0 <= fold_right Rplus 0 (map snd pol)) by (clear -P2; induction P2; cbn; lra). lra. }
  split; [rewrite A; apply expand_dirs; exact DD|]. split; [reflexivity|]. split; [reflexivity|]. split; [reflexivity|].
  split; [rewrite expand_wsum, gen_product_sum by (rewrite Sw; lra); lra|]. split; [exists (gen_product w pol); cbn [q_angles q_ndir q_nazi]; split; [reflexivity|]; split; [symmetry; exact L|]; split; [rewrite DD; exact D|reflexivity]|].
  intros i j a p Ha Hp. pose proof (wedge_nth azi 0 w i a W Ha) as Wi. pose proof (nth_product w pol i j _ p Wi Hp) as G. cbn [fst snd] in G. rewrite Sw, Rmult_1_l in G.
  eexists. split; [unfold expand; rewrite nth_error_app1; [exact G|apply nth_error_Some; rewrite G; discriminate]|]. cbn [weight].
  assert (E : ((match nth_error azi (Datatypes.S i) with Some b => (a + b) / 2 | None => PI / 2 end) - (match i with O => 0 | Datatypes.S j => (nth j azi 0 + a) / 2 end)) / (PI / 2) = (upper azi i - lower azi i) / (PI / 2)).
  { unfold upper, lower. assert (K : nth i azi 0 = a) by (apply nth_error_nth; exact Ha). rewrite K. destruct i as [|i]; [reflexivity|]. rewrite K. reflexivity. }
  rewrite E in *. split; [unfold Rdiv; ring|]. assert (0 < (upper azi i - lower azi i) / (PI / 2)) by (rewrite Forall_forall in Pw; specialize (Pw _ (nth_error_In _ _ Wi)); exact Pw).
  assert (0 < snd p) by (rewrite Forall_forall in Pp; apply Pp; eapply nth_error_In; exact Hp). apply Rdiv_lt_0_compat; [apply Rmult_lt_0_compat; assumption|exact Sp].
Qed.
Print Assumptions C129_update.
(** C129: when two neighbouring azimuthal angles have become equivalent, the update stops with an exception rather
    than losing an angle. *)
Theorem C129_collapsed : forall same pol q azi, (forall a, same a a = true) -> pol <> [] -> StronglySorted Rle azi -> product_like q azi pol -> ~ told_apart same azi ->
  update_chebyshev_weights same pol q = UThrow.
Proof.
  intros same pol q azi R Pn S PL T. unfold update_chebyshev_weights. rewrite (azi_found same q azi pol R Pn S PL). destruct PL as (_ & _ & _ & _ & Na). rewrite Na.
  assert (L : (length (uniq same azi) < length azi)%nat). { destruct azi as [|a azi]; [exfalso; apply T; intros [|i] b c B; discriminate|]. unfold uniq. cbn [length]. pose proof (uniq_short same azi a T). lia. }
  destruct (Z.eqb_spec (Z.of_nat (length (uniq same azi))) (Z.of_nat (length azi))); [lia|reflexivity].
Qed.
Print Assumptions C129_collapsed.
(** C129: other kinds of quadrature are left alone. *)
Theorem C129_others : forall same g y q, q_type q = LS \/ q_type q = USER \/ q_type q = IMPORT -> update_weights same g y q = UOk q.
Proof. intros same g y q [E|[E|E]]; unfold update_weights; rewrite E; reflexivity. Qed.
Print Assumptions C129_others.

(** The angle of number [i] with its azimuthal angle replaced. *)
Definition turned (new : nat -> R) (i : nat) (a : Angle) : Angle := mkAngle (dir_angles (new i) (theta (adir a))) (weight a).
Lemma modularise_spec : forall new l n i done rest, l = done ++ rest -> length done = i -> length rest = n ->
  modularise new (length l) (seq i n) (expand l) = Some (expand (done ++ map (fun ia => turned new (fst ia) (snd ia)) (combine (seq i n) rest))).
Proof.
  intros new l n. revert l. induction n as [|n IH]; intros l i done rest E D Rn.
  - destruct rest; [|discriminate]. cbn [seq modularise combine map]. rewrite app_nil_r in E |- *. subst. reflexivity.
  - destruct rest as [|a rest]; [discriminate|]. cbn [seq modularise].
    assert (N : nth_error l i = Some a) by (subst l; rewrite nth_error_app2 by lia; replace (i - length done)%nat with 0%nat by lia; reflexivity).
    assert (NE : nth_error (expand l) i = Some a) by (unfold expand; rewrite nth_error_app1 by (apply nth_error_Some; congruence); exact N). rewrite NE.
    set (b := turned new i a). change (mkAngle (dir_angles (new i) (theta (adir a))) (weight a)) with b.
    assert (U : upd l i b = Some (done ++ b :: rest)). { clearbody b. subst l. clear -D. revert i D. induction done as [|x done IH]; intros i D; [cbn in D; subst; reflexivity|]. cbn in D. destruct i as [|i]; [discriminate|]. cbn [app upd]. rewrite (IH i) by lia. reflexivity. }
    rewrite (modify_angle_ok l (done ++ b :: rest) i b U). replace (length l) with (length (done ++ b :: rest)) by (subst l; rewrite !app_length; reflexivity).
    rewrite (IH (done ++ b :: rest) (S i) (done ++ [b]) rest); [|rewrite <- app_assoc; reflexivity|rewrite app_length; cbn; lia|cbn in Rn; lia].
    cbn [combine map fst snd]. rewrite <- app_assoc. reflexivity.
Qed.
(** C129: laying out the rays.  Each azimuthal angle a of a product quadrature is replaced by f a; with f such that the
    new angles rise within the quadrant, the quadrature afterwards has, in the place of every direction (a, theta), the
    direction (f a, theta). *)
Theorem C129_layout : forall pol q azi f, product_like q azi pol ->
  exists q', modularise (fun i => f (nth i (map alpha (directions azi pol)) 0)) (q_ndir q) (seq 0 (q_ndir q)) (q_angles q) = Some (q_angles q') /\
    q_ndir q' = q_ndir q /\ product_like q' (map f azi) pol.
Proof.
  intros pol q azi f (oct1 & A & N & D & Na). set (new := fun i => f (nth i (map alpha (directions azi pol)) 0)).
  set (l := map (fun ia => turned new (fst ia) (snd ia)) (combine (seq 0 (length oct1)) oct1)). exists (mkQuad (q_type q) (q_ndir q) (expand l) (q_npol q) (q_nazi q)). cbn [q_angles q_ndir].
  assert (Ll : length l = length oct1) by (unfold l; rewrite map_length, combine_length, seq_length, Nat.min_id; reflexivity).
  split; [rewrite A, N, (modularise_spec new oct1 (length oct1) 0 [] oct1); auto|]. split; [reflexivity|].
  exists l. cbn [q_angles q_ndir q_nazi]. split; [reflexivity|]. split; [congruence|]. split; [|rewrite map_length; exact Na].
  assert (G : forall k d, nth_error (directions azi pol) k = Some d -> nth_error (map adir l) k = Some (dir_angles (f (alpha d)) (theta d))).
  { intros k d H. assert (Hk : nth_error (map adir oct1) k = Some d) by (rewrite D; exact H). rewrite nth_error_map in Hk. destruct (nth_error oct1 k) as [a|] eqn:Ka; [|discriminate]. injection Hk as <-.
    assert (Lk : (k < length oct1)%nat) by (apply nth_error_Some; congruence).
    unfold l. rewrite !nth_error_map. assert (C : nth_error (combine (seq 0 (length oct1)) oct1) k = Some (k, a)).
    { clear -Ka Lk. assert (Q : forall s k, nth_error oct1 k = Some a -> nth_error (combine (seq s (length oct1)) oct1) k = Some ((s + k)%nat, a)).
      { clear. induction oct1 as [|b m IH]; intros s [|k] H; try discriminate; cbn [length seq combine nth_error] in *; [injection H as ->; rewrite Nat.add_0_r; reflexivity|]. rewrite (IH (S s) k H). f_equal. f_equal. lia. }
      apply (Q 0%nat). exact Ka. }
    rewrite C. cbn [option_map turned fst snd adir]. unfold new. f_equal. f_equal. f_equal. erewrite nth_error_nth by (rewrite nth_error_map, H; reflexivity). reflexivity. }
  assert (M : directions (map f azi) pol = map (fun d => dir_angles (f (alpha d)) (theta d)) (directions azi pol)).
  { unfold directions. clear. induction azi as [|a azi IH]; [reflexivity|]. cbn [map flat_map]. rewrite map_app, IH. f_equal. rewrite map_map. reflexivity. }
  rewrite M. apply nth_error_ext_len; [rewrite !map_length, Ll, <- D, map_length; reflexivity|]. intros k _. rewrite (nth_error_map (fun d => dir_angles (f (alpha d)) (theta d))).
  destruct (nth_error (directions azi pol) k) as [d|] eqn:K; cbn [option_map]; [apply G; exact K|]. apply nth_error_None. apply nth_error_None in K. rewrite map_length, Ll. rewrite <- D, map_length in K. exact K.
Qed.
Print Assumptions C129_layout.
(** Two azimuthal and three polar angles, and exact comparison. *)
Example C129_instance : exists q, product_like q [PI / 6; PI / 3] gen_yamamoto /\ rising 0 [PI / 6; PI / 3] /\ Forall (fun a => a < PI / 2) [PI / 6; PI / 3] /\
  Forall (fun p => 0 < snd p) gen_yamamoto /\ told_apart Reqb [PI / 6; PI / 3] /\ (forall a, Reqb a a = true) /\ length (q_angles q) = 48%nat.
Proof.
  pose proof PI_RGT_0. exists (quad_of CHEB_YAMAMOTO 2 3 (gen_product [(PI / 6, 1); (PI / 3, 1)] gen_yamamoto)).
  split; [exists (gen_product [(PI / 6, 1); (PI / 3, 1)] gen_yamamoto); cbn [quad_of q_angles q_ndir q_nazi]; do 2 (split; [reflexivity|]); split; [apply product_dirs|reflexivity]|].
  split; [cbn; lra|]. split; [repeat constructor; lra|]. split; [unfold gen_yamamoto; repeat constructor; cbn [snd]; lra|]. split; [|split; [|cbn [quad_of q_angles]; rewrite expand_length; reflexivity]].
  - intros [|[|i]] a b A B; cbn in A, B; try discriminate; try (destruct i; discriminate). injection A as <-. injection B as <-. destruct (Reqb_spec (PI / 6) (PI / 3)); [lra|reflexivity].
  - intros a. destruct (Reqb_spec a a); [reflexivity|congruence].
Qed.
