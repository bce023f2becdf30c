(** Lemmas for the compressed scattering matrix. *)
From Coq Require Import List Lia Bool Reals Lra.
From Verif Require Import RUtil McModel McProofs ListUtil ScatModel.
Import ListNotations.
Open Scope nat_scope.

(** ** The band *)

Lemma first_bound_spec : forall f cnt from cur b, first_bound f from cnt cur = b -> 0 < cnt ->
  from <= b < from + cnt /\ (forall g, from <= g < b -> (f g <= 0)%R) /\ (b + 1 < from + cnt -> (0 < f b)%R).
Proof.
  induction cnt as [|c IH]; intros from cur b H Hc; [lia|]. cbn in H.
  destruct (Rltb_spec 0 (f from)) as [P|P].
  - subst b. repeat split; try lia; auto.
  - destruct c as [|c].
    + cbn in H. subst b. repeat split; try lia; auto.
    + destruct (IH (S from) from b H ltac:(lia)) as (B & Q & W). repeat split; try lia.
      * intros g Hg. destruct (Nat.eq_dec g from) as [->|]; [lra|]. apply Q. lia.
      * intros Hb. apply W. lia.
Qed.

Lemma last_bound_spec : forall f cnt cur b, last_bound f cnt cur = b -> 0 < cnt ->
  b < cnt /\ (forall g, b < g < cnt -> (f g <= 0)%R) /\ (0 < b -> (0 < f b)%R).
Proof.
  induction cnt as [|c IH]; intros cur b H Hc; [lia|]. cbn in H.
  destruct (Rltb_spec 0 (f c)) as [P|P].
  - subst b. repeat split; try lia; auto.
  - destruct c as [|c].
    + cbn in H. subst b. repeat split; try lia; auto.
    + destruct (IH (S c) b H ltac:(lia)) as (B & Q & W). repeat split; try lia; auto.
      intros g Hg. destruct (Nat.eq_dec g (S c)) as [->|]; [lra|]. apply Q. lia.
Qed.

Lemma band_spec : forall n f to lo hi, to < n -> band n f to = (lo, hi) ->
  lo <= to <= hi /\ hi < n /\ (forall g, g < n -> g < lo \/ hi < g -> (f g <= 0)%R).
Proof.
  intros n f to lo hi Ht H. unfold band in H.
  destruct (first_bound_spec f n 0 0 _ eq_refl ltac:(lia)) as (B1 & Q1 & W1).
  destruct (last_bound_spec f n 0 _ eq_refl ltac:(lia)) as (B2 & Q2 & W2).
  set (fi := first_bound f 0 n 0) in *. set (la := last_bound f n 0) in *.
  destruct (Nat.eqb_spec fi (n - 1)) as [E1|E1]; destruct (Nat.eqb_spec la 0) as [E2|E2]; cbn [andb] in H.
  1:{ injection H as H1 H2. destruct (Nat.ltb_spec to to); [lia|]. subst lo hi. repeat split; try lia.
      intros g Hg [C|C]; [apply Q1; lia|apply Q2; lia]. }
  all: injection H as H1 H2; destruct (Nat.ltb_spec to fi), (Nat.ltb_spec la to); subst lo hi; repeat split; try lia;
    intros g Hg [C|C]; try (apply Q1; lia); try (apply Q2; lia).
Qed.

(** ** Packing *)

Definition in_band (b : nat * nat) (g : nat) : bool := (fst b <=? g) && (g <=? snd b).

Lemma pack_row_ok : forall f cnt from sc o, from + cnt <= length o ->
  exists o', pack_row f from cnt sc o = Some (sc ++ map f (seq from cnt), o') /\ length o' = length o /\
    forall g, nth_error o' g = if (from <=? g) && (g <? from + cnt)
                               then match nth_error o g with Some v => Some (v + f g)%R | None => None end
                               else nth_error o g.
Proof.
  induction cnt as [|c IH]; intros from sc o H; cbn [pack_row seq map].
  - exists o. rewrite app_nil_r. repeat split; auto. intros g.
    destruct (Nat.leb_spec from g), (Nat.ltb_spec g (from + 0)); cbn; auto; lia.
  - destruct (nth_error o from) as [v|] eqn:Ev; [|apply nth_error_None in Ev; lia].
    destruct (set_nth_some o from (v + f from)%R ltac:(lia)) as (o1 & E1 & L1). rewrite E1.
    destruct (IH (S from) (sc ++ [f from]) o1 ltac:(lia)) as (o' & E' & L' & P').
    exists o'. rewrite E'. rewrite <- app_assoc. cbn [app]. repeat split; try congruence.
    intros g. rewrite P'. destruct (set_nth_spec _ _ _ _ E1) as (_ & _ & S1). rewrite S1.
    destruct (Nat.eqb_spec g from) as [->|Ne].
    + destruct (Nat.leb_spec (S from) from); [lia|]. cbn [andb].
      destruct (Nat.leb_spec from from); [|lia]. destruct (Nat.ltb_spec from (from + S c)); [|lia].
      cbn [andb]. now rewrite Ev.
    + destruct (Nat.leb_spec (S from) g), (Nat.leb_spec from g), (Nat.ltb_spec g (S from + c)), (Nat.ltb_spec g (from + S c));
        cbn [andb]; auto; lia.
Qed.

(** A row read through its pointer. *)
Definition row_holds (sc : list R) (r : Row) (b : nat * nat) (f : nat -> R) : Prop :=
  min_g r = fst b /\ max_g r = snd b /\
  forall g, in_band b g = true -> nth_error sc (rpos r + (g - min_g r)) = Some (f g).

Lemma row_holds_app : forall sc x r b f, row_holds sc r b f -> row_holds (sc ++ x) r b f.
Proof.
  intros sc x r b f (H1 & H2 & H3). repeat split; auto. intros g Hg. specialize (H3 g Hg).
  rewrite nth_error_app1; auto. apply nth_error_Some. congruence.
Qed.

Lemma nth_error_map_seq : forall {A} (f : nat -> A) n from i, i < n -> nth_error (map f (seq from n)) i = Some (f (from + i)).
Proof.
  induction n as [|n IH]; intros from i H; [lia|]. destruct i; cbn; [now rewrite Nat.add_0_r|].
  rewrite IH by lia. do 2 f_equal. lia.
Qed.

Definition total_len (bs : list (nat * nat)) : nat := fold_right (fun b t => snd b + 1 - fst b + t) 0 bs.

Lemma pack_ok : forall m bs to sc o rs n, length o = n ->
  (forall b, In b bs -> fst b <= snd b < n) ->
  exists sc' o' rs', pack m bs to (length sc) sc o rs = Some (sc ++ sc', o', rs ++ rs') /\
    length o' = n /\ length rs' = length bs /\ rs' = copy_rows rs' (length sc) /\ length sc' = total_len bs /\
    (forall i b, nth_error bs i = Some b -> exists r, nth_error rs' i = Some r /\ row_holds (sc ++ sc') r b (m (to + i))) /\
    (forall g, g < n -> exists v, nth_error o g = Some v /\
       nth_error o' g = Some (v + rsum (fun i => match nth_error bs i with
                                                 | Some b => if in_band b g then m (to + i)%nat g else 0%R
                                                 | None => 0%R end) (length bs))%R).
Proof.
  induction bs as [|[lo hi] bs IH]; intros to sc o rs n Lo Hb; cbn [pack].
  - exists [], o, []. rewrite !app_nil_r. repeat split; auto.
    + intros i b H. destruct i; discriminate.
    + intros g Hg. destruct (nth_error o g) as [v|] eqn:E; [|apply nth_error_None in E; lia].
      exists v. split; auto. cbn. f_equal. lra.
  - destruct (Hb (lo, hi) (or_introl eq_refl)) as [B1 B2]. cbn [fst snd] in B1, B2.
    destruct (pack_row_ok (m to) (hi + 1 - lo) lo sc o ltac:(lia)) as (o1 & E1 & L1 & P1). rewrite E1.
    set (x := map (m to) (seq lo (hi + 1 - lo))) in *.
    assert (Lx : length x = hi + 1 - lo) by (unfold x; now rewrite map_length, seq_length).
    replace (length sc + (hi + 1 - lo)) with (length (sc ++ x)) by (rewrite app_length; lia).
    destruct (IH (S to) (sc ++ x) o1 (rs ++ [mkRow lo hi (length sc)]) n ltac:(congruence)) as (sc' & o' & rs' & E & L' & Lr & Cr & Ls & R' & O').
    { intros b H. apply Hb. now right. }
    exists (x ++ sc'), o', (mkRow lo hi (length sc) :: rs'). rewrite E, <- !app_assoc. cbn [app].
    split; [reflexivity|]. split; [exact L'|]. split; [cbn; lia|]. split.
    { cbn [copy_rows min_g max_g]. rewrite app_length, Lx in Cr. now rewrite <- Cr. }
    split; [rewrite app_length; unfold total_len in *; cbn [fold_right fst snd]; lia|]. split.
    + intros i b H. destruct i as [|i]; cbn in H.
      * injection H as <-. exists (mkRow lo hi (length sc)). split; [reflexivity|].
        rewrite app_assoc. apply row_holds_app. repeat split. cbn [rpos min_g].
        intros g Hg. unfold in_band in Hg. cbn [fst snd] in Hg. apply andb_prop in Hg. destruct Hg as [G1 G2].
        apply Nat.leb_le in G1. apply Nat.leb_le in G2. rewrite Nat.add_0_r.
        rewrite nth_error_app2 by lia. replace (length sc + (g - lo) - length sc) with (g - lo) by lia.
        unfold x. rewrite nth_error_map_seq by lia. do 2 f_equal. lia.
      * destruct (R' i b H) as (r & Hr & Hh). exists r. split; [exact Hr|].
        rewrite <- app_assoc in Hh. replace (to + S i) with (S to + i) by lia. exact Hh.
    + intros g Hg. destruct (O' g Hg) as (v1 & V1 & V2). rewrite P1 in V1.
      destruct (nth_error o g) as [v|] eqn:Ev; [|apply nth_error_None in Ev; lia]. exists v. split; auto. rewrite V2. f_equal.
      cbn [length]. rewrite <- (Nat.add_1_l (length bs)), rsum_app. cbn [rsum nth_error]. rewrite Nat.add_0_r.
      assert (Ib : in_band (lo, hi) g = ((lo <=? g) && (g <? lo + (hi + 1 - lo)))).
      { unfold in_band. cbn [fst snd]. destruct (Nat.leb_spec lo g), (Nat.leb_spec g hi), (Nat.ltb_spec g (lo + (hi + 1 - lo))); cbn [andb]; auto; lia. }
      rewrite Ib. symmetry. rewrite (rsum_ext _ (fun i => match nth_error bs i with Some b => if in_band b g then m (S to + i) g else 0%R | None => 0%R end)).
      2:{ intros i Hi. cbn [plus nth_error]. replace (to + S i) with (S to + i) by lia. reflexivity. }
      destruct ((lo <=? g) && (g <? lo + (hi + 1 - lo))); injection V1 as <-; lra.
Qed.

(** ** Construction *)

(** Row [i] of the compressed matrix [s] has bounds [b] and holds [f] there. *)
Lemma compress_ok : forall n m, exists s, compress n m = Some s /\ ng s = n /\ length (rows s) = n /\
  rows s = copy_rows (rows s) 0 /\
  (forall i, i < n -> exists r, nth_error (rows s) i = Some r /\ row_holds (scat s) r (band n (m i) i) (m i)) /\
  (forall g, g < n -> nth_error (out s) g = Some (rsum (fun i => if in_band (band n (m i) i) g then m i g else 0%R) n)) /\
  length (out s) = n /\ length (scat s) = total_len (map (fun to => band n (m to) to) (seq 0 n)).
Proof.
  intros n m. unfold compress. set (bs := map (fun to => band n (m to) to) (seq 0 n)).
  assert (Lb : length bs = n) by (unfold bs; now rewrite map_length, seq_length).
  assert (Nb : forall i, i < n -> nth_error bs i = Some (band n (m i) i)).
  { intros i Hi. unfold bs. now rewrite nth_error_map_seq. }
  destruct (pack_ok m bs 0 [] (repeat 0%R n) [] n) as (sc & o & rs & E & Lo & Lr & Cr & Ls & R & O).
  - apply repeat_length.
  - intros b H. unfold bs in H. apply in_map_iff in H. destruct H as (i & <- & Hi). apply in_seq in Hi.
    destruct (band n (m i) i) as [lo hi] eqn:Eb. destruct (band_spec n (m i) i lo hi ltac:(lia) Eb) as (B1 & B2 & _). cbn. lia.
  - cbn [length app] in E. rewrite E. eexists. split; [reflexivity|]. cbn [ng rows scat out].
    split; [reflexivity|]. split; [lia|]. split; [exact Cr|]. split; [|split; [|split; [exact Lo|exact Ls]]].
    + intros i Hi. destruct (R i _ (Nb i Hi)) as (r & Hr & Hh). exists r. split; auto.
    + intros g Hg. destruct (O g Hg) as (v & V1 & V2). rewrite V2. f_equal.
      assert (Hv : v = 0%R) by (apply (repeat_spec n 0%R v); eapply nth_error_In; exact V1). subst v.
      rewrite Lb. rewrite Rplus_0_l. apply rsum_ext. intros i Hi. now rewrite (Nb i Hi).
Qed.

(** Off-diagonal entries that are never negative. *)
Definition off_diag_nonneg (n : nat) (m : nat -> nat -> R) : Prop :=
  forall i g, i < n -> g < n -> i <> g -> (0 <= m i g)%R.

Lemma band_value : forall n m i g, off_diag_nonneg n m -> i < n -> g < n ->
  (if in_band (band n (m i) i) g then m i g else 0%R) = m i g.
Proof.
  intros n m i g N Hi Hg. destruct (in_band (band n (m i) i) g) eqn:E; auto.
  destruct (band n (m i) i) as [lo hi] eqn:Eb. destruct (band_spec n (m i) i lo hi Hi Eb) as (B1 & B2 & B3).
  unfold in_band in E. cbn in E. assert (C : g < lo \/ hi < g).
  { destruct (Nat.leb_spec lo g), (Nat.leb_spec g hi); cbn in E; try discriminate; lia. }
  assert (i <> g) by lia. specialize (B3 g Hg C). specialize (N i g Hi Hg H). lra.
Qed.

Lemma row_get_holds : forall s r b f g, row_holds (scat s) r b f ->
  row_get s r g = if in_band b g then Some (f g) else None.
Proof.
  intros s r b f g (H1 & H2 & H3). unfold row_get. rewrite H1, H2. destruct (in_band b g) eqn:E; unfold in_band in E; rewrite E; auto.
  specialize (H3 g E). now rewrite H1 in H3.
Qed.

(** ** Expansion *)

Lemma vec_row_ok : forall s r b f ig cnt igg v, row_holds (scat s) r b f -> fst b <= igg -> igg + cnt <= snd b + 1 ->
  ng s * ig + (snd b + 1) <= length v -> 
  exists v', vec_row s r ig igg cnt v = Some v' /\ length v' = length v /\
    forall k, nth_error v' k = if (ng s * ig + igg <=? k) && (k <? ng s * ig + (igg + cnt))
                               then Some (f (k - ng s * ig)) else nth_error v k.
Proof.
  intros s r b f ig cnt. induction cnt as [|c IH]; intros igg v Hr H1 H2 L; cbn [vec_row].
  - exists v. repeat split; auto. intros k. destruct (Nat.leb_spec (ng s * ig + igg) k), (Nat.ltb_spec k (ng s * ig + (igg + 0))); cbn; auto; lia.
  - rewrite (row_get_holds s r b f igg Hr).
    assert (Ib : in_band b igg = true) by (unfold in_band; apply andb_true_intro; split; apply Nat.leb_le; lia). rewrite Ib.
    destruct (set_nth_some v (ng s * ig + igg) (f igg) ltac:(lia)) as (v1 & E1 & L1). rewrite E1.
    destruct (IH (S igg) v1 Hr ltac:(lia) ltac:(lia) ltac:(lia)) as (v' & E' & L' & P').
    exists v'. rewrite E'. repeat split; try congruence. intros k. rewrite P'.
    destruct (set_nth_spec _ _ _ _ E1) as (_ & _ & S1). rewrite S1.
    destruct (Nat.eqb_spec k (ng s * ig + igg)) as [->|Ne].
    + destruct (Nat.leb_spec (ng s * ig + S igg) (ng s * ig + igg)); [lia|]. cbn [andb].
      destruct (Nat.leb_spec (ng s * ig + igg) (ng s * ig + igg)); [|lia].
      destruct (Nat.ltb_spec (ng s * ig + igg) (ng s * ig + (igg + S c))); [|lia]. cbn [andb]. do 2 f_equal. lia.
    + destruct (Nat.leb_spec (ng s * ig + S igg) k), (Nat.leb_spec (ng s * ig + igg) k),
        (Nat.ltb_spec k (ng s * ig + (S igg + c))), (Nat.ltb_spec k (ng s * ig + (igg + S c))); cbn [andb]; auto; lia.
Qed.

Lemma vec_rows_ok : forall s m bs rs ig v, ng s * (ig + length rs) <= length v -> length rs = length bs ->
  (forall b, In b bs -> fst b <= snd b < ng s) ->
  (forall i b, nth_error bs i = Some b -> exists r, nth_error rs i = Some r /\ row_holds (scat s) r b (m (ig + i))) ->
  exists v', vec_rows s rs ig v = Some v' /\ length v' = length v /\
    forall i g, g < ng s -> nth_error v' (ng s * i + g) =
      if (ig <=? i) && (i <? ig + length rs)
      then match nth_error bs (i - ig) with
           | Some b => if in_band b g then Some (m i g) else nth_error v (ng s * i + g)
           | None => None end
      else nth_error v (ng s * i + g).
Proof.
  intros s m bs. induction bs as [|b bs IH]; intros rs ig v L Lr Hb H; destruct rs as [|r rs]; cbn in Lr; try lia.
  - exists v. repeat split; auto. intros i g _. destruct (Nat.leb_spec ig i), (Nat.ltb_spec i (ig + length (@nil Row))); cbn in *; auto; lia.
  - cbn [vec_rows]. destruct (H 0 b eq_refl) as (r0 & Hr0 & Hh). cbn in Hr0. injection Hr0 as <-. rewrite Nat.add_0_r in Hh.
    destruct (Hb b (or_introl eq_refl)) as [B1 B2].
    assert (Lr' : length (r :: rs) = S (length rs)) by reflexivity.
    assert (M : ng s * (ig + 1) <= ng s * (ig + length (r :: rs))) by (apply Nat.mul_le_mono_l; lia).
    destruct Hh as (M1 & M2 & M3).
    destruct (vec_row_ok s r b (m ig) ig (max_g r + 1 - min_g r) (min_g r) v) as (v1 & E1 & L1 & P1); try (repeat split; auto; fail); try lia.
    rewrite E1.
    destruct (IH rs (S ig) v1) as (v' & E' & L' & P'); try lia.
    { intros b' Hb'. apply Hb. now right. }
    { intros i b' Hi. destruct (H (S i) b' Hi) as (r' & Hr' & Hh'). exists r'. split; auto.
      replace (S ig + i) with (ig + S i) by lia. exact Hh'. }
    exists v'. rewrite E'. split; auto. split; [congruence|]. intros i g Hg. rewrite (P' i g Hg), P1, M1, M2.
    assert (Rng : forall i', i' <> ig -> (ng s * ig + fst b <=? ng s * i' + g) && (ng s * i' + g <? ng s * ig + (fst b + (snd b + 1 - fst b))) = false).
    { intros i' Ne. destruct (Nat.lt_ge_cases i' ig) as [C|C].
      - pose proof (Nat.mul_le_mono_l (i' + 1) ig (ng s) ltac:(lia)).
        destruct (Nat.leb_spec (ng s * ig + fst b) (ng s * i' + g)); auto. lia.
      - pose proof (Nat.mul_le_mono_l (ig + 1) i' (ng s) ltac:(lia)).
        destruct (Nat.ltb_spec (ng s * i' + g) (ng s * ig + (fst b + (snd b + 1 - fst b)))); [lia|]. now rewrite andb_false_r. }
    destruct (Nat.eq_dec i ig) as [->|Ne].
    + destruct (Nat.leb_spec (S ig) ig); [lia|]. cbn [andb].
      destruct (Nat.leb_spec ig ig); [|lia]. destruct (Nat.ltb_spec ig (ig + length (r :: rs))); [|lia]. cbn [andb].
      rewrite Nat.sub_diag. cbn [nth_error]. unfold in_band.
      replace (ng s * ig + g - ng s * ig) with g by lia.
      destruct (Nat.leb_spec (ng s * ig + fst b) (ng s * ig + g)), (Nat.leb_spec (fst b) g), (Nat.leb_spec g (snd b)),
        (Nat.ltb_spec (ng s * ig + g) (ng s * ig + (fst b + (snd b + 1 - fst b)))); cbn [andb]; auto; lia.
    + rewrite (Rng i Ne). cbn [length].
      destruct (Nat.leb_spec (S ig) i), (Nat.leb_spec ig i), (Nat.ltb_spec i (S ig + length rs)), (Nat.ltb_spec i (ig + S (length rs)));
        cbn [andb]; auto; try lia.
      replace (i - ig) with (S (i - S ig)) by lia. reflexivity.
Qed.

(** ** Outgoing distribution *)

Lemma cdf_loop_ok : forall s m bs rs k ig scale prev, length rs = length bs ->
  (forall i b, nth_error bs i = Some b -> exists r, nth_error rs i = Some r /\ row_holds (scat s) r b (m (k + i))) ->
  exists c, cdf_loop s ig scale prev rs = Some c /\ length c = length rs /\
    forall i, i < length rs -> nth_error c i = Some (prev + rsum (fun j => match nth_error bs j with
                                                        | Some b => if in_band b ig then m (k + j)%nat ig else 0 | None => 0 end) (S i) * scale)%R.
Proof.
  intros s m bs. induction bs as [|b bs IH]; intros rs k ig scale prev Lr H; destruct rs as [|r rs]; cbn in Lr; try lia.
  - exists []. repeat split; auto. cbn. lia.
  - cbn [cdf_loop]. destruct (H 0 b eq_refl) as (r0 & Hr0 & Hh). cbn in Hr0. injection Hr0 as <-. rewrite Nat.add_0_r in Hh.
    pose proof (row_get_holds s r b (m k) ig Hh) as G. destruct Hh as (M1 & M2 & _).
    assert (V : (if (min_g r <=? ig) && (ig <=? max_g r) then row_get s r ig else Some 0%R) = Some (if in_band b ig then m k ig else 0%R)).
    { rewrite G. unfold in_band. rewrite M1, M2. now destruct ((fst b <=? ig) && (ig <=? snd b)). }
    rewrite V. set (x := if in_band b ig then m k ig else 0%R) in *.
    destruct (IH rs (S k) ig scale (prev + x * scale)%R) as (c & Ec & Lc & Pc); [lia| |].
    { intros i b' Hi. destruct (H (S i) b' Hi) as (r' & Hr' & Hh'). exists r'. split; auto.
      replace (S k + i) with (k + S i) by lia. exact Hh'. }
    rewrite Ec. exists ((prev + x * scale)%R :: c). split; auto. split; [cbn; lia|].
    assert (Sh : forall i, rsum (fun j => match nth_error (b :: bs) j with Some b0 => if in_band b0 ig then m (k + j)%nat ig else 0 | None => 0 end)%R (S i)
      = (x + rsum (fun j => match nth_error bs j with Some b0 => if in_band b0 ig then m (S k + j)%nat ig else 0 | None => 0 end) i)%R).
    { intros i. rewrite <- (Nat.add_1_l i), rsum_app. cbn [rsum nth_error]. rewrite Nat.add_0_r. fold x. rewrite Rplus_0_l. f_equal.
      apply rsum_ext. intros j _. cbn [plus nth_error]. replace (k + S j) with (S k + j) by lia. reflexivity. }
    intros i Hi. destruct i as [|i]; cbn [nth_error].
    + rewrite Sh. cbn [rsum]. f_equal. lra.
    + cbn in Hi. rewrite (Pc i ltac:(lia)). rewrite (Sh (S i)). f_equal. lra.
Qed.

Lemma vec_eqb_eq : forall a b, vec_eqb a b = true <-> a = b.
Proof.
  induction a as [|x a IH]; intros [|y b]; cbn; split; try discriminate; auto.
  - intros H. apply andb_prop in H. destruct H as [H1 H2]. apply IH in H2. subst b.
    destruct (Reqb_spec x y); [now subst|discriminate].
  - intros H. injection H as -> ->. destruct (Reqb_spec y y); [|contradiction]. now apply IH.
Qed.
