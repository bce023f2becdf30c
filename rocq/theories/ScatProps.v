(** Properties C19, C20 and C74: the compressed scattering matrix. *)
From Coq Require Import List Lia Bool Reals Lra.
From Verif Require Import RUtil McModel McProofs ListUtil ScatModel ScatProofs.
Import ListNotations.
Open Scope nat_scope.

Lemma nth_repeat0 : forall n i, i < n -> nth_error (repeat 0%R n) i = Some 0%R.
Proof. induction n; intros i H; [lia|]. destruct i; cbn; auto. apply IHn. lia. Qed.

(** ** C19 *)

(** Missing: negative entries off the diagonal, which may be dropped (see C19_round_trip_refuted). *)
Theorem C19_round_trip_partial : forall n m, off_diag_nonneg n m ->
  exists s v, compress n m = Some s /\ as_vector s = Some v /\ length v = n * n /\
    forall to from, to < n -> from < n -> nth_error v (n * to + from) = Some (m to from).
Proof.
  intros n m N. destruct (compress_ok n m) as (s & E & Eg & Lr & _ & R & _). exists s.
  destruct (vec_rows_ok s m (map (fun to => band n (m to) to) (seq 0 n)) (rows s) 0 (repeat 0%R (ng s * ng s))) as (v & Ev & Lv & P).
  - rewrite repeat_length, Lr, Eg. cbn. lia.
  - now rewrite map_length, seq_length.
  - intros b H. apply in_map_iff in H. destruct H as (i & <- & Hi). apply in_seq in Hi.
    destruct (band n (m i) i) as [lo hi] eqn:Eb. destruct (band_spec n (m i) i lo hi ltac:(lia) Eb) as (B1 & B2 & _). cbn. lia.
  - intros i b H. assert (Hi : i < n).
    { assert (X : i < length (map (fun to => band n (m to) to) (seq 0 n))) by (apply nth_error_Some; congruence). now rewrite map_length, seq_length in X. }
    rewrite nth_error_map_seq in H by auto. injection H as <-. apply R. exact Hi.
  - exists v. split; [exact E|]. split; [exact Ev|]. split; [now rewrite Lv, repeat_length, Eg|].
    intros to from Ht Hf. rewrite Eg in P. rewrite (P to from Hf), Lr. cbn [Nat.leb plus].
    destruct (Nat.ltb_spec to n); [|lia]. cbn [andb]. rewrite Nat.sub_0_r, nth_error_map_seq by auto. cbn [plus].
    rewrite <- (band_value n m to from N Ht Hf). 
    destruct (in_band (band n (m to) to) from) eqn:Ib; auto. apply nth_repeat0.
    pose proof (Nat.mul_le_mono_l (to + 1) n n ltac:(lia)). lia.
Qed.
Print Assumptions C19_round_trip_partial.

(** Element access: inside a row's bounds the stored value is the dense one, outside them the dense value is zero,
    and the bounds always include the diagonal. *)
Theorem C19_access : forall n m, exists s, compress n m = Some s /\ ng s = n /\
  forall to, to < n -> exists r, nth_error (rows s) to = Some r /\ min_g r <= to <= max_g r /\ max_g r < n /\
    (forall from, min_g r <= from <= max_g r -> row_get s r from = Some (m to from)) /\
    (forall from, from < n -> ~ min_g r <= from <= max_g r -> (m to from <= 0)%R).
Proof.
  intros n m. destruct (compress_ok n m) as (s & E & Eg & _ & _ & R & _). exists s. split; [exact E|]. split; [exact Eg|].
  intros to Ht. destruct (R to Ht) as (r & Er & Hh). exists r. split; [exact Er|].
  destruct (band n (m to) to) as [lo hi] eqn:Eb. destruct (band_spec n (m to) to lo hi Ht Eb) as (B1 & B2 & B3).
  pose proof Hh as (M1 & M2 & _). cbn in M1, M2. rewrite M1, M2. split; [exact B1|]. split; [exact B2|]. split.
  - intros from Hf. rewrite (row_get_holds s r _ _ from Hh). unfold in_band. cbn [fst snd].
    destruct (Nat.leb_spec lo from), (Nat.leb_spec from hi); cbn; auto; lia.
  - intros from Hf Hn. apply B3; auto. lia.
Qed.
Print Assumptions C19_access.

Theorem C19_self_scatter : forall n m, exists s, compress n m = Some s /\ forall g, g < n -> self_scat s g = Some (m g g).
Proof.
  intros n m. destruct (C19_access n m) as (s & E & _ & A). exists s. split; [exact E|]. intros g Hg.
  destruct (A g Hg) as (r & Er & B & _ & V & _). unfold self_scat. rewrite Er. apply V. lia.
Qed.
Print Assumptions C19_self_scatter.

Theorem C19_out_is_column_sum_partial : forall n m, off_diag_nonneg n m ->
  exists s, compress n m = Some s /\ length (out s) = n /\
    forall g, g < n -> nth_error (out s) g = Some (rsum (fun to => m to g) n).
Proof.
  intros n m N. destruct (compress_ok n m) as (s & E & _ & _ & _ & _ & O & L & _). exists s. split; [exact E|]. split; [exact L|].
  intros g Hg. rewrite (O g Hg). f_equal. apply rsum_ext. intros i Hi. now apply band_value.
Qed.
Print Assumptions C19_out_is_column_sum_partial.

(** Copies and assignments read the same rows. *)
Theorem C19_copy : forall n m s, compress n m = Some s -> copy s = s.
Proof.
  intros n m s E. destruct (compress_ok n m) as (s' & E' & _ & _ & C & _). rewrite E in E'. injection E' as <-.
  unfold copy. rewrite <- C. now destruct s.
Qed.
Print Assumptions C19_copy.

(** The vector-of-vectors constructor throws exactly on non-square input, and otherwise reads element [to][from]. *)
Theorem C19_square_input : forall v,
  (convert_vvec v = None <-> exists r, In r v /\ length r <> length v) /\
  (forall m, convert_vvec v = Some m -> forall to row from x, nth_error v to = Some row -> nth_error row from = Some x -> m to from = x).
Proof.
  intros v. unfold convert_vvec. destruct (forallb (fun r => length r =? length v) v) eqn:E.
  - split.
    + split; [discriminate|]. intros (r & Hr & Hn). rewrite forallb_forall in E. specialize (E r Hr). apply Nat.eqb_eq in E. lia.
    + intros m H. injection H as <-. intros to row from x H1 H2. rewrite (nth_error_nth v to [] H1). now apply nth_error_nth.
  - split; [|discriminate]. split; auto. intros _.
    assert (X : exists r, In r v /\ (length r =? length v) = false).
    { revert E. generalize (length v). intros k. induction v as [|a v IH]; cbn; [discriminate|].
      destruct (length a =? k) eqn:Ea; cbn; intros E.
      - destruct (IH E) as (r & Hr & Hq). exists r. auto.
      - exists a. auto. }
    destruct X as (r & Hr & Hq). exists r. split; auto. now apply Nat.eqb_neq.
Qed.
Print Assumptions C19_square_input.

(** Without the sign condition the round trip loses entries. *)
Theorem C19_round_trip_refuted : exists n m s v, compress n m = Some s /\ as_vector s = Some v /\
  exists to from, to < n /\ from < n /\ nth_error v (n * to + from) <> Some (m to from).
Proof.
  set (m := fun to from => match to, from with 0, 0 => 1 | 0, _ => -1 | S _, 0 => 0 | S _, _ => 1 end%R).
  exists 2, m.
  assert (B0 : band 2 (m 0) 0 = (0, 0)).
  { unfold band. cbn. rewrite (Rltb_true 0 1), (Rltb_false 0 (-1)) by lra. reflexivity. }
  assert (B1 : band 2 (m 1) 1 = (1, 1)).
  { unfold band. cbn. rewrite (Rltb_true 0 1), (Rltb_false 0 0) by lra. reflexivity. }
  unfold compress. cbn [seq map]. rewrite B0, B1. cbn.
  do 2 eexists. split; [reflexivity|]. split; [reflexivity|].
  exists 0, 1. split; [lia|]. split; [lia|]. cbn. intros E. injection E as E. lra.
Qed.
Print Assumptions C19_round_trip_refuted.

Definition sc_ex : nat -> nat -> R := fun to from =>
  match to, from with 0, 0 => 5 | 1, 0 => 2 | 1, 2 => 1 | 2, 0 => 3 | 2, 2 => -1 | _, _ => 0 end%R.
Example C19_instance : off_diag_nonneg 3 sc_ex /\ rsum (fun to => sc_ex to 0) 3 = 10%R /\
  (exists s, compress 3 sc_ex = Some s) /\ (exists m, convert_vvec [[1%R; 2%R]; [3%R; 4%R]] = Some m).
Proof.
  split; [|split; [|split]].
  - intros i g Hi Hg Ne. destruct i as [|[|[|]]], g as [|[|[|]]]; cbn; try lia; lra.
  - cbn. lra.
  - destruct (compress_ok 3 sc_ex) as (s & E & _). eauto.
  - eexists. reflexivity.
Qed.

(** ** C20 *)

Theorem C20_cdf : forall n m g, (forall to from, to < n -> from < n -> (0 <= m to from)%R) -> g < n ->
  (0 < rsum (fun to => m to g) n)%R ->
  exists s c, compress n m = Some s /\ out_cdf s g = Some c /\ length c = n /\
    (forall k, k < n -> nth_error c k = Some (rsum (fun to => m to g) (S k) / rsum (fun to => m to g) n)%R) /\
    (forall j k x y, j <= k -> nth_error c j = Some x -> nth_error c k = Some y -> (x <= y)%R) /\
    (forall k x, nth_error c k = Some x -> (0 <= x <= 1)%R) /\
    nth_error c (n - 1) = Some 1%R.
Proof.
  intros n m g N Hg Hp. assert (N' : off_diag_nonneg n m) by (intros i j Hi Hj _; auto).
  destruct (compress_ok n m) as (s & E & Eg & Lr & _ & R & O & Lo & _). exists s.
  set (bs := map (fun to => band n (m to) to) (seq 0 n)).
  set (tot := rsum (fun to => m to g) n) in *.
  destruct (cdf_loop_ok s m bs (rows s) 0 g (1 / tot)%R 0%R) as (c & Ec & Lc & Pc).
  - unfold bs. now rewrite map_length, seq_length.
  - intros i b H. assert (Hi : i < n).
    { assert (X : i < length bs) by (apply nth_error_Some; congruence). unfold bs in X. now rewrite map_length, seq_length in X. }
    unfold bs in H. rewrite nth_error_map_seq in H by auto. injection H as <-. apply R. exact Hi.
  - assert (Og : nth_error (out s) g = Some tot).
    { rewrite (O g Hg). f_equal. apply rsum_ext. intros i Hi. now apply band_value. }
    assert (V : forall k, k < n -> nth_error c k = Some (rsum (fun to => m to g) (S k) / tot)%R).
    { intros k Hk. rewrite (Pc k ltac:(lia)). f_equal. rewrite Rplus_0_l. unfold Rdiv. rewrite Rmult_1_l. f_equal.
      apply rsum_ext. intros i Hi. unfold bs. rewrite nth_error_map_seq by lia. cbn [plus]. apply band_value; auto; lia. }
    assert (B : forall k x, nth_error c k = Some x -> k < n).
    { intros k x H. rewrite <- Lr, <- Lc. apply nth_error_Some. congruence. }
    assert (It : (0 < / tot)%R) by now apply Rinv_0_lt_compat.
    exists c. split; [exact E|]. split.
    { unfold out_cdf. rewrite Og. destruct (Reqb_spec tot 0); [lra|]. exact Ec. }
    split; [lia|]. split; [exact V|]. split; [|split].
    + intros j k x y Hjk Hx Hy. pose proof (B _ _ Hx). pose proof (B _ _ Hy). rewrite V in Hx, Hy by auto.
      injection Hx as <-. injection Hy as <-. apply Rmult_le_compat_r; [lra|].
      apply (rsum_mono (fun to => m to g) (S j) (S k)); [lia|]. intros i Hi. apply N; auto; lia.
    + intros k x Hx. pose proof (B _ _ Hx). rewrite V in Hx by auto. injection Hx as <-. split.
      * apply Rmult_le_pos; [|lra]. apply (rsum_nonneg (fun to => m to g) (S k)). intros i Hi. apply N; auto; lia.
      * replace 1%R with (tot / tot)%R by (field; lra). apply Rmult_le_compat_r; [lra|].
        apply (rsum_mono (fun to => m to g) (S k) n); [lia|]. intros i Hi. apply N; auto; lia.
    + rewrite V by lia. replace (S (n - 1)) with n by lia. fold tot. f_equal. field. lra.
Qed.
Print Assumptions C20_cdf.

Definition sc_pos : nat -> nat -> R := fun to from => match to, from with 0, 0 => 1 | 2, 0 => 3 | _, _ => 0 end%R.
Example C20_instance : (forall to from, to < 3 -> from < 3 -> (0 <= sc_pos to from)%R) /\ (0 < rsum (fun to => sc_pos to 0) 3)%R.
Proof.
  split; [|cbn; lra]. intros i g Hi Hg. destruct i as [|[|[|]]], g as [|[|[|]]]; cbn; try lia; lra.
Qed.

(** ** C74 *)

(** Equal dense matrices give equal compressed ones ... *)
Theorem C74_equal_if_dense_equal : forall n m1 m2 s1 s2, compress n m1 = Some s1 -> compress n m2 = Some s2 ->
  (forall to from, to < n -> from < n -> m1 to from = m2 to from) -> sm_eqb s1 s2 = true.
Proof.
  intros n m1 m2 s1 s2 E1 E2 H.
  assert (FB : forall f1 f2 cnt from cur, (forall g, from <= g < from + cnt -> f1 g = f2 g) -> first_bound f1 from cnt cur = first_bound f2 from cnt cur).
  { intros f1 f2. induction cnt as [|c IH]; intros from cur Hf; cbn; auto. rewrite (Hf from) by lia.
    destruct (Rltb 0 (f2 from)); auto. apply IH. intros g Hg. apply Hf. lia. }
  assert (LB : forall f1 f2 cnt cur, (forall g, g < cnt -> f1 g = f2 g) -> last_bound f1 cnt cur = last_bound f2 cnt cur).
  { intros f1 f2. induction cnt as [|c IH]; intros cur Hf; cbn; auto. rewrite (Hf c) by lia.
    destruct (Rltb 0 (f2 c)); auto. }
  assert (BB : forall to, to < n -> band n (m1 to) to = band n (m2 to) to).
  { intros to Ht. unfold band. rewrite (FB (m1 to) (m2 to)), (LB (m1 to) (m2 to)); auto. intros g Hg. apply H; lia. }
  assert (PR : forall f1 f2 cnt from sc o, (forall g, from <= g < from + cnt -> f1 g = f2 g) -> pack_row f1 from cnt sc o = pack_row f2 from cnt sc o).
  { intros f1 f2. induction cnt as [|c IH]; intros from sc o Hf; cbn; auto. rewrite (Hf from) by lia.
    destruct (nth_error o from); auto. destruct (set_nth o from _); auto. apply IH. intros g Hg. apply Hf. lia. }
  assert (PK : forall bs to pos sc o rs, to + length bs <= n -> (forall b, In b bs -> snd b < n) ->
     pack m1 bs to pos sc o rs = pack m2 bs to pos sc o rs).
  { induction bs as [|[lo hi] bs IH]; intros to pos sc o rs Hl Hb; cbn [pack]; auto.
    assert (hi < n) by (apply (Hb (lo, hi)); now left). cbn in Hl.
    rewrite (PR (m1 to) (m2 to)) by (intros g Hg; apply H; lia).
    destruct (pack_row (m2 to) lo (hi + 1 - lo) sc o) as [[sc' o']|]; auto. apply IH; [lia|]. intros b Hb'. apply Hb. now right. }
  unfold compress in E1, E2.
  rewrite (map_ext_in _ (fun to => band n (m2 to) to)) in E1 by (intros to Ht; apply in_seq in Ht; apply BB; lia).
  rewrite PK in E1.
  - rewrite E1 in E2. injection E2 as <-. unfold sm_eqb. rewrite Nat.eqb_refl. cbn [andb].
    apply andb_true_intro. split; now apply vec_eqb_eq.
  - rewrite map_length, seq_length. lia.
  - intros b Hb. apply in_map_iff in Hb. destruct Hb as (i & <- & Hi). apply in_seq in Hi.
    destruct (band n (m2 i) i) as [lo hi] eqn:Eb. destruct (band_spec n (m2 i) i lo hi ltac:(lia) Eb) as (_ & B & _). exact B.
Qed.
Print Assumptions C74_equal_if_dense_equal.

(** ... but different dense matrices may compare equal: the row bounds are not compared. *)
Theorem C74_equality_refuted : exists n m1 m2 s1 s2, compress n m1 = Some s1 /\ compress n m2 = Some s2 /\
  (forall to from, (0 <= m1 to from)%R /\ (0 <= m2 to from)%R) /\
  sm_eqb s1 s2 = true /\ exists to from, to < n /\ from < n /\ m1 to from <> m2 to from.
Proof.
  set (m1 := fun to from => match to, from with 0, 0 | 0, 1 | 1, 1 | 2, 2 => 1 | _, _ => 0 end%R).
  set (m2 := fun to from => match to, from with 0, 0 | 1, 1 | 2, 1 | 2, 2 => 1 | _, _ => 0 end%R).
  exists 3, m1, m2.
  assert (T : Rltb 0 1 = true) by (apply Rltb_true; lra). assert (F : Rltb 0 0 = false) by (apply Rltb_false; lra).
  assert (B : band 3 (m1 0) 0 = (0, 1) /\ band 3 (m1 1) 1 = (1, 1) /\ band 3 (m1 2) 2 = (2, 2) /\
              band 3 (m2 0) 0 = (0, 0) /\ band 3 (m2 1) 1 = (1, 1) /\ band 3 (m2 2) 2 = (1, 2)).
  { repeat split; unfold band; cbn; rewrite ?T, ?F; reflexivity. }
  destruct B as (B1 & B2 & B3 & B4 & B5 & B6).
  unfold compress. cbn [seq map]. rewrite B1, B2, B3, B4, B5, B6. cbn.
  do 2 eexists. split; [reflexivity|]. split; [reflexivity|]. split; [|split].
  - intros to from. split; destruct to as [|[|[|]]], from as [|[|[|]]]; cbn; lra.
  - unfold sm_eqb. cbn [ng scat out]. cbn [Nat.eqb andb]. apply andb_true_intro. split; apply vec_eqb_eq; auto.
  - exists 0, 1. split; [lia|]. split; [lia|]. cbn. lra.
Qed.
Print Assumptions C74_equality_refuted.

Example C74_instance : (exists s, compress 3 sc_ex = Some s) /\ (forall to from, to < 3 -> from < 3 -> sc_ex to from = sc_ex to from).
Proof. split; auto. destruct (compress_ok 3 sc_ex) as (s & E & _). eauto. Qed.
