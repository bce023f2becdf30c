(** Lemmas about reading and writing homogenized cross sections in files (XsFileModel.v). *)
From Coq Require Import List Lia Bool Arith ZArith Reals Lra.
From Verif Require Import RUtil ScatModel McModel XsModel H5Model ScatProofs ScatProps RngSpec MeshSpec MeshProofs PflProps HomProps XsFileModel.
Import ListNotations.
Open Scope nat_scope.

(** ** Loops *)
Lemma hb_ok : forall {A B} (o : HOut A) (f : A -> HOut B) b, hb o f = HOk b -> exists a, o = HOk a /\ f a = HOk b.
Proof. intros A B [a| | | |] f b H; cbn in H; try discriminate. eauto. Qed.
Lemma hloop_rel : forall {A S} (P : list A -> S -> S -> Prop) (body : A -> S -> HOut S) l s s',
  (forall s, P [] s s) -> (forall a r s s1 s2, In a l -> body a s = HOk s1 -> P r s1 s2 -> P (a :: r) s s2) ->
  hloop body l s = HOk s' -> P l s s'.
Proof.
  intros A S P body l. assert (G : forall r s s', (forall a, In a r -> In a l) -> (forall s, P [] s s) -> (forall a r s s1 s2, In a l -> body a s = HOk s1 -> P r s1 s2 -> P (a :: r) s s2) -> hloop body r s = HOk s' -> P r s s').
  { induction r as [|a r IH]; intros s s' I H0 H1 E; cbn [hloop] in E.
    - injection E as <-. apply H0.
    - destruct (hb_ok _ _ _ E) as (s1 & E1 & E2). eapply H1; [apply I; now left|exact E1|]. apply IH; auto. intros b Hb. apply I. now right. }
  intros s s' H0 H1 E. apply G; auto.
Qed.
Lemma hloop_total : forall {A S} (Inv : S -> Prop) (body : A -> S -> HOut S) l s, Inv s ->
  (forall a s, In a l -> Inv s -> exists s', body a s = HOk s' /\ Inv s') -> exists s', hloop body l s = HOk s' /\ Inv s'.
Proof.
  intros A S Inv body l. induction l as [|a l IH]; intros s I H; cbn [hloop]; [eauto|].
  destruct (H a s (or_introl eq_refl) I) as (s1 & E & I1). rewrite E. cbn [hb]. apply IH; auto. intros b t Hb. apply H. now right.
Qed.
(** Neither undefined nor aborted. *)
Definition fine {A} (o : HOut A) : Prop := o <> HUB /\ o <> HAbort.
Lemma fine_ok : forall {A} (a : A), fine (HOk a). Proof. split; discriminate. Qed.
Lemma fine_throw : forall {A}, fine (@HThrow A). Proof. split; discriminate. Qed.
Lemma fine_hb : forall {A B} (o : HOut A) (f : A -> HOut B), fine o -> (forall a, o = HOk a -> fine (f a)) -> fine (hb o f).
Proof. intros A B [a| | | |] f [H1 H2] H; cbn; try (split; congruence). apply H. reflexivity. Qed.
Lemma fine_loop : forall {A S} (Inv : S -> Prop) (body : A -> S -> HOut S) l s, Inv s ->
  (forall a s, In a l -> Inv s -> fine (body a s) /\ forall s', body a s = HOk s' -> Inv s') -> fine (hloop body l s).
Proof.
  intros A S Inv body l. induction l as [|a l IH]; intros s I H; cbn [hloop]; [apply fine_ok|].
  destruct (H a s (or_introl eq_refl) I) as (F & P). apply fine_hb; [exact F|]. intros s1 E. apply IH; [now apply P|]. intros b t Hb. apply H. now right.
Qed.

(** ** Reactions *)
Inductive Rx := TR | NF | CH | KF.
Definition xget (x : Rx) (s : HX) : nat -> R := match x with TR => x_tr s | NF => x_nf s | CH => x_ch s | KF => x_f s end.
Definition xset (x : Rx) (f : XFile) : nat -> option DS := match x with TR => xf_tr f | NF => xf_nf f | CH => xf_ch f | KF => xf_f f end.
Definition bget (x : Rx) (b : list R * list R * list R * list R) : list R :=
  let '(t, n, c, k) := b in match x with TR => t | NF => n | CH => c | KF => k end.
Lemma read_bufs_ok : forall n ig f b, read_bufs n ig f = HOk b -> forall x, exists d, xset x f ig = Some (d, bget x b) /\ (n = 0 \/ length (bget x b) = n).
Proof.
  intros n ig f b H. unfold read_bufs in H.
  apply hb_ok in H. destruct H as (t & Et & H). apply hb_ok in H. destruct H as (nf & En & H). apply hb_ok in H. destruct H as (c & Ec & H). apply hb_ok in H. destruct H as (k & Ek & H).
  injection H as <-. assert (G : forall o v, read_buf n o = HOk v -> exists d, o = Some (d, v) /\ (n = 0 \/ length v = n)).
  { intros [[d v]|] w E; cbn in E; [|discriminate]. destruct (Nat.eqb_spec n 0) as [Z|Z]; cbn [orb] in E; [injection E as <-; eauto|].
    destruct (Nat.eqb_spec (length v) n) as [Y|Y]; [|discriminate]. injection E as <-. eauto. }
  intros []; cbn [xset bget]; now apply G.
Qed.
Lemma read_bufs_total : forall n ig f, (forall x, exists d v, xset x f ig = Some (d, v) /\ length v = n) ->
  exists b, read_bufs n ig f = HOk b /\ forall x, length (bget x b) = n.
Proof.
  intros n ig f H. destruct (H TR) as (d1 & t & E1 & L1). destruct (H NF) as (d2 & nf & E2 & L2). destruct (H CH) as (d3 & c & E3 & L3). destruct (H KF) as (d4 & k & E4 & L4).
  cbn [xset] in *. exists (t, nf, c, k). unfold read_bufs, read_buf. rewrite E1, E2, E3, E4, L1, L2, L3, L4, Nat.eqb_refl, orb_true_r. cbn [hb]. split; [reflexivity|]. intros []; assumption.
Qed.
Lemma read_bufs_fine : forall n ig f, fine (read_bufs n ig f).
Proof.
  intros n ig f. assert (G : forall o, fine (read_buf n o)).
  { intros [[d v]|]; unfold read_buf; [|apply fine_throw]. destruct (_ || _); [apply fine_ok|apply fine_throw]. }
  unfold read_bufs. apply fine_hb; [apply G|intros t _]. apply fine_hb; [apply G|intros nf _]. apply fine_hb; [apply G|intros c _]. apply fine_hb; [apply G|intros k _]. apply fine_ok.
Qed.

Lemma hget_ok : forall l k v, hget l k = HOk v <-> nth_error l k = Some v.
Proof. intros l k v. unfold hget. destruct (nth_error l k); split; intro E; try discriminate; congruence. Qed.
Lemma put_cell_ok : forall m ig ixs icell b s s', put_cell m ig ixs icell b s = HOk s' ->
  x_eub s' = x_eub s /\ x_rm s' = x_rm s /\ x_sc s' = x_sc s /\
  forall x, nth_error (bget x b) icell = Some (xget x s' (w_ng m * ixs + ig)) /\ forall j, j <> w_ng m * ixs + ig -> xget x s' j = xget x s j.
Proof.
  intros m ig ixs icell [[[t n] c] k] s s' H. unfold put_cell in H. destruct (_ <? _); [|discriminate].
  apply hb_ok in H. destruct H as (vt & Et & H). apply hb_ok in H. destruct H as (vn & En & H). apply hb_ok in H. destruct H as (vc & Ec & H). apply hb_ok in H. destruct H as (vk & Ek & H).
  rewrite hget_ok in *. injection H as <-. cbn [x_eub x_rm x_sc]. repeat split.
  - destruct x; cbn [bget xget x_tr x_nf x_ch x_f]; unfold fset; rewrite Nat.eqb_refl; assumption.
  - intros j Hj. destruct x; cbn [xget x_tr x_nf x_ch x_f]; unfold fset; destruct (Nat.eqb_spec j (w_ng m * ixs + ig)); congruence.
Qed.
Lemma put_cell_total : forall m ig ixs icell b s, ig < w_ng m -> ixs < w_nreg m -> (forall x, icell < length (bget x b)) -> exists s', put_cell m ig ixs icell b s = HOk s'.
Proof.
  intros m ig ixs icell [[[t n] c] k] s Hg Hi H. unfold put_cell. destruct (Nat.ltb_spec (w_ng m * ixs + ig) (w_ng m * w_nreg m)); [|nia].
  assert (G : forall l, icell < length l -> exists v, hget l icell = HOk v). { intros l Hl. destruct (nth_error l icell) as [v|] eqn:E; [exists v; now apply hget_ok|]. apply nth_error_None in E. lia. }
  pose proof (H TR) as H1. pose proof (H NF) as H2. pose proof (H CH) as H3. pose proof (H KF) as H4. cbn [bget] in H1, H2, H3, H4.
  destruct (G _ H1) as (vt & ->). cbn [hb]. destruct (G _ H2) as (vn & ->). cbn [hb]. destruct (G _ H3) as (vc & ->). cbn [hb]. destruct (G _ H4) as (vk & ->). cbn [hb]. eauto.
Qed.

(** What a loop over reactions did: the places in [L] now hold the file's values, the others what they held. *)
Definition rmoved (m : XMesh) (T : Rx -> nat -> nat -> R -> Prop) (L : nat -> nat -> bool) (s s' : HX) : Prop :=
  x_eub s' = x_eub s /\ x_rm s' = x_rm s /\ x_sc s' = x_sc s /\
  forall x r h, h < w_ng m -> if L r h then T x r h (xget x s' (w_ng m * r + h)) else xget x s' (w_ng m * r + h) = xget x s (w_ng m * r + h).
Lemma rmoved_refl : forall m T s, rmoved m T (fun _ _ => false) s s.
Proof. intros m T s. repeat split. Qed.
Lemma rmoved_trans : forall m T L1 L2 L s1 s2 s3, rmoved m T L1 s1 s2 -> rmoved m T L2 s2 s3 -> (forall r h, h < w_ng m -> L r h = L1 r h || L2 r h) -> rmoved m T L s1 s3.
Proof.
  intros m T L1 L2 L s1 s2 s3 (A1 & B1 & C1 & D1) (A2 & B2 & C2 & D2) H. repeat split; try congruence.
  intros x r h Hh. rewrite (H r h Hh). specialize (D1 x r h Hh). specialize (D2 x r h Hh). destruct (L2 r h); [rewrite orb_true_r; exact D2|rewrite orb_false_r].
  rewrite D2. exact D1.
Qed.
Lemma rmoved_ext : forall m T L L' s s', rmoved m T L s s' -> (forall r h, h < w_ng m -> L' r h = L r h) -> rmoved m T L' s s'.
Proof. intros m T L L' s s' (A & B & C & D) H. repeat split; auto. intros x r h Hh. rewrite (H r h Hh). now apply D. Qed.
Lemma rmoved_loop : forall {A} m T (L : A -> nat -> nat -> bool) (body : A -> HX -> HOut HX) l s s',
  (forall a s s', In a l -> body a s = HOk s' -> rmoved m T (L a) s s') -> hloop body l s = HOk s' -> rmoved m T (fun r h => existsb (fun a => L a r h) l) s s'.
Proof.
  intros A m T L body l s s' H E. apply (hloop_rel (fun l s s' => rmoved m T (fun r h => existsb (fun a => L a r h) l) s s') body l s s'); auto.
  - intro t. apply rmoved_refl.
  - intros a r t t1 t2 Ha Eb P. eapply rmoved_trans; [eapply H; eauto|exact P|]. intros; reflexivity.
Qed.
Lemma flat_inj : forall n r h r' h', h < n -> h' < n -> n * r + h = n * r' + h' -> r = r' /\ h = h'.
Proof. intros n r h r' h' H H' E. assert (r = r') by nia. subst. lia. Qed.
Lemma put_cell_moved : forall m (T : Rx -> nat -> nat -> R -> Prop) ig ixs icell b s s', ig < w_ng m -> (forall x v, nth_error (bget x b) icell = Some v -> T x ixs ig v) -> put_cell m ig ixs icell b s = HOk s' ->
  rmoved m T (fun r h => (r =? ixs) && (h =? ig)) s s'.
Proof.
  intros m T ig ixs icell b s s' Hg HT E. destruct (put_cell_ok _ _ _ _ _ _ _ E) as (A & B & C & D). repeat split; auto.
  intros x r h Hh. destruct (D x) as (D1 & D2). destruct (Nat.eqb_spec r ixs) as [->|Nr]; destruct (Nat.eqb_spec h ig) as [->|Nh]; cbn [andb].
  - now apply HT.
  - apply D2. intro X. apply flat_inj in X; try lia.
  - apply D2. intro X. apply flat_inj in X; try lia.
  - apply D2. intro X. apply flat_inj in X; try lia.
Qed.

(** ** Scattering matrices *)
Lemma first_bound_pos : forall f g cnt from cur, (forall k, from <= k < from + cnt -> Rltb 0 (f k) = Rltb 0 (g k)) -> first_bound f from cnt cur = first_bound g from cnt cur.
Proof. intros f g. induction cnt as [|c IH]; intros from cur H; cbn [first_bound]; [reflexivity|]. rewrite (H from) by lia. destruct (Rltb 0 (g from)); [reflexivity|]. apply IH. intros k Hk. apply H. lia. Qed.
Lemma last_bound_pos : forall f g cnt cur, (forall k, k < cnt -> Rltb 0 (f k) = Rltb 0 (g k)) -> last_bound f cnt cur = last_bound g cnt cur.
Proof. intros f g. induction cnt as [|c IH]; intros cur H; cbn [last_bound]; [reflexivity|]. rewrite (H c) by lia. destruct (Rltb 0 (g c)); [reflexivity|]. apply IH. intros k Hk. apply H. lia. Qed.
Lemma band_pos : forall n f g to, (forall k, k < n -> Rltb 0 (f k) = Rltb 0 (g k)) -> band n f to = band n g to.
Proof. intros n f g to H. unfold band. rewrite (first_bound_pos f g n 0 0) by (intros; apply H; lia). rewrite (last_bound_pos f g n 0) by (intros; apply H; lia). reflexivity. Qed.
Lemma pack_row_ext : forall f g cnt from sc o, (forall k, from <= k < from + cnt -> f k = g k) -> pack_row f from cnt sc o = pack_row g from cnt sc o.
Proof.
  intros f g. induction cnt as [|c IH]; intros from sc o H; cbn [pack_row]; [reflexivity|]. rewrite (H from) by lia. destruct (nth_error o from); [|reflexivity].
  destruct (set_nth o from _); [|reflexivity]. apply IH. intros k Hk. apply H. lia.
Qed.
Lemma pack_ext : forall m m' bs to pos sc o rs, (forall i b, nth_error bs i = Some b -> forall k, fst b <= k <= snd b -> m (to + i) k = m' (to + i) k) -> pack m bs to pos sc o rs = pack m' bs to pos sc o rs.
Proof.
  intros m m'. induction bs as [|[lo hi] bs IH]; intros to pos sc o rs H; cbn [pack]; [reflexivity|].
  rewrite (pack_row_ext (m to) (m' to)). 2:{ intros k Hk. specialize (H 0 (lo, hi) eq_refl k). rewrite Nat.add_0_r in H. apply H. cbn. lia. }
  destruct (pack_row (m' to) lo (hi + 1 - lo) sc o) as [[sc' o']|]; [|reflexivity]. apply IH. intros i b E k Hk. replace (S to + i) with (to + S i) by lia. apply (H (S i) b E k Hk).
Qed.
(** The dense form of a stored matrix: what is outside the bands is zero. *)
Definition banded (n : nat) (m : nat -> nat -> R) (to from : nat) : R := if in_band (band n (m to) to) from then m to from else 0%R.
Lemma compress_agree : forall n m m', (forall to from, to < n -> from < n -> m' to from = banded n m to from) -> compress n m' = compress n m.
Proof.
  intros n m m' H. unfold compress.
  assert (B : forall to, to < n -> band n (m' to) to = band n (m to) to).
  { intros to Ht. apply band_pos. intros k Hk. rewrite (H to k Ht Hk). unfold banded. destruct (in_band (band n (m to) to) k) eqn:E; [reflexivity|].
    destruct (band n (m to) to) as [lo hi] eqn:Eb. destruct (band_spec n (m to) to lo hi Ht Eb) as (_ & _ & B3). unfold in_band in E. cbn in E.
    assert (C : k < lo \/ hi < k). { destruct (Nat.leb_spec lo k), (Nat.leb_spec k hi); cbn in E; try discriminate; lia. }
    specialize (B3 k Hk C). symmetry. destruct (Rltb_spec 0 (m to k)) as [X|X]; destruct (Rltb_spec 0 0) as [Y|Y]; auto; lra. }
  replace (map (fun to => band n (m' to) to) (seq 0 n)) with (map (fun to => band n (m to) to) (seq 0 n)).
  2:{ apply map_ext_in. intros to Ht. apply in_seq in Ht. symmetry. apply B. lia. }
  rewrite (pack_ext m' m); [reflexivity|]. intros i b E k Hk. assert (Hi : i < n).
  { assert (X : i < length (map (fun to => band n (m to) to) (seq 0 n))) by (apply nth_error_Some; congruence). now rewrite map_length, seq_length in X. }
  rewrite nth_error_map_seq in E by auto. injection E as <-. cbn [Nat.add] in *. destruct (band n (m i) i) as [lo hi] eqn:Eb. destruct (band_spec n (m i) i lo hi Hi Eb) as (_ & B2 & _). cbn in Hk.
  rewrite H by lia. unfold banded. rewrite Eb. unfold in_band. cbn. destruct (Nat.leb_spec lo k); [|lia]. destruct (Nat.leb_spec k hi); [|lia]. reflexivity.
Qed.
Lemma as_vector_banded : forall n m s, compress n m = Some s -> exists v, as_vector s = Some v /\ length v = n * n /\
  forall to from, to < n -> from < n -> nth_error v (n * to + from) = Some (banded n m to from).
Proof.
  intros n m s E. destruct (compress_ok n m) as (s' & E' & Eg & Lr & _ & R & _). rewrite E in E'. injection E' as <-.
  destruct (vec_rows_ok s m (map (fun to => band n (m to) to) (seq 0 n)) (rows s) 0 (repeat 0%R (ng s * ng s))) as (v & Ev & Lv & P).
  - rewrite repeat_length, Lr, Eg. cbn. lia.
  - now rewrite map_length, seq_length.
  - intros b H. apply in_map_iff in H. destruct H as (i & <- & Hi). apply in_seq in Hi.
    destruct (band n (m i) i) as [lo hi] eqn:Eb. destruct (band_spec n (m i) i lo hi ltac:(lia) Eb) as (B1 & B2 & _). cbn. lia.
  - intros i b H. assert (Hi : i < n).
    { assert (X : i < length (map (fun to => band n (m to) to) (seq 0 n))) by (apply nth_error_Some; congruence). now rewrite map_length, seq_length in X. }
    rewrite nth_error_map_seq in H by auto. injection H as <-. apply R. exact Hi.
  - exists v. split; [exact Ev|]. split; [now rewrite Lv, repeat_length, Eg|].
    intros to from Ht Hf. rewrite Eg in P. rewrite (P to from Hf), Lr. cbn [Nat.leb plus].
    destruct (Nat.ltb_spec to n); [|lia]. cbn [andb]. rewrite Nat.sub_0_r, nth_error_map_seq by auto. cbn [plus]. unfold banded.
    destruct (in_band (band n (m to) to) from) eqn:Ib; auto. apply nth_repeat0. pose proof (Nat.mul_le_mono_l (to + 1) n n ltac:(lia)). lia.
Qed.
Lemma compress_ng : forall n m s, compress n m = Some s -> ng s = n /\ forall g, g < n -> self_scat s g = Some (m g g).
Proof. intros n m s E. destruct (C19_self_scatter n m) as (s' & E' & H). rewrite E in E'. injection E' as <-. split; [|exact H]. destruct (compress_ok n m) as (s2 & E2 & Eg & _). rewrite E in E2. now injection E2 as <-. Qed.

Lemma matrix_of_ok : forall debug n vals i sm, matrix_of debug n n vals i = HOk sm -> compress n (fun to from => nth (i * (n * n) + to * n + from) vals 0%R) = Some sm.
Proof. intros debug n vals i sm H. unfold matrix_of in H. destruct (_ && _); [discriminate|]. destruct (_ || _); [|discriminate]. destruct (compress n _) eqn:E; [|discriminate]. now injection H as <-. Qed.
Lemma matrix_of_total : forall debug n vals i, (S i * (n * n) <= length vals) -> exists sm, matrix_of debug n n vals i = HOk sm.
Proof.
  intros debug n vals i H. unfold matrix_of. rewrite Nat.eqb_refl, andb_false_r.
  replace ((n =? 0) || (i * (n * n) + (n - 1) * n + n <=? length vals)) with true. 2:{ symmetry. destruct (Nat.eqb_spec n 0); [reflexivity|]. cbn [orb]. apply Nat.leb_le. destruct n; [lia|]. nia. }
  destruct (compress_ok n (fun to from => nth (i * (n * n) + to * n + from) vals 0%R)) as (s & -> & _). eauto.
Qed.

(** The removal of a region. *)
Definition rm_right (m : XMesh) (s : HX) (r : nat) : Prop := forall h, h < w_ng m -> exists v, self_scat (x_sc s r) h = Some v /\ x_rm s (w_ng m * r + h) = (x_tr s (w_ng m * r + h) - v)%R.
Definition mmoved (m : XMesh) (M : nat -> SM -> Prop) (L : nat -> bool) (s s' : HX) : Prop :=
  x_eub s' = x_eub s /\ x_tr s' = x_tr s /\ x_nf s' = x_nf s /\ x_ch s' = x_ch s /\ x_f s' = x_f s /\
  forall r, if L r then M r (x_sc s' r) /\ rm_right m s' r else x_sc s' r = x_sc s r /\ forall h, h < w_ng m -> x_rm s' (w_ng m * r + h) = x_rm s (w_ng m * r + h).
Lemma mmoved_refl : forall m M s, mmoved m M (fun _ => false) s s.
Proof. intros m M s. repeat split. Qed.
Lemma mmoved_trans : forall m M L1 L2 L s1 s2 s3, mmoved m M L1 s1 s2 -> mmoved m M L2 s2 s3 -> (forall r, L r = L1 r || L2 r) -> mmoved m M L s1 s3.
Proof.
  intros m M L1 L2 L s1 s2 s3 (A1 & B1 & C1 & D1 & E1 & F1) (A2 & B2 & C2 & D2 & E2 & F2) H. repeat split; try congruence.
  intros r. rewrite (H r). specialize (F1 r). specialize (F2 r). destruct (L2 r); [rewrite orb_true_r; exact F2|rewrite orb_false_r].
  destruct F2 as (Q1 & Q2). destruct (L1 r).
  - destruct F1 as (P1 & P2). rewrite Q1. split; [exact P1|]. intros h Hh. destruct (P2 h Hh) as (v & V1 & V2). exists v. rewrite Q1, Q2, B2; auto.
  - destruct F1 as (P1 & P2). rewrite Q1. split; [exact P1|]. intros h Hh. rewrite Q2, P2; auto.
Qed.
Lemma mmoved_loop : forall {A} m M (L : A -> nat -> bool) (body : A -> HX -> HOut HX) l s s',
  (forall a s s', In a l -> body a s = HOk s' -> mmoved m M (L a) s s') -> hloop body l s = HOk s' -> mmoved m M (fun r => existsb (fun a => L a r) l) s s'.
Proof.
  intros A m M L body l s s' H E. apply (hloop_rel (fun l s s' => mmoved m M (fun r => existsb (fun a => L a r) l) s s') body l s s'); auto.
  - intro t. apply mmoved_refl.
  - intros a r t t1 t2 Ha Eb P. eapply mmoved_trans; [eapply H; eauto|exact P|]. intros; reflexivity.
Qed.
Lemma removal_loop : forall m ixs cnt from s s', from + cnt <= w_ng m -> hloop (one_removal m ixs) (seq from cnt) s = HOk s' ->
  x_eub s' = x_eub s /\ x_tr s' = x_tr s /\ x_nf s' = x_nf s /\ x_ch s' = x_ch s /\ x_f s' = x_f s /\ x_sc s' = x_sc s /\
  (forall h, from <= h < from + cnt -> exists v, self_scat (x_sc s ixs) h = Some v /\ x_rm s' (w_ng m * ixs + h) = (x_tr s (w_ng m * ixs + h) - v)%R) /\
  forall j, (forall h, from <= h < from + cnt -> j <> w_ng m * ixs + h) -> x_rm s' j = x_rm s j.
Proof.
  intros m ixs. induction cnt as [|c IH]; intros from s s' B E; cbn [seq hloop] in E.
  - injection E as <-. repeat split; auto. intros h Hh. lia.
  - apply hb_ok in E. destruct E as (s1 & E1 & E2). unfold one_removal in E1. destruct (self_scat (x_sc s ixs) from) as [v|] eqn:Ev; [|discriminate]. destruct (_ <? _); [|discriminate]. injection E1 as <-.
    apply IH in E2; [|lia]. cbn [x_eub x_tr x_nf x_ch x_f x_sc x_rm] in E2. destruct E2 as (A1 & A2 & A3 & A4 & A5 & A6 & A7 & A8). repeat split; auto.
    + intros h Hh. destruct (Nat.eq_dec h from) as [->|N].
      * exists v. split; [exact Ev|]. rewrite A8; [unfold fset; now rewrite Nat.eqb_refl|]. intros h' Hh'. lia.
      * apply A7. lia.
    + intros j Hj. rewrite A8; [|intros h Hh; apply Hj; lia]. unfold fset. destruct (Nat.eqb_spec j (w_ng m * ixs + from)) as [->|]; [|reflexivity]. exfalso. apply (Hj from); [lia|reflexivity].
Qed.
Lemma put_matrix_moved : forall m (M : nat -> SM -> Prop) ixs sm s s', ng sm = w_ng m -> M ixs sm -> put_matrix m ixs sm s = HOk s' -> mmoved m M (fun r => r =? ixs) s s'.
Proof.
  intros m M ixs sm s s' N HM E. unfold put_matrix in E. destruct (_ <? _); [|discriminate]. rewrite N in E. apply removal_loop in E; [|lia]. cbn [x_eub x_tr x_nf x_ch x_f x_sc x_rm] in E.
  destruct E as (A1 & A2 & A3 & A4 & A5 & A6 & A7 & A8). repeat split; auto. intros r. destruct (Nat.eqb_spec r ixs) as [->|Nr].
  - rewrite A6. unfold fset at 1. rewrite Nat.eqb_refl. split; [exact HM|]. intros h Hh. destruct (A7 h) as (v & V1 & V2); [lia|]. exists v. rewrite A6, A2. split; [exact V1|exact V2].
  - rewrite A6. unfold fset. destruct (Nat.eqb_spec r ixs); [lia|]. split; [reflexivity|]. intros h Hh. apply A8. intros h' Hh' X. apply flat_inj in X; lia.
Qed.
Lemma put_matrix_total : forall m ixs sm s, ng sm = w_ng m -> ixs < w_nreg m -> (forall h, h < w_ng m -> exists v, self_scat sm h = Some v) -> exists s', put_matrix m ixs sm s = HOk s'.
Proof.
  intros m ixs sm s N Hi H. unfold put_matrix. destruct (Nat.ltb_spec ixs (w_nreg m)); [|lia].
  destruct (hloop_total (fun t => x_sc t ixs = sm) (one_removal m ixs) (seq 0 (ng sm)) (mkHX (x_eub s) (x_tr s) (x_nf s) (x_ch s) (x_f s) (x_rm s) (fset (x_sc s) ixs sm))) as (s' & E & _).
  - cbn [x_sc]. unfold fset. now rewrite Nat.eqb_refl.
  - intros h t Hh It. apply in_seq in Hh. destruct (H h) as (v & Ev); [lia|]. unfold one_removal. rewrite It, Ev. destruct (Nat.ltb_spec (w_ng m * ixs + h) (w_ng m * w_nreg m)); [|nia]. eexists. split; [reflexivity|exact It].
  - eauto.
Qed.
