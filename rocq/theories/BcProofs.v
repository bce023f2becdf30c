(** Lemmas for the boundary-condition container. *)
From Coq Require Import ZArith List Lia Bool Reals Lra.
From Verif Require Import RUtil MeshModel MeshProofs AngModel AngProofs BcModel.
Import ListNotations.
Open Scope nat_scope.

Fixpoint total (l : list BcSize) : nat := match l with [] => 0 | s :: r => size_total s + total r end.

Lemma bc_per_group_total : forall l, bc_per_group l = total l.
Proof.
  intros l. unfold bc_per_group.
  assert (G : forall l t, fold_left (fun t s => t + size_total s) l t = t + total l).
  { induction l0; intros; cbn; [lia|]. rewrite IHl0. lia. }
  now rewrite G.
Qed.

Lemma offsets_length : forall l off, length (offsets off l) = length l.
Proof. induction l; intros; cbn; auto. Qed.

Lemma offsets_bounds : forall l off a s o n, nth_error l a = Some s -> nth_error (offsets off l) a = Some o ->
  off <= face_size o n /\ face_size o n + face_size s n <= off + total l.
Proof.
  induction l as [|t l IH]; intros off a s o n Hs Ho; [destruct a; discriminate|].
  destruct a as [|a]; cbn in Hs, Ho.
  - injection Hs as <-. injection Ho as <-. cbn [total]. unfold size_total. destruct n; cbn; lia.
  - destruct (IH _ _ _ _ n Hs Ho). cbn [total]. unfold size_total. lia.
Qed.

Lemma offsets_locate : forall l off r, r < total l ->
  exists a s o n i, nth_error l a = Some s /\ nth_error (offsets off l) a = Some o /\ i < face_size s n /\
    off + r = face_size o n + i.
Proof.
  induction l as [|s l IH]; intros off r H; cbn [total] in H; [lia|].
  destruct (Nat.lt_ge_cases r (size_total s)) as [C|C].
  - unfold size_total in C. destruct (Nat.lt_ge_cases r (sx s)) as [C1|C1].
    + exists 0, s, (mkSize off (off + sx s) (off + sx s + sy s)), X_NORM, r. cbn. repeat split; auto.
    + destruct (Nat.lt_ge_cases r (sx s + sy s)) as [C2|C2].
      * exists 0, s, (mkSize off (off + sx s) (off + sx s + sy s)), Y_NORM, (r - sx s). cbn. repeat split; auto; lia.
      * exists 0, s, (mkSize off (off + sx s) (off + sx s + sy s)), Z_NORM, (r - sx s - sy s). cbn. repeat split; auto; lia.
  - destruct (IH (off + sx s + sy s + sz s) (r - size_total s)) as (a & s' & o & n & i & H1 & H2 & H3 & H4); [lia|].
    exists (S a), s', o, n, i. cbn. repeat split; auto. unfold size_total in *. lia.
Qed.

Lemma offsets_unique : forall l off a s o n i a' s' o' n' i',
  nth_error l a = Some s -> nth_error (offsets off l) a = Some o -> i < face_size s n ->
  nth_error l a' = Some s' -> nth_error (offsets off l) a' = Some o' -> i' < face_size s' n' ->
  face_size o n + i = face_size o' n' + i' -> a = a' /\ n = n' /\ i = i'.
Proof.
  induction l as [|t l IH]; intros off a s o n i a' s' o' n' i' Hs Ho Hi Hs' Ho' Hi' E; [destruct a; discriminate|].
  destruct a as [|a], a' as [|a']; cbn in Hs, Ho, Hs', Ho'.
  - injection Hs as <-. injection Ho as <-. injection Hs' as <-. injection Ho' as <-.
    destruct n, n'; cbn in *; repeat split; auto; lia.
  - injection Hs as <-. injection Ho as <-. destruct (offsets_bounds _ _ _ _ _ n' Hs' Ho') as [B1 B2].
    destruct n; cbn in *; lia.
  - injection Hs' as <-. injection Ho' as <-. destruct (offsets_bounds _ _ _ _ _ n Hs Ho) as [B1 B2].
    destruct n'; cbn in *; lia.
  - destruct (IH _ _ _ _ _ _ _ _ _ _ _ Hs Ho Hi Hs' Ho' Hi' E) as (-> & -> & ->). auto.
Qed.

(** ** Slots *)

(** [slot b g a n i k]: value [i] of face [n] of angle [a] in group [g] is stored at position [k]. *)
Definition slot (b : BC) (g a : nat) (n : Normal) (i k : nat) : Prop :=
  exists size off, get_face b g a n = Some (size, off) /\ i < size /\ k = off + i.

Lemma get_face_inv : forall b g a n size off, get_face b g a n = Some (size, off) ->
  exists s o, nth_error (sizes b) a = Some s /\ nth_error (offsets 0 (sizes b)) a = Some o /\
    size = face_size s n /\ off = total (sizes b) * g + face_size o n.
Proof.
  intros b g a n size off H. unfold get_face in H. rewrite bc_per_group_total in H.
  destruct (nth_error (sizes b) a) as [s|] eqn:E1; [|discriminate].
  destruct (nth_error (offsets 0 (sizes b)) a) as [o|] eqn:E2; [|discriminate].
  injection H as <- <-. exists s, o. auto.
Qed.

Lemma get_face_some : forall b g a n, a < length (sizes b) -> exists size off, get_face b g a n = Some (size, off).
Proof.
  intros b g a n H. unfold get_face.
  destruct (nth_error (sizes b) a) as [s|] eqn:E1; [|apply nth_error_None in E1; lia].
  destruct (nth_error (offsets 0 (sizes b)) a) as [o|] eqn:E2; [|apply nth_error_None in E2; rewrite offsets_length in E2; lia].
  eauto.
Qed.

Lemma slot_range : forall b g a n i k, slot b g a n i k -> g < n_group b -> k < n_group b * total (sizes b).
Proof.
  intros b g a n i k (size & off & H & Hi & ->) Hg.
  destruct (get_face_inv _ _ _ _ _ _ H) as (s & o & E1 & E2 & -> & ->).
  destruct (offsets_bounds _ _ _ _ _ n E1 E2). nia.
Qed.

Lemma slot_inj : forall b g a n i k g' a' n' i', slot b g a n i k -> slot b g' a' n' i' k ->
  g = g' /\ a = a' /\ n = n' /\ i = i'.
Proof.
  intros b g a n i k g' a' n' i' (size & off & H & Hi & ->) (size' & off' & H' & Hi' & E).
  destruct (get_face_inv _ _ _ _ _ _ H) as (s & o & E1 & E2 & -> & ->).
  destruct (get_face_inv _ _ _ _ _ _ H') as (s' & o' & E1' & E2' & -> & ->).
  destruct (offsets_bounds _ _ _ _ _ n E1 E2) as [_ B].
  destruct (offsets_bounds _ _ _ _ _ n' E1' E2') as [_ B']. cbn in B, B'.
  assert (G : g = g').
  { destruct (Nat.lt_trichotomy g g') as [C|[C|C]]; auto; exfalso.
    - pose proof (Nat.mul_le_mono_l (g + 1) g' (total (sizes b)) ltac:(lia)). lia.
    - pose proof (Nat.mul_le_mono_l (g' + 1) g (total (sizes b)) ltac:(lia)). lia. }
  subst g'. split; auto. apply (offsets_unique (sizes b) 0 a s o n i a' s' o' n' i' E1 E2 Hi E1' E2' Hi'). lia.
Qed.

Lemma slot_cover : forall b k, k < n_group b * total (sizes b) ->
  exists g a n i, g < n_group b /\ a < length (sizes b) /\ slot b g a n i k.
Proof.
  intros b k H. assert (T : total (sizes b) <> 0) by nia.
  pose proof (Nat.div_mod k (total (sizes b)) T) as D.
  pose proof (Nat.mod_upper_bound k (total (sizes b)) T) as M.
  destruct (offsets_locate (sizes b) 0 (k mod total (sizes b)) M) as (a & s & o & n & i & H1 & H2 & H3 & H4).
  exists (k / total (sizes b)), a, n, i. split; [apply Nat.div_lt_upper_bound; lia|].
  split; [apply nth_error_Some; congruence|]. unfold slot, get_face. rewrite H1, H2, bc_per_group_total.
  do 2 eexists. split; [reflexivity|]. split; [exact H3|]. lia.
Qed.

(** ** Range reads and writes *)

Lemma nth_error_firstn_lt : forall {A} (l : list A) n i, i < n -> nth_error (firstn n l) i = nth_error l i.
Proof.
  induction l as [|a l IH]; intros n i H; destruct n, i; cbn; try lia; auto. apply IH. lia.
Qed.

Lemma nth_error_skipn' : forall {A} (l : list A) n i, nth_error (skipn n l) i = nth_error l (n + i).
Proof.
  induction l as [|a l IH]; intros n i; destruct n; cbn; auto. now destruct i.
Qed.

Lemma read_range_spec : forall l off n v, read_range l off n = Some v ->
  length v = n /\ forall i, i < n -> nth_error v i = nth_error l (off + i).
Proof.
  intros l off n v H. unfold read_range in H. destruct (Nat.leb_spec (off + n) (length l)); [|discriminate].
  injection H as <-. split; [rewrite firstn_length, skipn_length; lia|].
  intros i Hi. rewrite nth_error_firstn_lt by auto. apply nth_error_skipn'.
Qed.

Lemma read_range_some : forall l off n, off + n <= length l -> exists v, read_range l off n = Some v.
Proof. intros. unfold read_range. destruct (Nat.leb_spec (off + n) (length l)); [eauto|lia]. Qed.

Lemma write_range_spec : forall l off v l', write_range l off v = Some l' ->
  length l' = length l /\
  forall k, nth_error l' k = if (off <=? k) && (k <? off + length v) then nth_error v (k - off) else nth_error l k.
Proof.
  intros l off v l' H. unfold write_range in H. destruct (Nat.leb_spec (off + length v) (length l)) as [B|]; [|discriminate].
  injection H as <-. split.
  - rewrite !app_length, firstn_length, skipn_length. lia.
  - intros k. destruct (Nat.leb_spec off k) as [C1|C1]; cbn [andb].
    + rewrite nth_error_app2 by (rewrite firstn_length; lia). rewrite firstn_length, Nat.min_l by lia.
      destruct (Nat.ltb_spec k (off + length v)) as [C2|C2].
      * rewrite nth_error_app1 by lia. reflexivity.
      * rewrite nth_error_app2 by lia. rewrite nth_error_skipn'. f_equal. lia.
    + rewrite nth_error_app1 by (rewrite firstn_length; lia). now apply nth_error_firstn_lt.
Qed.

Lemma write_range_some : forall l off v, off + length v <= length l -> exists l', write_range l off v = Some l'.
Proof. intros. unfold write_range. destruct (Nat.leb_spec (off + length v) (length l)); [eauto|lia]. Qed.

Lemma nth_error_repeat' : forall {A} (x : A) n i, i < n -> nth_error (repeat x n) i = Some x.
Proof. induction n; intros i H; [lia|]. destruct i; cbn; auto. apply IHn. lia. Qed.

(** Position [k] of slot keys relative to the range of another face. *)
Lemma face_range : forall b g a n size off g' a' n' i' k, get_face b g a n = Some (size, off) -> slot b g' a' n' i' k ->
  (off <=? k) && (k <? off + size) = true -> g = g' /\ a = a' /\ n = n' /\ i' = k - off.
Proof.
  intros b g a n size off g' a' n' i' k H S R. apply andb_prop in R. destruct R as [R1 R2].
  apply Nat.leb_le in R1. apply Nat.ltb_lt in R2.
  assert (S1 : slot b g a n (k - off) k) by (exists size, off; repeat split; auto; lia).
  destruct (slot_inj _ _ _ _ _ _ _ _ _ _ S1 S) as (-> & -> & -> & <-). auto.
Qed.

Lemma face_range_own : forall b g a n size off i k, get_face b g a n = Some (size, off) -> slot b g a n i k ->
  (off <=? k) && (k <? off + size) = true /\ i = k - off.
Proof.
  intros b g a n size off i k H (size' & off' & H' & Hi & ->). rewrite H in H'. injection H' as <- <-. split; [|lia].
  apply andb_true_intro. split; [apply Nat.leb_le; lia|apply Nat.ltb_lt; lia].
Qed.

(** ** One face *)

Definition normal_eqb (a b : Normal) : bool :=
  match a, b with X_NORM, X_NORM | Y_NORM, Y_NORM | Z_NORM, Z_NORM => true | _, _ => false end.
Lemma normal_eqb_refl : forall a, normal_eqb a a = true.
Proof. intros []; reflexivity. Qed.
Lemma normal_eqb_eq : forall a b, normal_eqb a b = true <-> a = b.
Proof. intros [] []; cbn; split; congruence. Qed.

Definition refl_n (b : BC) (a : nat) (n : Normal) : option nat :=
  match reflect (Z.of_nat (n_oct b)) (Z.of_nat a) n with Some k => Some (Z.to_nat k) | None => None end.

(** What the incoming face of the reflected angle must hold afterwards. *)
Definition new_value (t : Boundary) (old from_out : option R) : option R :=
  match t with VACUUM => Some 0%R | REFLECT => from_out | _ => old end.
Definition supported (t : Boundary) : Prop := t = VACUUM \/ t = REFLECT \/ t = PRESCRIBED.

Lemma apply_face_ok : forall b g a n size off t d out off_out,
  get_face b g a n = Some (size, off) -> supported t -> off + size <= length d -> off_out + size <= length out ->
  exists d', apply_face t d out off off_out size = Ok d' /\ length d' = length d /\
    forall g' a' n' i k, slot b g' a' n' i k ->
      nth_error d' k = if (g' =? g) && (a' =? a) && normal_eqb n' n
                       then new_value t (nth_error d k) (nth_error out (off_out + i)) else nth_error d k.
Proof.
  intros b g a n size off t d out off_out F S L Lo.
  assert (W : forall v d', length v = size -> write_range d off v = Some d' ->
    length d' = length d /\ forall g' a' n' i k, slot b g' a' n' i k ->
      nth_error d' k = if (g' =? g) && (a' =? a) && normal_eqb n' n then nth_error v i else nth_error d k).
  { intros v d' Lv Wr. destruct (write_range_spec _ _ _ _ Wr) as [Ll P]. split; auto.
    intros g' a' n' i k Sl. rewrite P, Lv.
    destruct ((off <=? k) && (k <? off + size)) eqn:R.
    - destruct (face_range _ _ _ _ _ _ _ _ _ _ _ F Sl R) as (-> & -> & -> & ->).
      now rewrite !Nat.eqb_refl, normal_eqb_refl.
    - destruct ((g' =? g) && (a' =? a) && normal_eqb n' n) eqn:Q; auto.
      apply andb_prop in Q. destruct Q as [Q Q3]. apply andb_prop in Q. destruct Q as [Q1 Q2].
      apply Nat.eqb_eq in Q1. apply Nat.eqb_eq in Q2. apply normal_eqb_eq in Q3. subst.
      destruct (face_range_own _ _ _ _ _ _ _ _ F Sl) as [R' _]. congruence. }
  destruct S as [-> | [-> | ->]]; cbn [apply_face new_value].
  - destruct (write_range_some d off (repeat 0%R size)) as [d' E]; [rewrite repeat_length; lia|].
    destruct (W _ _ (repeat_length _ _) E) as [Ll P]. exists d'. rewrite E. repeat split; auto.
    intros g' a' n' i k Sl. rewrite (P _ _ _ _ _ Sl).
    destruct ((g' =? g) && (a' =? a) && normal_eqb n' n) eqn:Q; auto.
    apply andb_prop in Q. destruct Q as [Q Q3]. apply andb_prop in Q. destruct Q as [Q1 Q2].
    apply Nat.eqb_eq in Q1. apply Nat.eqb_eq in Q2. apply normal_eqb_eq in Q3. subst.
    destruct Sl as (size' & off' & F' & Hi & _). rewrite F in F'. injection F' as <- <-. now apply nth_error_repeat'.
  - destruct (read_range_some out off_out size Lo) as [v Ev]. rewrite Ev.
    destruct (read_range_spec _ _ _ _ Ev) as [Lv Pv].
    destruct (write_range_some d off v) as [d' E]; [lia|]. rewrite E.
    destruct (W _ _ Lv E) as [Ll P]. exists d'. repeat split; auto.
    intros g' a' n' i k Sl. rewrite (P _ _ _ _ _ Sl).
    destruct ((g' =? g) && (a' =? a) && normal_eqb n' n) eqn:Q; auto.
    apply andb_prop in Q. destruct Q as [Q Q3]. apply andb_prop in Q. destruct Q as [Q1 Q2].
    apply Nat.eqb_eq in Q1. apply Nat.eqb_eq in Q2. apply normal_eqb_eq in Q3. subst.
    destruct Sl as (size' & off' & F' & Hi & _). rewrite F in F'. injection F' as <- <-. auto.
  - exists d. repeat split; auto. intros. now destruct (_ && _ && _).
Qed.

(** ** One angle *)

(** The layout the callers build: angle counts agree with the quadrature, and an angle and its mirror image have
    equally large faces. *)
Record bc_ok (b : BC) : Prop := {
  ok_oct : 0 < n_oct b;
  ok_ang : length (sizes b) <= 8 * n_oct b;
  ok_quad : length (sizes b) <= length (quad b);
  ok_mirror : forall a a' n s, nth_error (sizes b) a = Some s -> refl_n b a n = Some a' -> 0 < face_size s n ->
                exists s', nth_error (sizes b) a' = Some s' /\ face_size s' n = face_size s n
}.

(** No empty face comes before a non-empty one in the order X, Y, Z. *)
Definition no_gap (s : BcSize) : Prop := (sx s = 0 -> sy s = 0 /\ sz s = 0) /\ (sy s = 0 -> sz s = 0).

Fixpoint gapless (norms : list Normal) (s : BcSize) : Prop :=
  match norms with
  | [] => True
  | n :: r => (face_size s n = 0 -> forall m, In m r -> face_size s m = 0) /\ gapless r s
  end.
Lemma no_gap_gapless : forall s, no_gap s -> gapless all_normals s.
Proof.
  intros s [H1 H2]. cbn. repeat split; auto; try tauto.
  - intros H m [<-|[<-|[]]]; cbn; now apply H1.
  - intros H m [<-|[]]. cbn. auto.
Qed.

Lemma refl_n_spec : forall b a n, bc_ok b -> a < length (sizes b) ->
  exists j, reflect (Z.of_nat (n_oct b)) (Z.of_nat a) n = Some (Z.of_nat j) /\ refl_n b a n = Some j /\
    refl_n b j n = Some a.
Proof.
  intros b a n K H. pose proof (ok_oct b K). pose proof (ok_ang b K).
  destruct (index_split (Z.of_nat (n_oct b)) (Z.of_nat a)) as (o & i & Ho & Hi & E); [lia|lia|].
  destruct (refl_oct_spec n o Ho) as (_ & Hr & Inv & _).
  exists (Z.to_nat (Z.of_nat (refl_oct n o) * Z.of_nat (n_oct b) + i)).
  assert (P : (0 <= Z.of_nat (refl_oct n o) * Z.of_nat (n_oct b) + i)%Z) by nia.
  unfold refl_n. rewrite E, reflect_split by auto. rewrite !Z2Nat.id by auto.
  rewrite reflect_split, Inv by auto. rewrite <- E, Nat2Z.id. auto.
Qed.

Definition type_at (b : BC) (a : nat) (n : Normal) : option Boundary :=
  match nth_error (quad b) a with Some ang => Some (types b (upwind_surface (adir ang) n)) | None => None end.
Definition all_supported (b : BC) : Prop := forall s, supported (types b s).

(** Specification of one update: what position [k], slot (g', a', n', i), holds afterwards. *)
Definition updated (b : BC) (out : list R) (group angle : nat) (on : Normal -> bool) (d : list R)
  (g' a' : nat) (n' : Normal) (i k : nat) : option R :=
  if (g' =? group) && on n' && (match refl_n b angle n' with Some j => a' =? j | None => false end)
  then match type_at b a' n', get_face b 0 angle n' with
       | Some t, Some (_, off) => new_value t (nth_error d k) (nth_error out (off + i))
       | _, _ => None
       end
  else nth_error d k.

Lemma update_faces_ok : forall b out group angle norms d, bc_ok b -> sizes out = sizes b ->
  length (data out) = total (sizes b) -> all_supported b -> angle < length (sizes b) -> group < n_group b ->
  length d = n_group b * total (sizes b) -> NoDup norms -> 
  (forall s, nth_error (sizes b) angle = Some s -> gapless norms s) ->
  exists d', update_faces b out group angle norms d = Ok d' /\ length d' = length d /\
    forall g' a' n' i k, slot b g' a' n' i k ->
      nth_error d' k = updated b (data out) group angle (fun n => existsb (normal_eqb n) norms) d g' a' n' i k.
Proof.
  intros b out group angle norms. induction norms as [|n norms IH]; intros d K So Lo Su Ha Hg Ld ND Gp.
  - exists d. repeat split; auto. intros. unfold updated. cbn [existsb]. now rewrite andb_false_r.
  - cbn [update_faces].
    destruct (nth_error (sizes b) angle) as [s|] eqn:Es; [|apply nth_error_None in Es; lia].
    destruct (refl_n_spec b angle n K Ha) as (j & R1 & R2 & R3). rewrite R1, Nat2Z.id.
    destruct (Gp s eq_refl) as [G1 G2].
    destruct (Nat.eqb_spec (face_size s n) 0) as [Z|Z].
    + exists d. repeat split; auto. intros g' a' n' i k Sl. unfold updated.
      destruct ((g' =? group) && existsb (normal_eqb n') (n :: norms) &&
                match refl_n b angle n' with Some j0 => a' =? j0 | None => false end) eqn:Q; auto.
      exfalso. apply andb_prop in Q. destruct Q as [Q Q3]. apply andb_prop in Q. destruct Q as [Q1 Q2].
      destruct (refl_n b angle n') as [j'|] eqn:Ej; [|discriminate]. apply Nat.eqb_eq in Q3. subst a'.
      assert (Zn : face_size s n' = 0).
      { apply existsb_exists in Q2. destruct Q2 as (m & Hm & Q2). apply normal_eqb_eq in Q2. subst m.
        destruct Hm as [<-|Hm]; auto. }
      destruct Sl as (size & off & F & Hi & _). destruct (get_face_inv _ _ _ _ _ _ F) as (s' & o & E1 & _ & -> & _).
      destruct (refl_n_spec b angle n' K Ha) as (j2 & _ & R2' & R3'). rewrite Ej in R2'. injection R2' as <-.
      destruct (ok_mirror b K j' angle n' s' E1 R3') as (s'' & E2 & Eq); [lia|]. rewrite Es in E2. injection E2 as <-. lia.
    + destruct (ok_mirror b K angle j n s Es R2) as (s' & Es' & Eq); [lia|].
      assert (Hj : j < length (sizes b)) by (apply nth_error_Some; congruence).
      pose proof (ok_quad b K) as Lq.
      destruct (nth_error (quad b) j) as [aj|] eqn:Eq1; [|apply nth_error_None in Eq1; lia].
      destruct (nth_error (offsets 0 (sizes b)) j) as [oj|] eqn:Eo; [|apply nth_error_None in Eo; rewrite offsets_length in Eo; lia].
      rewrite So.
      destruct (nth_error (offsets 0 (sizes b)) angle) as [oa|] eqn:Eoa; [|apply nth_error_None in Eoa; rewrite offsets_length in Eoa; lia].
      assert (F : get_face b group j n = Some (face_size s n, bc_per_group (sizes b) * group + face_size oj n)).
      { unfold get_face. rewrite Es', Eo, Eq. reflexivity. }
      assert (Fo : get_face b 0 angle n = Some (face_size s n, face_size oa n)).
      { unfold get_face. rewrite Es, Eoa. rewrite Nat.mul_0_r. reflexivity. }
      destruct (offsets_bounds _ _ _ _ _ n Es' Eo) as [_ B1]. destruct (offsets_bounds _ _ _ _ _ n Es Eoa) as [_ B2].
      cbn [plus] in B1, B2.
      destruct (apply_face_ok b group j n _ _ (types b (upwind_surface (adir aj) n)) d (data out) (face_size oa n) F) as (d1 & E1 & L1 & P1).
      { apply Su. }
      { rewrite Ld, bc_per_group_total.
        pose proof (Nat.mul_le_mono_r (group + 1) (n_group b) (total (sizes b)) ltac:(lia)). lia. }
      { rewrite Lo. lia. }
      rewrite E1. inversion ND as [|x y N1 N2]; subst x y.
      destruct (IH d1 K So Lo Su Ha Hg) as (d' & E' & L' & P'); auto; [congruence|intros s0 Hs0; injection Hs0 as <-; exact G2|].
      exists d'. split; [exact E'|]. split; [congruence|].
      intros g' a' n' i k Sl. rewrite (P' _ _ _ _ _ Sl). unfold updated. cbn [existsb].
      destruct (normal_eqb n' n) eqn:En; cbn [orb].
      * apply normal_eqb_eq in En. subst n'.
        assert (Ex : existsb (normal_eqb n) norms = false).
        { apply not_true_is_false. intros Ex. apply existsb_exists in Ex. destruct Ex as (m & Hm & Em).
          apply normal_eqb_eq in Em. subst m. auto. }
        rewrite Ex, andb_false_r, andb_true_r. cbn [andb]. rewrite (P1 _ _ _ _ _ Sl), normal_eqb_refl, andb_true_r, R2, Fo.
        destruct (g' =? group); cbn [andb]; auto. destruct (Nat.eqb_spec a' j) as [->|]; auto.
        unfold type_at. now rewrite Eq1.
      * assert (Ed : nth_error d1 k = nth_error d k).
        { rewrite (P1 _ _ _ _ _ Sl), En, andb_false_r. reflexivity. }
        now rewrite Ed.
Qed.

Lemma update_angle_ok : forall b out group angle d, bc_ok b -> sizes out = sizes b ->
  length (data out) = total (sizes b) -> all_supported b -> angle < length (sizes b) -> group < n_group b ->
  length d = n_group b * total (sizes b) -> Forall no_gap (sizes b) ->
  exists d', update_angle b out group angle d = Ok d' /\ length d' = length d /\
    forall g' a' n' i k, slot b g' a' n' i k ->
      nth_error d' k = updated b (data out) group angle (fun _ => true) d g' a' n' i k.
Proof.
  intros b out group angle d K So Lo Su Ha Hg Ld Ng.
  destruct (update_faces_ok b out group angle all_normals d K So Lo Su Ha Hg Ld) as (d' & E & L & P).
  - repeat constructor; cbn; intuition congruence.
  - intros s Hs. apply no_gap_gapless. rewrite Forall_forall in Ng. apply Ng. eapply nth_error_In; eauto.
  - exists d'. repeat split; auto. intros g' a' n' i k Sl. rewrite (P _ _ _ _ _ Sl). unfold updated. now destruct n'.
Qed.

(** ** All angles *)

Lemma update_angles_ok : forall b out group angles d, bc_ok b -> sizes out = sizes b ->
  length (data out) = total (sizes b) -> all_supported b -> group < n_group b -> Forall no_gap (sizes b) ->
  (forall a, In a angles -> a < length (sizes b)) -> NoDup angles ->
  length d = n_group b * total (sizes b) ->
  exists d', update_angles b out group angles d = Ok d' /\ length d' = length d /\
    forall g' a' n' i k a, slot b g' a' n' i k -> refl_n b a' n' = Some a ->
      nth_error d' k =
        if (g' =? group) && existsb (Nat.eqb a) angles
        then match type_at b a' n', get_face b 0 a n' with
             | Some t, Some (_, off) => new_value t (nth_error d k) (nth_error (data out) (off + i))
             | _, _ => None
             end
        else nth_error d k.
Proof.
  intros b out group angles. induction angles as [|x angles IH]; intros d K So Lo Su Hg Ng In_ ND Ld.
  - exists d. repeat split; auto. intros. cbn [existsb]. now rewrite andb_false_r.
  - cbn [update_angles]. destruct (update_angle_ok b out group x d K So Lo Su) as (d1 & E1 & L1 & P1); auto; [apply In_; now left|].
    rewrite E1. inversion ND as [|? ? N1 N2]; subst.
    destruct (IH d1 K So Lo Su Hg Ng) as (d' & E' & L' & P'); auto; [intros; apply In_; now right|congruence|].
    exists d'. split; [exact E'|]. split; [congruence|].
    intros g' a' n' i k a Sl Ra. rewrite (P' _ _ _ _ _ _ Sl Ra). pose proof (P1 _ _ _ _ _ Sl) as Q. unfold updated in Q.
    assert (Ha' : a' < length (sizes b)).
    { destruct Sl as (sz & off & F & _). destruct (get_face_inv _ _ _ _ _ _ F) as (s & o & Es & _). apply nth_error_Some. congruence. }
    destruct (refl_n_spec b a' n' K Ha') as (a2 & _ & Ra2 & Rb). rewrite Ra in Ra2. injection Ra2 as <-.
    destruct (refl_n_spec b x n' K (In_ x (or_introl eq_refl))) as (jx & _ & Rx & Rx').
    rewrite Rx in Q.
    cbn [existsb]. destruct (Nat.eqb_spec a x) as [->|Nax]; cbn [orb].
    + rewrite Rx in Rb. injection Rb as ->. rewrite Nat.eqb_refl, andb_true_r in Q. rewrite andb_true_r in Q.
      assert (Ex : existsb (Nat.eqb x) angles = false).
      { apply not_true_is_false. intros Ex. apply existsb_exists in Ex. destruct Ex as (m & Hm & Em).
        apply Nat.eqb_eq in Em. subst m. auto. }
      rewrite Ex, andb_false_r, andb_true_r. exact Q.
    + assert (a' <> jx) by (intros ->; congruence). destruct (Nat.eqb_spec a' jx); [contradiction|].
      rewrite andb_false_r in Q. now rewrite Q.
Qed.

Lemma existsb_seq : forall a n, existsb (Nat.eqb a) (seq 0 n) = (a <? n).
Proof.
  intros a n. destruct (Nat.ltb_spec a n).
  - apply existsb_exists. exists a. split; [apply in_seq; lia|apply Nat.eqb_refl].
  - apply not_true_is_false. intros E. apply existsb_exists in E. destruct E as (m & Hm & E). apply in_seq in Hm.
    apply Nat.eqb_eq in E. lia.
Qed.

Lemma update_group_ok : forall b out group d, bc_ok b -> sizes out = sizes b ->
  length (data out) = total (sizes b) -> all_supported b -> group < n_group b -> Forall no_gap (sizes b) ->
  length d = n_group b * total (sizes b) ->
  exists d', update_group b out group d = Ok d' /\ length d' = length d /\
    (forall g' a' n' i k, slot b g' a' n' i k -> g' <> group -> nth_error d' k = nth_error d k) /\
    (forall a' n' i k, slot b group a' n' i k ->
      exists a t ko, refl_n b a' n' = Some a /\ type_at b a' n' = Some t /\ slot b 0 a n' i ko /\
        nth_error d' k = new_value t (nth_error d k) (nth_error (data out) ko)).
Proof.
  intros b out group d K So Lo Su Hg Ng Ld. unfold update_group.
  destruct (update_angles_ok b out group (seq 0 (length (sizes b))) d K So Lo Su Hg Ng) as (d' & E & L & P); auto.
  - intros a H. apply in_seq in H. lia.
  - apply seq_NoDup.
  - exists d'. split; [exact E|]. split; [exact L|].
    assert (Hs : forall g' a' n' i k, slot b g' a' n' i k -> exists s, nth_error (sizes b) a' = Some s /\ i < face_size s n').
    { intros g' a' n' i k (size & off & F & Hi & _). destruct (get_face_inv _ _ _ _ _ _ F) as (s & o & Es & _ & -> & _). eauto. }
    split.
    + intros g' a' n' i k Sl Ne. destruct (Hs _ _ _ _ _ Sl) as (s & Es & _).
      destruct (refl_n_spec b a' n' K) as (a & _ & Ra & _); [apply nth_error_Some; congruence|].
      rewrite (P _ _ _ _ _ _ Sl Ra). destruct (Nat.eqb_spec g' group); [contradiction|]. reflexivity.
    + intros a' n' i k Sl. destruct (Hs _ _ _ _ _ Sl) as (s & Es & Hi).
      assert (La : a' < length (sizes b)) by (apply nth_error_Some; congruence).
      destruct (refl_n_spec b a' n' K La) as (a & _ & Ra & Rb).
      destruct (ok_mirror b K a' a n' s Es Ra) as (s' & Es' & Eq); [lia|].
      assert (La' : a < length (sizes b)) by (apply nth_error_Some; congruence).
      pose proof (ok_quad b K).
      pose proof (P _ _ _ _ _ _ Sl Ra) as Q. rewrite Nat.eqb_refl, existsb_seq in Q.
      destruct (Nat.ltb_spec a (length (sizes b))); [|lia]. cbn [andb] in Q. unfold type_at in *.
      destruct (nth_error (quad b) a') as [ang|] eqn:Ea; [|apply nth_error_None in Ea; lia].
      destruct (get_face_some b 0 a n' La') as (size & off & F). rewrite F in Q.
      exists a, (types b (upwind_surface (adir ang) n')), (off + i). repeat split; auto.
      exists size, off. destruct (get_face_inv _ _ _ _ _ _ F) as (s2 & o2 & Es2 & _ & -> & _).
      rewrite Es' in Es2. injection Es2 as <-. repeat split; auto; lia.
Qed.

(** ** Initialisation *)

Definition key_eqb (x y : nat * nat * Normal) : bool :=
  let '(g, a, n) := x in let '(g', a', n') := y in (g =? g') && (a =? a') && normal_eqb n n'.
Lemma key_eqb_eq : forall x y, key_eqb x y = true <-> x = y.
Proof.
  intros [[g a] n] [[g' a'] n']. cbn. rewrite !andb_true_iff, !Nat.eqb_eq, normal_eqb_eq. split; [intros [[-> ->] ->]; auto|].
  intros E. injection E as -> -> ->. auto.
Qed.

Lemma init_faces_ok : forall b val presc keys d, length (sizes b) <= length (quad b) ->
  length d = n_group b * total (sizes b) -> NoDup keys ->
  (forall g a n, In (g, a, n) keys -> g < n_group b /\ a < length (sizes b)) ->
  exists d', init_faces b val presc keys d = Ok d' /\ length d' = length d /\
    forall g a n i k, slot b g a n i k ->
      nth_error d' k = if existsb (key_eqb (g, a, n)) keys
                       then match type_at b a n with
                            | Some t => match init_value t val presc with Some v => Some v | None => nth_error d k end
                            | None => None
                            end
                       else nth_error d k.
Proof.
  intros b val presc keys. induction keys as [|[[g0 a0] n0] keys IH]; intros d Lq Ld ND R.
  - exists d. auto.
  - cbn [init_faces]. destruct (R g0 a0 n0 (or_introl eq_refl)) as [Hg0 Ha0].
    destruct (nth_error (quad b) a0) as [ang|] eqn:Ea; [|apply nth_error_None in Ea; lia].
    destruct (get_face_some b g0 a0 n0 Ha0) as (size & off & F). rewrite F.
    inversion ND as [|? ? N1 N2]; subst.
    assert (Ex : existsb (key_eqb (g0, a0, n0)) keys = false).
    { apply not_true_is_false. intros Ex. apply existsb_exists in Ex. destruct Ex as (m & Hm & Em).
      apply key_eqb_eq in Em. subst m. auto. }
    assert (R' : forall g a n, In (g, a, n) keys -> g < n_group b /\ a < length (sizes b)) by (intros; apply (R g a n); now right).
    destruct (init_value (types b (upwind_surface (adir ang) n0)) val presc) as [v|] eqn:Ev.
    + destruct (get_face_inv _ _ _ _ _ _ F) as (s & o & Es & Eo & Esz & Eoff).
      destruct (offsets_bounds _ _ _ _ _ n0 Es Eo) as [_ B]. cbn [plus] in B.
      destruct (write_range_some d off (repeat v size)) as [d1 E1].
      { rewrite repeat_length, Ld. pose proof (Nat.mul_le_mono_r (g0 + 1) (n_group b) (total (sizes b)) ltac:(lia)). lia. }
      rewrite E1. destruct (write_range_spec _ _ _ _ E1) as [L1 P1]. rewrite repeat_length in P1.
      destruct (IH d1 Lq ltac:(congruence) N2 R') as (d' & E' & L' & P'). exists d'. split; [exact E'|].
      split; [congruence|]. intros g a n i k Sl. rewrite (P' _ _ _ _ _ Sl). cbn [existsb].
      destruct (key_eqb (g, a, n) (g0, a0, n0)) eqn:Q; cbn [orb].
      * apply key_eqb_eq in Q. injection Q as -> -> ->. rewrite Ex, P1. unfold type_at. rewrite Ea, Ev.
        destruct (face_range_own _ _ _ _ _ _ _ _ F Sl) as [-> <-]. apply nth_error_repeat'.
        destruct Sl as (sz' & off' & F' & Hi & _). rewrite F in F'. now injection F' as <- <-.
      * assert (Ed : nth_error d1 k = nth_error d k).
        { rewrite P1. destruct ((off <=? k) && (k <? off + size)) eqn:Rg; auto.
          destruct (face_range _ _ _ _ _ _ _ _ _ _ _ F Sl Rg) as (-> & -> & -> & _).
          rewrite (proj2 (key_eqb_eq _ _) eq_refl) in Q. discriminate. }
        rewrite Ed. reflexivity.
    + destruct (IH d Lq Ld N2 R') as (d' & E' & L' & P'). exists d'. split; [exact E'|].
      split; [congruence|]. intros g a n i k Sl. rewrite (P' _ _ _ _ _ Sl). cbn [existsb].
      destruct (key_eqb (g, a, n) (g0, a0, n0)) eqn:Q; cbn [orb]; auto.
      apply key_eqb_eq in Q. injection Q as -> -> ->. rewrite Ex. unfold type_at. now rewrite Ea, Ev.
Qed.

Lemma in_all_keys : forall b g a n, In (g, a, n) (all_keys b) <-> g < n_group b /\ a < length (sizes b).
Proof.
  intros b g a n. unfold all_keys. rewrite in_flat_map. split.
  - intros (g' & Hg & H). apply in_seq in Hg. apply in_flat_map in H. destruct H as (a' & Ha & H). apply in_seq in Ha.
    apply in_map_iff in H. destruct H as (n' & E & _). injection E as -> -> ->. lia.
  - intros [Hg Ha]. exists g. split; [apply in_seq; lia|]. apply in_flat_map. exists a. split; [apply in_seq; lia|].
    apply in_map_iff. exists n. split; auto. destruct n; cbn; auto.
Qed.

Lemma NoDup_app' : forall {A} (l m : list A), NoDup l -> NoDup m -> (forall x, In x l -> In x m -> False) -> NoDup (l ++ m).
Proof.
  induction l as [|x l IH]; intros m Hl Hm D; cbn; auto. inversion Hl; subst. constructor.
  - intros H. apply in_app_or in H. destruct H as [H|H]; auto. apply (D x); auto. now left.
  - apply IH; auto. intros y Hy. apply D. now right.
Qed.

Lemma NoDup_flat_map : forall {A B} (f : A -> list B) l, NoDup l -> (forall x, In x l -> NoDup (f x)) ->
  (forall x y z, In x l -> In y l -> In z (f x) -> In z (f y) -> x = y) -> NoDup (flat_map f l).
Proof.
  induction l as [|x l IH]; intros ND H1 H2; cbn; [constructor|]. inversion ND as [|? ? N1 N2]; subst.
  apply NoDup_app'.
  - apply H1. now left.
  - apply IH; auto; [intros; apply H1; now right|]. intros y z w Hy Hz. apply H2; now right.
  - intros z Hz Hz'. apply in_flat_map in Hz'. destruct Hz' as (y & Hy & Hz').
    assert (x = y) by (apply (H2 x y z); auto; [now left|now right]). subst. auto.
Qed.

Lemma NoDup_all_keys : forall b, NoDup (all_keys b).
Proof.
  intros b. apply NoDup_flat_map; [apply seq_NoDup| |].
  - intros g _. apply NoDup_flat_map; [apply seq_NoDup| |].
    + intros a _. cbn. repeat constructor; cbn; intuition congruence.
    + intros a a' z _ _ H H'. apply in_map_iff in H. apply in_map_iff in H'.
      destruct H as (n & <- & _), H' as (n' & E & _). congruence.
  - intros g g' z _ _ H H'. apply in_flat_map in H. apply in_flat_map in H'.
    destruct H as (a & _ & H), H' as (a' & _ & H'). apply in_map_iff in H. apply in_map_iff in H'.
    destruct H as (n & <- & _), H' as (n' & E & _). congruence.
Qed.

Lemma initialize_scalar_ok : forall b val presc, length (sizes b) <= length (quad b) ->
  length (data b) = n_group b * total (sizes b) ->
  exists d', initialize_scalar b val presc = Ok d' /\ length d' = length (data b) /\
    forall g a n i k, slot b g a n i k -> g < n_group b ->
      exists t, type_at b a n = Some t /\
        nth_error d' k = Some (match init_value t val presc with Some v => v | None => 0%R end).
Proof.
  intros b val presc Lq Ld. unfold initialize_scalar.
  destruct (init_faces_ok b val presc (all_keys b) (repeat 0%R (length (data b))) Lq) as (d' & E & L & P).
  - rewrite repeat_length. auto.
  - apply NoDup_all_keys.
  - intros g a n H. now apply in_all_keys in H.
  - exists d'. split; [exact E|]. rewrite repeat_length in L. split; [exact L|].
    intros g a n i k Sl Hg. pose proof (P _ _ _ _ _ Sl) as Q.
    assert (Ha : a < length (sizes b)).
    { destruct Sl as (sz & off & F & _). destruct (get_face_inv _ _ _ _ _ _ F) as (s & o & Es & _). apply nth_error_Some. congruence. }
    assert (Ex : existsb (key_eqb (g, a, n)) (all_keys b) = true).
    { apply existsb_exists. exists (g, a, n). split; [now apply in_all_keys|now apply key_eqb_eq]. }
    rewrite Ex in Q. unfold type_at in *. destruct (nth_error (quad b) a) as [ang|] eqn:Ea; [|apply nth_error_None in Ea; lia].
    eexists. split; [reflexivity|]. rewrite Q. destruct (init_value _ val presc); auto.
    apply nth_error_repeat'. rewrite Ld. eapply slot_range; eauto.
Qed.
