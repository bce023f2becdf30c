(** Properties C138-C140, C146, C147: arrays in HDF5 files. *)
From Coq Require Import List Bool Arith Ascii Lia.
From Verif Require Import StrModel H5Model.
Import ListNotations.

Lemma hsame_spec : forall a b, hsame a b = true <-> a = b.
Proof. intros a b. unfold hsame. destruct (list_eq_dec ascii_dec a b); split; congruence. Qed.
Lemma hsame_refl : forall a, hsame a a = true. Proof. intros. apply hsame_spec. reflexivity. Qed.
Lemma hsame_not : forall a b, hsame a b = false <-> a <> b.
Proof. intros a b. unfold hsame. destruct (list_eq_dec ascii_dec a b); split; congruence. Qed.

Section Props.
Context {V : Type} (zero : V).
Notation Node := (@HNode V).
Notation Array := (@Arr V).

(** ** Files *)
(** What a user sees of a file: the data sets and the groups at each path. *)
Definition data_at (f : Node) (p : list str) : option (list nat * list V) := match look f p with Some (HData d v) => Some (d, v) | _ => None end.
Definition group_at (f : Node) (p : list str) : Prop := exists l, look f p = Some (HGroup l).
(** Every data set has as many values as its dimensions say. *)
Definition sound (f : Node) : Prop := forall p d v, data_at f p = Some (d, v) -> length v = prod d.
Definition good_array (a : Array) : Prop := length (a_vals a) = a_size a.

Lemma kid_app : forall s l x, kid s l = None -> @kid V s (l ++ [(s, x)]) = Some x.
Proof. induction l as [|[n y] l IH]; intros x H; cbn [kid app] in *; [rewrite hsame_refl; reflexivity|]. destruct (hsame n s); [discriminate|auto]. Qed.
Lemma kid_app_other : forall s t l x, s <> t -> @kid V t (l ++ [(s, x)]) = kid t l.
Proof. induction l as [|[n y] l IH]; intros x H; cbn [kid app] in *; [rewrite (proj2 (hsame_not s t) H); reflexivity|]. destruct (hsame n t); auto. Qed.
Lemma in_kid_some : forall s f l l', @in_kid V s f l = Some l' -> exists x y, kid s l = Some x /\ f x = Some y /\ kid s l' = Some y /\ forall t, t <> s -> kid t l' = kid t l.
Proof.
  induction l as [|[n x] l IH]; intros l' H; cbn [in_kid] in H; [discriminate|]. destruct (hsame n s) eqn:E.
  - destruct (f x) as [y|] eqn:F; [|discriminate]. inversion H; subst. exists x, y. cbn [kid]. rewrite E. repeat split; auto.
    intros t T. apply hsame_spec in E. subst n. rewrite (proj2 (hsame_not s t)); [reflexivity|congruence].
  - destruct (in_kid s f l) as [r|] eqn:F; [|discriminate]. inversion H; subst. destruct (IH r eq_refl) as (x0 & y & A & B & C & D).
    exists x0, y. cbn [kid]. rewrite E. repeat split; auto. intros t T. destruct (hsame n t); [reflexivity|apply D; exact T].
Qed.
Lemma in_kid_ok : forall s f l x y, kid s l = Some x -> f x = Some y -> @in_kid V s f l <> None.
Proof.
  induction l as [|[n z] l IH]; intros x y H F; cbn [kid in_kid] in *; [discriminate|]. destruct (hsame n s); [inversion H; subst; rewrite F; discriminate|].
  specialize (IH _ _ H F). destruct (in_kid s f l); congruence.
Qed.
Lemma create_cons : forall s t r new (l : list (str * Node)), create (s :: t :: r) new (HGroup l) = match in_kid s (create (t :: r) new) l with Some l' => Some (HGroup l') | None => None end.
Proof. reflexivity. Qed.

(** The effect of creating an object. *)
Lemma create_new : forall p new x y, @create V p new x = Some y -> look y p = Some new /\ look x p = None.
Proof.
  induction p as [|s p IH]; intros new x y H; [discriminate|]. destruct x as [d v|l]; [destruct p; discriminate|]. destruct p as [|t p].
  - cbn [create] in H. destruct (kid s l) eqn:K; [discriminate|]. inversion H; subst. cbn [look]. rewrite kid_app, K by exact K. auto.
  - rewrite create_cons in H. destruct (in_kid s (create (t :: p) new) l) as [l'|] eqn:E; [|discriminate]. inversion H; subst.
    destruct (in_kid_some _ _ _ _ E) as (x0 & y0 & A & B & C & D). destruct (IH _ _ _ B) as [P Q].
    change (look (HGroup l') (s :: t :: p)) with (match kid s l' with Some z => look z (t :: p) | None => None end).
    change (look (HGroup l) (s :: t :: p)) with (match kid s l with Some z => look z (t :: p) | None => None end). rewrite A, C. auto.
Qed.
Lemma look_cons : forall s r (l : list (str * Node)), look (HGroup l) (s :: r) = match kid s l with Some y => look y r | None => None end.
Proof. reflexivity. Qed.
Lemma create_keeps : forall p new x y, @create V p new x = Some y -> forall q d v, look x q = Some (HData d v) -> look y q = Some (HData d v).
Proof.
  induction p as [|s p IH]; intros new x y H q d v L; [discriminate|]. destruct x as [d0 v0|l]; [destruct p; discriminate|]. destruct q as [|u q]; [discriminate|].
  rewrite look_cons in L. destruct p as [|t p].
  - cbn [create] in H. destruct (kid s l) eqn:K; [discriminate|]. inversion H; subst. rewrite look_cons. destruct (list_eq_dec ascii_dec s u) as [E|E].
    + subst. rewrite K in L. discriminate.
    + rewrite kid_app_other by exact E. exact L.
  - rewrite create_cons in H. destruct (in_kid s (create (t :: p) new) l) as [l'|] eqn:E; [|discriminate]. inversion H; subst.
    destruct (in_kid_some _ _ _ _ E) as (x0 & y0 & A & B & C & D). rewrite look_cons. destruct (list_eq_dec ascii_dec u s) as [G|G].
    + subst u. rewrite A in L. rewrite C. apply (IH _ _ _ B). exact L.
    + rewrite (D u G). exact L.
Qed.
Lemma create_groups : forall p new x y, @create V p new x = Some y -> forall q, group_at x q -> group_at y q.
Proof.
  unfold group_at. induction p as [|s p IH]; intros new x y H q [g L]; [discriminate|]. destruct x as [d0 v0|l]; [destruct p; discriminate|]. destruct q as [|u q].
  - destruct p as [|t p]; [cbn [create] in H; destruct (kid s l); [discriminate|]|rewrite create_cons in H; destruct (in_kid s (create (t :: p) new) l); [|discriminate]]; inversion H; cbn [look]; eexists; reflexivity.
  - rewrite look_cons in L. destruct p as [|t p].
    + cbn [create] in H. destruct (kid s l) eqn:K; [discriminate|]. inversion H; subst. rewrite look_cons. destruct (list_eq_dec ascii_dec s u) as [E|E].
      * subst. rewrite K in L. discriminate.
      * rewrite kid_app_other by exact E. exists g. exact L.
    + rewrite create_cons in H. destruct (in_kid s (create (t :: p) new) l) as [l'|] eqn:E; [|discriminate]. inversion H; subst.
      destruct (in_kid_some _ _ _ _ E) as (x0 & y0 & A & B & C & D). rewrite look_cons. destruct (list_eq_dec ascii_dec u s) as [G|G].
      * subst u. rewrite A in L. rewrite C. apply (IH _ _ _ B q). exists g. exact L.
      * rewrite (D u G). exists g. exact L.
Qed.
Lemma create_only : forall p new x y, @create V p new x = Some y -> forall q d v, look y q = Some (HData d v) ->
  look x q = Some (HData d v) \/ exists r, q = p ++ r /\ look new r = Some (HData d v).
Proof.
  induction p as [|s p IH]; intros new x y H q d v L; [discriminate|]. destruct x as [d0 v0|l]; [destruct p; discriminate|].
  assert (YG : exists l', y = HGroup l') by (destruct p; [cbn [create] in H; destruct (kid s l); [discriminate|]|rewrite create_cons in H; destruct (in_kid s _ l); [|discriminate]]; inversion H; eexists; reflexivity).
  destruct YG as [l' ->]. destruct q as [|u q]; [discriminate|]. rewrite look_cons in L. destruct p as [|t p].
  - cbn [create] in H. destruct (kid s l) eqn:K; [discriminate|]. inversion H; subst. destruct (list_eq_dec ascii_dec s u) as [E|E].
    + subst. rewrite kid_app in L by exact K. right. exists q. auto.
    + rewrite kid_app_other in L by exact E. left. rewrite look_cons. exact L.
  - rewrite create_cons in H. destruct (in_kid s (create (t :: p) new) l) as [l2|] eqn:E; [|discriminate]. inversion H; subst.
    destruct (in_kid_some _ _ _ _ E) as (x0 & y0 & A & B & C & D). destruct (list_eq_dec ascii_dec u s) as [G|G].
    + subst u. rewrite C in L. destruct (IH _ _ _ B _ _ _ L) as [M|(r & M & N)]; [left; rewrite look_cons, A; exact M|right; exists r; subst; auto].
    + rewrite (D u G) in L. left. rewrite look_cons. exact L.
Qed.
Lemma create_when : forall r s new x, @create V (r ++ [s]) new x <> None <-> group_at x r /\ look x (r ++ [s]) = None.
Proof.
  unfold group_at. induction r as [|t r IH]; intros s new x; cbn [app].
  - destruct x as [d v|l]; cbn [create look]; [split; [congruence|intros [[g G] _]; discriminate]|]. destruct (kid s l) as [z|].
    + split; [congruence|]. intros [_ H]. discriminate.
    + split; [|discriminate]. intros _. split; [eexists; reflexivity|reflexivity].
  - destruct x as [d v|l]; [destruct r; cbn [app create look]; (split; [congruence|intros [[g G] _]; discriminate])|].
    assert (E : create (t :: r ++ [s]) new (HGroup l) = match in_kid t (create (r ++ [s]) new) l with Some l' => Some (HGroup l') | None => None end) by (destruct r; reflexivity).
    rewrite E, !look_cons. destruct (kid t l) as [y|] eqn:K.
    + rewrite <- (IH s new y). destruct (in_kid t (create (r ++ [s]) new) l) as [l'|] eqn:F.
      * destruct (in_kid_some _ _ _ _ F) as (x0 & y0 & A & B & _). rewrite K in A. inversion A; subst. rewrite B. split; discriminate.
      * split; [congruence|]. intros H. destruct (create (r ++ [s]) new y) as [y'|] eqn:G; [|congruence]. exfalso. exact (in_kid_ok _ _ _ _ _ K G F).
    + split; [|intros [[g G] _]; discriminate]. intros H. destruct (in_kid t (create (r ++ [s]) new) l) as [l'|] eqn:F; [|congruence].
      destruct (in_kid_some _ _ _ _ F) as (x0 & y0 & A & _). congruence.
Qed.

(** ** C138 What is written can be read *)
Lemma put_data_ok : forall (f : Node) h p dims mem f', put_data f h p dims mem = HOk f' ->
  hn_access h <> H_READ /\ prod dims <= length mem /\ create (resolve h p) (HData dims (firstn (prod dims) mem)) f = Some f'.
Proof.
  intros f h p dims mem f' H. unfold put_data in H. destruct (hn_access h); try discriminate;
    (destruct (create _ _ f) as [g|]; [|discriminate]; destruct (length mem <? prod dims) eqn:L; [discriminate|]; apply Nat.ltb_ge in L; inversion H; subst; repeat split; auto; discriminate).
Qed.
(** After writing an array it reads back with its shape and values, into an array of the same shape, into an empty array of the same rank,
    and in order into an empty one-dimensional array. *)
Theorem C138_round_trip : forall (f : Node) h p (a : Array) f', good_array a -> write_arr f h p a = HOk f' ->
  data_at f' (resolve h p) = Some (a_shape a, a_vals a)
  /\ (forall h' p' b, resolve h' p' = resolve h p -> good_array b -> a_contig b = true ->
        (a_shape b = a_shape a \/ (a_size b = 0 /\ length (a_shape b) = length (a_shape a))) ->
        exists c, read_arr f' h' p' b = HOk c /\ a_size c = a_size a /\ (length (a_shape b) <> 1 -> a_shape c = a_shape a) /\ a_vals c = a_vals a)
  /\ (forall h' p' b, resolve h' p' = resolve h p -> good_array b -> length (a_shape b) = 1 -> a_size b = 0 \/ a_size b = a_size a ->
        exists c, read_1d f' h' p' b = HOk c /\ a_vals c = a_vals a).
Proof.
  intros f h p a f' GA H. unfold write_arr in H. destruct (a_contig a); cbn [negb] in H; [|discriminate]. destruct (put_data_ok _ _ _ _ _ _ H) as (_ & _ & C).
  unfold good_array, a_size in GA. rewrite <- GA, firstn_all in C. destruct (create_new _ _ _ _ C) as [L _].
  assert (F : forall vals mem : list V, length mem = length vals -> fill vals mem = HOk vals).
  { intros vals mem E. unfold fill. rewrite E, Nat.ltb_irrefl. rewrite skipn_all2 by lia. rewrite app_nil_r. reflexivity. }
  split; [unfold data_at; rewrite L; reflexivity|]. split.
  - intros h' p' b R GB CB HB. unfold read_arr. rewrite CB, andb_false_r, R, L. unfold good_array in GB.
    destruct (a_size b =? 0) eqn:Z.
    + apply Nat.eqb_eq in Z. destruct (length (a_shape b) =? 1) eqn:ONE.
      * eexists. split; [reflexivity|]. unfold a_size. cbn [a_shape a_vals prod fold_right]. split; [unfold prod; lia|]. split; [apply Nat.eqb_eq in ONE; congruence|reflexivity].
      * destruct HB as [HB|[_ HB]]; rewrite HB, Nat.eqb_refl; eexists; (split; [reflexivity|]); cbn [a_shape a_vals]; auto.
    + apply Nat.eqb_neq in Z. destruct HB as [HB|[HB _]]; [|congruence].
      assert (LB : length (a_vals b) = length (a_vals a)) by (rewrite GB, GA; unfold a_size; rewrite HB; reflexivity).
      assert (SE : forall s, same_extents s s = HOk tt) by (induction s as [|x s IHs]; cbn [same_extents]; [reflexivity|]; rewrite Nat.eqb_refl; exact IHs).
      unfold a_size at 1. rewrite HB, SE, Nat.eqb_refl, (F _ _ LB).
      assert (E : (if length (a_shape a) =? 1 then @HOk unit tt else @HOk unit tt) = HOk tt) by (destruct (length (a_shape a) =? 1); reflexivity).
      rewrite E. eexists. split; [reflexivity|]. unfold a_size. cbn [a_shape a_vals]. rewrite <- HB. auto.
  - intros h' p' b R GB ONE HB. unfold read_1d. rewrite R, L. destruct (a_size b =? 0) eqn:Z; [eexists; split; reflexivity|].
    apply Nat.eqb_neq in Z. destruct HB as [HB|HB]; [congruence|]. rewrite HB. unfold a_size. rewrite Nat.eqb_refl. rewrite F; [eexists; split; reflexivity|]. unfold good_array in GB. rewrite GB, HB, GA. reflexivity.
Qed.
(** Vectors too. *)
Theorem C138_vector : forall (f : Node) h p data f', write_vec f h p data = HOk f' ->
  forall h' p' buf, resolve h' p' = resolve h p -> buf = [] \/ length buf = length data -> read_vec f' h' p' buf = HOk (data : list V).
Proof.
  intros f h p data f' H h' p' buf R B. unfold write_vec in H. destruct (put_data_ok _ _ _ _ _ _ H) as (_ & _ & C).
  unfold prod in C. cbn [fold_right] in C. rewrite Nat.mul_1_r, firstn_all in C. destruct (create_new _ _ _ _ C) as [L _].
  unfold read_vec. rewrite R, L. cbn [length Nat.eqb negb]. unfold prod. cbn [fold_right]. rewrite Nat.mul_1_r. destruct B as [->| ->]; [reflexivity|]. rewrite Nat.eqb_refl. destruct (length data =? 0); reflexivity.
Qed.
(** A write adds one data set and leaves all others, and is accepted exactly when its group exists and its name is free. *)
Theorem C138_frame : forall (f : Node) h p dims mem f', put_data f h p dims mem = HOk f' -> sound f ->
  sound f' /\ (forall q, q <> resolve h p -> data_at f' q = data_at f q) /\ (forall q, group_at f q -> group_at f' q) /\ data_at f (resolve h p) = None.
Proof.
  intros f h p dims mem f' H W. destruct (put_data_ok _ _ _ _ _ _ H) as (_ & LE & C). destruct (create_new _ _ _ _ C) as [L N].
  assert (Q : forall q, q <> resolve h p -> data_at f' q = data_at f q).
  { intros q NQ. unfold data_at. destruct (look f' q) as [[d v|g]|] eqn:E.
    - destruct (create_only _ _ _ _ C _ _ _ E) as [M|(r & M & K)]; [rewrite M; reflexivity|]. destruct r; [rewrite app_nil_r in M; congruence|discriminate].
    - destruct (look f q) as [[d v|g']|] eqn:G; try reflexivity. rewrite (create_keeps _ _ _ _ C _ _ _ G) in E. discriminate.
    - destruct (look f q) as [[d v|g']|] eqn:G; try reflexivity. rewrite (create_keeps _ _ _ _ C _ _ _ G) in E. discriminate. }
  split; [|split; [exact Q|split; [exact (create_groups _ _ _ _ C)|unfold data_at; rewrite N; reflexivity]]].
  intros q d v D. destruct (list_eq_dec (list_eq_dec ascii_dec) q (resolve h p)) as [E|E]; [|rewrite (Q q E) in D; exact (W _ _ _ D)].
  subst q. unfold data_at in D. rewrite L in D. inversion D; subst. apply firstn_length_le. exact LE.
Qed.
Theorem C138_accepted : forall (f : Node) h p dims mem r s, resolve h p = r ++ [s] -> prod dims <= length mem -> hn_access h <> H_READ ->
  ((exists f', put_data f h p dims mem = HOk f') <-> group_at f r /\ look f (r ++ [s]) = None).
Proof.
  intros f h p dims mem r s R LE A. rewrite <- (create_when r s (HData dims (firstn (prod dims) mem)) f). unfold put_data. rewrite R.
  assert (LT : (length mem <? prod dims) = false) by (apply Nat.ltb_ge; exact LE). rewrite LT.
  destruct (hn_access h); [congruence| |]; destruct (create _ _ f) as [g|]; split; intros H; try discriminate; try (exists g; reflexivity); try congruence; destruct H; discriminate.
Qed.

(** ** Paths and groups *)
(** Where a path leads: from the root of the file if it has a leading slash, else from the node it is used on. *)
Definition leads (h : H5Node) (p : HPath) (q : list str) : Prop := (hp_abs p = true -> q = hp_names p) /\ (hp_abs p = false -> q = hn_at h ++ hp_names p).
Lemma leads_resolve : forall h p q, leads h p q -> resolve h p = q.
Proof. intros h p q [A B]. unfold resolve. destruct (hp_abs p); symmetry; auto. Qed.
(** What is written is where the path leads, and is read from there; so is what has dimensions. *)
Theorem C138_paths : forall (f : Node) h p q dims mem f', leads h p q -> put_data f h p dims mem = HOk f' ->
  data_at f' q = Some (dims, firstn (prod dims) mem) /\ forall h' p', leads h' p' q -> h5_dimensions f' h' p' = HOk dims.
Proof.
  intros f h p q dims mem f' L H. apply leads_resolve in L. destruct (put_data_ok _ _ _ _ _ _ H) as (_ & _ & C). rewrite L in C. destruct (create_new _ _ _ _ C) as [N _]. split; [unfold data_at; rewrite N; reflexivity|].
  intros h' p' L'. apply leads_resolve in L'. unfold h5_dimensions. rewrite L', N. reflexivity.
Qed.
(** A group made is an empty group where the path leads; the node returned points there and has the same access; data sets and
    other groups are as they were. *)
Theorem C138_groups : forall (f : Node) h p q h' f', leads h p q -> create_group f h p = HOk (h', f') ->
  hn_access h <> H_READ /\ hn_at h' = q /\ hn_access h' = hn_access h /\ look f q = None /\ look f' q = Some (HGroup []) /\ (forall r, data_at f' r = data_at f r) /\ (forall r, group_at f r -> group_at f' r) /\
  (forall h2 p2, leads h2 p2 q -> hn_access h2 = hn_access h -> h5_at f' h2 p2 = HOk h').
Proof.
  intros f h p q h' f' L H. apply leads_resolve in L. unfold create_group in H. rewrite L in H.
  assert (A : hn_access h <> H_READ) by (intro E; rewrite E in H; discriminate). assert (K : exists g, create q (HGroup []) f = Some g /\ HOk (mkHN q (hn_access h), g) = HOk (h', f')) by (destruct (hn_access h); [discriminate| |]; (destruct (create q (HGroup []) f) as [g|]; [exists g; auto|discriminate])).
  destruct K as (g & C & E). injection E as <- <-. destruct (create_new _ _ _ _ C) as [N1 N2]. split; [exact A|]. split; [reflexivity|]. split; [reflexivity|]. split; [exact N2|]. split; [exact N1|]. split; [|split; [exact (create_groups _ _ _ _ C)|]].
  - intro r. unfold data_at. destruct (look f r) as [[d v|k]|] eqn:E.
    + rewrite (create_keeps _ _ _ _ C _ _ _ E). reflexivity.
    + destruct (create_groups _ _ _ _ C r (ex_intro _ k E)) as [k' ->]. reflexivity.
    + destruct (look g r) as [[d v|k]|] eqn:G; try reflexivity. destruct (create_only _ _ _ _ C _ _ _ G) as [M|(t & _ & M)]; [congruence|]. destruct t; discriminate.
  - intros h2 p2 L2 A2. apply leads_resolve in L2. unfold h5_at. rewrite L2, N1, A2. reflexivity.
Qed.
(** A group can be made just where there is a group and the name is free, unless the file is open for reading. *)
Theorem C138_group_accepted : forall (f : Node) h p r s, leads h p (r ++ [s]) -> ((exists x, create_group f h p = HOk x) <-> hn_access h <> H_READ /\ group_at f r /\ look f (r ++ [s]) = None).
Proof.
  intros f h p r s L. apply leads_resolve in L. rewrite <- (create_when r s (HGroup []) f). unfold create_group. rewrite L. destruct (hn_access h); (split; [intros [x X]|intros [A B]]); try discriminate; try congruence;
    try (split; [discriminate|destruct (create (r ++ [s]) (HGroup []) f); [discriminate|discriminate]]); (destruct (create (r ++ [s]) (HGroup []) f); [eauto|congruence]).
Qed.
(** Through a node of a file opened for reading nothing is written. *)
Theorem C140_read_only : forall (f : Node) h p, hn_access h = H_READ -> create_group f h p = HThrow /\ (forall dims mem, put_data f h p dims mem = HThrow) /\ (forall data, write_vec f h p data = HThrow) /\ (forall a, write_arr f h p a = HThrow) /\
  (forall q h', h5_at f h q = HOk h' -> hn_access h' = H_READ).
Proof.
  intros f h p A. unfold create_group, write_vec, write_arr, put_data, h5_at. rewrite A. repeat split; auto.
  - intro a. destruct (negb (a_contig a)); reflexivity.
  - intros q h' H. destruct (look f (resolve h q)) as [[|]|]; try discriminate. injection H as <-. reflexivity.
Qed.
(** ** C139 Sizes are checked when the ranks agree (and C146, whatever the sizes) *)
(** Reading an array of rank two or more that has storage: what should be accepted is a data set of the same dimensions. *)
Theorem C139_read_same_rank : forall (f : Node) h p (b : Array) d v, data_at f (resolve h p) = Some (d, v) -> sound f -> good_array b -> a_contig b = true ->
  0 < a_size b -> length d = length (a_shape b) ->
  ((exists c, read_arr f h p b = HOk c) <-> (if length d =? 1 then a_size b = prod d else a_shape b = d))
  /\ (forall c, read_arr f h p b = HOk c -> a_vals c = v /\ a_shape c = a_shape b)
  /\ read_arr f h p b <> HUB.
Proof.
  intros f h p b d v D W GB CB POS LEN. pose proof (W _ _ _ D) as LV. unfold data_at in D. destruct (look f (resolve h p)) as [[d0 v0|]|] eqn:L; try discriminate. inversion D; subst d0 v0.
  unfold read_arr. rewrite CB, andb_false_r, L. assert (Z : (a_size b =? 0) = false) by (apply Nat.eqb_neq; lia). rewrite Z, <- LEN.
  assert (F : a_size b = prod d -> fill v (a_vals b) = HOk v).
  { intros E. unfold fill. unfold good_array in GB. rewrite GB, LV, E, Nat.ltb_irrefl. rewrite skipn_all2 by lia. rewrite app_nil_r. reflexivity. }
  destruct (length d =? 1) eqn:ONE.
  - destruct (a_size b =? prod d) eqn:E.
    + apply Nat.eqb_eq in E. rewrite (F E). split; [split; [intros _; exact E|intros _; eexists; reflexivity]|]. split; [intros c C; inversion C; auto|discriminate].
    + apply Nat.eqb_neq in E. split; [split; [intros [c C]; discriminate|congruence]|]. split; [discriminate|discriminate].
  - assert (SE : forall s e, length s = length e -> (same_extents s e = HOk tt <-> s = e) /\ same_extents s e <> HUB).
    { clear. induction s as [|x s IH]; intros [|y e] H; try discriminate; cbn [same_extents].
      - split; [split; auto|discriminate].
      - injection H as H. destruct (IH e H) as [A B]. destruct (x =? y) eqn:E.
        + apply Nat.eqb_eq in E. subst y. split; [rewrite A; split; congruence|exact B].
        + apply Nat.eqb_neq in E. split; [split; congruence|discriminate]. }
    destruct (SE (a_shape b) d (eq_sym LEN)) as [A B]. destruct (same_extents (a_shape b) d) as [[]| | | |] eqn:E.
    + assert (S : a_shape b = d) by (apply A; reflexivity). rewrite F by (unfold a_size; rewrite S; reflexivity).
      split; [split; [intros _; exact S|intros _; eexists; reflexivity]|]. split; [intros c C; inversion C; auto|discriminate].
    + split; [split; [intros [c C]; discriminate|intros S; apply A in S; discriminate]|]. split; [discriminate|discriminate].
    + split; [split; [intros [c C]; discriminate|intros S; apply A in S; discriminate]|]. split; [discriminate|discriminate].
    + split; [split; [intros [c C]; discriminate|intros S; apply A in S; discriminate]|]. split; [discriminate|discriminate].
    + congruence.
Qed.
Theorem C139_vector : forall (f : Node) h p buf d v, data_at f (resolve h p) = Some (d, v) -> sound f ->
  ((exists c, read_vec f h p buf = HOk c) <-> length d = 1 /\ (buf = [] \/ length buf = length v)) /\ (forall c, read_vec f h p buf = HOk c -> c = v).
Proof.
  intros f h p buf d v D W. pose proof (W _ _ _ D) as LV. unfold data_at in D. destruct (look f (resolve h p)) as [[d0 v0|]|] eqn:L; try discriminate. inversion D; subst d0 v0.
  unfold read_vec. rewrite L, <- LV. destruct (length d =? 1) eqn:ONE; cbn [negb].
  - apply Nat.eqb_eq in ONE. destruct (length buf =? 0) eqn:Z.
    + split; [|congruence]. split; [intros _; split; [exact ONE|left; destruct buf; [reflexivity|discriminate]]|intros _; eexists; reflexivity].
    + apply Nat.eqb_neq in Z. destruct (length buf =? length v) eqn:E.
      * apply Nat.eqb_eq in E. split; [|congruence]. split; [intros _; auto|intros _; eexists; reflexivity].
      * apply Nat.eqb_neq in E. split; [|discriminate]. split; [intros [c C]; discriminate|intros [_ [K|K]]; [subst; cbn in Z; congruence|congruence]].
  - apply Nat.eqb_neq in ONE. split; [|discriminate]. split; [intros [c C]; discriminate|tauto].
Qed.
(** A data set of lower rank whose dimensions start those of the array is read into part of it without complaint; one of higher rank makes
    the check read past the array's extents; writes through iterators and of arrays with dimensions run past the end of memory. *)
Theorem C146_lower_rank_refuted : exists (f : Node) h p (b : Array) c d, sound f /\ good_array b /\ a_contig b = true /\ h5_dimensions f h p = HOk d
  /\ a_shape b <> d /\ length (a_shape b) <> 1 /\ read_arr f h p b = HOk c /\ nth_error (a_vals c) 3 = nth_error (a_vals b) 3 /\ a_size b <> prod d.
Proof.
  exists (HGroup [([], HData [2] [zero; zero])]), (mkHN [] H_READ), (mkHP true [[]]), (mkArr [2; 2] (repeat zero 4) true), (mkArr [2; 2] (repeat zero 4) true), [2].
  split.
  - intros q d v H. unfold data_at in H. destruct q as [|s [|t q]]; [discriminate| |].
    + rewrite look_cons in H. cbn [kid] in H. destruct (hsame [] s); [|discriminate]. inversion H; reflexivity.
    + rewrite look_cons in H. cbn [kid] in H. destruct (hsame [] s); discriminate.
  - repeat split; cbn; discriminate.
Qed.
Theorem C146_higher_rank_refuted : exists (f : Node) h p (b : Array), sound f /\ good_array b /\ a_contig b = true /\ read_arr f h p b = HUB.
Proof.
  exists (HGroup [([], HData [1; 1; 2] [zero; zero])]), (mkHN [] H_READ), (mkHP true [[]]), (mkArr [1; 1] [zero] true).
  split.
  - intros q d v H. unfold data_at in H. destruct q as [|s [|t q]]; [discriminate| |].
    + rewrite look_cons in H. cbn [kid] in H. destruct (hsame [] s); [|discriminate]. inversion H; reflexivity.
    + rewrite look_cons in H. cbn [kid] in H. destruct (hsame [] s); discriminate.
  - repeat split.
Qed.
Theorem C146_write_refuted : forall h p s, hn_access h = H_WRITE -> resolve h p = [s] ->
  write_range zero (HGroup []) h p [zero; zero] [1] = HUB /\ write_arr_dims (HGroup []) h p (mkArr [1] [zero] true) [2] = HUB
  /\ (exists f', write_range zero (HGroup []) h p [zero] [2] = HOk f') /\ write_vec_dims false (HGroup []) h p [zero] [2] = HUB.
Proof.
  intros h p s A R. unfold write_range, write_arr_dims, write_vec_dims, put_data. rewrite A, R. repeat split; try reflexivity. eexists. reflexivity.
Qed.
(** With the right number of values each of these writes the values as they are. *)
Theorem C139_write_right : forall (f : Node) h p data dims, prod dims = length data ->
  write_range zero f h p data dims = put_data f h p dims data /\ (forall debug, write_vec_dims debug f h p data dims = put_data f h p dims data)
  /\ write_arr_dims f h p (mkArr [length data] data true) dims = put_data f h p dims data /\ put_data f h p dims data <> HUB
  /\ (forall f', put_data f h p dims data = HOk f' -> data_at f' (resolve h p) = Some (dims, data)).
Proof.
  intros f h p data dims E. unfold write_range, write_vec_dims, write_arr_dims. cbn [a_contig negb a_vals]. rewrite E, Nat.ltb_irrefl, Nat.sub_diag, Nat.eqb_refl. cbn [repeat]. rewrite app_nil_r.
  split; [reflexivity|]. split; [intros []; reflexivity|]. split; [reflexivity|]. split.
  - unfold put_data. rewrite E, Nat.ltb_irrefl. destruct (hn_access h); [discriminate| |]; destruct (create _ _ f); discriminate.
  - intros f' H. destruct (put_data_ok _ _ _ _ _ _ H) as (_ & _ & C). rewrite E, firstn_all in C. destruct (create_new _ _ _ _ C) as [L _]. unfold data_at. rewrite L. reflexivity.
Qed.

(** ** C140 (and C147, opening files and groups too) Failures are reported by the program's exception *)
(** Every read, write and group creation gives a result or throws the program's exception, but for sizes (C139). *)
Theorem C140_calls : forall (f : Node) h p, create_group f h p <> HUncaught /\ h5_dimensions f h p <> HUncaught
  /\ (forall d v, put_data f h p d v <> HUncaught) /\ (forall b, read_arr f h p b <> HUncaught) /\ (forall b, read_vec f h p b <> HUncaught) /\ (forall b, read_1d f h p b <> HUncaught).
Proof.
  intros f h p. split; [|split; [|split; [|split; [|split]]]].
  - unfold create_group. destruct (hn_access h); try discriminate; destruct (create _ _ f); discriminate.
  - unfold h5_dimensions. destruct (look f (resolve h p)) as [[|]|]; discriminate.
  - intros d v. unfold put_data. destruct (hn_access h); try discriminate; (destruct (create _ _ f); [destruct (length v <? prod d)|]; discriminate).
  - intros b. unfold read_arr. destruct (_ && _); [discriminate|]. destruct (look f (resolve h p)) as [[d v|]|]; try discriminate.
    destruct (a_size b =? 0); [destruct (length (a_shape b) =? 1); [|destruct (length (a_shape b) =? length d)]; discriminate|].
    destruct (if length (a_shape b) =? 1 then _ else _); try discriminate. destruct (fill v (a_vals b)); discriminate.
  - intros b. unfold read_vec. destruct (look f (resolve h p)) as [[d v|]|]; try discriminate. destruct (negb _); [discriminate|]. destruct (length b =? 0); [discriminate|]. destruct (length b =? prod d); discriminate.
  - intros b. unfold read_1d. destruct (look f (resolve h p)) as [[d v|]|]; try discriminate. destruct (a_size b =? 0); [discriminate|]. destruct (a_size b =? prod d); [|discriminate]. destruct (fill v (a_vals b)); discriminate.
Qed.
(** Opening a missing file and entering a missing group end the program with the library's exception. *)
Theorem C147_refuted : @h5_open V None H_READ = HUncaught /\ h5_open (V := V) None H_APPEND = HUncaught /\ exists (f : Node) h p, h5_at f h p = HUncaught.
Proof. repeat split. exists (HGroup []), (mkHN [] H_READ), (mkHP false [[]]). reflexivity. Qed.
(** What opening gives: a file opened to write is empty, any other is as it was. *)
Theorem C140_open : forall disk a h (f : Node), h5_open disk a = HOk (h, f) ->
  hn_at h = [] /\ hn_access h = a /\ (if match a with H_WRITE => true | _ => false end then forall q, data_at f q = None else disk = Some f).
Proof.
  intros disk a h f H. destruct a; cbn [h5_open] in H.
  - destruct disk as [[|]|]; try discriminate. inversion H; subst. auto.
  - inversion H; subst. repeat split. intros [|s q]; reflexivity.
  - destruct disk as [[|]|]; try discriminate. inversion H; subst. auto.
Qed.
End Props.

Definition nm (n : nat) : str := [ascii_of_nat n].
Definition arr1 : @Arr nat := mkArr [2; 2] [1; 2; 3; 4] true.
Definition node1 : H5Node := mkHN [nm 65] H_WRITE.
Definition file1 : @HNode nat := HGroup [(nm 65, HGroup [])].
Definition file2 : @HNode nat := HGroup [(nm 65, HGroup [(nm 66, HData [2; 2] [1; 2; 3; 4])])].
Example C138_instance : good_array arr1 /\ write_arr file1 node1 (mkHP false [nm 66]) arr1 = HOk file2
  /\ read_arr file2 (mkHN [] H_READ) (mkHP true [nm 65; nm 66]) (mkArr [0; 0] [] true) = HOk arr1
  /\ write_arr file2 node1 (mkHP false [nm 66]) arr1 = HThrow /\ write_arr file1 node1 (mkHP true [nm 67; nm 66]) arr1 = HThrow.
Proof. repeat split. Qed.
Lemma sound2 : sound file2.
Proof.
  intros q d v H. unfold data_at, file2 in H. destruct q as [|s q]; [discriminate|]. rewrite look_cons in H. cbn [kid] in H. destruct (hsame (nm 65) s); [|discriminate].
  destruct q as [|t q]; [discriminate|]. rewrite look_cons in H. cbn [kid] in H. destruct (hsame (nm 66) t); [|discriminate]. destruct q; [|discriminate]. inversion H; reflexivity.
Qed.
Example C139_instance : sound file2 /\ data_at file2 [nm 65; nm 66] = Some ([2; 2], [1; 2; 3; 4])
  /\ read_arr file2 node1 (mkHP false [nm 66]) (mkArr [4; 1] [0; 0; 0; 0] true) = HThrow
  /\ read_arr file2 node1 (mkHP false [nm 66]) (mkArr [2; 2] [0; 0; 0; 0] true) = HOk arr1 /\ prod [2; 2] = length [1; 2; 3; 4].
Proof. split; [exact sound2|]. repeat split. Qed.
Example C140_instance : h5_open (Some file2) H_READ = HOk (mkHN [] H_READ, file2) /\ h5_open (Some file2) H_WRITE = HOk (mkHN [] H_WRITE, HGroup [])
  /\ h5_at file2 (mkHN [] H_READ) (mkHP false [nm 65]) = HOk (mkHN [nm 65] H_READ).
Proof. repeat split. Qed.
Example C138_group_instance : leads node1 (mkHP true [nm 67]) ([] ++ [nm 67]) /\ leads node1 (mkHP false [nm 67]) ([nm 65] ++ [nm 67]) /\ group_at file1 [nm 65] /\
  create_group file1 node1 (mkHP false [nm 67]) = HOk (mkHN [nm 65; nm 67] H_WRITE, HGroup [(nm 65, HGroup [(nm 67, HGroup [])])]) /\
  create_group file1 node1 (mkHP true [nm 67]) = HOk (mkHN [nm 67] H_WRITE, HGroup [(nm 65, HGroup []); (nm 67, HGroup [])]).
Proof. split; [split; auto; discriminate|]. split; [split; auto; discriminate|]. split; [exists []; reflexivity|]. split; reflexivity. Qed.
Print Assumptions C138_round_trip. Print Assumptions C138_vector. Print Assumptions C138_frame. Print Assumptions C138_accepted. Print Assumptions C139_read_same_rank. Print Assumptions C139_vector.
Print Assumptions C146_lower_rank_refuted. Print Assumptions C146_higher_rank_refuted. Print Assumptions C146_write_refuted. Print Assumptions C139_write_right. Print Assumptions C140_calls. Print Assumptions C147_refuted. Print Assumptions C140_open. Print Assumptions C138_paths. Print Assumptions C138_groups. Print Assumptions C138_group_accepted. Print Assumptions C140_read_only.
