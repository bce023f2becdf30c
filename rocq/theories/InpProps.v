(** Properties C134-C137: amendments to the input, the command line and the case name. *)
From Coq Require Import List Bool Arith Ascii Lia.
From Verif Require Import StrModel InpModel.
Import ListNotations.
Local Open Scope char_scope.
Local Open Scope nat_scope.
Local Open Scope list_scope.

Lemma same_spec : forall a b, same a b = true <-> a = b.
Proof. intros a b. unfold same. destruct (list_eq_dec ascii_dec a b); split; congruence. Qed.
Lemma same_refl : forall a, same a a = true. Proof. intros a. apply same_spec. reflexivity. Qed.
Lemma same_not : forall a b, same a b = false <-> a <> b.
Proof. intros a b. unfold same. destruct (list_eq_dec ascii_dec a b); split; congruence. Qed.

(** ** C134 Amendments *)
(** What a user reads in a document: the element reached by a path of names (the first child of each name), its attributes and its text. *)
Definition kids (x : Xml) : list Xml := match x with Elem _ _ k => k | Pc _ => [] end.
Definition attrs (x : Xml) : list (str * str) := match x with Elem _ a _ => a | Pc _ => [] end.
Fixpoint node_at (x : Xml) (p : list str) : option Xml :=
  match p with [] => Some x | s :: r => match List.find (named s) (kids x) with Some y => node_at y r | None => None end end.
Definition attr_at (x : Xml) (p : list str) (s : str) : option str :=
  match node_at x p with Some y => match List.find (fun nv => same (fst nv) s) (attrs y) with Some nv => Some (snd nv) | None => None end | None => None end.
Definition is_text (x : Xml) : bool := match x with Pc _ => true | _ => false end.
Definition text_at (x : Xml) (p : list str) : option str :=
  match node_at x p with Some y => match List.find is_text (kids y) with Some (Pc t) => Some t | _ => None end | None => None end.
(** The document without its values, and its values in document order. *)
Fixpoint shape (x : Xml) : Xml := match x with Elem n a k => Elem n (map (fun nv => (fst nv, [])) a) (map shape k) | Pc _ => Pc [] end.
Fixpoint values (x : Xml) : list str := match x with Elem _ a k => map snd a ++ flat_map values k | Pc t => [t] end.
(** One value replaced, everything else as it was. *)
Definition one_changed (v : str) (x y : Xml) : Prop :=
  shape x = shape y /\ exists l old r, values x = l ++ old :: r /\ values y = l ++ v :: r.

(** Splitting at a separator. *)
Fixpoint join (c : ascii) (l : list str) : str := match l with [] => [] | [s] => s | s :: r => s ++ c :: join c r end.
Definition free (c : ascii) (s : str) : Prop := ~ In c s.

Lemma find_none : forall c s, find_char c s = None <-> free c s.
Proof.
  unfold free. induction s as [|x s IH]; cbn [find_char In]; [tauto|]. destruct (ascii_dec x c) as [E|E]; [split; [discriminate|tauto]|].
  destruct IH as [I1 I2]. destruct (find_char c s) as [n|].
  - split; [discriminate|]. intros H. assert (K : Some n = None) by (apply I2; tauto). discriminate K.
  - split; [|reflexivity]. intros _ [K|K]; [tauto|]. exact (I1 eq_refl K).
Qed.
Lemma find_some : forall c s n, find_char c s = Some n -> free c (firstn n s) /\ s = firstn n s ++ c :: skipn (n + 1) s.
Proof.
  unfold free. induction s as [|x s IH]; intros n H; cbn [find_char] in H; [discriminate|]. destruct (ascii_dec x c) as [E|E].
  - inversion H; subst. cbn. split; [tauto|]. reflexivity.
  - destruct (find_char c s) as [m|] eqn:F; [|discriminate]. inversion H; subst. destruct (IH m eq_refl) as [A B].
    cbn [firstn In Nat.add skipn app]. split; [intros [K|K]; [tauto|exact (A K)]|]. f_equal. exact B.
Qed.
Lemma find_at : forall c a b, free c a -> find_char c (a ++ c :: b) = Some (length a).
Proof.
  unfold free. induction a as [|x a IH]; intros b H; cbn [app find_char length].
  - destruct (ascii_dec c c); congruence.
  - destruct (ascii_dec x c) as [E|E]; [exfalso; apply H; left; exact E|]. rewrite IH; [reflexivity|]. intros K. apply H. right. exact K.
Qed.
Lemma rfind_none : forall c s, rfind_char c s = None <-> free c s.
Proof.
  unfold free. induction s as [|x s IH]; cbn [rfind_char In]; [tauto|]. destruct IH as [I1 I2]. destruct (rfind_char c s) as [n|].
  - split; [discriminate|]. intros H. assert (K : Some n = None) by (apply I2; tauto). discriminate K.
  - destruct (ascii_dec x c) as [E|E]; [split; [discriminate|tauto]|]. split; [|reflexivity]. intros _ [K|K]; [tauto|]. exact (I1 eq_refl K).
Qed.
Lemma rfind_at : forall c a b, free c b -> rfind_char c (a ++ c :: b) = Some (length a).
Proof.
  induction a as [|x a IH]; intros b H; cbn [app rfind_char length].
  - rewrite (proj2 (rfind_none c b) H). destruct (ascii_dec c c); congruence.
  - rewrite (IH b H). reflexivity.
Qed.
Lemma rfind_some : forall c s n, rfind_char c s = Some n -> exists a b, s = a ++ c :: b /\ free c b /\ length a = n.
Proof.
  induction s as [|x s IH]; intros n H; cbn [rfind_char] in H; [discriminate|]. destruct (rfind_char c s) as [m|] eqn:F.
  - inversion H; subst. destruct (IH m eq_refl) as (a & b & E & G & L). exists (x :: a), b. cbn. rewrite <- E, L. auto.
  - destruct (ascii_dec x c) as [E|E]; [|discriminate]. inversion H; subst. exists [], s. repeat split. apply rfind_none. exact F.
Qed.

Lemma path_loop_spec : forall fuel p, length p < fuel -> join "/" (path_loop fuel p) = p /\ Forall (free "/") (path_loop fuel p) /\ path_loop fuel p <> [].
Proof.
  induction fuel as [|fuel IH]; intros p H; [lia|]. cbn [path_loop]. destruct (find_char "/" p) as [n|] eqn:F; cbn [upto].
  - destruct (find_some _ _ _ F) as [A B].
    assert (L : length (skipn (n + 1) p) < fuel) by (apply (f_equal (@length ascii)) in B; rewrite app_length in B; cbn [length] in B; rewrite skipn_length in *; lia).
    destruct (IH _ L) as (P & Q & N). split; [|split; [constructor; assumption|discriminate]].
    cbn [join]. destruct (path_loop fuel (skipn (n + 1) p)) as [|a l] eqn:E; [congruence|]. rewrite P. symmetry. exact B.
  - split; [reflexivity|]. split; [|discriminate]. constructor; [|constructor]. apply find_none. exact F.
Qed.
Lemma join_inj : forall l m, l <> [] -> m <> [] -> Forall (free "/") l -> Forall (free "/") m -> join "/" l = join "/" m -> l = m.
Proof.
  assert (K : forall a b x y, free "/" a -> free "/" b -> a ++ "/" :: x = b ++ "/" :: y -> a = b /\ x = y).
  { intros a b x y A B E. pose proof (find_at "/" a x A) as P. rewrite E, (find_at "/" b y B) in P. injection P as P.
    assert (Q : a = b) by (apply (f_equal (firstn (length a))) in E; rewrite firstn_app, firstn_all, Nat.sub_diag, app_nil_r in E; rewrite <- P, firstn_app, firstn_all, Nat.sub_diag, app_nil_r in E; exact E).
    subst b. split; [reflexivity|]. apply app_inv_head in E. congruence. }
  assert (N : forall a b x, free "/" a -> a <> b ++ "/" :: x).
  { intros a b x A E. apply A. rewrite E. apply in_or_app. right. left. reflexivity. }
  induction l as [|a l IH]; intros m HL HM FL FM E; [congruence|]. destruct m as [|b m]; [congruence|].
  inversion FL; subst; inversion FM; subst.
  destruct l as [|a' l], m as [|b' m]; cbn [join] in E.
  - subst. reflexivity.
  - exfalso. exact (N _ _ _ H1 E).
  - exfalso. symmetry in E. exact (N _ _ _ H3 E).
  - destruct (K _ _ _ _ H1 H3 E) as [A B]. subst. f_equal. apply IH; try discriminate; assumption.
Qed.
Lemma path_vec_join : forall l, l <> [] -> Forall (free "/") l -> path_vec (join "/" l) = l.
Proof.
  intros l N F. destruct (path_loop_spec (S (length (join "/" l))) (join "/" l)) as (A & B & C); [lia|]. apply join_inj; assumption.
Qed.

(** The pieces of the walk against the reading functions. *)
Lemma get_attr_find : forall s l, get_attr s l = match List.find (fun nv => same (fst nv) s) l with Some nv => Some (snd nv) | None => None end.
Proof. induction l as [|[n v] l IH]; cbn [get_attr List.find fst]; [reflexivity|]. destruct (same n s); [reflexivity|exact IH]. Qed.
Lemma set_attr_same : forall s v l, get_attr s l <> None -> get_attr s (set_attr s v l) = Some v.
Proof. induction l as [|[n w] l IH]; cbn [get_attr set_attr]; [congruence|]. destruct (same n s) eqn:E; cbn [get_attr]; rewrite E; auto. Qed.
Lemma set_attr_other : forall s t v l, s <> t -> get_attr t (set_attr s v l) = get_attr t l.
Proof.
  induction l as [|[n w] l IH]; intros H; cbn [get_attr set_attr]; [reflexivity|]. destruct (same n s) eqn:E; cbn [get_attr]; [|rewrite (IH H); reflexivity].
  apply same_spec in E. subst n. rewrite (proj2 (same_not s t) H). reflexivity.
Qed.
Lemma set_attr_shape : forall s v l, map (fun nv : str * str => (fst nv, @nil ascii)) (set_attr s v l) = map (fun nv => (fst nv, [])) l.
Proof. induction l as [|[n w] l IH]; cbn [set_attr]; [reflexivity|]. destruct (same n s); cbn [map fst]; [reflexivity|]. f_equal. exact IH. Qed.
Lemma set_attr_values : forall s v l, get_attr s l <> None -> exists a old b, map snd l = a ++ old :: b /\ map snd (set_attr s v l) = a ++ v :: b.
Proof.
  induction l as [|[n w] l IH]; cbn [get_attr set_attr]; [congruence|]. destruct (same n s); intros H; cbn [map snd].
  - exists [], w, (map snd l). auto.
  - destruct (IH H) as (a & old & b & A & B). exists (w :: a), old, b. rewrite A, B. auto.
Qed.
Lemma on_child_find : forall s f l l', on_child s f l = Some l' ->
  exists a x y b, l = a ++ x :: b /\ l' = a ++ y :: b /\ f x = Some y /\ named s x = true /\ (forall z, In z a -> named s z = false).
Proof.
  induction l as [|x l IH]; intros l' H; cbn [on_child] in H; [discriminate|]. destruct (named s x) eqn:E.
  - destruct (f x) as [y|] eqn:F; [|discriminate]. inversion H; subst. exists [], x, y, l. cbn. repeat split; auto. tauto.
  - destruct (on_child s f l) as [r|] eqn:F; [|discriminate]. inversion H; subst. destruct (IH r eq_refl) as (a & x0 & y & b & A & B & C & D & G).
    exists (x :: a), x0, y, b. subst. cbn. repeat split; auto. intros z [Z|Z]; [subst; exact E|auto].
Qed.
Lemma find_skip : forall (A : Type) (p : A -> bool) a b, (forall z, In z a -> p z = false) -> List.find p (a ++ b) = List.find p b.
Proof. induction a as [|x a IH]; intros b H; cbn [app List.find]; [reflexivity|]. rewrite (H x (or_introl eq_refl)). apply IH. intros z Z. apply H. right. exact Z. Qed.
Lemma put_text_find : forall v l l', put_text v l = Some l' -> exists a t b, l = a ++ Pc t :: b /\ l' = a ++ Pc v :: b /\ (forall z, In z a -> is_text z = false).
Proof.
  induction l as [|x l IH]; intros l' H; cbn [put_text] in H; [discriminate|]. destruct x as [n at0 k|t].
  - destruct (put_text v l) as [r|] eqn:F; [|discriminate]. inversion H; subst. destruct (IH r eq_refl) as (a & t & b & A & B & C).
    exists (Elem n at0 k :: a), t, b. subst. cbn. repeat split; auto. intros z [Z|Z]; [subst; reflexivity|auto].
  - inversion H; subst. exists [], t, l. cbn. repeat split; auto. tauto.
Qed.
Lemma put_text_none : forall v l, put_text v l = None <-> List.find is_text l = None.
Proof. induction l as [|x l IH]; cbn [put_text List.find]; [tauto|]. destruct x; cbn [is_text]; [|split; discriminate]. destruct (put_text v l); rewrite <- IH; split; congruence. Qed.

(** ... the shape and values of a list of children with one replaced *)
Lemma one_changed_in : forall v n at0 a x y b, one_changed v x y -> one_changed v (Elem n at0 (a ++ x :: b)) (Elem n at0 (a ++ y :: b)).
Proof.
  intros v n at0 a x y b (S1 & l & old & r & A & B). split.
  - cbn [shape]. rewrite !map_app. cbn [map]. rewrite S1. reflexivity.
  - cbn [values]. rewrite !flat_map_app. cbn [flat_map]. rewrite A, B.
    exists (map snd at0 ++ flat_map values a ++ l), old, (r ++ flat_map values b). rewrite <- !app_assoc. cbn [app]. auto.
Qed.

(** The effect of a change at one place on what is read at paths through it. *)
Lemma find_swap : forall (s : str) a x y b t, named s x = true -> (forall z, In z a -> named s z = false) -> (forall u, named u y = named u x) ->
  (t = s /\ List.find (named t) (a ++ x :: b) = Some x /\ List.find (named t) (a ++ y :: b) = Some y)
  \/ (t <> s /\ List.find (named t) (a ++ x :: b) = List.find (named t) (a ++ y :: b)).
Proof.
  intros s a x y b t HX HA HN. destruct (list_eq_dec ascii_dec t s) as [E|E].
  - left. subst. rewrite !find_skip by assumption. cbn [List.find]. rewrite HN, HX. auto.
  - right. split; [exact E|]. assert (T : named t x = false).
    { destruct x as [n ? ?|]; [|reflexivity]. cbn [named] in *. apply same_spec in HX. apply same_not. congruence. }
    induction a as [|z a IH]; cbn [app List.find].
    + rewrite HN, T. reflexivity.
    + destruct (named t z); [reflexivity|]. apply IH. intros w W. apply HA. right. exact W.
Qed.

(** The change made by an accepted amendment at [p]/[s]: an attribute, or the text of a child. *)
Definition amended (p : list str) (s v : str) (x y : Xml) : Prop :=
  one_changed v x y /\ (forall u, named u y = named u x) /\
  ((attr_at x p s <> None /\ node_at x (p ++ [s]) = None /\ attr_at y p s = Some v
    /\ (forall q t, (q, t) <> (p, s) -> attr_at y q t = attr_at x q t)
    /\ (forall q, text_at y q = text_at x q))
   \/ (attr_at x p s = None /\ text_at x (p ++ [s]) <> None /\ text_at y (p ++ [s]) = Some v
    /\ (forall q t, attr_at y q t = attr_at x q t)
    /\ (forall q, q <> p ++ [s] -> text_at y q = text_at x q))).

Lemma node_at_cons : forall n a k s r, node_at (Elem n a k) (s :: r) = match List.find (named s) k with Some y => node_at y r | None => None end.
Proof. reflexivity. Qed.
Lemma has_child_find : forall s l, has_child s l = match List.find (named s) l with Some _ => true | None => false end.
Proof. induction l as [|x l IH]; cbn [has_child existsb List.find]; [reflexivity|]. destruct (named s x); [reflexivity|exact IH]. Qed.

Lemma amend_last_ok : forall s v x y, amend_last s v x = Some y -> amended [] s v x y.
Proof.
  intros s v [n a k|t] y H; cbn [amend_last] in H; [|discriminate].
  assert (AT : forall k0 a0, attr_at (Elem n a0 k0) [] s = get_attr s a0) by (intros; unfold attr_at; cbn [node_at attrs]; rewrite get_attr_find; reflexivity).
  destruct (get_attr s a) as [old|] eqn:GA; cbn [xorb negb] in H.
  - destruct (has_child s k) eqn:HC; cbn [xorb negb] in H; [discriminate|]. inversion H; subst. clear H.
    assert (GN : get_attr s a <> None) by congruence. destruct (set_attr_values s v a GN) as (l1 & o & l2 & A & B). split; [|split].
    + split; [cbn [shape]; rewrite set_attr_shape; reflexivity|]. exists l1, o, (l2 ++ flat_map values k). cbn [values]. rewrite A, B, <- !app_assoc. auto.
    + reflexivity.
    + left. split; [rewrite AT; congruence|]. split; [|split; [|split]].
      * cbn [app node_at kids]. rewrite has_child_find in HC. destruct (List.find (named s) k); [discriminate|reflexivity].
      * rewrite AT. apply set_attr_same. exact GN.
      * intros q t HQ. destruct q as [|s' q]; [|reflexivity]. unfold attr_at. cbn [node_at attrs]. rewrite <- !get_attr_find. apply set_attr_other. congruence.
      * intros q. destruct q; reflexivity.
  - destruct (has_child s k) eqn:HC; cbn [xorb negb] in H; [|discriminate]. destruct (on_child s (set_text v) k) as [k'|] eqn:OC; [|discriminate].
    inversion H; subst. clear H. destruct (on_child_find _ _ _ _ OC) as (a1 & x & y & b & A & B & C & D & G). subst k k'.
    destruct x as [m am km|]; [|discriminate]. cbn [set_text] in C. destruct (put_text v km) as [km'|] eqn:PT; [|discriminate]. inversion C; subst y. clear C.
    destruct (put_text_find _ _ _ PT) as (c & t & d & E1 & E2 & E3). subst km km'.
    assert (OC1 : one_changed v (Elem m am (c ++ Pc t :: d)) (Elem m am (c ++ Pc v :: d))).
    { apply one_changed_in. split; [reflexivity|]. exists [], t, []. auto. }
    assert (NM : forall u c0 d0, named u (Elem m am c0) = named u (Elem m am d0)) by reflexivity.
    assert (Q : forall q : list str, q = [s] \/ (q <> [s])) by (intros q; destruct (list_eq_dec (list_eq_dec ascii_dec) q [s]); auto).
    assert (FS : forall u, List.find (named u) (c ++ Pc t :: d) = List.find (named u) (c ++ Pc v :: d)).
    { intros u. clear. induction c as [|z c IH]; cbn [app List.find named]; [reflexivity|]. destruct (named u z); [reflexivity|exact IH]. }
    split; [apply one_changed_in; exact OC1|]. split; [reflexivity|]. right. split; [rewrite AT; exact GA|].
    assert (TX : forall w, List.find is_text (c ++ Pc w :: d) = Some (Pc w)) by (intros w; rewrite find_skip by assumption; reflexivity).
    split; [|split; [|split]].
    + unfold text_at. cbn [app node_at kids]. rewrite find_skip by assumption. cbn [List.find]. rewrite D. cbn [kids]. rewrite TX. discriminate.
    + unfold text_at. cbn [app node_at kids]. rewrite find_skip by assumption. cbn [List.find]. change (named s (Elem m am (c ++ Pc v :: d))) with (named s (Elem m am (c ++ Pc t :: d))). rewrite D. cbn [kids]. rewrite TX. reflexivity.
    + intros q u. destruct q as [|s' q]; [reflexivity|]. unfold attr_at. rewrite !node_at_cons.
      destruct (find_swap s a1 _ (Elem m am (c ++ Pc v :: d)) b s' D G (fun u => eq_refl)) as [(-> & -> & ->)|(_ & ->)]; [|reflexivity].
      destruct q as [|s'' q]; [reflexivity|]. rewrite !node_at_cons, FS. reflexivity.
    + intros q HQ. destruct q as [|s' q].
      { unfold text_at. cbn [node_at kids]. assert (M : forall e, is_text e = false -> forall e', is_text e' = false -> List.find is_text (a1 ++ e :: b) = List.find is_text (a1 ++ e' :: b)).
        { intros e He e' He'. clear -He He'. induction a1 as [|z l IH]; cbn [app List.find]; [rewrite He, He'; reflexivity|]. destruct (is_text z); [reflexivity|exact IH]. }
        rewrite (M (Elem m am (c ++ Pc v :: d)) eq_refl (Elem m am (c ++ Pc t :: d)) eq_refl). reflexivity. }
      unfold text_at. rewrite !node_at_cons.
      destruct (find_swap s a1 _ (Elem m am (c ++ Pc v :: d)) b s' D G (fun u => eq_refl)) as [(-> & -> & ->)|(_ & ->)]; [|reflexivity].
      destruct q as [|s'' q]; [exfalso; apply HQ; reflexivity|]. rewrite !node_at_cons, FS. reflexivity.
Qed.

Lemma amend_ok : forall p s v x y, amend (p ++ [s]) v x = Some y -> amended p s v x y.
Proof.
  induction p as [|s0 p IH]; intros s v x y H; [apply amend_last_ok; exact H|].
  assert (H' : match x with Elem n a k => match on_child s0 (amend (p ++ [s]) v) k with Some k' => Some (Elem n a k') | None => None end | Pc _ => None end = Some y).
  { destruct p; exact H. }
  clear H. destruct x as [n a k|t]; [|discriminate]. destruct (on_child s0 (amend (p ++ [s]) v) k) as [k'|] eqn:OC; [|discriminate]. inversion H'; subst y. clear H'.
  destruct (on_child_find _ _ _ _ OC) as (a1 & x & y & b & A & B & C & D & G). subst k k'. destruct (IH _ _ _ _ C) as (O & NM & HH).
  assert (SW : forall t, (t = s0 /\ List.find (named t) (a1 ++ x :: b) = Some x /\ List.find (named t) (a1 ++ y :: b) = Some y)
                 \/ (t <> s0 /\ List.find (named t) (a1 ++ x :: b) = List.find (named t) (a1 ++ y :: b))).
  { intros t. apply find_swap; assumption. }
  assert (FX : List.find (named s0) (a1 ++ x :: b) = Some x) by (rewrite find_skip by assumption; cbn [List.find]; rewrite D; reflexivity).
  assert (FY : List.find (named s0) (a1 ++ y :: b) = Some y) by (rewrite find_skip by assumption; cbn [List.find]; rewrite NM, D; reflexivity).
  assert (TX : text_at (Elem n a (a1 ++ y :: b)) [] = text_at (Elem n a (a1 ++ x :: b)) []).
  { unfold text_at. cbn [node_at kids]. assert (IX : is_text x = false) by (destruct x; [reflexivity|discriminate]).
    assert (IY : is_text y = false) by (destruct y; [reflexivity|]; specialize (NM s0); rewrite D in NM; discriminate).
    clear -IX IY. induction a1 as [|z l IH]; cbn [app List.find]; [rewrite IX, IY; reflexivity|]. destruct (is_text z); [reflexivity|exact IH]. }
  split; [apply one_changed_in; exact O|]. split; [reflexivity|].
  destruct HH as [(H1 & H2 & H3 & H4 & H5)|(H1 & H2 & H3 & H4 & H5)]; [left|right].
  - split; [unfold attr_at in *; rewrite node_at_cons, FX; exact H1|]. split; [cbn [app]; rewrite node_at_cons, FX; exact H2|].
    split; [unfold attr_at in *; rewrite node_at_cons, FY; exact H3|]. split.
    + intros q t HQ. destruct q as [|s1 q]; [reflexivity|]. unfold attr_at in *. rewrite !node_at_cons.
      destruct (SW s1) as [(-> & -> & ->)|(_ & ->)]; [|reflexivity]. apply (H4 q t). congruence.
    + intros q. destruct q as [|s1 q]; [exact TX|]. unfold text_at in *. rewrite !node_at_cons. destruct (SW s1) as [(-> & -> & ->)|(_ & ->)]; [|reflexivity]. apply (H5 q).
  - split; [unfold attr_at in *; rewrite node_at_cons, FX; exact H1|]. split; [unfold text_at in *; cbn [app]; rewrite node_at_cons, FX; exact H2|].
    split; [unfold text_at in *; cbn [app]; rewrite node_at_cons, FY; exact H3|]. split.
    + intros q t. destruct q as [|s1 q]; [reflexivity|]. unfold attr_at in *. rewrite !node_at_cons.
      destruct (SW s1) as [(-> & -> & ->)|(_ & ->)]; [|reflexivity]. apply (H4 q t).
    + intros q HQ. destruct q as [|s1 q]; [exact TX|]. unfold text_at in *. rewrite !node_at_cons. destruct (SW s1) as [(-> & -> & ->)|(_ & ->)]; [|reflexivity].
      apply (H5 q). intros E. apply HQ. cbn [app]. rewrite E. reflexivity.
Qed.

(** What a path names: an attribute and no element, or an element with text and no attribute. *)
Definition names_one (p : list str) (s : str) (x : Xml) : Prop :=
  (attr_at x p s <> None /\ node_at x (p ++ [s]) = None) \/ (attr_at x p s = None /\ text_at x (p ++ [s]) <> None).
Lemma on_child_some : forall s f l x y, List.find (named s) l = Some x -> f x = Some y -> on_child s f l <> None.
Proof.
  induction l as [|z l IH]; intros x y H F; cbn [List.find on_child] in *; [discriminate|]. destruct (named s z) eqn:E.
  - inversion H; subst. rewrite F. discriminate.
  - specialize (IH _ _ H F). destruct (on_child s f l); congruence.
Qed.
Lemma amend_accepts : forall p s v x, names_one p s x -> amend (p ++ [s]) v x <> None.
Proof.
  induction p as [|s0 p IH]; intros s v x H.
  - cbn [app amend]. destruct x as [n a k|t].
    2: { exfalso. destruct H as [(H & _)|(_ & H)]; apply H; reflexivity. }
    cbn [amend_last]. unfold names_one, attr_at, text_at in H. cbn [app node_at attrs kids] in H. rewrite <- get_attr_find in H. rewrite has_child_find.
    destruct H as [(H & H')|(H & H')].
    + destruct (get_attr s a) eqn:G; [|congruence]. destruct (List.find (named s) k); [discriminate|]. discriminate.
    + rewrite H. destruct (List.find (named s) k) as [y|] eqn:F; [|exfalso; apply H'; reflexivity]. cbn [xorb negb].
      assert (T : exists y', set_text v y = Some y').
      { destruct y as [m am km|t]; cbn [node_at kids] in H'; [|exfalso; apply H'; reflexivity]. cbn [set_text]. destruct (put_text v km) as [k'|] eqn:P; [eexists; reflexivity|].
        exfalso. apply put_text_none in P. rewrite P in H'. apply H'. reflexivity. }
      destruct T as (y' & T). pose proof (on_child_some s (set_text v) k y y' F T) as N. destruct (on_child s (set_text v) k); congruence.
  - assert (E : amend ((s0 :: p) ++ [s]) v x = match x with Elem n a k => match on_child s0 (amend (p ++ [s]) v) k with Some k' => Some (Elem n a k') | None => None end | Pc _ => None end) by (destruct p; reflexivity).
    rewrite E. destruct x as [n a k|t].
    2: { exfalso. destruct H as [(H & _)|(_ & H)]; apply H; reflexivity. }
    unfold names_one, attr_at, text_at in H. cbn [app] in H. rewrite !node_at_cons in H. destruct (List.find (named s0) k) as [y|] eqn:F.
    2: { exfalso. destruct H as [(H & _)|(_ & H)]; apply H; reflexivity. }
    specialize (IH s v y H). destruct (amend (p ++ [s]) v y) as [y'|] eqn:A; [|congruence].
    pose proof (on_child_some s0 (amend (p ++ [s]) v) k y y' F A) as N. destruct (on_child s0 (amend (p ++ [s]) v) k); congruence.
Qed.

(** An amendment as it is written on the command line. *)
Definition written (p : list str) (s v : str) : str := join "/" (p ++ [s]) ++ "=" :: v.
Definition plain (s : str) : Prop := free "/" s /\ free "=" s.
Lemma join_free : forall c l, c <> "/" -> Forall (free c) l -> free c (join "/" l).
Proof.
  intros c l N. unfold free. induction l as [|a l IH]; intros F K; [exact K|]. inversion F; subst. destruct l as [|b l]; [exact (H1 K)|].
  cbn [join] in K. apply in_app_or in K. destruct K as [K|[K|K]]; [exact (H1 K)|congruence|exact (IH H2 K)].
Qed.
Lemma free_join : forall c l, free c (join "/" l) -> Forall (free c) l.
Proof.
  intros c l. unfold free. induction l as [|a l IH]; intros F; [constructor|]. destruct l as [|b l]; [constructor; [exact F|constructor]|].
  constructor; [intros K; apply F; cbn [join]; apply in_or_app; left; exact K|]. apply IH. intros K. apply F. cbn [join]. apply in_or_app. right. right. exact K.
Qed.
Lemma replace_one_written : forall p s v doc, Forall plain p -> plain s -> free "=" v -> replace_one (written p s v) doc = amend (p ++ [s]) v doc.
Proof.
  intros p s v doc FP [FS FE] FV. unfold replace_one, written.
  assert (FA : Forall (free "/") (p ++ [s])) by (apply Forall_app; split; [eapply Forall_impl; [|exact FP]; intros a [A _]; exact A|auto]).
  assert (FB : Forall (free "=") (p ++ [s])) by (apply Forall_app; split; [eapply Forall_impl; [|exact FP]; intros a [_ A]; exact A|auto]).
  assert (NE : "=" <> "/") by discriminate. pose proof (join_free "=" _ NE FB) as J.
  rewrite (find_at "=" _ v J), (rfind_at "=" _ v FV), Nat.eqb_refl.
  rewrite firstn_app, firstn_all, Nat.sub_diag, firstn_O, app_nil_r.
  rewrite path_vec_join; [|destruct p; discriminate|exact FA].
  rewrite skipn_app, skipn_all2 by lia. replace (length (join "/" (p ++ [s])) + 1 - length (join "/" (p ++ [s]))) with 1 by lia. reflexivity.
Qed.
Lemma replace_one_form : forall rep doc doc', replace_one rep doc = Some doc' ->
  exists p s v, rep = written p s v /\ Forall plain p /\ plain s /\ free "=" v.
Proof.
  intros rep doc doc' H. unfold replace_one in H. destruct (find_char "=" rep) as [loc|] eqn:F; [|discriminate]. destruct (rfind_char "=" rep) as [rl|] eqn:G; [|discriminate].
  destruct (loc =? rl) eqn:E; [|discriminate]. apply Nat.eqb_eq in E. subst rl. clear H.
  destruct (find_some _ _ _ F) as [A B]. destruct (rfind_some _ _ _ G) as (a & b & C & D & L).
  assert (PV : join "/" (path_vec (firstn loc rep)) = firstn loc rep /\ Forall (free "/") (path_vec (firstn loc rep)) /\ path_vec (firstn loc rep) <> []) by (apply path_loop_spec; lia).
  destruct PV as (P & Q & N). destruct (exists_last N) as (p & s & E).
  assert (FE : Forall (free "=") (path_vec (firstn loc rep))) by (apply free_join; rewrite P; exact A).
  rewrite E in *. exists p, s, (skipn (loc + 1) rep). split; [unfold written; rewrite P; exact B|].
  apply Forall_app in Q. apply Forall_app in FE. destruct Q as [Q1 Q2], FE as [E1 E2]. inversion Q2; inversion E2; subst. split; [|split; [split; assumption|]].
  - apply Forall_forall. intros z Z. rewrite Forall_forall in Q1, E1. split; auto.
  - replace (skipn (length a + 1) (a ++ "=" :: b)) with b; [exact D|].
    rewrite skipn_app, skipn_all2 by lia. replace (length a + 1 - length a) with 1 by lia. reflexivity.
Qed.

Theorem C134_exact : forall rep doc doc', replace_one rep doc = Some doc' ->
  exists p s v, rep = written p s v /\ Forall plain p /\ plain s /\ free "=" v /\ names_one p s doc /\ one_changed v doc doc'
  /\ ((attr_at doc p s <> None /\ attr_at doc' p s = Some v
       /\ (forall q t, (q, t) <> (p, s) -> attr_at doc' q t = attr_at doc q t) /\ (forall q, text_at doc' q = text_at doc q))
      \/ (text_at doc (p ++ [s]) <> None /\ text_at doc' (p ++ [s]) = Some v
       /\ (forall q t, attr_at doc' q t = attr_at doc q t) /\ (forall q, q <> p ++ [s] -> text_at doc' q = text_at doc q))).
Proof.
  intros rep doc doc' H. destruct (replace_one_form _ _ _ H) as (p & s & v & E & FP & FS & FV). exists p, s, v. subst rep.
  rewrite replace_one_written in H by assumption. destruct (amend_ok _ _ _ _ _ H) as (O & _ & [(H1 & H2 & H3 & H4 & H5)|(H1 & H2 & H3 & H4 & H5)]).
  - repeat (split; [first [reflexivity|assumption|left; split; assumption]|]). left. auto.
  - repeat (split; [first [reflexivity|assumption|right; split; assumption]|]). right. auto.
Qed.
Theorem C134_accepted : forall p s v doc, Forall plain p -> plain s -> free "=" v ->
  (replace_one (written p s v) doc <> None <-> names_one p s doc).
Proof.
  intros p s v doc FP FS FV. rewrite replace_one_written by assumption. split.
  - intros H. destruct (amend (p ++ [s]) v doc) as [doc'|] eqn:E; [|congruence].
    destruct (amend_ok _ _ _ _ _ E) as (_ & _ & [(H1 & H2 & _)|(H1 & H2 & _)]); [left|right]; auto.
  - apply amend_accepts.
Qed.
(** Several amendments are applied in the order given: the value of a path amended twice is the later one. *)
Theorem C134_order : forall before p s v after doc doc', Forall plain p -> plain s -> free "=" v ->
  replace_all (before ++ written p s v :: after) doc = Some doc' ->
  (forall q t w, In (written q t w) after -> Forall plain q -> plain t -> free "=" w -> q ++ [t] <> p ++ [s]) ->
  attr_at doc' p s = Some v \/ text_at doc' (p ++ [s]) = Some v.
Proof.
  intros before p s v after doc doc' FP FS FV. revert doc. induction before as [|b before IH]; intros doc H K.
  - cbn [app replace_all] in H. destruct (replace_one (written p s v) doc) as [d|] eqn:E; [|discriminate].
    rewrite replace_one_written in E by assumption.
    assert (I : attr_at d p s = Some v \/ text_at d (p ++ [s]) = Some v).
    { destruct (amend_ok _ _ _ _ _ E) as (_ & _ & [(H1 & H2 & H3 & H4 & H5)|(H1 & H2 & H3 & H4 & H5)]); auto. }
    clear E. revert d H I K. induction after as [|r after IA]; intros d H I K; cbn [replace_all] in H; [inversion H; subst; exact I|].
    destruct (replace_one r d) as [d'|] eqn:E; [|discriminate]. apply (IA d' H).
    + destruct (replace_one_form _ _ _ E) as (q & t & w & Er & FQ & FT & FW). subst r. rewrite replace_one_written in E by assumption.
      assert (N : q ++ [t] <> p ++ [s]) by (apply (K q t w); [left; reflexivity|assumption..]).
      destruct (amend_ok _ _ _ _ _ E) as (_ & _ & [(H1 & H2 & H3 & H4 & H5)|(H1 & H2 & H3 & H4 & H5)]).
      * destruct I as [I|I]; [left|right; rewrite H5; exact I]. rewrite H4; [exact I|]. intros X. inversion X; subst. apply N. reflexivity.
      * destruct I as [I|I]; [left; rewrite H4; exact I|right]. rewrite H5; [exact I|]. congruence.
    + intros q t w Q. apply (K q t w). right. exact Q.
  - cbn [app replace_all] in H. destruct (replace_one b doc) as [d|]; [|discriminate]. exact (IH d H K).
Qed.
(** <solver type="eigenvalue" max_iter="10"><sweeper type="sn"/></solver><case_name>a</case_name>, with max_iter amended to 20 and the case name to b *)
Definition w_solver : str := ["s"; "o"; "l"]. Definition w_max : str := ["m"; "a"; "x"]. Definition w_type : str := ["t"; "y"; "p"].
Definition w_sn : str := ["s"; "n"]. Definition w_10 : str := ["1"; "0"]. Definition w_20 : str := ["2"; "0"].
Definition doc1 : Xml := Elem [] [] [Elem w_solver [(w_type, w_sn); (w_max, w_10)] [Elem w_type [] []]; Elem case_tag [] [Pc ["a"]]].
Example C134_instance :
  replace_all [written [w_solver] w_max w_20; written [] case_tag ["b"]] doc1
    = Some (Elem [] [] [Elem w_solver [(w_type, w_sn); (w_max, w_20)] [Elem w_type [] []]; Elem case_tag [] [Pc ["b"]]])
  /\ names_one [w_solver] w_max doc1 /\ ~ names_one [w_solver] w_type doc1 /\ replace_one (written [w_solver] w_type w_20) doc1 = None
  /\ plain w_solver /\ plain w_max /\ free "=" w_20.
Proof.
  split; [vm_compute; reflexivity|]. split; [left; split; vm_compute; [discriminate|reflexivity]|].
  split; [intros [(_ & H)|(H & _)]; vm_compute in H; discriminate|]. split; [vm_compute; reflexivity|].
  unfold plain, free. repeat split; cbn [In w_solver w_max w_20]; intuition discriminate.
Qed.

(** ** C135 A path that fits several elements is refused *)
(** The values a path fits: along every element with the right names, not only the first. *)
Fixpoint nodes_at (x : Xml) (p : list str) : list Xml :=
  match p with [] => [x] | s :: r => flat_map (fun y => nodes_at y r) (filter (named s) (kids x)) end.
Definition values_named (x : Xml) (p : list str) (s : str) : list str :=
  flat_map (fun y => map snd (filter (fun nv => same (fst nv) s) (attrs y))) (nodes_at x p)
  ++ flat_map (fun y => flat_map (fun z => match z with Pc t => [t] | _ => [] end) (kids y)) (nodes_at x (p ++ [s])).
Theorem C135_refuted : exists p s v doc doc', Forall plain p /\ plain s /\ free "=" v /\ 1 < length (values_named doc p s)
  /\ replace_one (written p s v) doc = Some doc'.
Proof.
  exists [w_solver], w_max, w_20, (Elem [] [] [Elem w_solver [(w_max, w_10)] []; Elem w_solver [(w_max, w_10)] []]), (Elem [] [] [Elem w_solver [(w_max, w_20)] []; Elem w_solver [(w_max, w_10)] []]).
  repeat split; try (repeat constructor; unfold free; cbn [In w_solver w_max w_20]; intuition discriminate); try (unfold free; cbn [In w_solver w_max w_20]; intuition discriminate).
Qed.
Lemma find_filter : forall (A : Type) (f : A -> bool) l, List.find f l = hd_error (filter f l).
Proof. induction l as [|x l IH]; cbn [List.find filter]; [reflexivity|]. destruct (f x); [reflexivity|exact IH]. Qed.
Lemma node_in_nodes : forall p x y, node_at x p = Some y -> In y (nodes_at x p).
Proof.
  induction p as [|s p IH]; intros x y H; cbn [node_at nodes_at] in *; [inversion H; left; reflexivity|].
  destruct (List.find (named s) (kids x)) as [z|] eqn:F; [|discriminate]. apply in_flat_map. exists z. split; [|apply IH; exact H].
  apply filter_In. destruct (List.find_some _ _ F); auto.
Qed.
Lemma kids_shape : forall x, kids (shape x) = map shape (kids x). Proof. destruct x; reflexivity. Qed.
Lemma named_shape : forall s x, named s (shape x) = named s x. Proof. destruct x; reflexivity. Qed.
Lemma filter_map_shape : forall s l, filter (named s) (map shape l) = map shape (filter (named s) l).
Proof. induction l as [|x l IH]; cbn [map filter]; [reflexivity|]. rewrite named_shape. destruct (named s x); cbn [map]; rewrite IH; reflexivity. Qed.
Lemma nodes_shape : forall p x, nodes_at (shape x) p = map shape (nodes_at x p).
Proof.
  induction p as [|s p IH]; intros x; cbn [nodes_at]; [reflexivity|]. rewrite kids_shape, filter_map_shape.
  induction (filter (named s) (kids x)) as [|y l IL]; cbn [map flat_map]; [reflexivity|]. rewrite map_app, IH, IL. reflexivity.
Qed.
Lemma count_shape : forall p s x, length (values_named (shape x) p s) = length (values_named x p s).
Proof.
  intros p s x. unfold values_named. rewrite !app_length, !nodes_shape. f_equal.
  - induction (nodes_at x p) as [|y l IH]; cbn [map flat_map]; [reflexivity|]. rewrite !app_length, IH. f_equal. rewrite !map_length.
    destruct y as [n a k|]; cbn [shape attrs]; [|reflexivity]. induction a as [|[m w] a IA]; cbn [map filter fst]; [reflexivity|]. destruct (same m s); cbn [length]; rewrite IA; reflexivity.
  - induction (nodes_at x (p ++ [s])) as [|y l IH]; cbn [map flat_map]; [reflexivity|]. rewrite !app_length, IH. f_equal. rewrite kids_shape.
    induction (kids y) as [|z k IK]; cbn [map flat_map]; [reflexivity|]. rewrite !app_length, IK. f_equal. destruct z; reflexivity.
Qed.
(** An accepted amendment has at least one value to set and sets one; when it is the only one, that is the one set. *)
Theorem C135_one : forall p s v doc doc', Forall plain p -> plain s -> free "=" v -> replace_one (written p s v) doc = Some doc' ->
  values_named doc p s <> [] /\ In v (values_named doc' p s) /\ (length (values_named doc p s) = 1 -> values_named doc' p s = [v]).
Proof.
  intros p s v doc doc' FP FS FV H. rewrite replace_one_written in H by assumption.
  assert (A : forall x w, attr_at x p s = Some w -> In w (values_named x p s)).
  { intros x w E. unfold values_named. apply in_or_app. left. unfold attr_at in E. destruct (node_at x p) as [y|] eqn:N; [|discriminate].
    apply in_flat_map. exists y. split; [apply node_in_nodes; exact N|]. destruct (List.find (fun nv => same (fst nv) s) (attrs y)) as [nv|] eqn:F; [|discriminate].
    inversion E; subst. apply in_map. apply filter_In. exact (List.find_some _ _ F). }
  assert (T : forall x w, text_at x (p ++ [s]) = Some w -> In w (values_named x p s)).
  { intros x w E. unfold values_named. apply in_or_app. right. unfold text_at in E. destruct (node_at x (p ++ [s])) as [y|] eqn:N; [|discriminate].
    apply in_flat_map. exists y. split; [apply node_in_nodes; exact N|]. destruct (List.find is_text (kids y)) as [[|t]|] eqn:F; try discriminate.
    inversion E; subst. apply in_flat_map. exists (Pc w). split; [exact (proj1 (List.find_some _ _ F))|left; reflexivity]. }
  assert (L : length (values_named doc' p s) = length (values_named doc p s)) by (destruct (amend_ok _ _ _ _ _ H) as ((SH & _) & _); rewrite <- (count_shape p s doc), <- (count_shape p s doc'), SH; reflexivity).
  assert (Z : In v (values_named doc' p s) -> length (values_named doc p s) = 1 -> values_named doc' p s = [v]).
  { intros I ONE. rewrite ONE in L. destruct (values_named doc' p s) as [|u [|]]; try discriminate. destruct I as [->|[]]. reflexivity. }
  destruct (amend_ok _ _ _ _ _ H) as (_ & _ & [(H1 & H2 & H3 & H4 & H5)|(H1 & H2 & H3 & H4 & H5)]).
  - split; [|split; [|apply Z]; apply A; exact H3]. destruct (attr_at doc p s) as [w|] eqn:E; [|congruence]. pose proof (A _ _ E) as I. destruct (values_named doc p s); [destruct I|discriminate].
  - split; [|split; [|apply Z]; apply T; exact H3]. destruct (text_at doc (p ++ [s])) as [w|] eqn:E; [|congruence]. pose proof (T _ _ E) as I. destruct (values_named doc p s); [destruct I|discriminate].
Qed.
Example C135_instance : replace_one (written [w_solver] w_max w_20) doc1 <> None /\ values_named doc1 [w_solver] w_max = [w_10].
Proof. split; vm_compute; [discriminate|reflexivity]. Qed.

(** ** C136 The command line *)
(** A series of amendments, each "-a" followed by an argument that does not start with a dash. *)
Inductive amendments : list str -> list str -> Prop :=
| a_none : amendments [] []
| a_more : forall x l r, dashed x = false -> amendments l r -> amendments (["-"; "a"] :: x :: l) (x :: r).
(** ... with empty arguments between them. *)
Inductive amendments_blank : list str -> list str -> Prop :=
| b_none : amendments_blank [] []
| b_blank : forall l r, amendments_blank l r -> amendments_blank ([] :: l) r
| b_more : forall x l r, dashed x = false -> amendments_blank l r -> amendments_blank (["-"; "a"] :: x :: l) (x :: r).
Definition well_formed (args : list str) (file : str) (reps : list str) : Prop :=
  exists front back rf rb, args = front ++ file :: back /\ file <> [] /\ file <> ["-"; "a"] /\ amendments_blank front rf /\ amendments back rb /\ reps = rf ++ rb.

Lemma two_induction : forall (P : list str -> Prop), P [] -> (forall a, P [a]) -> (forall a b l, P l -> P (b :: l) -> P (a :: b :: l)) -> forall l, P l.
Proof.
  intros P H0 H1 H2 l. assert (K : P l /\ forall a, P (a :: l)); [|apply K]. induction l as [|x l [A B]]; split; auto.
Qed.
Lemma scan_cons : forall arg r file reps good, scan_args (arg :: r) file reps good =
  if same arg dash_a then match r with [] => None | x :: r' => if dashed x then None else if good then scan_args r' file (reps ++ [x]) good else None end
  else if same file [] then scan_args r arg reps good else scan_args r file reps false.
Proof. reflexivity. Qed.
Lemma scan_bad : forall args file reps, scan_args args file reps false = None.
Proof.
  intros args. induction args as [|a|a b l IHl IHb] using two_induction; intros file reps; [reflexivity| |]; rewrite scan_cons.
  - destruct (same a dash_a); [reflexivity|]. destruct (same file []); reflexivity.
  - destruct (same a dash_a); [destruct (dashed b); reflexivity|]. destruct (same file []); apply IHb.
Qed.
Lemma scan_second : forall args file reps f rs, file <> [] -> (scan_args args file reps true = Some (f, rs) <-> f = file /\ exists rb, amendments args rb /\ rs = reps ++ rb).
Proof.
  intros args. induction args as [|a|a b l IHl IHb] using two_induction; intros file reps f rs N; [cbn [scan_args andb]|rewrite scan_cons..]; rewrite (proj2 (same_not file []) N); cbn [negb].
  - split.
    + intros H. inversion H; subst. split; [reflexivity|]. exists []. rewrite app_nil_r. split; [constructor|reflexivity].
    + intros [-> (rb & A & ->)]. inversion A; subst. rewrite app_nil_r. reflexivity.
  - destruct (same a dash_a); [|rewrite scan_bad]; (split; [discriminate|]); intros [_ (rb & A & _)]; inversion A.
  - destruct (same a dash_a) eqn:E.
    + apply same_spec in E. subst a. destruct (dashed b) eqn:D.
      * split; [discriminate|]. intros [_ (rb & A & _)]. inversion A; subst. congruence.
      * rewrite (IHl file (reps ++ [b]) f rs N). split; intros [-> (rb & A & ->)]; (split; [reflexivity|]).
        -- exists (b :: rb). split; [constructor; assumption|]. rewrite <- app_assoc. reflexivity.
        -- inversion A; subst. exists r. split; [assumption|]. rewrite <- app_assoc. reflexivity.
    + rewrite scan_bad. split; [discriminate|]. intros [_ (rb & A & _)]. inversion A; subst. apply same_not in E. exfalso. apply E. reflexivity.
Qed.
Ltac bad := first [congruence | match goal with N : _ <> _ |- _ => exfalso; apply N; reflexivity end].
Lemma scan_first : forall args reps f rs, scan_args args [] reps true = Some (f, rs) <-> exists r, well_formed args f r /\ rs = reps ++ r.
Proof.
  intros args. induction args as [|a|a b l IHl IHb] using two_induction; intros reps f rs.
  - cbn. split; [discriminate|]. intros (r & (fr & bk & rf & rb & E & _) & _). destruct fr; discriminate.
  - rewrite scan_cons. destruct (same a dash_a) eqn:E.
    + split; [discriminate|]. intros (r & (fr & bk & rf & rb & K & N1 & N2 & A & B & _) & _). apply same_spec in E. subst a.
      destruct fr as [|x fr]; cbn [app] in K; inversion K; subst; [exact (False_ind _ (N2 eq_refl))|]. destruct fr; discriminate.
    + change (same [] []) with true. cbn [scan_args]. destruct (same a []) eqn:Z; cbn [andb negb].
      * split; [discriminate|]. apply same_spec in Z. subst a. intros (r & (fr & bk & rf & rb & K & N1 & _) & _). destruct fr as [|x fr]; cbn [app] in K; inversion K; subst; [bad|]. destruct fr; discriminate.
      * apply same_not in Z. apply same_not in E. split.
        -- intros H. inversion H; subst. exists []. split; [|rewrite app_nil_r; reflexivity]. exists [], [], [], []. repeat split; auto; constructor.
        -- intros (r & (fr & bk & rf & rb & K & N1 & N2 & A & B & ->) & ->). destruct fr as [|x fr]; cbn [app] in K; inversion K; subst; [|destruct fr; discriminate].
           inversion A; inversion B; subst. rewrite app_nil_r. reflexivity.
  - rewrite scan_cons. destruct (same a dash_a) eqn:E.
    + apply same_spec in E. subst a. destruct (dashed b) eqn:D.
      * split; [discriminate|]. intros (r & (fr & bk & rf & rb & K & N1 & N2 & A & B & _) & _). destruct fr as [|x fr]; cbn [app] in K; inversion K; subst; [bad|].
        inversion A; subst; cbn [app] in *; try bad; inversion K; subst; bad.
      * rewrite IHl. split.
        -- intros (r & (fr & bk & rf & rb & K & N1 & N2 & A & B & ->) & ->). exists (b :: rf ++ rb). split; [|rewrite <- app_assoc; reflexivity].
           exists (dash_a :: b :: fr), bk, (b :: rf), rb. rewrite K. repeat split; auto. constructor; assumption.
        -- intros (r & (fr & bk & rf & rb & K & N1 & N2 & A & B & ->) & ->). inversion A; subst; cbn [app] in K; inversion K; subst; [bad|].
           exists (r ++ rb). split; [|rewrite <- !app_assoc; reflexivity]. exists l0, bk, r, rb. repeat split; auto.
    + change (same [] []) with true. cbv iota. apply same_not in E. destruct (list_eq_dec ascii_dec a []) as [Z|Z].
      * subst a. rewrite IHb. split.
        -- intros (r & (fr & bk & rf & rb & K & N1 & N2 & A & B & ->) & ->). exists (rf ++ rb). split; [|reflexivity]. exists ([] :: fr), bk, rf, rb. cbn [app]. rewrite <- K. repeat split; auto. constructor. exact A.
        -- intros (r & (fr & bk & rf & rb & K & N1 & N2 & A & B & ->) & ->). inversion A; subst; cbn [app] in K; inversion K; subst; [bad|].
           exists (rf ++ rb). split; [|reflexivity]. exists l0, bk, rf, rb. repeat split; auto.
      * rewrite (scan_second (b :: l) a reps f rs Z). split.
        -- intros [-> (rb & A & ->)]. exists rb. split; [|reflexivity]. exists [], (b :: l), [], rb. repeat split; auto. constructor.
        -- intros (r & (fr & bk & rf & rb & K & N1 & N2 & A & B & ->) & ->). inversion A; subst; cbn [app] in K; inversion K; subst; try bad.
           split; [reflexivity|]. exists rb. split; [exact B|reflexivity].
Qed.
Theorem C136_command_line : forall prog args file reps, command_line (prog :: args) = Some (file, reps) <-> well_formed args file reps.
Proof.
  intros prog args file reps. unfold command_line. cbn [tl]. rewrite scan_first. cbn [app]. split; [intros (r & H & ->); exact H|intros H; exists reps; auto].
Qed.
(** Nothing else is accepted, and a command line means one thing. *)
Theorem C136_unique : forall args f r f' r', well_formed args f r -> well_formed args f' r' -> f = f' /\ r = r'.
Proof.
  intros args f r f' r' A B. apply (proj2 (C136_command_line [] args f r)) in A. apply (proj2 (C136_command_line [] args f' r')) in B. rewrite A in B. inversion B. auto.
Qed.
Example C136_instance : well_formed [dash_a; w_max; ["i"]; dash_a; w_20] ["i"] [w_max; w_20]
  /\ command_line [["m"]; dash_a; w_max; ["i"]; dash_a; w_20] = Some (["i"], [w_max; w_20])
  /\ command_line [["m"]; ["i"]; dash_a] = None /\ command_line [["m"]; ["i"]; ["j"]] = None /\ command_line [["m"]; dash_a; dash_a; ["i"]] = None.
Proof.
  split; [|repeat split; reflexivity]. exists [dash_a; w_max], [dash_a; w_20], [w_max], [w_20]. repeat split; try discriminate; constructor; try reflexivity; constructor.
Qed.

(** ** C137 The case name *)
(** A file name: directories up to the last slash, then a name without slashes; its extension is what follows the last dot of the name. *)
Definition stem (dir name : str) (ext : option str) : str := dir ++ name ++ match ext with Some e => "." :: e | None => [] end.
Definition a_name (dir name : str) (ext : option str) : Prop :=
  (dir = [] \/ exists d, dir = d ++ ["/"]) /\ free "/" name /\ name <> []
  /\ match ext with Some e => free "/" e /\ free "." e | None => free "." name end.
Theorem C137_extension : forall dir name e, a_name dir name (Some e) -> strip_extension (stem dir name (Some e)) = dir ++ name.
Proof.
  intros dir name e (_ & _ & _ & _ & F). unfold strip_extension, stem. rewrite app_assoc. rewrite rfind_at by exact F. cbn [upto].
  rewrite firstn_app, firstn_all, Nat.sub_diag, firstn_O, app_nil_r. reflexivity.
Qed.
Theorem C137_no_extension : forall dir name, a_name dir name None -> free "." dir -> strip_extension (stem dir name None) = dir ++ name.
Proof.
  intros dir name (_ & _ & _ & F) G. unfold strip_extension, stem. rewrite app_nil_r. rewrite (proj2 (rfind_none "." (dir ++ name))); [reflexivity|].
  intros K. apply in_app_or in K. destruct K; [exact (G H)|exact (F H)].
Qed.
(** ./in gives the empty case name. *)
Theorem C137_refuted : exists dir name, a_name dir name None /\ strip_extension (stem dir name None) = [].
Proof.
  exists ["."; "/"], ["i"; "n"]. split; [|reflexivity]. split; [right; exists ["."]; reflexivity|]. unfold free. cbn [In]. split; [intuition discriminate|]. split; [discriminate|intuition discriminate].
Qed.
(** The tag, when it is there, decides; amendments to it count. *)
Theorem C137_tag : forall args load doc c, input_processor args load = IOk doc c ->
  exists file reps doc0, command_line args = Some (file, reps) /\ load file = Some doc0 /\ replace_all reps doc0 = Some doc
  /\ match node_at doc [case_tag] with
     | Some _ => text_at doc [case_tag] = Some c /\ c <> []
     | None => c = strip_extension file
     end.
Proof.
  intros args load doc c H. unfold input_processor in H. destruct (command_line args) as [[file reps]|]; [|discriminate].
  destruct (load file) as [doc0|] eqn:L; [|discriminate]. destruct (replace_all reps doc0) as [d|] eqn:RA; [|discriminate].
  assert (GC : forall s l, get_child s l = List.find (named s) l) by (induction l as [|x l IH]; cbn [get_child List.find]; [reflexivity|]; destruct (named s x); auto).
  rewrite GC in H. fold (kids d) in H. exists file, reps, doc0. split; [reflexivity|]. split; [exact L|].
  assert (FT : forall l, first_text l = match List.find is_text l with Some (Pc t) => t | _ => [] end) by (induction l as [|x l IH]; [reflexivity|]; destruct x; cbn [first_text List.find is_text]; auto).
  assert (KD : kids d = match d with Elem _ _ k => k | Pc _ => [] end) by reflexivity.
  destruct (List.find (named case_tag) (kids d)) as [[n a k|t]|] eqn:F.
  - destruct (same (first_text k) []) eqn:Z; [discriminate|]. inversion H; subst. split; [exact RA|]. apply same_not in Z. cbn [node_at]. rewrite F. split; [|exact Z].
    unfold text_at. cbn [node_at]. rewrite F. cbn [kids]. rewrite FT in Z. rewrite FT. destruct (List.find is_text k) as [[|t]|]; congruence.
  - exfalso. destruct (List.find_some _ _ F) as [_ K]. discriminate.
  - inversion H; subst. split; [exact RA|]. cbn [node_at]. rewrite F. reflexivity.
Qed.
Example C137_instance : a_name ["d"; "."; "v"; "/"] ["i"] (Some ["x"])
  /\ input_processor [["m"]; stem ["d"; "."; "v"; "/"] ["i"] (Some ["x"])] (fun _ => Some (Elem [] [] [])) = IOk (Elem [] [] []) ["d"; "."; "v"; "/"; "i"]
  /\ input_processor [["m"]; ["i"]; dash_a; written [] case_tag ["b"]] (fun _ => Some doc1) = IOk (Elem [] [] [Elem w_solver [(w_type, w_sn); (w_max, w_10)] [Elem w_type [] []]; Elem case_tag [] [Pc ["b"]]]) ["b"].
Proof.
  split; [|split; vm_compute; reflexivity]. split; [right; exists ["d"; "."; "v"]; reflexivity|]. unfold free. cbn [In]. repeat split; try discriminate; intuition discriminate.
Qed.
Print Assumptions C134_exact. Print Assumptions C134_accepted. Print Assumptions C134_order. Print Assumptions C135_refuted. Print Assumptions C135_one.
Print Assumptions C136_command_line. Print Assumptions C136_unique. Print Assumptions C137_extension. Print Assumptions C137_no_extension. Print Assumptions C137_refuted. Print Assumptions C137_tag.
