(** C54 – C56: explode_braces, print_range and FileScrubber. *)
From Coq Require Import Decimal DecimalString DecimalNat String List Bool Arith ZArith Ascii Lia.
From Verif Require Import StrModel.
Import ListNotations.
Local Open Scope char_scope.
Local Open Scope nat_scope.
Local Open Scope list_scope.

(** ** Blanks *)
Definition blank (s : str) : Prop := Forall (fun c => isspace c = true) s.
Definition stripped (s : str) : Prop := (forall c r, s = c :: r -> isspace c = false) /\ (forall c r, s = r ++ [c] -> isspace c = false).

Lemma ltrim_app : forall s, exists a, s = a ++ ltrim s /\ blank a.
Proof.
  induction s as [|c r [a [H1 H2]]]; [exists []; split; [reflexivity|constructor]|]. cbn [ltrim]. destruct (isspace c) eqn:E.
  - exists (c :: a). split; [cbn; congruence|constructor; assumption].
  - exists []. split; [reflexivity|constructor].
Qed.
Lemma ltrim_head : forall s c r, ltrim s = c :: r -> isspace c = false.
Proof. induction s as [|x s IH]; cbn [ltrim]; intros c r H; [discriminate|]. destruct (isspace x) eqn:E; [eauto|]. inversion H; subst; assumption. Qed.
Lemma ltrim_blank : forall a s, blank a -> ltrim (a ++ s) = ltrim s.
Proof. induction a as [|c a IH]; intros s H; [reflexivity|]. inversion H as [|? ? H2 H3]; subst. change ((c :: a) ++ s) with (c :: (a ++ s)). cbn [ltrim]. rewrite H2. auto. Qed.
Lemma ltrim_hd : forall c s, isspace c = false -> ltrim (c :: s) = c :: s.
Proof. intros c s H. cbn [ltrim]. rewrite H. reflexivity. Qed.
Lemma ltrim_blank_nil : forall a, blank a -> ltrim a = [].
Proof. intros a H. rewrite <- (app_nil_r a), ltrim_blank by assumption. reflexivity. Qed.
Lemma blank_rev : forall a, blank a -> blank (List.rev a).
Proof. intros a H. apply Forall_rev. assumption. Qed.
Lemma rtrim_app : forall s, exists b, s = rtrim s ++ b /\ blank b.
Proof.
  intros s. destruct (ltrim_app (List.rev s)) as [a [H1 H2]]. exists (List.rev a). split; [|apply blank_rev; assumption].
  unfold rtrim. rewrite <- rev_app_distr, <- H1, rev_involutive. reflexivity.
Qed.
Lemma rtrim_last : forall s c r, rtrim s = r ++ [c] -> isspace c = false.
Proof.
  intros s c r H. unfold rtrim in H. apply (f_equal (@List.rev ascii)) in H. rewrite rev_involutive, rev_app_distr in H. cbn in H.
  apply ltrim_head in H. assumption.
Qed.
Lemma ltrim_suffix_last : forall s c r, ltrim s = r ++ [c] -> exists r', s = r' ++ [c].
Proof. intros s c r H. destruct (ltrim_app s) as [a [E _]]. exists (a ++ r). rewrite E, H, app_assoc. reflexivity. Qed.
Lemma trim_stripped : forall s, stripped (trim s).
Proof.
  intros s. split; intros c r H.
  - apply ltrim_head in H. assumption.
  - unfold trim in H. apply ltrim_suffix_last in H. destruct H as [r' H]. apply rtrim_last in H. assumption.
Qed.
Lemma trim_split : forall s, exists a b, s = a ++ trim s ++ b /\ blank a /\ blank b.
Proof.
  intros s. destruct (rtrim_app s) as [b [H1 H2]]. destruct (ltrim_app (rtrim s)) as [a [H3 H4]]. exists a, b.
  split; [|auto]. unfold trim. rewrite app_assoc, <- H3. assumption.
Qed.
(** The strip of a string is unique. *)
Lemma strip_left : forall a s a' s', blank a -> blank a' -> a ++ s = a' ++ s' ->
  (forall c r, s = c :: r -> isspace c = false) -> (forall c r, s' = c :: r -> isspace c = false) -> s = s'.
Proof.
  intros a s a' s' Ha Ha' E Hs Hs'.
  assert (L : forall t, (forall c r, t = c :: r -> isspace c = false) -> ltrim t = t) by (intros [|c t] H; [reflexivity|apply ltrim_hd; eapply H; reflexivity]).
  rewrite <- (L s Hs), <- (L s' Hs'), <- (ltrim_blank a s Ha), <- (ltrim_blank a' s' Ha'), E. reflexivity.
Qed.
Lemma strip_unique : forall a s b a' s' b', blank a -> blank b -> blank a' -> blank b' -> stripped s -> stripped s' -> a ++ s ++ b = a' ++ s' ++ b' -> s = s'.
Proof.
  intros a s b a' s' b' Ha Hb Ha' Hb' [Hs1 Hs2] [Hs1' Hs2'] E.
  assert (L : forall t u, blank u -> (forall c r, t = c :: r -> isspace c = false) -> t <> [] -> ltrim (t ++ u) = t ++ u).
  { intros [|c t] u _ H N; [congruence|]. apply ltrim_hd. eapply H. reflexivity. }
  assert (Q : blank (s ++ b) <-> s = []).
  { split; intro H; [|subst; assumption]. destruct s as [|c s]; [reflexivity|]. inversion H; subst. rewrite (Hs1 c s eq_refl) in H2. discriminate. }
  assert (Q' : blank (s' ++ b') <-> s' = []).
  { split; intro H; [|subst; assumption]. destruct s' as [|c s']; [reflexivity|]. inversion H; subst. rewrite (Hs1' c s' eq_refl) in H2. discriminate. }
  assert (Z0 : s = [] -> s' = []).
  { intro Z. apply Q'. assert (B : blank (a' ++ s' ++ b')) by (rewrite <- E; subst s; apply Forall_app; split; assumption). apply Forall_app in B. tauto. }
  assert (Z1 : s' = [] -> s = []).
  { intro Z. apply Q. assert (B : blank (a ++ s ++ b)) by (rewrite E; subst s'; apply Forall_app; split; assumption). apply Forall_app in B. tauto. }
  destruct s as [|c s]; [symmetry; auto|]. destruct s' as [|c' s']; [discriminate (Z1 eq_refl)|].
  assert (M : (c :: s) ++ b = (c' :: s') ++ b').
  { apply (strip_left a ((c :: s) ++ b) a' ((c' :: s') ++ b') Ha Ha' E).
    - intros x r H. inversion H; subst. eapply Hs1; reflexivity.
    - intros x r H. inversion H; subst. eapply Hs1'; reflexivity. }
  apply (f_equal (@List.rev ascii)) in M. rewrite !rev_app_distr in M.
  apply (strip_left (List.rev b) _ (List.rev b') _ (blank_rev _ Hb) (blank_rev _ Hb')) in M.
  - apply (f_equal (@List.rev ascii)) in M. rewrite !rev_involutive in M. assumption.
  - intros x r H. apply (f_equal (@List.rev ascii)) in H. rewrite rev_involutive in H. eapply Hs2. exact H.
  - intros x r H. apply (f_equal (@List.rev ascii)) in H. rewrite rev_involutive in H. eapply Hs2'. exact H.
Qed.

(** * C56 — FileScrubber *)
(** The lines of a text, the part of a line before its first comment mark, and what should be left of a line. *)
Fixpoint lines (s : str) : list str :=
  match s with
  | [] => [[]]
  | c :: r => if Ascii.eqb c "010" then [] :: lines r else match lines r with [] => [[c]] | l :: t => (c :: l) :: t end
  end.
Definition occurs_at (f l : str) (k : nat) : Prop := exists q, skipn k l = f ++ q /\ k <= List.length l.
Definition no_comment (f l p : str) : Prop :=
  (exists q, l = p ++ q /\ occurs_at f l (List.length p) /\ forall k, k < List.length p -> ~ occurs_at f l k)
  \/ (p = l /\ forall k, ~ occurs_at f l k).
Definition Clean (f l c : str) : Prop := exists p a b, no_comment f l p /\ p = a ++ c ++ b /\ blank a /\ blank b /\ stripped c.

Lemma starts_with_iff : forall f s, starts_with f s = true <-> exists q, s = f ++ q.
Proof.
  induction f as [|a f IH]; intros s; cbn [starts_with].
  - split; [exists s; reflexivity|reflexivity].
  - destruct s as [|b s].
    + split; [discriminate|]. intros [q H]. discriminate.
    + rewrite andb_true_iff, IH, Ascii.eqb_eq. split.
      * intros [-> [q ->]]. exists q. reflexivity.
      * intros [q H]. cbn in H. inversion H; subst. split; [reflexivity|]. exists q. reflexivity.
Qed.
Lemma occurs_0 : forall f s, occurs_at f s 0 <-> starts_with f s = true.
Proof. intros f s. rewrite starts_with_iff. unfold occurs_at. cbn. split; intros [q H]; exists q; [tauto|split; [assumption|lia]]. Qed.
Lemma occurs_S : forall f c s k, occurs_at f (c :: s) (S k) <-> occurs_at f s k.
Proof. intros f c s k. unfold occurs_at. cbn. split; intros [q [H L]]; exists q; (split; [assumption|lia]). Qed.
Lemma find_str_some : forall f s k, find_str f s = Some k -> occurs_at f s k /\ forall j, j < k -> ~ occurs_at f s j.
Proof.
  intros f. induction s as [|c s IH]; intros k H; cbn [find_str] in H.
  - destruct (starts_with f []) eqn:E; [|discriminate]. inversion H; subst. split; [apply occurs_0; assumption|lia].
  - destruct (starts_with f (c :: s)) eqn:E.
    + inversion H; subst. split; [apply occurs_0; assumption|lia].
    + destruct (find_str f s) as [m|] eqn:F; [|discriminate]. inversion H; subst. destruct (IH m eq_refl) as [A B].
      split; [apply (proj2 (occurs_S _ _ _ _)); assumption|]. intros [|j] L O; [apply occurs_0 in O; congruence|]. apply (proj1 (occurs_S _ _ _ _)) in O. apply (B j); [lia|assumption].
Qed.
Lemma find_str_none : forall f s, find_str f s = None -> forall k, ~ occurs_at f s k.
Proof.
  intros f. induction s as [|c s IH]; intros H k O; cbn [find_str] in H.
  - destruct (starts_with f []) eqn:E; [discriminate|]. destruct k; [apply occurs_0 in O; congruence|]. destruct O as [q [_ L]]. cbn in L. lia.
  - destruct (starts_with f (c :: s)) eqn:E; [discriminate|]. destruct (find_str f s) eqn:F; [discriminate|].
    destruct k; [apply occurs_0 in O; congruence|]. apply (proj1 (occurs_S _ _ _ _)) in O. apply (IH eq_refl k O).
Qed.

Lemma clean_Clean : forall f l, Clean f l (clean f l).
Proof.
  intros f l. unfold clean, Clean. set (p := match find_str f l with Some k => firstn k l | None => l end).
  destruct (trim_split p) as [a [b [H1 [H2 H3]]]]. exists p, a, b. split; [|split; [assumption|]; split; [assumption|]; split; [assumption|apply trim_stripped]].
  unfold p. destruct (find_str f l) as [k|] eqn:E.
  - destruct (find_str_some f l k E) as [O N]. left. exists (skipn k l). rewrite firstn_skipn.
    assert (L : List.length (firstn k l) = k) by (rewrite firstn_length; destruct O as [q [_ L]]; lia). rewrite L. auto.
  - right. split; [reflexivity|]. apply find_str_none. assumption.
Qed.
Lemma no_comment_unique : forall f l p p', no_comment f l p -> no_comment f l p' -> p = p'.
Proof.
  intros f l p p' [[q [E [O N]]]|[-> N]] [[q' [E' [O' N']]]|[-> N']].
  - assert (L : List.length p = List.length p').
    { destruct (lt_eq_lt_dec (List.length p) (List.length p')) as [[H|H]|H]; [|assumption|].
      - destruct (N' _ H O).
      - destruct (N _ H O'). }
    rewrite E in E'. revert L E'. clear. revert p'. induction p as [|c p IH]; intros [|c' p'] L E; cbn in *; try discriminate; [reflexivity|]. inversion E; subst. f_equal. apply IH; [lia|assumption].
  - destruct (N' _ O).
  - destruct (N _ O').
  - reflexivity.
Qed.

(** What a line should reduce to is determined by the line. *)
Theorem C56_line : forall f l a b, Clean f l a -> Clean f l b -> a = b.
Proof.
  intros f l a b [p [x [y [N [E [Hx [Hy Ha]]]]]]] [p' [x' [y' [N' [E' [Hx' [Hy' Hb]]]]]]].
  pose proof (no_comment_unique _ _ _ _ N N') as Q. rewrite E, E' in Q. eapply strip_unique; [exact Hx|exact Hy|exact Hx'|exact Hy'|exact Ha|exact Hb|exact Q].
Qed.
Print Assumptions C56_line.

Fixpoint reads (n fuel : nat) (flag : str) (s : Stream) : option (list str) :=
  match n with
  | O => Some []
  | S m => match scrub fuel flag s with None => None | Some (l, t) => option_map (cons l) (reads m fuel flag t) end
  end.
Definition nonempty (s : str) : bool := match s with [] => false | _ => true end.
(** [take n l]: the first [n] elements of [l] followed by empty strings. *)
Definition take (n : nat) (l : list str) : list str := map (fun i => nth i l []) (seq 0 n).

Definition rest_lines (s : Stream) : list str := if st_eof s then [] else lines (st_rest s).
Lemma lines_ne : forall s, lines s <> [].
Proof. induction s as [|c s IH]; cbn [lines]; [discriminate|]. destruct (Ascii.eqb c "010"); [discriminate|]. destruct (lines s); discriminate. Qed.
Lemma get_line_lines : forall s l t, get_line s = (l, t) -> lines s = l :: rest_lines t /\ List.length (st_rest t) <= List.length s.
Proof.
  induction s as [|c s IH]; intros l t H; cbn [get_line] in H.
  - inversion H; subst. cbn. auto.
  - cbn [lines]. destruct (Ascii.eqb c "010") eqn:E.
    + inversion H; subst. cbn. split; [reflexivity|lia].
    + destruct (get_line s) as [l0 t0] eqn:G. inversion H; subst. destruct (IH l0 t eq_refl) as [A B]. rewrite A. cbn. split; [reflexivity|lia].
Qed.
Lemma scrub_lines : forall fuel flag s, List.length (rest_lines s) <= fuel -> exists l t, scrub fuel flag s = Some (l, t) /\ List.length (rest_lines t) <= List.length (rest_lines s)
  /\ ((l = [] /\ filter nonempty (map (clean flag) (rest_lines s)) = [] /\ rest_lines t = [])
      \/ (filter nonempty (map (clean flag) (rest_lines s)) = l :: filter nonempty (map (clean flag) (rest_lines t)))).
Proof.
  induction fuel as [|n IH]; intros flag [rest eof] L; cbn [scrub st_eof st_rest].
  - destruct eof; unfold rest_lines in *; cbn in *.
    + exists [], (mkStream rest true). cbn. split; [reflexivity|]. split; [lia|]. left. tauto.
    + pose proof (lines_ne rest). destruct (lines rest); [congruence|cbn in L; lia].
  - destruct eof.
    + exists [], (mkStream rest true). unfold rest_lines; cbn [st_eof]. split; [reflexivity|]. split; [cbn; lia|]. left. cbn. tauto.
    + destruct (get_line rest) as [l t] eqn:G. destruct (get_line_lines _ _ _ G) as [A _].
      change (rest_lines (mkStream rest false)) with (lines rest) in *. rewrite A in L |- *. cbn [map filter List.length] in L |- *.
      destruct (clean flag l) as [|c r] eqn:C; cbn [nonempty].
      * destruct (IH flag t ltac:(lia)) as [l' [t' [H1 [H2 H3]]]]. exists l', t'. split; [assumption|]. split; [lia|]. exact H3.
      * exists (c :: r), t. split; [reflexivity|]. split; [lia|]. right. reflexivity.
Qed.

(** Successive reads of a text return, in order, what its lines reduce to, the empty ones left out, and from then on empty strings. *)
Theorem C56_reads : forall (flag text : str) (n : nat), exists cleaned,
  Forall2 (Clean flag) (lines text) cleaned /\
  reads n (S (List.length text)) flag (mkStream text false) = Some (take n (filter nonempty cleaned)).
Proof.
  intros flag text n. exists (map (clean flag) (lines text)). split.
  - induction (lines text); cbn; constructor; [apply clean_Clean|assumption].
  - assert (LL : forall s, List.length (lines s) <= S (List.length s)).
    { induction s as [|c s IH]; cbn [lines]; [cbn; lia|]. destruct (Ascii.eqb c "010"); [cbn in *; lia|]. destruct (lines s); cbn in *; lia. }
    assert (G : forall n s fuel, List.length (rest_lines s) <= fuel -> reads n fuel flag s = Some (take n (filter nonempty (map (clean flag) (rest_lines s))))).
    { induction n0 as [|m IH]; intros s fuel L; [reflexivity|]. cbn [reads].
      destruct (scrub_lines fuel flag s L) as [l [t [E [D [[A [B C]]|B]]]]]; rewrite E, (IH t fuel ltac:(lia)); cbn [option_map]; rewrite B; unfold take; cbn [seq map]; rewrite <- seq_shift, map_map.
      - subst l. rewrite C. cbn [map filter nth]. do 2 f_equal. apply map_ext. intros [|i]; reflexivity.
      - reflexivity. }
    apply (G n (mkStream text false)). apply LL.
Qed.
Print Assumptions C56_reads.

Definition txt (s : string) : str := list_ascii_of_string s.
Definition nl : str := ["010"].
(** Two lines of data, one with a comment, between comment-only and blank lines; no newline at the end. *)
Example C56_instance :
  let text := txt "  MESH  ! header" ++ nl ++ txt "! only a comment" ++ nl ++ txt "   " ++ nl ++ txt "1.0 2.0" in
  lines text = [txt "  MESH  ! header"; txt "! only a comment"; txt "   "; txt "1.0 2.0"]
  /\ reads 4 (S (List.length text)) (txt "!") (mkStream text false) = Some [txt "MESH"; txt "1.0 2.0"; []; []].
Proof. split; vm_compute; reflexivity. Qed.

(** * C55 — print_range *)
(** The reader of the printed text: pieces between commas, each a number or two numbers joined by a dash. *)
Fixpoint split (c : ascii) (s : str) : list str :=
  match s with
  | [] => [[]]
  | x :: r => if Ascii.eqb x c then [] :: split c r else match split c r with [] => [[x]] | l :: t => (x :: l) :: t end
  end.
Definition in_piece (p : str) (i : Z) : Prop :=
  match split "-" (trim p) with [a] => a <> [] /\ i = value a | [a; b] => (value a <= i <= value b)%Z | _ => False end.
Definition described (t : str) (i : Z) : Prop := Exists (fun p => in_piece p i) (split "," t).

(** The runs the loop collects. *)
Lemma ranges_loop_app : forall l i n left lb acc, ranges_loop l i n left lb acc = acc ++ ranges_loop l i n left lb [].
Proof.
  induction l as [|v r IH]; intros i n left lb acc; [cbn; rewrite app_nil_r; reflexivity|]. cbn [ranges_loop]. cbv zeta.
  destruct v, left; cbn [negb andb]; rewrite IH; symmetry; rewrite IH; try destruct (i =? n - 1); cbn [List.app]; rewrite ?app_nil_r, <- ?app_assoc; reflexivity.
Qed.
(** Reference: the ordered maximal runs. *)
Definition covers (rs : list (nat * nat)) (i : nat) : Prop := exists r, In r rs /\ fst r <= i <= snd r.
Fixpoint runs_from (lo : nat) (rs : list (nat * nat)) : Prop := match rs with [] => True | (a, b) :: t => lo <= a /\ a <= b /\ runs_from (b + 2) t end.
Lemma runs_from_weaken : forall rs lo lo', lo' <= lo -> runs_from lo rs -> runs_from lo' rs.
Proof. destruct rs as [|[a b] t]; intros lo lo' H; cbn; [trivial|]. intros [A [B C]]. repeat split; [lia|assumption|assumption]. Qed.
Lemma covers_cons : forall r rs i, covers (r :: rs) i <-> fst r <= i <= snd r \/ covers rs i.
Proof. intros r rs i. unfold covers. split; [intros [x [[->|H] K]]; eauto|]. intros [H|[x [H K]]]; [exists r|exists x]; cbn; auto. Qed.
Lemma ranges_spec : forall l i n left lb, i + List.length l = n -> (left = true -> lb < i /\ l <> []) ->
  let rs := ranges_loop l i n left lb [] in
  runs_from (if left then lb else i) rs /\
  forall j, covers rs j <-> (left = true /\ lb <= j < i) \/ (i <= j /\ nth (j - i) l false = true).
Proof.
  induction l as [|v r IH]; intros i n left lb N HL rs; unfold rs.
  - destruct left; [destruct (HL eq_refl) as [_ H]; congruence|]. cbn. split; [trivial|]. intros j. split; [intros [x [[] _]]|]. intros [[H _]|[_ H]]; [discriminate|]. destruct (j - i); discriminate.
  - cbn [List.length] in N. cbn [ranges_loop]. cbv zeta.
    assert (NT : forall j b, i <= j -> nth (j - i) (b :: r) false = true <-> (j = i /\ b = true) \/ (S i <= j /\ nth (j - S i) r false = true)).
    { intros j b H. destruct (Nat.eq_dec j i) as [->|D].
      - rewrite Nat.sub_diag. cbn. split; [auto|]. intros [[_ K]|[K _]]; [assumption|lia].
      - replace (j - i) with (S (j - S i)) by lia. cbn [nth]. split; [intro K; right; split; [lia|assumption]|]. intros [[K _]|[_ K]]; [congruence|assumption]. }
    destruct v; cbn [negb andb]; rewrite ?andb_true_r, ?andb_false_r.
    + (* a true flag: the run goes on or starts *)
      set (lb' := if negb left then i else lb). set (left' := if negb left then true else left).
      assert (Hl' : left' = true) by (unfold left'; destruct left; reflexivity). rewrite Hl'. cbn [andb].
      assert (Hlb' : lb' <= i /\ (left = true -> lb' = lb) /\ (left = false -> lb' = i)) by (unfold lb'; destruct left; cbn; [destruct (HL eq_refl)|]; repeat split; try discriminate; try lia).
      destruct (i =? n - 1) eqn:E.
      * apply Nat.eqb_eq in E. assert (r = []) by (destruct r; [reflexivity|cbn in N; lia]). subst r. cbn [ranges_loop].
        split.
        -- cbn [List.app runs_from]. destruct left; cbn [andb]; destruct Hlb' as [H1 [H2 H3]]; [specialize (H2 eq_refl)|specialize (H3 eq_refl)]; repeat split; cbn; try lia.
        -- intro j. cbn [List.app]. rewrite covers_cons. cbn [fst snd]. split.
           ++ intros [H|[x [[] _]]]. destruct (Nat.eq_dec j i) as [->|D]; [right; split; [lia|apply NT; [lia|auto]]|].
              left. destruct left; destruct Hlb' as [H1 [H2 H3]]; [specialize (H2 eq_refl); split; [reflexivity|lia]|specialize (H3 eq_refl); lia].
           ++ intros [[H1 H2]|[H1 H2]]; left; destruct Hlb' as [K1 [K2 K3]].
              ** specialize (K2 H1). lia.
              ** apply NT in H2; [|assumption]. destruct H2 as [[-> _]|[_ H2]]; [lia|]. destruct (j - S i); discriminate.
      * apply Nat.eqb_neq in E. assert (R : r <> []) by (intro; subst r; cbn in N; lia).
        destruct (IH (S i) n true lb' ltac:(lia) ltac:(intros _; split; [lia|assumption])) as [A B]. cbv zeta in A, B. split.
        -- eapply runs_from_weaken; [|exact A]. destruct left; destruct Hlb' as [K1 [K2 K3]]; [specialize (K2 eq_refl)|specialize (K3 eq_refl)]; lia.
        -- intro j. rewrite B. clear A B. split.
           ++ intros [[_ H]|[H1 H2]].
              ** destruct (Nat.eq_dec j i) as [->|D]; [right; split; [lia|apply NT; [lia|auto]]|].
                 left. destruct left; destruct Hlb' as [K1 [K2 K3]]; [specialize (K2 eq_refl); split; [reflexivity|lia]|specialize (K3 eq_refl); lia].
              ** right. split; [lia|]. apply NT; [lia|auto].
           ++ intros [[H1 H2]|[H1 H2]]; destruct Hlb' as [K1 [K2 K3]].
              ** specialize (K2 H1). left. split; [reflexivity|lia].
              ** apply NT in H2; [|assumption]. destruct H2 as [[-> _]|H2]; [left; split; [reflexivity|lia]|right; assumption].
    + (* a false flag: a run ends *)
      destruct left; cbn [andb List.app].
      * destruct (HL eq_refl) as [H1 _]. rewrite ranges_loop_app. destruct (IH (S i) n false lb ltac:(lia) ltac:(discriminate)) as [A B]. cbv zeta in A, B. split.
        -- cbn [List.app runs_from]. repeat split; [lia|lia|]. eapply runs_from_weaken; [|exact A]. lia.
        -- intro j. cbn [List.app]. rewrite covers_cons, B. cbn [fst snd]. clear A B. split.
           ++ intros [H|[[H _]|[H2 H3]]]; [left; split; [reflexivity|lia]|discriminate|]. right. split; [lia|]. apply NT; [lia|auto].
           ++ intros [[_ H]|[H2 H3]]; [left; lia|]. apply NT in H3; [|assumption]. destruct H3 as [[_ H3]|H3]; [discriminate|auto].
      * destruct (IH (S i) n false lb ltac:(lia) ltac:(discriminate)) as [A B]. cbv zeta in A, B. split; [eapply runs_from_weaken; [|exact A]; lia|].
        intro j. rewrite B. clear A B. split.
        -- intros [[H _]|[H2 H3]]; [discriminate|]. right. split; [lia|]. apply NT; [lia|auto].
        -- intros [[H _]|[H2 H3]]; [discriminate|]. apply NT in H3; [|assumption]. destruct H3 as [[_ H3]|H3]; [discriminate|auto].
Qed.

(** Printed numbers. *)
Definition digs (s : str) : Prop := Forall (fun c => isdigit c = true) s.
Lemma show_digs : forall n, digs (show n).
Proof. intros n. unfold show, digs. induction (Nat.to_uint n); cbn; constructor; auto. Qed.
Lemma value_uint : forall u k, fold_left (fun v c => 10 * v + dig c)%Z (list_ascii_of_string (NilEmpty.string_of_uint u)) (Z.of_nat k) = Z.of_nat (Nat.of_uint_acc u k).
Proof.
  induction u; intros k; [reflexivity|..];
  cbn [NilEmpty.string_of_uint list_ascii_of_string fold_left Nat.of_uint_acc]; rewrite Nat.tail_mul_spec; rewrite <- IHu; f_equal;
  match goal with |- context [dig ?c] => let v := eval vm_compute in (dig c) in change (dig c) with v end;
  match goal with |- context [?t * k] => change t with 10 end; lia.
Qed.
Lemma value_show : forall n, value (show n) = Z.of_nat n.
Proof. intros n. unfold value, show. change 0%Z with (Z.of_nat 0). rewrite value_uint. f_equal. apply (Unsigned.of_to n). Qed.
Lemma show_ne : forall n, show n <> [].
Proof. intros n H. pose proof (value_show n) as V. destruct n; [discriminate H|]. rewrite H in V. cbn in V. lia. Qed.

Lemma split_free : forall c p, ~ In c p -> split c p = [p].
Proof.
  induction p as [|x p IH]; intros H; [reflexivity|]. cbn [split]. destruct (Ascii.eqb x c) eqn:E; [apply Ascii.eqb_eq in E; subst; destruct H; left; reflexivity|].
  rewrite IH by (intro; apply H; right; assumption). reflexivity.
Qed.
Lemma split_cut : forall c p r, ~ In c p -> split c (p ++ c :: r) = p :: split c r.
Proof.
  induction p as [|x p IH]; intros r H; cbn [List.app split].
  - rewrite Ascii.eqb_refl. reflexivity.
  - destruct (Ascii.eqb x c) eqn:E; [apply Ascii.eqb_eq in E; subst; destruct H; left; reflexivity|].
    rewrite IH by (intro; apply H; right; assumption). reflexivity.
Qed.
Lemma digs_not_in : forall s c, digs s -> isdigit c = false -> ~ In c s.
Proof. intros s c H E I. unfold digs in H. rewrite Forall_forall in H. rewrite (H c I) in E. discriminate. Qed.
Lemma digit_nonspace : forall c, isdigit c = true -> isspace c = false.
Proof. intros c. unfold isdigit, isspace. cbv zeta. rewrite andb_true_iff, orb_false_iff, andb_false_iff, !Nat.leb_le, !Nat.leb_gt, Nat.eqb_neq. lia. Qed.
Lemma trim_pad : forall a s, blank a -> Forall (fun c => isspace c = false) s -> trim (a ++ s) = s.
Proof.
  intros a s Ha Hs. rewrite Forall_forall in Hs. destruct (trim_split (a ++ s)) as [x [y [E [Hx Hy]]]].
  symmetry. apply (strip_unique a s [] x (trim (a ++ s)) y); [assumption|constructor|assumption|assumption| |apply trim_stripped|rewrite app_nil_r; exact E].
  split; intros c r H; subst; apply Hs; [left; reflexivity|apply in_or_app; right; left; reflexivity].
Qed.
Lemma show_range_nonspace : forall r, Forall (fun c => isspace c = false) (show_range r).
Proof.
  intros r. assert (D : forall n, Forall (fun c => isspace c = false) (show n)) by (intros n; eapply Forall_impl; [|apply show_digs]; apply digit_nonspace).
  unfold show_range. destruct (fst r =? snd r); [apply D|]. apply Forall_app. split; [apply D|]. constructor; [reflexivity|apply D].
Qed.
Lemma show_range_nocomma : forall r, ~ In "," (show_range r).
Proof.
  intros r. unfold show_range. assert (D : forall n, ~ In "," (show n)) by (intros n; apply digs_not_in; [apply show_digs|reflexivity]).
  destruct (fst r =? snd r); [apply D|]. intro H. apply in_app_or in H. destruct H as [H|[H|H]]; [exact (D _ H)|discriminate|exact (D _ H)].
Qed.
Lemma in_piece_show : forall pre a b i, blank pre -> a <= b -> in_piece (pre ++ show_range (a, b)) (Z.of_nat i) <-> a <= i <= b.
Proof.
  intros pre a b i Hp L. unfold in_piece. rewrite trim_pad by (try assumption; apply show_range_nonspace). unfold show_range. cbn [fst snd].
  assert (D : forall n, ~ In "-" (show n)) by (intros n; apply digs_not_in; [apply show_digs|reflexivity]).
  destruct (a =? b) eqn:E.
  - apply Nat.eqb_eq in E. subst b. rewrite split_free by apply D. rewrite value_show. pose proof (show_ne a). split; [intros [_ H']; lia|]. intro; split; [assumption|lia].
  - rewrite split_cut, split_free by apply D. rewrite !value_show. lia.
Qed.
Lemma runs_in : forall rs lo r, runs_from lo rs -> In r rs -> lo <= fst r /\ fst r <= snd r.
Proof.
  induction rs as [|[a b] t IH]; intros lo r H I; [destruct I|]. cbn in H. destruct H as [H1 [H2 H3]]. destruct I as [<-|I]; [cbn; lia|]. destruct (IH _ _ H3 I). lia.
Qed.
Lemma text_described : forall rs lo pre i, rs <> [] -> blank pre -> ~ In "," pre -> runs_from lo rs ->
  described (pre ++ show_ranges rs (last rs (0, 0))) (Z.of_nat i) <-> covers rs i.
Proof.
  induction rs as [|[a b] t IH]; intros lo pre i N Hp Hc R; [congruence|]. cbn [runs_from] in R. destruct R as [R1 [R2 R3]].
  rewrite covers_cons. cbn [fst snd]. cbn [show_ranges].
  assert (NC : ~ In "," (pre ++ show_range (a, b))) by (intro H; apply in_app_or in H; destruct H as [H|H]; [auto|exact (show_range_nocomma _ H)]).
  destruct t as [|[c d] t].
  - cbn [last show_ranges]. unfold pair_eqb. cbn [fst snd]. rewrite !Nat.eqb_refl. cbn [andb negb List.app]. rewrite app_nil_r.
    unfold described. rewrite split_free by assumption. rewrite Exists_cons, in_piece_show by assumption. rewrite Exists_nil. split; [tauto|]. intros [H|[x [[] _]]]. auto.
  - set (u := (c, d) :: t) in *. assert (LB : last ((a, b) :: u) (0, 0) = last u (0, 0)) by reflexivity. rewrite LB.
    assert (I : In (last u (0, 0)) u).
    { assert (U : u <> []) by discriminate. destruct (exists_last U) as [u' [x Ex]]. rewrite Ex, last_last. apply in_or_app. right. left. reflexivity. }
    destruct (runs_in _ _ _ R3 I) as [K1 K2].
    assert (PE : pair_eqb (a, b) (last u (0, 0)) = false) by (unfold pair_eqb; cbn [fst snd]; apply andb_false_iff; left; apply Nat.eqb_neq; lia).
    rewrite PE. cbn [negb List.app]. rewrite app_assoc. unfold described. rewrite split_cut by assumption. rewrite Exists_cons, in_piece_show by assumption.
    specialize (IH (b + 2) [" "] i ltac:(discriminate) ltac:(repeat constructor) ltac:(intros [H|[]]; discriminate) R3). unfold described in IH. cbn [List.app] in IH.
    rewrite IH. tauto.
Qed.

(** The printed text describes exactly the positions of the true flags. *)
Theorem C55_text : forall (l : list bool) (i : nat), described (print_range l) (Z.of_nat i) <-> nth i l false = true.
Proof.
  intros l i. destruct (ranges_spec l 0 (List.length l) false 0 eq_refl ltac:(discriminate)) as [A B]. cbv zeta in A, B. fold (ranges l) in A, B.
  assert (C : covers (ranges l) i <-> nth i l false = true).
  { rewrite B, Nat.sub_0_r. split; [intros [[H _]|[_ H]]; [discriminate|assumption]|]. intro. right. split; [lia|assumption]. }
  rewrite <- C. unfold print_range. destruct (ranges l) as [|r t] eqn:E.
  - cbn. split; [intro H; inversion H as [? ? P|? ? P]; subst; [cbn in P; destruct P as [P _]; congruence|inversion P]|]. intros [x [[] _]].
  - apply (text_described (r :: t) 0 [] i); [discriminate|constructor|auto|exact A].
Qed.
Print Assumptions C55_text.

(** So the text determines the flags. *)
Theorem C55_injective : forall l l', List.length l = List.length l' -> print_range l = print_range l' -> l = l'.
Proof.
  intros l l' L E. apply (nth_ext l l' false false L). intros i _.
  assert (H : nth i l false = true <-> nth i l' false = true) by (rewrite <- !C55_text, E; reflexivity).
  destruct (nth i l false), (nth i l' false); try reflexivity; [symmetry; apply H; reflexivity|apply H; reflexivity].
Qed.
Print Assumptions C55_injective.

(** The runs that are printed are maximal: they are in order and at least one false flag lies between two of them. *)
Theorem C55_runs : forall l, runs_from 0 (ranges l).
Proof. intros l. exact (proj1 (ranges_spec l 0 (List.length l) false 0 eq_refl ltac:(discriminate))). Qed.
Print Assumptions C55_runs.

Example C55_instance :
  print_range [true; false; true; true; true; false; false; true] = txt "0, 2-4, 7" /\ print_range [false; false] = []
  /\ print_range (repeat true 12) = txt "0-11".
Proof. repeat split; vm_compute; reflexivity. Qed.

(** * C54 — explode_braces *)
(** A list of numbers separated by blanks, and what it says. *)
Inductive Ints : str -> list Z -> Prop :=
| I_nil : forall w, blank w -> Ints w []
| I_cons : forall w d t ns, blank w -> d <> [] -> digs d -> (t = [] \/ exists c r, t = c :: r /\ isspace c = true) -> (value d <= INT_LIM)%Z ->
    Ints t ns -> Ints (w ++ d ++ t) (value d :: ns).
(** A document: naked numbers, each a list of its own, and groups in braces; a brace opens after a blank, a closing brace or at the start. *)
Inductive Doc : str -> list (list Z) -> Prop :=
| D_end : forall u ns, Ints u ns -> Doc u (map (fun v => [v]) ns)
| D_group : forall u ns g gs rest out, Ints u ns -> (u = [] \/ exists u' c, u = u' ++ [c] /\ isspace c = true) ->
    Ints g gs -> gs <> [] -> Doc rest out -> Doc (u ++ "{" :: g ++ "}" :: rest) (map (fun v => [v]) ns ++ gs :: out).

Definition plain (c : ascii) : Prop := isspace c = true \/ isdigit c = true.
Lemma Ints_plain : forall s ns, Ints s ns -> Forall plain s.
Proof.
  intros s ns H. induction H as [w H|w d t ns Hw Hd Hdd Ht Hv Hi IH].
  - eapply Forall_impl; [|exact H]. intros c Hc. left. exact Hc.
  - apply Forall_app. split; [eapply Forall_impl; [|exact Hw]; intros c Hc; left; exact Hc|]. apply Forall_app. split; [|assumption].
    eapply Forall_impl; [|exact Hdd]. intros c Hc. right. exact Hc.
Qed.
Lemma plain_facts : forall c, plain c -> high c = false /\ tolower c = c /\ c <> "{" /\ c <> "}" /\ invalid_char c = false.
Proof.
  intros c H. assert (B : nat_of_ascii c < 65).
  { destruct H as [H|H]; unfold isspace, isdigit in H; cbv zeta in H; [apply orb_true_iff in H; destruct H as [H|H]; [apply Nat.eqb_eq in H; lia|]|]; apply andb_true_iff in H; destruct H as [H1 H2]; apply Nat.leb_le in H1, H2; lia. }
  assert (I : invalid_char c = false) by (unfold invalid_char; destruct H as [H|H]; rewrite H; cbn [orb]; rewrite ?orb_true_r; reflexivity).
  repeat split.
  - unfold high. apply Nat.leb_gt. lia.
  - unfold tolower. cbv zeta. assert (E : (65 <=? nat_of_ascii c) = false) by (apply Nat.leb_gt; lia). rewrite E. reflexivity.
  - intros ->. revert B. change (nat_of_ascii "{") with 123. lia.
  - intros ->. revert B. change (nat_of_ascii "}") with 125. lia.
  - assumption.
Qed.
Lemma digits_app : forall d t, digs d -> (t = [] \/ exists c r, t = c :: r /\ isdigit c = false) -> digits (d ++ t) = (d, t).
Proof.
  induction d as [|c d IH]; intros t H Ht; cbn [List.app].
  - destruct Ht as [->|[c [r [-> E]]]]; [reflexivity|]. cbn [digits]. rewrite E. reflexivity.
  - inversion H as [|? ? H1 H2]; subst. cbn [digits]. rewrite H1, (IH t H2 Ht). reflexivity.
Qed.
Lemma digits_split : forall s d t, digits s = (d, t) -> s = d ++ t /\ digs d /\ (t = [] \/ exists c r, t = c :: r /\ isdigit c = false).
Proof.
  induction s as [|c s IH]; intros d t H; cbn [digits] in H.
  - inversion H; subst. split; [reflexivity|]. split; [constructor|auto].
  - destruct (isdigit c) eqn:E.
    + destruct (digits s) as [a b] eqn:D. inversion H; subst. destruct (IH a t eq_refl) as [A [B C]]. split; [cbn; congruence|]. split; [constructor; assumption|assumption].
    + inversion H; subst. split; [reflexivity|]. split; [constructor|]. right. eauto.
Qed.
Lemma value_nonneg : forall d, digs d -> (0 <= value d)%Z.
Proof.
  intros d H. unfold value. assert (G : forall d v, digs d -> (0 <= v)%Z -> (0 <= fold_left (fun v c => 10 * v + dig c)%Z d v)%Z).
  { induction d0 as [|c d0 IH]; intros v Hd Hv; [assumption|]. inversion Hd as [|? ? H1 H2]; subst. cbn [fold_left]. apply IH; [assumption|].
    unfold isdigit in H1. cbv zeta in H1. apply andb_true_iff in H1. destruct H1 as [H1 _]. apply Nat.leb_le in H1. unfold dig. lia. }
  apply G; [assumption|lia].
Qed.
Lemma digit_nosign : forall c, isdigit c = true -> c <> "-" /\ c <> "+".
Proof. intros c H. split; intros ->; discriminate H. Qed.
Lemma space_nodigit : forall c, isspace c = true -> isdigit c = false.
Proof. intros c H. destruct (isdigit c) eqn:E; [|reflexivity]. apply digit_nonspace in E. congruence. Qed.
(** The sign test, for what starts with a digit. *)
Lemma extract_digit : forall w d t, blank w -> d <> [] -> digs d -> (t = [] \/ exists c r, t = c :: r /\ isdigit c = false) -> (value d <= INT_LIM)%Z ->
  extract (w ++ d ++ t) = Some (value d, t).
Proof.
  intros w d t Hw Hd Hdd Ht Hv. unfold extract. rewrite ltrim_blank by assumption.
  destruct d as [|c d]; [congruence|]. inversion Hdd as [|? ? H1 H2]; subst. rewrite <- app_comm_cons, ltrim_hd by (apply digit_nonspace; assumption).
  destruct (digit_nosign c H1) as [N1 N2].
  assert (SG : (match c :: d ++ t with "-" :: r => (true, r) | "+" :: r => (false, r) | _ => (false, c :: d ++ t) end) = (false, c :: d ++ t)).
  { destruct c as [[] [] [] [] [] [] [] []]; try reflexivity; congruence. }
  rewrite SG. rewrite app_comm_cons, digits_app by assumption.
  pose proof (value_nonneg _ Hdd). assert (L1 : (value (c :: d) <? - INT_LIM - 1)%Z = false) by (apply Z.ltb_ge; unfold INT_LIM in *; lia).
  assert (L2 : (INT_LIM <? value (c :: d))%Z = false) by (apply Z.ltb_ge; assumption). rewrite L1, L2. reflexivity.
Qed.
Lemma extract_sound : forall s v r, Forall (fun c => plain c \/ c = "{" \/ c = "}") s -> extract s = Some (v, r) ->
  exists w d, s = w ++ d ++ r /\ blank w /\ d <> [] /\ digs d /\ (r = [] \/ exists c q, r = c :: q /\ isdigit c = false) /\ (value d <= INT_LIM)%Z /\ v = value d.
Proof.
  intros s v r P H. unfold extract in H. destruct (ltrim_app s) as [w [E Hw]].
  assert (P' : Forall (fun c => plain c \/ c = "{" \/ c = "}") (ltrim s)) by (rewrite E in P; apply Forall_app in P; tauto).
  destruct (ltrim s) as [|c q] eqn:LT; [discriminate H|].
  assert (NS : c <> "-" /\ c <> "+").
  { inversion P' as [|? ? Q _]; subst. split; intros ->; destruct Q as [[Q|Q]|[Q|Q]]; discriminate Q. }
  assert (SG : (match c :: q with "-" :: r => (true, r) | "+" :: r => (false, r) | _ => (false, c :: q) end) = (false, c :: q)).
  { destruct NS. destruct c as [[] [] [] [] [] [] [] []]; try reflexivity; congruence. }
  rewrite SG in H. destruct (digits (c :: q)) as [d t] eqn:D. destruct (digits_split _ _ _ D) as [A [B C]].
  destruct d as [|x d]; [discriminate H|]. cbn [negb] in H.
  destruct ((value (x :: d) <? - INT_LIM - 1)%Z || (INT_LIM <? value (x :: d))%Z) eqn:O; [discriminate|]. injection H as Hv Hr. subst v r.
  apply orb_false_iff in O. destruct O as [_ O]. apply Z.ltb_ge in O.
  exists w, (x :: d). split; [rewrite <- A; exact E|]. repeat split; try assumption. discriminate.
Qed.
Lemma extract_all_complete : forall s ns, Ints s ns -> forall fuel, ns <> [] -> (forall c r, s = r ++ [c] -> isspace c = false) -> List.length s <= fuel -> extract_all fuel s = SVal ns.
Proof.
  intros s ns H. induction H as [w H|w d t ns Hw Hd Hdd Ht Hv Hi IH]; intros fuel N L F; [congruence|].
  assert (Ld : 0 < List.length d) by (destruct d; [congruence|cbn; lia]). rewrite !app_length in F.
  destruct fuel as [|fuel]; [lia|]. cbn [extract_all].
  rewrite extract_digit; [|assumption|assumption|assumption| |assumption].
  - destruct t as [|c t].
    + inversion Hi as [x Hx|x y z q A1 A2 A3 A4 A5 A6 A7]; subst; [reflexivity|]. destruct x; [destruct y; [congruence|discriminate A7]|discriminate A7].
    + rewrite IH; [reflexivity| | |lia].
      * intros ->. assert (B : blank (c :: t)) by (inversion Hi; assumption). assert (T : c :: t <> []) by discriminate.
        destruct (exists_last T) as [t' [x Ex]]. rewrite Ex in B. apply Forall_app in B. destruct B as [_ B]. inversion B; subst.
        rewrite (L x (w ++ d ++ t')) in H1; [discriminate|]. rewrite Ex, !app_assoc. reflexivity.
      * intros x r Ex. apply (L x (w ++ d ++ r)). rewrite Ex, !app_assoc. reflexivity.
  - destruct Ht as [->|[c [r [-> E]]]]; [auto|]. right. exists c, r. split; [reflexivity|apply space_nodigit; assumption].
Qed.
Lemma extract_all_sound : forall fuel s ns, Forall (fun c => plain c \/ c = "{" \/ c = "}") s -> extract_all fuel s = SVal ns -> Ints s ns.
Proof.
  induction fuel as [|fuel IH]; intros s ns P H; [discriminate|]. cbn [extract_all] in H. destruct (extract s) as [[v r]|] eqn:E; [|discriminate].
  destruct (extract_sound s v r P E) as [w [d [A [B [C [D [F [G ->]]]]]]]]. subst s.
  destruct r as [|c r].
  - inversion H; subst. apply I_cons; try assumption; [auto|]. apply I_nil. constructor.
  - destruct (extract_all fuel (c :: r)) as [l| | |] eqn:X; try discriminate. cbn in H. inversion H; subst.
    assert (P' : Forall (fun c => plain c \/ c = "{" \/ c = "}") (c :: r)) by (apply Forall_app in P; destruct P as [_ P]; apply Forall_app in P; tauto).
    pose proof (IH _ _ P' X) as I. apply I_cons; try assumption. right. exists c, r. split; [reflexivity|].
    pose proof (Ints_plain _ _ I) as Q. inversion Q as [|? ? Q1 _]; subst. destruct F as [F|[c' [q [F F']]]]; [discriminate|]. inversion F; subst. destruct Q1 as [Q1|Q1]; [assumption|congruence].
Qed.
Lemma Ints_pad : forall s ns, Ints s ns -> forall a b, blank a -> blank b -> Ints (a ++ s ++ b) ns.
Proof.
  intros s ns H. induction H as [w H|w d t ns Hw Hd Hdd Ht Hv Hi IH]; intros a b Ha Hb.
  - apply I_nil. apply Forall_app. split; [assumption|]. apply Forall_app. split; assumption.
  - replace (a ++ (w ++ d ++ t) ++ b) with ((a ++ w) ++ d ++ ([] ++ t ++ b)) by (rewrite <- !app_assoc; reflexivity).
    apply I_cons; [apply Forall_app; split; assumption|assumption|assumption| |assumption|apply IH; [constructor|assumption]].
    cbn [List.app]. destruct Ht as [->|[c [r [-> E]]]].
    + destruct b as [|c b]; [auto|]. right. exists c, b. split; [reflexivity|]. inversion Hb; assumption.
    + right. exists c, (r ++ b). split; [reflexivity|assumption].
Qed.
Lemma Ints_unpad_r : forall u ns, Ints u ns -> forall s b, u = s ++ b -> blank b -> Ints s ns.
Proof.
  intros u ns H. induction H as [w H|w d t ns Hw Hd Hdd Ht Hv Hi IH]; intros s b E Hb.
  - subst. apply I_nil. apply Forall_app in H. tauto.
  - (* the blanks at the end start after the digits *)
    assert (Q : exists t', s = w ++ d ++ t' /\ t = t' ++ b).
    { clear - E Hb Hd Hdd. destruct (exists_last Hd) as [d' [x Ex]]. subst d.
      assert (Sx : isspace x = false). { apply Forall_app in Hdd. destruct Hdd as [_ Hx]. inversion Hx; subst. apply digit_nonspace; assumption. }
      revert s t E. remember (w ++ d') as p eqn:Ep. intros s t E. replace (w ++ (d' ++ [x]) ++ t) with (p ++ x :: t) in E by (subst p; rewrite <- !app_assoc; reflexivity).
      assert (G : exists t', s = p ++ x :: t' /\ t = t' ++ b).
      { clear - E Hb Sx. revert s E. induction p as [|y p IH]; intros s E; cbn [List.app] in E.
        - destruct s as [|z s]; [cbn in E; rewrite <- E in Hb; inversion Hb; congruence|]. cbn in E. inversion E; subst. exists s. auto.
        - destruct s as [|z s]; [exfalso; cbn in E; rewrite <- E in Hb; inversion Hb as [|? ? _ Hb']; subst; apply Forall_app in Hb'; destruct Hb' as [_ Hb']; inversion Hb'; congruence|].
          cbn in E. inversion E; subst. destruct (IH s H1) as [t' [-> Q]]. exists t'. auto. }
      destruct G as [t' [G1 G2]]. exists t'. split; [|assumption]. rewrite G1, Ep, <- !app_assoc. reflexivity. }
    destruct Q as [t' [-> Et]]. apply I_cons; try assumption.
    + destruct t' as [|c t']; [auto|]. right. destruct Ht as [->|[c' [r [-> Ec]]]]; [discriminate|]. inversion Et; subst. eauto.
    + apply (IH t' b); assumption.
Qed.
Lemma Ints_unpad_l : forall u ns, Ints u ns -> forall a s, u = a ++ s -> blank a -> Ints s ns.
Proof.
  intros u ns H a s E Ha. revert u ns s H E. induction a as [|c a IH]; intros u ns s H E; cbn [List.app] in E; [subst; assumption|].
  inversion Ha as [|? ? H1 H2]; subst. apply (IH H2 (a ++ s) ns s); [|reflexivity].
  inversion H as [w Hw|w d t ns' Hw Hd Hdd Ht Hv Hi Ew]; subst.
  - apply I_nil. inversion Hw; assumption.
  - destruct w as [|x w].
    + destruct d as [|x d]; [congruence|]. cbn in Ew. inversion Ew; subst. inversion Hdd as [|? ? Q _]; subst. apply digit_nonspace in Q. congruence.
    + cbn in Ew. inversion Ew; subst. inversion Hw; subst. apply I_cons; assumption.
Qed.
Lemma Ints_trim : forall s ns, Ints s ns <-> Ints (trim s) ns.
Proof.
  intros s ns. destruct (trim_split s) as [a [b [E [Ha Hb]]]]. split; intro H.
  - apply (Ints_unpad_r (trim s ++ b) ns) with b; [|reflexivity|assumption]. apply (Ints_unpad_l s ns H a); assumption.
  - rewrite E. apply Ints_pad; assumption.
Qed.

Lemma explode_ints_plain : forall s, Forall (fun c => plain c \/ c = "{" \/ c = "}") s ->
  explode_ints s = match trim s with [] => SVal [] | t => extract_all (List.length t) t end.
Proof.
  intros s P. unfold explode_ints, sanitize.
  assert (H : existsb high s = false /\ map tolower s = s).
  { induction s as [|c s IH]; [auto|]. inversion P as [|? ? Q1 Q2]; subst. destruct (IH Q2) as [A B]. cbn [existsb map]. rewrite A, B.
    assert (C : high c = false /\ tolower c = c) by (destruct Q1 as [Q1|[->| ->]]; [destruct (plain_facts c Q1) as [? [? _]]; auto|auto|auto]).
    destruct C as [-> ->]. auto. }
  destruct H as [-> ->]. cbn [sbind]. destruct (trim s); reflexivity.
Qed.
Theorem explode_ints_iff : forall s ns, Forall (fun c => plain c \/ c = "{" \/ c = "}") s -> explode_ints s = SVal ns <-> Ints s ns.
Proof.
  intros s ns P. rewrite explode_ints_plain by assumption. rewrite Ints_trim.
  assert (P' : Forall (fun c => plain c \/ c = "{" \/ c = "}") (trim s)).
  { destruct (trim_split s) as [a [b [E _]]]. rewrite E in P. apply Forall_app in P. destruct P as [_ P]. apply Forall_app in P. tauto. }
  destruct (trim_stripped s) as [S1 S2]. destruct (trim s) as [|c t] eqn:T.
  - split; intro H; [inversion H; subst; apply I_nil; constructor|]. inversion H as [w Hw|w d t ns' Hw Hd Hdd Ht Hv Hi Ew]; subst; [reflexivity|].
    destruct w; [destruct d; [congruence|discriminate]|discriminate].
  - split; intro H; [apply extract_all_sound in H; assumption|].
    apply extract_all_complete; [assumption| |assumption|lia].
    intros ->. inversion H as [w Hw|]; subst. inversion Hw; subst. rewrite (S1 c t eq_refl) in H2. discriminate.
Qed.

Definition okc (c : ascii) : Prop := plain c \/ c = "{" \/ c = "}".
Lemma index_of_none : forall c s, index_of c s = None <-> ~ In c s.
Proof.
  induction s as [|x s IH]; cbn [index_of]; [split; [intros _ []|reflexivity]|]. destruct (Ascii.eqb x c) eqn:E.
  - apply Ascii.eqb_eq in E. subst. split; [discriminate|intro H; destruct H; left; reflexivity].
  - apply Ascii.eqb_neq in E. destruct (index_of c s) as [k|]; cbn [option_map].
    + split; [discriminate|]. intro H. assert (X : Some k = None) by (apply IH; intro; apply H; right; assumption). discriminate.
    + split; [|reflexivity]. intros _ [H|H]; [congruence|]. apply IH in H; [assumption|reflexivity].
Qed.
Lemma index_of_app : forall c p q, ~ In c p -> index_of c (p ++ c :: q) = Some (List.length p).
Proof.
  induction p as [|x p IH]; intros q H; cbn [List.app index_of].
  - rewrite Ascii.eqb_refl. reflexivity.
  - destruct (Ascii.eqb x c) eqn:E; [apply Ascii.eqb_eq in E; subst; destruct H; left; reflexivity|]. rewrite IH by (intro; apply H; right; assumption). reflexivity.
Qed.
Lemma index_of_split : forall (c : ascii) (s : str), In c s -> exists p q, s = p ++ c :: q /\ ~ In c p.
Proof.
  induction s as [|x s IH]; intros H; [destruct H|]. destruct (Ascii.ascii_dec x c) as [->|N]; [exists [], s; split; [reflexivity|intros []]|].
  destruct H as [H|H]; [congruence|]. destruct (IH H) as [p [q [-> Hp]]]. exists (x :: p), q. split; [reflexivity|]. intros [K|K]; auto.
Qed.
Lemma skipn_len : forall (p q : str), skipn (List.length p) (p ++ q) = q.
Proof. intros p q. rewrite skipn_app, skipn_all, Nat.sub_diag. reflexivity. Qed.
Lemma firstn_len : forall (p q : str), firstn (List.length p) (p ++ q) = p.
Proof. intros p q. rewrite firstn_app, firstn_all, Nat.sub_diag. cbn. apply app_nil_r. Qed.
Lemma find_here : forall c pre u q, ~ In c u -> find c (pre ++ u ++ c :: q) (List.length pre) = Some (List.length pre + List.length u).
Proof. intros. unfold find. rewrite skipn_len, index_of_app by assumption. reflexivity. Qed.
Lemma find_not : forall c pre u, ~ In c u -> find c (pre ++ u) (List.length pre) = None.
Proof. intros c pre u H. unfold find. rewrite skipn_len. apply index_of_none in H. rewrite H. reflexivity. Qed.
Lemma substr_here : forall pre u q, substr (pre ++ u ++ q) (List.length pre) (Some (List.length u)) = SVal u.
Proof.
  intros pre u q. unfold substr. rewrite skipn_len, firstn_len, !app_length.
  replace (List.length pre + (List.length u + List.length q) <? List.length pre) with false by (symmetry; apply Nat.ltb_ge; lia). reflexivity.
Qed.
Lemma substr_end : forall pre u, substr (pre ++ u) (List.length pre) None = SVal u.
Proof.
  intros pre u. unfold substr. rewrite skipn_len, app_length.
  replace (List.length pre + List.length u <? List.length pre) with false by (symmetry; apply Nat.ltb_ge; lia). reflexivity.
Qed.
Lemma Ints_nobrace : forall s ns, Ints s ns -> ~ In "{" s /\ ~ In "}" s.
Proof.
  intros s ns H. apply Ints_plain in H. rewrite Forall_forall in H. split; intro I; apply H in I; destruct I as [I|I]; discriminate I.
Qed.
Lemma plain_ok : forall s, Forall plain s -> Forall okc s.
Proof. intros s H. eapply Forall_impl; [|exact H]. intros c Hc. left. exact Hc. Qed.

(** One round: the naked part [w] that is read is all of [u] but its last character. *)
Lemma braces_none : forall n pre s out, ~ In "{" s ->
  braces_loop (S n) (pre ++ s) (List.length pre) out = sbind (explode_ints s) (fun ns => SVal (out ++ map (fun v => [v]) ns)).
Proof. intros n pre s out H. cbn [braces_loop]. rewrite find_not by assumption. rewrite substr_end. reflexivity. Qed.
Lemma braces_group : forall n pre w c g rest out, ~ In "{" (w ++ c) -> List.length c <= 1 -> (w = [] \/ c <> []) -> ~ In "}" g ->
  braces_loop (S n) (pre ++ (w ++ c) ++ "{" :: g ++ "}" :: rest) (List.length pre) out =
  sbind (explode_ints w) (fun ns => sbind (explode_ints g) (fun gs =>
    match gs with [] => SExc | _ => braces_loop n (pre ++ (w ++ c) ++ "{" :: g ++ "}" :: rest) (List.length (pre ++ (w ++ c) ++ "{" :: g ++ ["}"])) ((out ++ map (fun v => [v]) ns) ++ [gs]) end)).
Proof.
  intros n pre w c g rest out N1 Lc Wc N2. cbn [braces_loop]. rewrite find_here by assumption.
  set (data := pre ++ (w ++ c) ++ "{" :: g ++ "}" :: rest). set (t := List.length pre + List.length (w ++ c)).
  assert (X1 : (if List.length pre <? t then sbind (substr data (List.length pre) (Some (t - List.length pre - 1))) explode_ints else SVal []) = explode_ints w).
  { unfold t. rewrite app_length. destruct c as [|c0 c].
    - destruct Wc as [->|Wc]; [|congruence]. cbn [List.length]. rewrite !Nat.add_0_r, Nat.ltb_irrefl. reflexivity.
    - cbn in Lc. assert (c = []) by (destruct c; [reflexivity|cbn in Lc; lia]). subst c. cbn [List.length].
      replace (List.length pre <? List.length pre + (List.length w + 1)) with true by (symmetry; apply Nat.ltb_lt; lia).
      replace (List.length pre + (List.length w + 1) - List.length pre - 1) with (List.length w) by lia.
      unfold data. rewrite <- (app_assoc w [c0]), substr_here. reflexivity. }
  rewrite X1.
  assert (Ht : t = List.length (pre ++ w ++ c)) by (unfold t; rewrite !app_length; lia).
  assert (X2 : find "}" data t = Some (t + S (List.length g))).
  { unfold find. rewrite Ht. replace data with ((pre ++ w ++ c) ++ "{" :: g ++ "}" :: rest) by (unfold data; rewrite <- !app_assoc; reflexivity). rewrite skipn_len. cbn [index_of]. change (Ascii.eqb "{" "}") with false. cbv iota. rewrite index_of_app by assumption. reflexivity. }
  rewrite X2. cbn [option_map].
  assert (X3 : substr data (t + 1) (Some (t + S (List.length g) - t - 1)) = SVal g).
  { replace (t + S (List.length g) - t - 1) with (List.length g) by lia.
    replace (t + 1) with (List.length (pre ++ (w ++ c) ++ ["{"])) by (rewrite Ht, !app_length; cbn; lia).
    unfold data. replace (pre ++ (w ++ c) ++ "{" :: g ++ "}" :: rest) with ((pre ++ (w ++ c) ++ ["{"]) ++ g ++ "}" :: rest) by (rewrite <- !app_assoc; reflexivity).
    apply substr_here. }
  rewrite X3. cbn [sbind].
  replace (t + S (List.length g) + 1) with (List.length (pre ++ (w ++ c) ++ "{" :: g ++ ["}"])) by (rewrite Ht, !app_length; cbn [List.length]; rewrite ?app_length; cbn; lia).
  reflexivity.
Qed.
Lemma last_blank_split : forall u : str, (u = [] \/ exists u' c, u = u' ++ [c] /\ isspace c = true) -> exists w c, u = w ++ c /\ blank c /\ List.length c <= 1 /\ (w = [] \/ c <> []).
Proof.
  intros u [->|[u' [c [-> H]]]]; [exists [], []|exists u', [c]]; (split; [reflexivity|]); (split; [repeat constructor; assumption|]); cbn; (split; [lia|]); [auto|right; discriminate].
Qed.

Lemma braces_complete : forall s o, Doc s o -> forall fuel pre out, List.length s < fuel -> braces_loop fuel (pre ++ s) (List.length pre) out = SVal (out ++ o).
Proof.
  intros s o H. induction H as [u ns Hu|u ns g gs rest o Hu Hl Hg Ng Hr IH]; intros fuel pre out F; (destruct fuel as [|n]; [lia|]).
  - destruct (Ints_nobrace _ _ Hu) as [N _]. rewrite braces_none by assumption.
    rewrite (proj2 (explode_ints_iff u ns (plain_ok _ (Ints_plain _ _ Hu))) Hu). reflexivity.
  - destruct (Ints_nobrace _ _ Hu) as [N1 N1']. destruct (Ints_nobrace _ _ Hg) as [_ N2].
    destruct (last_blank_split u Hl) as [w [c [-> [Bc [Lc Wc]]]]]. rewrite braces_group by assumption.
    pose proof (Ints_unpad_r _ _ Hu w c eq_refl Bc) as Hw.
    rewrite (proj2 (explode_ints_iff w ns (plain_ok _ (Ints_plain _ _ Hw))) Hw). cbn [sbind].
    rewrite (proj2 (explode_ints_iff g gs (plain_ok _ (Ints_plain _ _ Hg))) Hg). cbn [sbind].
    destruct gs as [|g0 gs]; [congruence|].
    replace (pre ++ (w ++ c) ++ "{" :: g ++ "}" :: rest) with ((pre ++ (w ++ c) ++ "{" :: g ++ ["}"]) ++ rest) by (rewrite <- !app_assoc; cbn [List.app]; rewrite <- app_assoc; reflexivity).
    rewrite IH; [rewrite <- !app_assoc; reflexivity|]. rewrite !app_length in F. cbn [List.length] in F. rewrite app_length in F. cbn [List.length] in F. lia.
Qed.

(** The braces of a text nest, and an opening brace follows a blank, a closing brace or nothing. *)
Definition count (c : ascii) (s : str) : nat := count_occ Ascii.ascii_dec s c.
Definition nested (s : str) : Prop := forall p q, s = p ++ q -> count "}" p <= count "{" p.
Definition separated (s : str) : Prop := forall p q, s = p ++ "{" :: q -> p = [] \/ exists p' c, p = p' ++ [c] /\ (isspace c = true \/ c = "}").
Definition closed (s : str) : Prop := forall p q, s = p ++ "{" :: q -> In "}" q.

Lemma count_app : forall c p q, count c (p ++ q) = count c p + count c q.
Proof. intros. apply count_occ_app. Qed.
Lemma count_out : forall c s, ~ In c s -> count c s = 0.
Proof. intros. apply count_occ_not_In. assumption. Qed.
Lemma braces_sound : forall fuel s pre out res, Forall okc s -> nested s -> closed s -> separated s ->
  braces_loop fuel (pre ++ s) (List.length pre) out = SVal res -> exists o, res = out ++ o /\ Doc s o.
Proof.
  induction fuel as [|n IH]; intros s pre out res Ok Ne Cl Se H; [discriminate|].
  destruct (in_dec Ascii.ascii_dec "{" s) as [I|I].
  - destruct (index_of_split "{" s I) as [u [v [-> Nu]]]. pose proof (Cl u v eq_refl) as Iv. destruct (index_of_split "}" v Iv) as [g [rest [-> Ng]]].
    assert (Nu' : ~ In "}" u).
    { intro K. destruct (index_of_split "}" u K) as [x [y [Ex Nx]]]. specialize (Ne (x ++ ["}"]) (y ++ "{" :: g ++ "}" :: rest)).
      rewrite Ex, <- !app_assoc in Ne. specialize (Ne eq_refl). rewrite !count_app in Ne. rewrite (count_out "}" x Nx) in Ne.
      rewrite (count_out "{" x) in Ne by (intro; apply Nu; rewrite Ex; apply in_or_app; auto). cbn in Ne. lia. }
    assert (Hl : u = [] \/ exists u' c, u = u' ++ [c] /\ isspace c = true).
    { destruct (Se u _ eq_refl) as [->|[p' [c [-> [K|K]]]]]; [auto|eauto|]. subst c. destruct Nu'. apply in_or_app. right. left. reflexivity. }
    destruct (last_blank_split u Hl) as [w [c [-> [Bc [Lc Wc]]]]]. rewrite braces_group in H by assumption.
    apply Forall_app in Ok. destruct Ok as [Oku Ok]. inversion Ok as [|? ? _ Ok']; subst. apply Forall_app in Ok'. destruct Ok' as [Okg Ok']. inversion Ok' as [|? ? _ Okr]; subst.
    apply Forall_app in Oku. destruct Oku as [Okw Okc'].
    destruct (explode_ints w) as [ns| | |] eqn:Ew; try discriminate. cbn [sbind] in H.
    destruct (explode_ints g) as [gs| | |] eqn:Eg; try discriminate. cbn [sbind] in H.
    destruct gs as [|g0 gs]; [discriminate|].
    apply explode_ints_iff in Ew; [|assumption]. apply explode_ints_iff in Eg; [|assumption].
    destruct (Ints_nobrace _ _ Eg) as [Gg _].
    replace (pre ++ (w ++ c) ++ "{" :: g ++ "}" :: rest) with ((pre ++ (w ++ c) ++ "{" :: g ++ ["}"]) ++ rest) in H by (rewrite <- !app_assoc; cbn [List.app]; rewrite <- app_assoc; reflexivity).
    assert (SP : forall q, (w ++ c) ++ "{" :: g ++ "}" :: q = ((w ++ c) ++ "{" :: g ++ ["}"]) ++ q) by (intro; rewrite <- !app_assoc; cbn [List.app]; rewrite <- app_assoc; reflexivity).
    apply IH in H; [|assumption| | |].
    + destruct H as [o [-> Ho]]. exists (map (fun v => [v]) ns ++ (g0 :: gs) :: o). split; [rewrite <- !app_assoc; reflexivity|].
      apply D_group; try assumption; [|discriminate]. pose proof (Ints_pad _ _ Ew [] c ltac:(constructor) Bc) as Q. exact Q.
    + intros p q ->. specialize (Ne (((w ++ c) ++ "{" :: g ++ ["}"]) ++ p) q). specialize (Ne (eq_trans (SP (p ++ q)) (app_assoc _ p q))).
      rewrite (count_app "}" _ p), (count_app "{" _ p), (count_app "}" (w ++ c)), (count_app "{" (w ++ c)), (count_out _ _ Nu), (count_out _ _ Nu') in Ne.
      change ("{" :: g ++ ["}"]) with (["{"] ++ g ++ ["}"]) in Ne. rewrite !count_app, (count_out _ _ Gg), (count_out _ _ Ng) in Ne. cbn in Ne. lia.
    + intros p q ->. apply (Cl (((w ++ c) ++ "{" :: g ++ ["}"]) ++ p) q). exact (eq_trans (SP (p ++ "{" :: q)) (app_assoc _ p ("{" :: q))).
    + intros p q ->. destruct p as [|p0 p]; [auto|]. right. destruct (exists_last (l := p0 :: p) ltac:(discriminate)) as [p' [x Ex]].
      exists p', x. split; [assumption|]. destruct (Se (((w ++ c) ++ "{" :: g ++ ["}"]) ++ p0 :: p) q) as [K|[p'' [y [K K']]]].
      * exact (eq_trans (SP ((p0 :: p) ++ "{" :: q)) (app_assoc _ (p0 :: p) ("{" :: q))).
      * apply (f_equal (@List.length ascii)) in K. rewrite !app_length in K. cbn in K. lia.
      * rewrite Ex, app_assoc in K. apply app_inj_tail in K. destruct K as [_ ->]. assumption.
  - rewrite braces_none in H by assumption. destruct (explode_ints s) as [ns| | |] eqn:E; try discriminate. cbn in H. inversion H; subst.
    exists (map (fun v => [v]) ns). split; [reflexivity|]. apply D_end. apply explode_ints_iff; assumption.
Qed.

(** The checks before the loop. *)
Lemma check_ok : forall s, check_chars s = SVal tt <-> Forall okc s.
Proof.
  induction s as [|c s IH]; cbn [check_chars]; [split; [constructor|reflexivity]|]. split; intro H.
  - destruct (high c) eqn:Hh; [discriminate|]. destruct (invalid_char c) eqn:Hi; [discriminate|]. constructor; [|apply IH; assumption].
    unfold invalid_char in Hi. apply negb_false_iff in Hi. rewrite !orb_true_iff, !Ascii.eqb_eq in Hi. unfold okc, plain. tauto.
  - inversion H as [|? ? Hc Hs]; subst. apply IH in Hs. rewrite Hs. destruct Hc as [Hc|[->| ->]]; [|reflexivity|reflexivity].
    destruct (plain_facts c Hc) as [-> [_ [_ [_ ->]]]]. reflexivity.
Qed.
Lemma depth_app : forall u r d, ~ In "{" u -> ~ In "}" u -> brace_depth (u ++ r) d = brace_depth r d.
Proof.
  induction u as [|c u IH]; intros r d H1 H2; [reflexivity|]. cbn [List.app brace_depth].
  destruct (Ascii.eqb c "{") eqn:E1; [apply Ascii.eqb_eq in E1; subst; destruct H1; left; reflexivity|].
  destruct (Ascii.eqb c "}") eqn:E2; [apply Ascii.eqb_eq in E2; subst; destruct H2; left; reflexivity|].
  apply IH; intro K; [apply H1|apply H2]; right; assumption.
Qed.
Lemma Doc_depth : forall s o, Doc s o -> brace_depth s 0 = 0%Z.
Proof.
  intros s o H. induction H as [u ns Hu|u ns g gs rest o Hu Hl Hg Ng Hr IH].
  - destruct (Ints_nobrace _ _ Hu). rewrite <- (app_nil_r u), depth_app by assumption. reflexivity.
  - destruct (Ints_nobrace _ _ Hu). destruct (Ints_nobrace _ _ Hg). rewrite depth_app by assumption. cbn [brace_depth].
    change (Ascii.eqb "{" "{") with true. cbv iota. change (1 <? 0 + 1)%Z with false. cbv iota. rewrite depth_app by assumption. cbn [brace_depth].
    change (Ascii.eqb "}" "{") with false. change (Ascii.eqb "}" "}") with true. cbv iota. exact IH.
Qed.
Lemma Doc_ok : forall s o, Doc s o -> Forall okc s.
Proof.
  intros s o H. induction H as [u ns Hu|u ns g gs rest o Hu Hl Hg Ng Hr IH]; [apply plain_ok; eapply Ints_plain; eassumption|].
  apply Forall_app. split; [apply plain_ok; eapply Ints_plain; eassumption|]. constructor; [right; left; reflexivity|].
  apply Forall_app. split; [apply plain_ok; eapply Ints_plain; eassumption|]. constructor; [right; right; reflexivity|assumption].
Qed.

(** A document is read as what it says: nothing lost, nothing added. *)
Theorem C54_read : forall s o, Doc s o -> explode_braces (S (List.length s)) s = SVal o.
Proof.
  intros s o H. unfold explode_braces. rewrite (proj2 (check_ok s) (Doc_ok s o H)). cbn [sbind]. rewrite (Doc_depth s o H). cbn [Z.eqb negb].
  exact (braces_complete s o H (S (List.length s)) [] [] ltac:(lia)).
Qed.
Print Assumptions C54_read.

(** Braces that nest and whose depth ends at zero are all closed. *)
Lemma depth_count : forall s d, brace_depth s d = 0%Z -> (0 <= d + Z.of_nat (count "{" s) - Z.of_nat (count "}" s) <= 0)%Z.
Proof.
  induction s as [|c s IH]; intros d H; cbn [brace_depth] in H; [cbn; lia|].
  destruct (Ascii.eqb c "{") eqn:E1; [|destruct (Ascii.eqb c "}") eqn:E2].
  - apply Ascii.eqb_eq in E1. subst c. destruct (1 <? d + 1)%Z eqn:L; [apply Z.ltb_lt in L; lia|]. apply IH in H.
    change ("{" :: s) with (["{"] ++ s). rewrite !count_app. change (count "{" ["{"]) with 1. change (count "}" ["{"]) with 0. lia.
  - apply Ascii.eqb_eq in E2. subst c. apply IH in H.
    change ("}" :: s) with (["}"] ++ s). rewrite !count_app. change (count "{" ["}"]) with 0. change (count "}" ["}"]) with 1. lia.
  - apply Ascii.eqb_neq in E1, E2. apply IH in H. change (c :: s) with ([c] ++ s). rewrite !count_app, (count_out "{" [c]), (count_out "}" [c]); [lia|intros [K|[]]; auto|intros [K|[]]; auto].
Qed.
Lemma nested_closed : forall s, nested s -> brace_depth s 0 = 0%Z -> closed s.
Proof.
  intros s N D p q ->. destruct (in_dec Ascii.ascii_dec "}" q) as [H|H]; [assumption|]. exfalso. apply depth_count in D.
  pose proof (N p _ eq_refl) as L. change ("{" :: q) with (["{"] ++ q) in D. rewrite !count_app, (count_out "}" q H) in D. change (count "{" ["{"]) with 1 in D. change (count "}" ["{"]) with 0 in D. lia.
Qed.

(** Conversely, on texts whose braces nest and open after a blank, whatever is accepted is a document and is read as what it says. *)
Theorem C54_accepted : forall fuel s o, nested s -> separated s -> explode_braces fuel s = SVal o -> Doc s o.
Proof.
  intros fuel s o N S H. unfold explode_braces in H. destruct (check_chars s) as [[]| | |] eqn:E; try discriminate. cbn [sbind] in H.
  destruct (brace_depth s 0 =? 0)%Z eqn:D; [|discriminate]. cbn [negb] in H. apply check_ok in E. apply Z.eqb_eq in D.
  destruct (braces_sound fuel s [] [] o E N (nested_closed s N D) S H) as [o' [-> Q]]. exact Q.
Qed.
Print Assumptions C54_accepted.

(** All the numbers of a document, in order, and nothing but them: its lists are those of the naked numbers and of the groups. *)
Theorem C54_kept : forall s o, Doc s o -> Ints (map (fun c => if Ascii.eqb c "{" || Ascii.eqb c "}" then " " else c) s) (concat o).
Proof.
  set (f := fun c => if Ascii.eqb c "{" || Ascii.eqb c "}" then " " else c).
  assert (F : forall s, Forall plain s -> map f s = s).
  { induction s as [|c s IH]; intros H; [reflexivity|]. inversion H as [|? ? H1 H2]; subst. cbn [map]. rewrite IH by assumption.
    destruct (plain_facts c H1) as [_ [_ [A [B _]]]]. unfold f. apply Ascii.eqb_neq in A, B. rewrite A, B. reflexivity. }
  assert (A : forall s ns, Ints s ns -> forall t ms, Ints t ms -> Ints (s ++ " " :: t) (ns ++ ms)).
  { intros s ns H. induction H as [w H|w d t ns Hw Hd Hdd Ht Hv Hi IH]; intros u ms Hu.
    - replace (w ++ " " :: u) with ((w ++ [" "]) ++ u ++ []) by (rewrite app_nil_r, <- app_assoc; reflexivity).
      apply Ints_pad; [assumption|apply Forall_app; split; [assumption|repeat constructor]|constructor].
    - rewrite <- !app_assoc. cbn [List.app]. apply I_cons; try assumption; [|apply IH; assumption].
      right. destruct Ht as [->|[c [r [-> E]]]]; [exists " ", u; split; reflexivity|exists c, (r ++ " " :: u); split; [reflexivity|assumption]]. }
  assert (C1 : forall ns : list Z, concat (map (fun v => [v]) ns) = ns) by (induction ns; cbn; congruence).
  intros s o H. induction H as [u ns Hu|u ns g gs rest o Hu Hl Hg Ng Hr IH].
  - rewrite F by (eapply Ints_plain; eassumption). rewrite C1. assumption.
  - rewrite concat_app, C1. cbn [concat]. rewrite map_app. cbn [map]. rewrite map_app. cbn [map]. change (f "{") with " ". change (f "}") with " ".
    rewrite !F by (eapply Ints_plain; eassumption). apply A; [assumption|]. apply A; assumption.
Qed.
Print Assumptions C54_kept.

Lemma extract_all_ends : forall fuel s, Forall okc s -> s <> [] -> List.length s <= fuel -> extract_all fuel s <> SMore.
Proof.
  induction fuel as [|n IH]; intros s Ok N L; [destruct s; [congruence|cbn in L; lia]|]. cbn [extract_all].
  destruct (extract s) as [[v r]|] eqn:E; [|discriminate]. destruct (extract_sound s v r Ok E) as [w [d [A [_ [B _]]]]].
  destruct r as [|c r]; [discriminate|]. assert (O : Forall okc (c :: r)) by (rewrite A in Ok; apply Forall_app in Ok; destruct Ok as [_ Ok]; apply Forall_app in Ok; tauto).
  assert (LL : List.length (c :: r) <= n). { rewrite A, !app_length in L. destruct d; [congruence|]. cbn [List.length] in *. lia. }
  specialize (IH (c :: r) O ltac:(discriminate) LL). destruct (extract_all n (c :: r)); cbn; congruence.
Qed.
Lemma explode_ints_ends : forall s, Forall okc s -> explode_ints s <> SMore.
Proof.
  intros s Ok. rewrite explode_ints_plain by assumption.
  assert (P' : Forall okc (trim s)). { destruct (trim_split s) as [a [b [E _]]]. rewrite E in Ok. apply Forall_app in Ok. destruct Ok as [_ P]. apply Forall_app in P. tauto. }
  destruct (trim s) as [|c t] eqn:T; [discriminate|]. apply extract_all_ends; [assumption|discriminate|lia].
Qed.
Lemma braces_ends : forall fuel s pre out, Forall okc s -> closed s -> List.length s < fuel -> braces_loop fuel (pre ++ s) (List.length pre) out <> SMore.
Proof.
  induction fuel as [|n IH]; intros s pre out Ok Cl L; [lia|].
  destruct (in_dec Ascii.ascii_dec "{" s) as [I|I].
  - destruct (index_of_split "{" s I) as [u [v [-> Nu]]]. pose proof (Cl u v eq_refl) as Iv. destruct (index_of_split "}" v Iv) as [g [rest [-> Ng]]].
    assert (X : exists w c, u = w ++ c /\ List.length c <= 1 /\ (w = [] \/ c <> [])).
    { destruct u as [|u0 u]; [exists [], []; cbn; auto|]. destruct (exists_last (l := u0 :: u) ltac:(discriminate)) as [w [c ->]]. exists w, [c]. cbn. split; [reflexivity|]. split; [lia|]. right. discriminate. }
    destruct X as [w [c [-> [Lc Wc]]]]. rewrite braces_group by assumption.
    apply Forall_app in Ok. destruct Ok as [Oku Ok]. inversion Ok as [|? ? _ Ok']; subst. apply Forall_app in Ok'. destruct Ok' as [Okg Ok']. inversion Ok' as [|? ? _ Okr]; subst.
    apply Forall_app in Oku. destruct Oku as [Okw _].
    pose proof (explode_ints_ends w Okw). destruct (explode_ints w) as [ns| | |]; cbn [sbind]; try congruence.
    pose proof (explode_ints_ends g Okg). destruct (explode_ints g) as [gs| | |]; cbn [sbind]; try congruence.
    destruct gs as [|g0 gs]; [congruence|].
    replace (pre ++ (w ++ c) ++ "{" :: g ++ "}" :: rest) with ((pre ++ (w ++ c) ++ "{" :: g ++ ["}"]) ++ rest) by (rewrite <- !app_assoc; cbn [List.app]; rewrite <- app_assoc; reflexivity).
    apply IH; [assumption| |].
    + intros p q ->. apply (Cl (((w ++ c) ++ "{" :: g ++ ["}"]) ++ p) q). rewrite <- !app_assoc. cbn [List.app]. rewrite <- !app_assoc. reflexivity.
    + rewrite !app_length in L. cbn [List.length] in L. rewrite app_length in L. cbn [List.length] in L. lia.
  - rewrite braces_none by assumption. pose proof (explode_ints_ends s Ok). destruct (explode_ints s); cbn; congruence.
Qed.

(** The loop ends, after at most one round per character, on every text whose braces nest or whose opening braces are all followed by a closing one. *)
Theorem C54_terminates : forall s, nested s \/ closed s -> explode_braces (S (List.length s)) s <> SMore.
Proof.
  intros s H. unfold explode_braces. destruct (check_chars s) as [[]| | |] eqn:E; cbn [sbind]; try discriminate.
  - destruct (brace_depth s 0 =? 0)%Z eqn:D; cbn [negb]; [|discriminate]. apply Z.eqb_eq in D. apply check_ok in E.
    assert (C : closed s) by (destruct H; [apply nested_closed; assumption|assumption]).
    exact (braces_ends (S (List.length s)) s [] [] E C ltac:(lia)).
  - revert E. clear. induction s as [|c s IH]; cbn [check_chars]; [discriminate|]. destruct (high c), (invalid_char c); try discriminate. assumption.
Qed.
Print Assumptions C54_terminates.

(** The character before an opening brace is dropped, whatever it is: a digit there is lost. *)
Theorem C54_dropped : forall u ns c g gs, Ints u ns -> plain c -> Ints g gs -> gs <> [] ->
  explode_braces (S (S (List.length (u ++ [c] ++ "{" :: g ++ ["}"])))) (u ++ [c] ++ "{" :: g ++ ["}"]) = SVal (map (fun v => [v]) ns ++ [gs]).
Proof.
  intros u ns c g gs Hu Hc Hg Ng. set (s := u ++ [c] ++ "{" :: g ++ ["}"]).
  assert (Ok : Forall okc s).
  { unfold s. apply Forall_app. split; [apply plain_ok; eapply Ints_plain; eassumption|]. constructor; [left; assumption|]. constructor; [right; left; reflexivity|].
    apply Forall_app. split; [apply plain_ok; eapply Ints_plain; eassumption|]. constructor; [right; right; reflexivity|constructor]. }
  destruct (Ints_nobrace _ _ Hu) as [U1 U2]. destruct (Ints_nobrace _ _ Hg) as [G1 G2]. destruct (plain_facts c Hc) as [_ [_ [C1 [C2 _]]]].
  assert (N1 : ~ In "{" (u ++ [c])) by (intro K; apply in_app_or in K; destruct K as [K|[K|[]]]; congruence).
  assert (N2 : ~ In "}" (u ++ [c])) by (intro K; apply in_app_or in K; destruct K as [K|[K|[]]]; congruence).
  assert (D : brace_depth s 0 = 0%Z).
  { unfold s. rewrite app_assoc, depth_app by assumption. cbn [brace_depth]. change (Ascii.eqb "{" "{") with true. cbv iota. change (1 <? 0 + 1)%Z with false. cbv iota. rewrite depth_app by assumption. reflexivity. }
  unfold explode_braces. rewrite (proj2 (check_ok s) Ok). cbn [sbind]. rewrite D. cbn [Z.eqb negb].
  assert (Es : s = [] ++ (u ++ [c]) ++ "{" :: g ++ "}" :: []) by (unfold s; rewrite <- app_assoc; reflexivity).
  rewrite Es at 2. change 0 with (List.length (@nil ascii)). rewrite braces_group; [|assumption|cbn; lia|right; discriminate|assumption].
  rewrite (proj2 (explode_ints_iff u ns (plain_ok _ (Ints_plain _ _ Hu))) Hu). cbn [sbind].
  rewrite (proj2 (explode_ints_iff g gs (plain_ok _ (Ints_plain _ _ Hg))) Hg). cbn [sbind].
  destruct gs as [|g0 gs]; [congruence|].
  replace ([] ++ (u ++ [c]) ++ "{" :: g ++ ["}"]) with (([] ++ (u ++ [c]) ++ "{" :: g ++ ["}"]) ++ []) at 1 by (rewrite app_nil_r; reflexivity).
  rewrite braces_none by (intros []). cbn [sbind]. change (explode_ints []) with (@SVal (list Z) []). cbn [sbind map List.app]. rewrite app_nil_r. reflexivity.
Qed.
Print Assumptions C54_dropped.

(** The claim fails: "12{3}" is read as 1 and 3; "}{1" passes the checks and the loop never ends; a naked number, documented to throw, is accepted. *)
Theorem C54_refuted :
  explode_braces 9 (txt "12{3}") = SVal [[1%Z]; [3%Z]]
  /\ (forall fuel, explode_braces fuel (txt "}{1") = SMore)
  /\ explode_braces 9 (txt "7") = SVal [[7%Z]].
Proof.
  split; [vm_compute; reflexivity|]. split; [|vm_compute; reflexivity].
  intros fuel. unfold explode_braces. change (check_chars (txt "}{1")) with (SVal tt). cbn [sbind]. change (negb (brace_depth (txt "}{1") 0 =? 0)%Z) with false. cbv iota.
  assert (G : forall out, braces_loop fuel (txt "}{1") 0 out = SMore); [|apply G].
  induction fuel as [|n IH]; intros out; [reflexivity|]. cbn [braces_loop].
  change (find "{" (txt "}{1") 0) with (Some 1). change (find "}" (txt "}{1") 1) with (@None nat). cbn [option_map].
  change (0 <? 1) with true. cbv iota. change (sbind (substr (txt "}{1") 0 (Some (1 - 0 - 1))) explode_ints) with (@SVal (list Z) []). cbn [sbind].
  change (sbind (substr (txt "}{1") (1 + 1) None) explode_ints) with (SVal [1%Z]). cbn [sbind]. apply IH.
Qed.
Print Assumptions C54_refuted.

(** Two naked numbers, a group over several blanks, a lone number at the end. *)
Example C54_instance :
  let s := txt "4 25 {1  2 3}{6} 7 " in
  Doc s [[4%Z]; [25%Z]; [1%Z; 2%Z; 3%Z]; [6%Z]; [7%Z]] /\ nested s /\ separated s
  /\ explode_braces (S (List.length s)) s = SVal [[4%Z]; [25%Z]; [1%Z; 2%Z; 3%Z]; [6%Z]; [7%Z]].
Proof.
  set (s := txt "4 25 {1  2 3}{6} 7 "). cbv zeta.
  assert (E : explode_braces (S (List.length s)) s = SVal [[4%Z]; [25%Z]; [1%Z; 2%Z; 3%Z]; [6%Z]; [7%Z]]) by (vm_compute; reflexivity).
  assert (N : nested s).
  { intros p q H. assert (L : List.length p <= List.length s) by (rewrite H, app_length; lia). rewrite <- (firstn_len p q), <- H. revert L. generalize (List.length p). intros k L.
    change (List.length s) with 19 in L. do 20 (destruct k as [|k]; [vm_compute; lia|]). lia. }
  assert (S0 : separated s).
  { intros p q H. assert (L : List.length p <= List.length s) by (rewrite H, app_length; lia).
    assert (P : p = firstn (List.length p) s) by (rewrite H, firstn_len; reflexivity).
    assert (Q : nth (List.length p) s "0" = "{") by (rewrite H, app_nth2, Nat.sub_diag by lia; reflexivity).
    revert L P Q. generalize (List.length p). intros k L P Q. change (List.length s) with 19 in L.
    do 20 (destruct k as [|k]; [first [discriminate Q|right; rewrite P; first [exists (txt "4 25"), " "; split; [vm_compute; reflexivity|left; reflexivity]|exists (txt "4 25 {1  2 3"), "}"; split; [vm_compute; reflexivity|right; reflexivity]]]|]). lia. }
  split; [exact (C54_accepted _ s _ N S0 E)|]. auto.
Qed.
