(** C198: rays.py is a script that lists every ray of the first plane. *)
From Coq Require Import String Ascii List Bool Reals ZArith Lia.
From Verif Require Import GeomModel RayPyModel.
Import ListNotations.
Local Open Scope list_scope.

(** Specification: how Python reads an expression made of lists.  Names and numbers are words; a comment ends with its line. *)
Inductive Tok := TOpen | TClose | TComma | TWord (w : list ascii).
Definition newline (c : ascii) : bool := Nat.eqb (nat_of_ascii c) 10.
Definition blank (c : ascii) : bool := orb (newline c) (Ascii.eqb c " ").
Definition wordy (c : ascii) : bool := negb (blank c || Ascii.eqb c "[" || Ascii.eqb c "]" || Ascii.eqb c "," || Ascii.eqb c "#").
Definition word_end (w : list ascii) (t : list Tok) : list Tok := match w with [] => t | _ => TWord w :: t end.
Fixpoint lex (w : list ascii) (comment : bool) (l : list ascii) : list Tok :=
  match l with
  | [] => word_end w []
  | c :: r =>
      if comment then lex [] (negb (newline c)) r
      else if Ascii.eqb c "[" then word_end w (TOpen :: lex [] false r)
      else if Ascii.eqb c "]" then word_end w (TClose :: lex [] false r)
      else if Ascii.eqb c "," then word_end w (TComma :: lex [] false r)
      else if Ascii.eqb c "#" then word_end w (lex [] true r)
      else if blank c then word_end w (lex [] false r)
      else lex (w ++ [c]) false r
  end.
(** Values: words and lists of values, and how a value is spelled. *)
Inductive Val := Word (w : list ascii) | Lst (l : list Val).
Fixpoint spell (v : Val) : list Tok :=
  match v with
  | Word w => [TWord w]
  | Lst l => TOpen :: (fix items (l : list Val) := match l with [] => [TClose] | [v] => spell v ++ [TClose] | v :: l' => spell v ++ TComma :: items l' end) l
  end.
Fixpoint items (l : list Val) : list Tok := match l with [] => [TClose] | [v] => spell v ++ [TClose] | v :: l' => spell v ++ TComma :: items l' end.
Lemma spell_lst l : spell (Lst l) = TOpen :: items l.
Proof. reflexivity. Qed.

(** What the script must list. *)
Definition point_val (num : R -> list ascii) (p : Point2) : Val := Lst [Word (num (ptx p)); Word (num (pty p))].
Definition ray_val (num : R -> list ascii) (r : PRay) : Val := Lst [point_val num (pr_p1 r); point_val num (pr_p2 r)].
Definition plane_val (num : R -> list ascii) (plane : list (list PRay)) : Val := Lst (map (fun a => Lst (map (ray_val num) a)) plane).

Section P.
Variable num : R -> list ascii.
Variable int : Z -> list ascii.
Hypothesis Hnum : forall x, num x <> [] /\ forallb wordy (num x) = true.
Hypothesis Hint : forall z, forallb (fun c => negb (newline c)) (int z) = true.

Definition lexes (s : list ascii) (t : list Tok) : Prop := forall r, lex [] false (s ++ r) = t ++ lex [] false r.
Lemma lexes_app s t s' t' : lexes s t -> lexes s' t' -> lexes (s ++ s') (t ++ t').
Proof. intros A B r. rewrite <- app_assoc, A, B, app_assoc. reflexivity. Qed.
Lemma lex_word s : forall w r, forallb wordy s = true -> lex w false (s ++ r) = lex (w ++ s) false r.
Proof.
  induction s as [|c s IH]; intros w r H; [rewrite app_nil_r; reflexivity|].
  cbn [forallb] in H. apply andb_prop in H. destruct H as [Hc Hs]. cbn [app lex].
  unfold wordy in Hc. apply negb_true_iff in Hc. do 4 (apply orb_false_elim in Hc; destruct Hc as [Hc ?]).
  repeat match goal with E : _ = false |- _ => rewrite E; clear E end. rewrite IH by exact Hs. rewrite <- app_assoc. reflexivity.
Qed.
Lemma lex_comment s : forall r, forallb (fun c => negb (newline c)) s = true -> lex [] true (s ++ r) = lex [] true r.
Proof.
  induction s as [|c s IH]; intros r H; [reflexivity|]. cbn [forallb] in H. apply andb_prop in H. destruct H as [Hc Hs].
  cbn [app lex]. rewrite Hc. apply IH. exact Hs.
Qed.
Lemma lexes_num x c t : lexes (num x ++ lit c) (TWord (num x) :: t) <-> forall r, lex (num x) false (lit c ++ r) = TWord (num x) :: t ++ lex [] false r.
Proof.
  destruct (Hnum x) as [N W]. unfold lexes. split; intros H r; specialize (H r).
  - rewrite <- app_assoc, lex_word in H by exact W. cbn [app] in H. exact H.
  - rewrite <- app_assoc, lex_word by exact W. cbn [app]. exact H.
Qed.
Lemma word_end_num x t : word_end (num x) t = TWord (num x) :: t.
Proof. destruct (Hnum x) as [N _]. destruct (num x); [contradiction|reflexivity]. Qed.
Lemma lexes_point p : lexes (point_txt num p) (spell (point_val num p)).
Proof.
  unfold point_txt, point_val. rewrite spell_lst.
  replace (lit "[ " ++ num (ptx p) ++ lit ", " ++ num (pty p) ++ lit " ]") with (lit "[ " ++ (num (ptx p) ++ lit ", ") ++ (num (pty p) ++ lit " ]")) by (rewrite <- !app_assoc; reflexivity).
  change (TOpen :: items [Word (num (ptx p)); Word (num (pty p))]) with ([TOpen] ++ [TWord (num (ptx p)); TComma] ++ [TWord (num (pty p)); TClose]).
  apply lexes_app; [intros r; reflexivity|]. apply lexes_app; apply lexes_num; intros r; cbn -[word_end]; rewrite word_end_num; reflexivity.
Qed.
Lemma lexes_ray r : lexes (ray_txt num r) (spell (ray_val num r)).
Proof.
  unfold ray_txt, ray_val. rewrite spell_lst.
  change (TOpen :: items [point_val num (pr_p1 r); point_val num (pr_p2 r)]) with ([TOpen] ++ spell (point_val num (pr_p1 r)) ++ [TComma] ++ spell (point_val num (pr_p2 r)) ++ [TClose]).
  apply lexes_app; [intros q; reflexivity|]. apply lexes_app; [apply lexes_point|]. apply lexes_app; [intros q; reflexivity|].
  apply lexes_app; [apply lexes_point|]. intros q; reflexivity.
Qed.
(** The comment after a ray, and after the last one. *)
Definition bcs (r : PRay) : list ascii := int (pr_bc0 r) ++ lit " " ++ int (pr_bc1 r) ++ nl.
Lemma lex_bcs r q : lex [] true (bcs r ++ q) = lex [] false q.
Proof.
  unfold bcs. rewrite <- !app_assoc, lex_comment by apply Hint. change (lit " " ++ int (pr_bc1 r) ++ nl ++ q) with (" "%char :: int (pr_bc1 r) ++ nl ++ q).
  cbn [lex]. change (negb (newline " ")) with true. rewrite lex_comment by apply Hint. reflexivity.
Qed.
Lemma lexes_comma r : lexes (lit ",    # " ++ bcs r) [TComma].
Proof. intros q. rewrite <- app_assoc. cbn -[bcs]. rewrite lex_bcs. reflexivity. Qed.
Lemma lexes_close r : lexes (lit " ]   # " ++ bcs r) [TClose].
Proof. intros q. rewrite <- app_assoc. cbn -[bcs]. rewrite lex_bcs. reflexivity. Qed.

(** The stream. *)
Definition at_end (o : Stream) : Prop := st_pos o = length (st_txt o).
Lemma put_end s o : at_end o -> st_txt (put_txt s o) = st_txt o ++ s /\ at_end (put_txt s o).
Proof.
  unfold at_end, put_txt. intros E. cbn [st_txt st_pos]. rewrite E, firstn_all, skipn_all2 by lia. rewrite app_nil_r, app_length. split; [reflexivity|lia].
Qed.
Lemma put_over a s s' b : length s = length s' -> put_txt s' {| st_txt := a ++ s ++ b; st_pos := length a |} = {| st_txt := a ++ s' ++ b; st_pos := length a + length s' |}.
Proof.
  intros L. unfold put_txt. cbn [st_txt st_pos]. f_equal. rewrite firstn_app, firstn_all, Nat.sub_diag. cbn [firstn]. rewrite app_nil_r. f_equal. f_equal.
  rewrite app_assoc, <- L, <- app_length. rewrite skipn_app, skipn_all, Nat.sub_diag. reflexivity.
Qed.
Lemma stream_eta o : at_end o -> o = {| st_txt := st_txt o; st_pos := length (st_txt o) |}.
Proof. unfold at_end. destruct o as [t p]. cbn [st_txt st_pos]. intros ->. reflexivity. Qed.
Fixpoint rays_txt (l : list PRay) : list ascii :=
  match l with [] => [] | [r] => ray_txt num r | r :: l' => ray_txt num r ++ (lit ",    # " ++ bcs r) ++ rays_txt l' end.
Lemma put_rays_spec d l : forall o rp, at_end o -> l <> [] -> exists o', put_rays num int l o rp = (o', length (st_txt o ++ rays_txt l)) /\ at_end o' /\
  st_txt o' = (st_txt o ++ rays_txt l) ++ lit ",    # " ++ bcs (last l d).
Proof.
  induction l as [|r l IH]; intros o rp E N; [contradiction|]. cbn [put_rays].
  destruct (put_end (ray_txt num r) o E) as [T1 E1]. set (o1 := put_txt (ray_txt num r) o) in *.
  change (lit ",    # " ++ int (pr_bc0 r) ++ lit " " ++ int (pr_bc1 r) ++ nl) with (lit ",    # " ++ bcs r).
  destruct (put_end (lit ",    # " ++ bcs r) o1 E1) as [T2 E2]. set (o2 := put_txt (lit ",    # " ++ bcs r) o1) in *.
  destruct l as [|r' l].
  - cbn [put_rays rays_txt last]. exists o2. rewrite E1, T1. split; [reflexivity|]. split; [exact E2|]. rewrite T2, T1. reflexivity.
  - destruct (IH o2 (st_pos o1) E2 ltac:(discriminate)) as (o' & A & B & C). exists o'. rewrite A.
    change (last (r :: r' :: l) d) with (last (r' :: l) d). change (rays_txt (r :: r' :: l)) with (ray_txt num r ++ (lit ",    # " ++ bcs r) ++ rays_txt (r' :: l)).
    rewrite C, T2, T1. rewrite !app_assoc. split; [reflexivity|]. split; [exact B|]. reflexivity.
Qed.
Lemma lexes_rays l d : l <> [] -> lexes (rays_txt l ++ lit " ]   # " ++ bcs (last l d)) (items (map (ray_val num) l)).
Proof.
  induction l as [|r l IH]; intros N; [contradiction|]. destruct l as [|r' l].
  - cbn [rays_txt last map items]. apply lexes_app; [apply lexes_ray|apply lexes_close].
  - change (last (r :: r' :: l) d) with (last (r' :: l) d). change (rays_txt (r :: r' :: l)) with (ray_txt num r ++ (lit ",    # " ++ bcs r) ++ rays_txt (r' :: l)).
    change (items (map (ray_val num) (r :: r' :: l))) with (spell (ray_val num r) ++ [TComma] ++ items (map (ray_val num) (r' :: l))).
    rewrite <- !(app_assoc (ray_txt num r)). rewrite <- (app_assoc (lit ",    # " ++ bcs r)).
    apply lexes_app; [apply lexes_ray|]. apply lexes_app; [apply lexes_comma|]. apply IH. discriminate.
Qed.
(** An angle. *)
Definition angle_txt d (a : list PRay) : list ascii := (lit "[ " ++ nl) ++ rays_txt a ++ lit " ]   # " ++ bcs (last a d).
Lemma lexes_angle d a : a <> [] -> lexes (angle_txt d a) (spell (Lst (map (ray_val num) a))).
Proof. intros N. rewrite spell_lst. unfold angle_txt. change (TOpen :: ?t) with ([TOpen] ++ t). apply lexes_app; [intros r; reflexivity|apply lexes_rays; exact N]. Qed.
Fixpoint angles_txt d (l : list (list PRay)) : list ascii :=
  match l with [] => [] | [a] => angle_txt d a | a :: l' => angle_txt d a ++ (lit "," ++ nl) ++ angles_txt d l' end.
Lemma put_angles_spec d l : forall o ap, at_end o -> l <> [] -> Forall (fun a => a <> []) l -> exists o', put_angles num int l o ap = (o', length (st_txt o ++ angles_txt d l)) /\ at_end o' /\
  st_txt o' = (st_txt o ++ angles_txt d l) ++ lit "," ++ nl.
Proof.
  induction l as [|a l IH]; intros o ap E N F; [contradiction|]. apply Forall_cons_iff in F. destruct F as [Fa F]. cbn [put_angles].
  destruct (put_end (lit "[ " ++ nl) o E) as [T1 E1]. set (o1 := put_txt (lit "[ " ++ nl) o) in *.
  destruct (put_rays_spec d a o1 (st_pos o) E1 Fa) as (o2 & A & B & C). rewrite A. cbn beta iota.
  set (X := st_txt o1 ++ rays_txt a) in *.
  assert (S : put_txt (lit " ]") (seek (length X) o2) = {| st_txt := X ++ lit " ]   # " ++ bcs (last a d); st_pos := length X + 2 |}).
  { unfold seek. rewrite C. change (lit ",    # " ++ bcs (last a d)) with (lit ", " ++ lit "   # " ++ bcs (last a d)). rewrite put_over by reflexivity. reflexivity. }
  rewrite S. unfold seek at 1. cbn [st_txt]. set (o3 := {| st_txt := X ++ lit " ]   # " ++ bcs (last a d); st_pos := st_pos o2 |}).
  unfold seek. cbn [st_txt]. fold o3.
  assert (E3 : at_end o3). { unfold at_end in B |- *. unfold o3. cbn [st_txt st_pos]. rewrite B, C, !app_length. reflexivity. }
  assert (T3 : st_txt o3 = st_txt o ++ angle_txt d a). { unfold o3, X, angle_txt. cbn [st_txt]. rewrite T1, <- !app_assoc. reflexivity. }
  clearbody o3. clear S A C B.
  destruct (put_end (lit "," ++ nl) o3 E3) as [T4 E4]. set (o4 := put_txt (lit "," ++ nl) o3) in *. clearbody o4.
  destruct l as [|a' l].
  - cbn [put_angles angles_txt]. exists o4. rewrite E3, T3. split; [reflexivity|]. split; [exact E4|]. rewrite T4, T3. reflexivity.
  - destruct (IH o4 (st_pos o3) E4 ltac:(discriminate) F) as (o' & A & B & C). exists o'. rewrite A.
    change (angles_txt d (a :: a' :: l)) with (angle_txt d a ++ (lit "," ++ nl) ++ angles_txt d (a' :: l)).
    rewrite C, T4, T3. rewrite !app_assoc. split; [reflexivity|]. split; [exact B|]. reflexivity.
Qed.
Lemma lexes_angles d l : l <> [] -> Forall (fun a => a <> []) l -> lexes (angles_txt d l ++ lit " ]" ++ nl) (items (map (fun a => Lst (map (ray_val num) a)) l)).
Proof.
  induction l as [|a l IH]; intros N F; [contradiction|]. apply Forall_cons_iff in F. destruct F as [Fa F]. destruct l as [|a' l].
  - cbn [angles_txt map items]. apply lexes_app; [apply lexes_angle; exact Fa|]. intros r. reflexivity.
  - change (angles_txt d (a :: a' :: l)) with (angle_txt d a ++ (lit "," ++ nl) ++ angles_txt d (a' :: l)).
    change (items (map (fun a => Lst (map (ray_val num) a)) (a :: a' :: l))) with (spell (Lst (map (ray_val num) a)) ++ [TComma] ++ items (map (fun a => Lst (map (ray_val num) a)) (a' :: l))).
    rewrite <- !(app_assoc (angle_txt d a)). rewrite <- (app_assoc (lit "," ++ nl)).
    apply lexes_app; [apply lexes_angle; exact Fa|]. apply lexes_app; [intros r; reflexivity|]. apply IH; [discriminate|exact F].
Qed.

(** With rays for every angle the file is the fixed script, then an assignment to [rays] of exactly the rays of the first plane by
    angle, in order, with both ends. *)
Theorem listed plane data : Forall (fun a => a <> []) plane -> exists body,
  ray_file num int true (plane :: data) = Some (Some (header ++ body)) /\
  lex [] false body = TWord (lit "rays") :: TWord (lit "=") :: spell (plane_val num plane).
Proof.
  intros F. unfold ray_file, put_raydata.
  destruct (put_end header {| st_txt := []; st_pos := 0 |} eq_refl) as [T1 E1]. set (o1 := put_txt header _) in *.
  destruct (put_end (lit "rays = [ ") o1 E1) as [T2 E2]. set (o2 := put_txt (lit "rays = [ ") o1) in *. change (st_txt {| st_txt := []; st_pos := 0 |} ++ header) with header in T1. clearbody o1.
  clearbody o2. rewrite T1 in T2. clear T1 E1.
  destruct plane as [|a l].
  - cbn [put_angles]. cbn beta iota. change (seek (st_pos o2) o2) with (seek (st_pos o2) o2).
    assert (Q : seek (st_pos o2) o2 = o2) by (destruct o2; reflexivity). rewrite Q.
    destruct (put_end (lit " ]" ++ nl) o2 E2) as [T3 E3]. destruct (put_end nl _ E3) as [T4 E4]. cbn [option_map]. rewrite T4, T3, T2.
    exists (lit "rays = [ " ++ (lit " ]" ++ nl) ++ nl). rewrite <- !app_assoc. split; reflexivity.
  - pose (d := Build_PRay (Build_Point2 0%R 0%R) (Build_Point2 0%R 0%R) 0%Z 0%Z).
    destruct (put_angles_spec d (a :: l) o2 (st_pos o2) E2 ltac:(discriminate) F) as (o3 & A & B & C). rewrite A. cbn beta iota.
    set (X := st_txt o2 ++ angles_txt d (a :: l)) in *.
    assert (S : put_txt (lit " ]" ++ nl) (seek (length X) o3) = {| st_txt := X ++ lit " ]" ++ nl; st_pos := length (X ++ lit " ]" ++ nl) |}).
    { unfold seek. rewrite C. unfold put_txt. cbn [st_txt st_pos]. rewrite firstn_app, firstn_all, Nat.sub_diag. cbn [firstn]. rewrite app_nil_r.
      rewrite skipn_all2 by (rewrite !app_length; cbn; lia). rewrite app_nil_r. rewrite !app_length. reflexivity. }
    rewrite S. cbn [option_map]. set (o4 := {| st_txt := X ++ lit " ]" ++ nl; st_pos := _ |}).
    destruct (put_end nl o4 eq_refl) as [T5 E5]. rewrite T5. unfold o4, X. cbn [st_txt]. rewrite T2.
    exists (lit "rays = [ " ++ ((angles_txt d (a :: l)) ++ lit " ]" ++ nl) ++ nl). rewrite <- !app_assoc. split; [reflexivity|].
    change (lex [] false (lit "rays = [ " ++ angles_txt d (a :: l) ++ lit " ]" ++ nl ++ nl)) with
      (TWord (lit "rays") :: TWord (lit "=") :: TOpen :: lex [] false (angles_txt d (a :: l) ++ lit " ]" ++ nl ++ nl)).
    replace (angles_txt d (a :: l) ++ lit " ]" ++ nl ++ nl) with ((angles_txt d (a :: l) ++ lit " ]" ++ nl) ++ nl) by (rewrite <- !app_assoc; reflexivity).
    rewrite (lexes_angles d (a :: l) ltac:(discriminate) F nl). unfold plane_val. rewrite spell_lst. change (lex [] false nl) with (@nil Tok). rewrite app_nil_r. reflexivity.
Qed.
End P.

(** The spelling is unambiguous: a value can be read back from its tokens. *)
Lemma spell_inj : forall v w r r', spell v ++ r = spell w ++ r' -> v = w /\ r = r'.
Proof.
  fix IH 1. intros [a|l] [b|m] r r' E; try (cbn in E; discriminate E).
  - cbn in E. injection E as E1 E2. subst. split; reflexivity.
  - rewrite !spell_lst in E. cbn [app] in E. injection E as E. enough (Q : l = m /\ r = r') by (destruct Q; subst; split; reflexivity).
    revert m r r' E. induction l as [|v l L]; intros m r r' E.
    + destruct m as [|w m]; [cbn in E; injection E as E; split; [reflexivity|exact E]|]. destruct m as [|w' m]; destruct w; cbn in E; discriminate E.
    + destruct m as [|w m].
      * destruct l; destruct v; cbn in E; discriminate E.
      * assert (C : exists x y, items (v :: l) ++ r = spell v ++ x /\ items (w :: m) ++ r' = spell w ++ y /\
          x = match l with [] => TClose :: r | _ => TComma :: items l ++ r end /\ y = match m with [] => TClose :: r' | _ => TComma :: items m ++ r' end).
        { destruct l as [|v' l]; destruct m as [|w' m]; do 2 eexists; (split; [|split; [|split; reflexivity]]);
            cbn [items]; rewrite <- app_assoc; reflexivity. }
        destruct C as (x & y & X & Y & Hx & Hy). rewrite X, Y in E. destruct (IH v w x y E) as [-> Exy]. rewrite Hx, Hy in Exy.
        destruct l as [|v' l]; destruct m as [|w' m]; try discriminate Exy.
        -- injection Exy as ->. split; reflexivity.
        -- injection Exy as Exy. destruct (L (w' :: m) r r' Exy) as [-> ->]. split; reflexivity.
Qed.

(** C198: with rays for every angle, rays.py is the fixed script followed by an assignment to [rays] of the rays of the first plane: one list for
    each angle, in it one pair of ends for each ray, in order.  [num] and [int] may print in any way that keeps to one word, or one line. *)
Theorem C198_listed num int plane data : (forall x, num x <> [] /\ forallb wordy (num x) = true) ->
  (forall z, forallb (fun c => negb (newline c)) (int z) = true) -> Forall (fun a => a <> []) plane -> exists body,
  ray_file num int true (plane :: data) = Some (Some (header ++ body)) /\
  lex [] false body = TWord (lit "rays") :: TWord (lit "=") :: spell (plane_val num plane).
Proof. intros A B. apply listed; assumption. Qed.
(** C198: no other value is read from the file: if the printing tells numbers apart, the file gives the ends of all rays back. *)
Theorem C198_read_back num int plane plane' data data' f : (forall x, num x <> [] /\ forallb wordy (num x) = true) ->
  (forall z, forallb (fun c => negb (newline c)) (int z) = true) -> (forall x y, num x = num y -> x = y) ->
  Forall (fun a => a <> []) plane -> Forall (fun a => a <> []) plane' ->
  ray_file num int true (plane :: data) = Some (Some f) -> ray_file num int true (plane' :: data') = Some (Some f) ->
  map (map (fun r => (pr_p1 r, pr_p2 r))) plane = map (map (fun r => (pr_p1 r, pr_p2 r))) plane'.
Proof.
  intros A B I F F' E E'. destruct (listed num int A B plane data F) as (b & G & L). destruct (listed num int A B plane' data' F') as (b' & G' & L').
  rewrite E in G. rewrite E' in G'.
  assert (K : b = b'). { apply (app_inv_head header). assert (K : Some (Some (header ++ b)) = Some (Some (header ++ b'))) by (rewrite <- G; exact G'). clear - K. set (h := header) in *. clearbody h. congruence. }
  subst b'. rewrite L in L'. injection L' as L'.
  destruct (spell_inj (plane_val num plane) (plane_val num plane') [] []) as [V _]; [rewrite !app_nil_r; unfold plane_val; rewrite !spell_lst; f_equal; exact L'|].
  unfold plane_val in V. injection V as V. clear - I V.
  assert (P : forall p q, point_val num p = point_val num q -> p = q).
  { intros [x y] [x' y'] H. unfold point_val in H. cbn [ptx pty] in H. injection H as H1 H2. apply I in H1. apply I in H2. subst. reflexivity. }
  assert (Q : forall a a', map (ray_val num) a = map (ray_val num) a' -> map (fun r => (pr_p1 r, pr_p2 r)) a = map (fun r => (pr_p1 r, pr_p2 r)) a').
  { induction a as [|r a IH]; intros [|r' a'] H; try discriminate H; [reflexivity|]. cbn [map] in H |- *. apply (f_equal (fun l => (hd (Lst []) l, tl l))) in H.
    cbn [hd tl] in H. apply pair_equal_spec in H. destruct H as [H1 H2]. f_equal; [|apply IH; exact H2].
    assert (H3 : point_val num (pr_p1 r) = point_val num (pr_p1 r') /\ point_val num (pr_p2 r) = point_val num (pr_p2 r')).
    { unfold ray_val in H1. set (pv := point_val num) in *. clearbody pv. injection H1 as H1 H3. auto. }
    destruct H3 as [H3 H4]. apply P in H3. apply P in H4. congruence. }
  revert plane' V. induction plane as [|a plane IH]; intros [|a' plane'] V; try discriminate V; [reflexivity|]. cbn [map] in V |- *.
  set (rv := ray_val num) in *. clearbody rv. injection V as V1 V2. f_equal; [apply Q; exact V1|apply IH; exact V2].
Qed.
(** C198: nothing is written when the rays are not asked for, whatever they are. *)
Theorem C198_silent num int data : ray_file num int false data = Some None.
Proof. reflexivity. Qed.
(** C198: only the first plane counts. *)
Theorem C198_first num int dump plane data data' : ray_file num int dump (plane :: data) = ray_file num int dump (plane :: data').
Proof. reflexivity. Qed.

(** Two angles, of two rays and one. *)
Definition ex_num (x : R) : list ascii := lit "0.5".
Definition ex_int (z : Z) : list ascii := lit "-3".
Definition ex_ray : PRay := Build_PRay (Build_Point2 (/ 2) (/ 2)) (Build_Point2 (/ 2) (/ 2)) (-3) (-3).
Example C198_instance : (forall x, ex_num x <> [] /\ forallb wordy (ex_num x) = true) /\ (forall z, forallb (fun c => negb (newline c)) (ex_int z) = true) /\
  Forall (fun a => a <> []) [[ex_ray; ex_ray]; [ex_ray]] /\
  option_map (option_map (fun f => string_of_list_ascii (skipn (length header) f))) (ray_file ex_num ex_int true [[[ex_ray; ex_ray]; [ex_ray]]]) =
  Some (Some ("rays = [ [ 
[[ 0.5, 0.5 ], [ 0.5, 0.5 ]],    # -3 -3
[[ 0.5, 0.5 ], [ 0.5, 0.5 ]] ]   # -3 -3
,
[ 
[[ 0.5, 0.5 ], [ 0.5, 0.5 ]] ]   # -3 -3
 ]

"%string)).
Proof.
  split; [intros x; split; [discriminate|reflexivity]|]. split; [reflexivity|]. split; [repeat constructor; discriminate|]. vm_compute. reflexivity.
Qed.
(** The rays of an angle are needed: without any the opening bracket is lost. *)
Example C198_no_rays : exists f, ray_file ex_num ex_int true [[[]]] = Some (Some f) /\ lex [] false (skipn (length header) f) = [TWord (lit "rays"); TWord (lit "="); TOpen; TClose; TClose].
Proof. eexists. split; [reflexivity|]. vm_compute. reflexivity. Qed.
Print Assumptions C198_listed.
Print Assumptions C198_read_back.
Print Assumptions C198_silent.
Print Assumptions C198_first.
