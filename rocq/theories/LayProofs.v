(** Sequences of calls that make groups before what goes into them and use no name twice (for C201). *)
From Coq Require Import String Ascii List Bool Arith Lia.
From Coq Require Import DecimalString DecimalNat.
From Verif Require Import StrModel H5Model H5Props LayModel.
Import ListNotations.
Open Scope nat_scope.

(** ** Names from numbers *)
Definition val (l : str) : nat := match NilEmpty.uint_of_string (string_of_list_ascii l) with Some u => Nat.of_uint u | None => 0 end.
Lemma val_dec : forall n, val (dec n) = n.
Proof. intros n. unfold val, dec. rewrite string_of_list_ascii_of_string, NilEmpty.usu. apply Unsigned.of_to. Qed.
Lemma val_zero : forall l, val ("0"%char :: l) = val l.
Proof. intros l. unfold val. cbn [string_of_list_ascii NilEmpty.uint_of_string]. destruct (NilEmpty.uint_of_string (string_of_list_ascii l)); reflexivity. Qed.
Lemma val_zeros : forall k l, val (repeat "0"%char k ++ l) = val l.
Proof. induction k as [|k IH]; intros l; [reflexivity|]. change (repeat "0"%char (S k) ++ l) with ("0"%char :: (repeat "0"%char k ++ l)). rewrite val_zero. apply IH. Qed.
Lemma dec_inj : forall a b, dec a = dec b -> a = b.
Proof. intros a b E. rewrite <- (val_dec a), <- (val_dec b). now rewrite E. Qed.
Lemma num3_inj : forall a b, num3 a = num3 b -> a = b.
Proof. intros a b E. apply (f_equal val) in E. unfold num3 in E. rewrite !val_zeros, !val_dec in E. exact E. Qed.
Definition digit (c : ascii) : bool := existsb (Ascii.eqb c) ["0"; "1"; "2"; "3"; "4"; "5"; "6"; "7"; "8"; "9"]%char.
Lemma uint_digits : forall u, forallb digit (list_ascii_of_string (NilEmpty.string_of_uint u)) = true.
Proof. induction u; cbn [NilEmpty.string_of_uint list_ascii_of_string forallb]; auto. Qed.
Lemma dec_digits : forall n, forallb digit (dec n) = true. Proof. intros. apply uint_digits. Qed.
Lemma num3_digits : forall n, forallb digit (num3 n) = true.
Proof. intros n. unfold num3. rewrite forallb_app, dec_digits, andb_true_r. induction (3 - _) as [|k IH]; [reflexivity|]. cbn [repeat forallb]. rewrite IH. reflexivity. Qed.
Lemma num3_stdev : forall a b, num3 a = num3 b ++ nm "_stdev" -> False.
Proof. intros a b E. pose proof (num3_digits a) as D. rewrite E, forallb_app in D. apply andb_true_iff in D. destruct D as [_ D]. discriminate D. Qed.
Lemma stdev_inj : forall a b, num3 a ++ nm "_stdev" = num3 b ++ nm "_stdev" -> a = b.
Proof. intros a b E. apply app_inv_tail in E. now apply num3_inj. Qed.

(** ** Paths *)
Definition starts (a b : list str) : Prop := exists r, b = a ++ r.
Lemma starts_dec : forall a b, starts a b \/ ~ starts a b.
Proof.
  induction a as [|x a IH]; intros b; [left; exists b; reflexivity|]. destruct b as [|y b]; [right; intros [r E]; discriminate|]. destruct (list_eq_dec ascii_dec x y) as [->|N]; [|right; intros [r E]; injection E as E1 E2; congruence].
  destruct (IH b) as [[r ->]|N]; [left; exists r; reflexivity|right; intros [r E]; injection E as E; apply N; exists r; exact E].
Qed.
Lemma starts_both : forall a b c, starts a c -> starts b c -> starts a b \/ starts b a.
Proof.
  induction a as [|x a IH]; intros b c [r1 E1] [r2 E2]; [left; exists b; reflexivity|]. destruct b as [|y b]; [right; exists (x :: a); reflexivity|]. subst c. cbn [app] in E2. injection E2 as -> E2. destruct (IH b (a ++ r1)) as [[r ->]|[r ->]]; [exists r1; reflexivity|exists r2; exact E2|left; exists r; reflexivity|right; exists r; reflexivity].
Qed.

Section WithValues.
Context {V : Type} (zero : V).
Notation Node := (@HNode V).

Lemma look_app : forall p q (x : Node), look x (p ++ q) = match look x p with Some y => look y q | None => None end.
Proof. induction p as [|s p IH]; intros q x; [reflexivity|]. cbn [app look]. destruct x as [d v|l]; [reflexivity|]. destruct (kid s l); [apply IH|reflexivity]. Qed.
Lemma create_under : forall p new (x y : Node) r, create p new x = Some y -> look y (p ++ r) = look new r.
Proof. intros p new x y r H. rewrite look_app. now rewrite (proj1 (create_new _ _ _ _ H)). Qed.
Lemma create_same : forall p new (x y : Node), create p new x = Some y -> forall q, ~ starts p q -> ~ starts q p -> look y q = look x q.
Proof.
  induction p as [|s p IH]; intros new x y H q N1 N2; [discriminate|]. destruct x as [d v|l]; [destruct p; discriminate|]. destruct q as [|u q]; [exfalso; apply N2; exists (s :: p); reflexivity|]. destruct p as [|t p].
  - cbn [create] in H. destruct (kid s l) eqn:K; [discriminate|]. injection H as <-. rewrite !look_cons. rewrite kid_app_other; [reflexivity|]. intros ->. apply N1. exists q. reflexivity.
  - rewrite create_cons in H. destruct (in_kid s (create (t :: p) new) l) as [l'|] eqn:E; [|discriminate]. injection H as <-. destruct (in_kid_some _ _ _ _ E) as (x0 & y0 & A & B & C & D). rewrite !look_cons. destruct (list_eq_dec ascii_dec u s) as [->|G].
    + rewrite A, C. apply (IH _ _ _ B); intros [r F]; [apply N1|apply N2]; exists r; [rewrite F|cbn [app]; rewrite F]; reflexivity.
    + now rewrite (D u G).
Qed.
Lemma there_before : forall p q (x : Node), starts p q -> look x q <> None -> look x p <> None.
Proof. intros p q x [r ->] H E. apply H. rewrite look_app, E. reflexivity. Qed.

(** ** Calls *)
Definition cpath (c : @Call V) : list str := match c with CGroup n p => resolve (mkHN n H_WRITE) p | CData n p _ => resolve (mkHN n H_WRITE) p | CLink _ d => d end.
(** Sizes: as many values as the dimensions say, arrays in one piece. *)
Definition pay_fits (w : @Payload V) : Prop :=
  match w with
  | WVec _ | WInt _ | WStr _ => True | WDims d dims => prod dims = length d | WArrD a dims => a_contig a = true /\ prod dims = length (a_vals a)
  | WArr a => a_contig a = true /\ prod (a_shape a) = length (a_vals a) | WRange d dims => prod dims = length d
  end.
Definition pay_dims (w : @Payload V) : list nat := match w with WVec d => [length d] | WDims _ dims => dims | WArrD _ dims => dims | WArr a => a_shape a | WRange _ dims => dims | WInt _ => [1] | WStr _ => [] end.
Definition pay_vals (w : @Payload V) : list V := match w with WVec d => d | WDims d _ => d | WArrD a _ => a_vals a | WArr a => a_vals a | WRange d _ => d | WInt v => [v] | WStr v => [v] end.
Definition call_fits (c : @Call V) : Prop := match c with CData _ _ w => pay_fits w | _ => True end.
Definition made_group (seen : list (@Call V)) (n : list str) : Prop := n = [] \/ exists m p, In (CGroup m p) seen /\ resolve (mkHN m H_WRITE) p = n.
Definition parented (seen : list (@Call V)) (c : @Call V) : Prop := exists r s, cpath c = r ++ [s] /\ made_group seen r.
Definition clear_of (seen : list (@Call V)) (c : @Call V) : Prop := (forall s d, In (CLink s d) seen -> ~ starts s (cpath c) /\ ~ starts d (cpath c)) /\ (forall s d, c = CLink s d -> In s (map cpath seen) /\ ~ starts s d).
Fixpoint parents (seen l : list (@Call V)) : Prop := match l with [] => True | c :: r => parented seen c /\ parents (seen ++ [c]) r end.
Fixpoint clears (seen l : list (@Call V)) : Prop := match l with [] => True | c :: r => clear_of seen c /\ clears (seen ++ [c]) r end.

Record Inv (seen : list (@Call V)) (f : Node) : Prop := {
  i_root : exists k, f = HGroup k;
  i_group : forall n p, In (CGroup n p) seen -> group_at f (resolve (mkHN n H_WRITE) p);
  i_data : forall n p w, In (CData n p w) seen -> data_at f (resolve (mkHN n H_WRITE) p) = Some (pay_dims w, pay_vals w);
  i_link : forall s d, In (CLink s d) seen -> forall q, look f (d ++ q) = look f (s ++ q);
  i_there : forall p, In p (map cpath seen) -> look f p <> None;
  i_only : forall p, look f p <> None -> p = [] \/ In p (map cpath seen) \/ exists s d, In (CLink s d) seen /\ starts d p }.

Lemma group_there : forall seen f n, Inv seen f -> made_group seen n -> group_at f n.
Proof. intros seen f n I [->|(m & p & A & <-)]; [destruct (i_root _ _ I) as [k ->]; exists k; reflexivity|exact (i_group _ _ I _ _ A)]. Qed.
Lemma inv_step : forall seen f c new f', Inv seen f -> ~ In (cpath c) (map cpath seen) -> parented seen c -> clear_of seen c -> create (cpath c) new f = Some f' ->
  match c with CGroup _ _ => new = HGroup [] | CData _ _ w => new = HData (pay_dims w) (pay_vals w) | CLink s d => look f s = Some new end -> Inv (seen ++ [c]) f'.
Proof.
  intros seen f c new f' I Nw (r & s & Ep & G) [Cl Ln] H Hn. pose proof (create_new _ _ _ _ H) as [L' L0].
  assert (Gr : group_at f r) by exact (group_there _ _ _ I G).
  assert (Sm : forall q, look f q <> None -> starts (cpath c) q -> False) by (intros q Q S; apply (there_before _ _ _ S Q); exact L0).
  assert (Dt : forall q d v, data_at f q = Some (d, v) -> data_at f' q = Some (d, v)).
  { intros q d v E. unfold data_at in *. destruct (look f q) as [[d0 v0|k]|] eqn:Eq; try discriminate. rewrite (create_keeps _ _ _ _ H _ _ _ Eq). exact E. }
  assert (Th : forall q, look f q <> None -> look f' q <> None).
  { intros q Q. destruct (look f q) as [[d v|k]|] eqn:Eq; [rewrite (create_keeps _ _ _ _ H _ _ _ Eq); discriminate| |congruence]. destruct (create_groups _ _ _ _ H q) as [k' E']; [exists k; exact Eq|]. rewrite E'. discriminate. }
  assert (Lk : forall a b, In (CLink a b) seen -> forall q, look f' (b ++ q) = look f (b ++ q) /\ look f' (a ++ q) = look f (a ++ q)).
  { intros a b A q. destruct (Cl a b A) as [N1 N2]. assert (Eb : look f b <> None) by (apply (i_there _ _ I); apply in_map_iff; exists (CLink a b); auto). assert (Ea : look f a <> None) by (rewrite <- (app_nil_r a), <- (i_link _ _ I _ _ A), app_nil_r; exact Eb).
    split; apply (create_same _ _ _ _ H); intros S.
    - destruct (starts_both (cpath c) b (b ++ q) S ltac:(exists q; reflexivity)) as [T|T]; [exact (Sm _ Eb T)|exact (N2 T)].
    - apply N2. destruct S as [t ->]. exists (q ++ t). now rewrite app_assoc.
    - destruct (starts_both (cpath c) a (a ++ q) S ltac:(exists q; reflexivity)) as [T|T]; [exact (Sm _ Ea T)|exact (N1 T)].
    - apply N1. destruct S as [t ->]. exists (q ++ t). now rewrite app_assoc. }
  constructor.
  - destruct (create_groups _ _ _ _ H []) as [k E]; [destruct (i_root _ _ I) as [k ->]; exists k; reflexivity|]. cbn [look] in E. injection E as ->. exists k. reflexivity.
  - intros n p A. apply in_app_iff in A. destruct A as [A|[->|[]]]; [apply (create_groups _ _ _ _ H), (i_group _ _ I _ _ A)|]. subst new. exists []. exact L'.
  - intros n p w A. apply in_app_iff in A. destruct A as [A|[->|[]]]; [apply Dt, (i_data _ _ I _ _ _ A)|]. subst new. unfold data_at. cbn [cpath] in L'. now rewrite L'.
  - intros a b A q. apply in_app_iff in A. destruct A as [A|[->|[]]]; [destruct (Lk a b A q) as [-> ->]; apply (i_link _ _ I _ _ A)|]. cbn [cpath] in *. rewrite (create_under _ _ _ _ q H). destruct (Ln a b eq_refl) as [Ia Ns].
    assert (Ea : look f a <> None) by now apply (i_there _ _ I). transitivity (look f (a ++ q)); [rewrite look_app, Hn; reflexivity|]. symmetry. apply (create_same _ _ _ _ H); intros S.
    + destruct (starts_both b a (a ++ q) S ltac:(exists q; reflexivity)) as [T|T]; [exact (Sm _ Ea T)|exact (Ns T)].
    + apply Ns. destruct S as [t ->]. exists (q ++ t). now rewrite app_assoc.
  - intros p A. rewrite map_app in A. apply in_app_iff in A. destruct A as [A|[<-|[]]]; [now apply Th, (i_there _ _ I)|]. rewrite L'. discriminate.
  - intros p Hp. assert (D : look f p <> None \/ starts (cpath c) p).
    { destruct (starts_dec (cpath c) p) as [S|N]; [now right|]. left. destruct (starts_dec p (cpath c)) as [S|N'].
      - rewrite Ep in S, N. destruct S as [t E]. destruct t as [|u t] using rev_ind; [rewrite app_nil_r in E; exfalso; apply N; exists []; now rewrite app_nil_r|]. rewrite app_assoc in E. apply app_inj_tail in E. destruct E as [E _]. apply (there_before p r); [exists t; exact E|]. destruct Gr as [k ->]. discriminate.
      - now rewrite <- (create_same _ _ _ _ H p N N'). }
    destruct D as [D|[t ->]].
    + destruct (i_only _ _ I p D) as [->|[D'|(a & b & A & S)]]; [now left|right; left; rewrite map_app; apply in_app_iff; now left|]. right. right. exists a, b. split; [apply in_app_iff; now left|exact S].
    + right. rewrite (create_under _ _ _ _ t H) in Hp. assert (Pc : In (cpath c) (map cpath (seen ++ [c]))) by (rewrite map_app; apply in_app_iff; right; now left). destruct c as [n q|n q w|a b].
      * subst new. destruct t as [|u t]; [left; rewrite app_nil_r; exact Pc|cbn in Hp; congruence].
      * subst new. destruct t as [|u t]; [left; rewrite app_nil_r; exact Pc|cbn in Hp; congruence].
      * right. exists a, b. split; [apply in_app_iff; right; now left|exists t; reflexivity].
Qed.

Lemma call_ok : forall debug seen f c, Inv seen f -> call_fits c -> ~ In (cpath c) (map cpath seen) -> parented seen c -> clear_of seen c -> exists f', call zero debug f c = HOk f' /\ Inv (seen ++ [c]) f'.
Proof.
  intros debug seen f c I Ft Nw Pr Cl. destruct Pr as (r & s & Ep & G). assert (Pr : parented seen c) by (exists r, s; auto).
  assert (Gr : group_at f r) by exact (group_there _ _ _ I G).
  assert (N0 : look f (cpath c) = None).
  { destruct (look f (cpath c)) as [x|] eqn:E; [|reflexivity]. exfalso. destruct (i_only _ _ I (cpath c)) as [Z|[A|(a & b & A & S)]]; [congruence|rewrite Ep in Z; destruct r; discriminate|exact (Nw A)|exact (proj2 (proj1 Cl a b A) S)]. }
  assert (Mk : forall new, exists f', create (cpath c) new f = Some f'). { intros new. rewrite Ep in N0 |- *. destruct (create (r ++ [s]) new f) as [f'|] eqn:E; [eauto|]. exfalso. apply (proj2 (create_when r s new f) (conj Gr N0)). exact E. }
  assert (Pd : forall n p dims mem, c = CData n p (WDims mem dims) \/ resolve (mkHN n H_WRITE) p = cpath c -> resolve (mkHN n H_WRITE) p = cpath c -> prod dims = length mem -> forall f', create (cpath c) (HData dims mem) f = Some f' -> put_data f (mkHN n H_WRITE) p dims mem = HOk f').
  { intros n p dims mem _ Er L f' E. unfold put_data. cbn [hn_access]. rewrite Er, L, firstn_all, E, Nat.ltb_irrefl. reflexivity. }
  destruct c as [n p|n p w|a b].
  - destruct (Mk (HGroup [])) as [f' E]. exists f'. cbn [cpath] in E. cbn [call]. unfold create_group. cbn [hn_access]. rewrite E. split; [reflexivity|]. now apply (inv_step seen f (CGroup n p) (HGroup []) f').
  - destruct (Mk (HData (pay_dims w) (pay_vals w))) as [f' E]. exists f'. split; [|now apply (inv_step seen f (CData n p w) (HData (pay_dims w) (pay_vals w)) f')]. cbn [cpath call_fits] in *.
    assert (P : prod (pay_dims w) = length (pay_vals w)) by (destruct w; cbn [pay_fits pay_dims pay_vals] in *; try (unfold prod; cbn [fold_right length]; lia); tauto).
    pose proof (Pd n p (pay_dims w) (pay_vals w) (or_intror eq_refl) eq_refl P f' E) as Q. destruct w as [d|d dims|a dims|a|d dims|v|v]; cbn [pay_fits pay_dims pay_vals call] in *.
    + exact Q.
    + unfold write_vec_dims. rewrite Ft, Nat.eqb_refl, andb_false_r. exact Q.
    + unfold write_arr_dims. destruct Ft as [-> _]. exact Q.
    + unfold write_arr. destruct Ft as [-> _]. exact Q.
    + unfold write_range. rewrite Ft, Nat.ltb_irrefl, Nat.sub_diag. cbn [repeat]. rewrite app_nil_r. exact Q.
    + exact Q.
    + exact Q.
  - cbn [call]. destruct (proj2 Cl a b eq_refl) as [Ia _]. destruct (look f a) as [x|] eqn:Ea; [|exfalso; exact (i_there _ _ I a Ia Ea)]. destruct (Mk x) as [f' E]. cbn [cpath] in E. rewrite E. exists f'. split; [reflexivity|]. now apply (inv_step seen f (CLink a b) x f').
Qed.
Lemma calls_ok : forall debug l seen f, Inv seen f -> Forall call_fits l -> NoDup (map cpath (seen ++ l)) -> parents seen l -> clears seen l -> exists f', calls zero debug l f = HOk f' /\ Inv (seen ++ l) f'.
Proof.
  intros debug. induction l as [|c l IH]; intros seen f I Ft N P C; [exists f; rewrite app_nil_r; split; [reflexivity|exact I]|]. apply Forall_cons_iff in Ft. destruct Ft as [F1 F2]. destruct P as [P1 P2]. destruct C as [C1 C2].
  assert (Nw : ~ In (cpath c) (map cpath seen)). { rewrite map_app in N. cbn [map] in N. apply NoDup_remove_2 in N. intros A. apply N, in_app_iff. now left. }
  destruct (call_ok debug seen f c I F1 Nw P1 C1) as (f1 & E1 & I1). destruct (IH (seen ++ [c]) f1 I1 F2) as (f' & E' & I'); [rewrite <- app_assoc; exact N|exact P2|exact C2|]. exists f'. cbn [calls]. rewrite E1. split; [exact E'|]. now rewrite <- app_assoc in I'.
Qed.
Lemma inv_empty : Inv [] (HGroup []).
Proof. constructor; try (intros; contradiction); [exists []; reflexivity|]. intros [|s p] H; [now left|]. cbn in H. congruence. Qed.

(** ** Groups come first *)
Lemma made_mono : forall s1 s2 n, incl s1 s2 -> made_group s1 n -> made_group s2 n.
Proof. intros s1 s2 n H [->|(m & p & A & E)]; [now left|right; exists m, p; auto]. Qed.
Lemma parents_mono : forall l s1 s2, incl s1 s2 -> parents s1 l -> parents s2 l.
Proof. induction l as [|c l IH]; intros s1 s2 H P; [exact I|]. destruct P as [(r & s & E & G) P]. split; [exists r, s; split; [exact E|now apply (made_mono s1)]|]. apply (IH (s1 ++ [c])); [|exact P]. intros x A. apply in_app_iff in A. apply in_app_iff. destruct A; auto. Qed.
Lemma parents_app : forall a b s, parents s a -> parents (s ++ a) b -> parents s (a ++ b).
Proof. induction a as [|c a IH]; intros b s A B; cbn [app]; [now rewrite app_nil_r in B|]. destruct A as [A1 A2]. split; [exact A1|]. apply IH; [exact A2|]. now rewrite <- app_assoc. Qed.
Lemma parents_flat : forall {A} (F : A -> list Call) xs s, (forall x, In x xs -> parents s (F x)) -> parents s (flat_map F xs).
Proof. induction xs as [|x xs IH]; intros s H; [exact I|]. cbn [flat_map]. apply parents_app; [apply H; now left|]. apply IH. intros y Y. apply (parents_mono _ s); [intros z Z; apply in_app_iff; now left|]. apply H. now right. Qed.
Lemma parents_map : forall {A} (F : A -> Call) xs s, (forall x, In x xs -> parented s (F x)) -> parents s (map F xs).
Proof. intros A F xs s H. replace (map F xs) with (flat_map (fun x => [F x]) xs); [|induction xs as [|x xs IH]; [reflexivity|cbn; f_equal; apply IH; intros; apply H; now right]]. apply parents_flat. intros x X. split; [now apply H|exact I]. Qed.
Lemma par_dat : forall s n p x w, made_group s (n ++ p) -> parented s (dat n (p ++ [x]) w).
Proof. intros s n p x w H. exists (n ++ p), x. split; [cbn; now rewrite app_assoc|exact H]. Qed.
Lemma par_grp : forall s n p x, made_group s (n ++ p) -> parented s (grp n (p ++ [x])).
Proof. intros s n p x H. exists (n ++ p), x. split; [cbn; now rewrite app_assoc|exact H]. Qed.
Lemma clears_none : forall l s, (forall a b, ~ In (CLink a b) l) -> (forall c a b, In c l -> In (CLink a b) s -> ~ starts a (cpath c) /\ ~ starts b (cpath c)) -> clears s l.
Proof.
  induction l as [|c l IH]; intros s N H; [exact I|]. split.
  - split; [intros a b A; apply H; [now left|exact A]|]. intros a b ->. exfalso. apply (N a b). now left.
  - apply IH; [intros a b A; apply (N a b); now right|]. intros d a b D A. apply in_app_iff in A. destruct A as [A|[->|[]]]; [apply H; [now right|exact A]|]. exfalso. apply (N a b). now left.
Qed.
Lemma clears_app : forall a b s, clears s a -> clears (s ++ a) b -> clears s (a ++ b).
Proof. induction a as [|c a IH]; intros b s A B; cbn [app]; [now rewrite app_nil_r in B|]. destruct A as [A1 A2]. split; [exact A1|]. apply IH; [exact A2|]. now rewrite <- app_assoc. Qed.

End WithValues.
