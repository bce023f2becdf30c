(** Properties C141-C145: timers, warnings, and the choice of solver and sweeper. *)
From Coq Require Import List Bool Arith ZArith Ascii String Reals Lra Lia.
From Verif Require Import StrModel UtilModel.
Import ListNotations.
Local Open Scope list_scope.

Lemma usame_spec : forall a b, usame a b = true <-> a = b.
Proof. intros a b. unfold usame. destruct (list_eq_dec ascii_dec a b); split; congruence. Qed.
Lemma usame_not : forall a b, usame a b = false <-> a <> b.
Proof. intros a b. unfold usame. destruct (list_eq_dec ascii_dec a b); split; congruence. Qed.

(** ** C141 A timer reports the time it was running *)
(** A timer's use: started and stopped at the given clock readings, possibly still running. *)
Fixpoint play (debug : bool) (stops : list (R * R)) (w : Watch) : option Watch :=
  match stops with
  | [] => Some w
  | (a, b) :: r => match tic debug a w with Some w1 => match toc debug b w1 with Some (w2, _) => play debug r w2 | None => None end | None => None end
  end.
Definition play_open (debug : bool) (stops : list (R * R)) (open : option R) (w : Watch) : option Watch :=
  match play debug stops w with Some w' => match open with Some a => tic debug a w' | None => Some w' end | None => None end.
Fixpoint spent (stops : list (R * R)) : R := match stops with [] => 0 | (a, b) :: r => (b - a) + spent r end%R.
Lemma play_ok : forall debug stops w, w_running w = false -> exists w', play debug stops w = Some w' /\ w_running w' = false /\ w_time w' = (w_time w + spent stops)%R.
Proof.
  induction stops as [|[a b] r IH]; intros w H; cbn [play spent].
  - exists w. repeat split; auto. lra.
  - unfold tic. rewrite H, andb_false_r. unfold toc. cbn [w_running negb w_time w_start]. rewrite andb_false_r.
    destruct (IH (mkW (w_time w + (b - a)) false a) eq_refl) as (w' & A & B & C). exists w'. repeat split; auto. rewrite C. cbn [w_time]. lra.
Qed.
Theorem C141_elapsed : forall debug g stops open, exists w, play_open debug stops open (new_watch g) = Some w /\
  forall t, time t w = (spent stops + match open with Some a => t - a | None => 0 end)%R.
Proof.
  intros debug g stops open. destruct (play_ok debug stops (new_watch g) eq_refl) as (w & A & B & C). unfold play_open. rewrite A. cbn [new_watch w_time] in C.
  destruct open as [a|].
  - unfold tic. rewrite B, andb_false_r. eexists. split; [reflexivity|]. intros t. unfold time. cbn [w_running w_time w_start]. rewrite C. lra.
  - exists w. split; [reflexivity|]. intros t. unfold time. rewrite B, C. lra.
Qed.
(** What a stop returns is the total so far. *)
Theorem C141_toc : forall debug g stops a b w, play_open debug stops (Some a) (new_watch g) = Some w ->
  exists w', toc debug b w = Some (w', spent (stops ++ [(a, b)])) /\ (forall t, time t w' = spent (stops ++ [(a, b)])).
Proof.
  intros debug g stops a b w H. destruct (play_ok debug stops (new_watch g) eq_refl) as (w0 & A & B & C). unfold play_open in H. rewrite A in H.
  unfold tic in H. rewrite B, andb_false_r in H. inversion H; subst. unfold toc. cbn [w_running negb w_time w_start]. rewrite andb_false_r.
  assert (SP : forall l x y, spent (l ++ [(x, y)]) = (spent l + (y - x))%R) by (induction l as [|[p q] l IH]; intros x y; cbn [app spent]; [lra|rewrite IH; lra]).
  cbn [new_watch w_time] in C. rewrite SP, C. replace (0 + spent stops + (b - a))%R with (spent stops + (b - a))%R by lra. eexists. split; [reflexivity|]. intros t. unfold time. cbn [w_running w_time]. reflexivity.
Qed.
(** A new child starts at zero, and making one leaves the others alone. *)
Theorem C141_child : forall g start s w l t, child s l = None ->
  exists l', new_timer g start s (mkT w l) = mkT w l'
  /\ (exists c, child s l' = Some (mkT c []) /\ time t c = match start with Some a => t - a | None => 0 end%R)
  /\ forall u, u <> s -> child u l' = child u l.
Proof.
  intros g start s w l t H. unfold new_timer. rewrite H. eexists. split; [reflexivity|].
  assert (CA : forall l0 x, child s l0 = None -> child s (l0 ++ [(s, x)]) = Some x).
  { induction l0 as [|[n y] l0 IH]; intros x E; cbn [child app] in *; [rewrite (proj2 (usame_spec s s) eq_refl); reflexivity|]. destruct (usame n s); [discriminate|auto]. }
  split.
  - eexists. split; [apply CA; exact H|]. destruct start; unfold time, new_watch; cbn [w_running w_time w_start]; lra.
  - intros u U. clear H CA. induction l as [|[n y] l IH]; cbn [child app]; [rewrite (proj2 (usame_not s u)); [reflexivity|congruence]|]. destruct (usame n u); [reflexivity|exact IH].
Qed.
Example C141_instance : exists w, play_open true [(1, 3); (4, 9)]%R (Some 10%R) (new_watch 0) = Some w /\ time 12 w = 9%R.
Proof. eexists. split; [cbn; reflexivity|]. unfold time. cbn. lra. Qed.

(** ** C142 Starting and stopping do what they say *)
(** The value returned when a timer is stopped is not the time since it was started; a timer asked for twice is not started the second time,
    and stopping it then counts its first run and the pause again (or fails an assertion). *)
Theorem C142_toc_refuted : exists stops a b w w' r, play_open true stops (Some a) (new_watch 0) = Some w /\ toc true b w = Some (w', r) /\ r <> (b - a)%R.
Proof. exists [(0, 1)]%R, 2%R, 3%R. eexists. eexists. eexists. split; [cbn; reflexivity|]. split; [cbn; reflexivity|]. cbn. lra. Qed.
Theorem C142_start_refuted : exists s T c1 w2, new_timer 0 (Some 0%R) s (mkT (new_watch 0) []) = T
  /\ child s (match T with mkT _ l => l end) = Some (mkT c1 []) /\ toc false 1 c1 = Some (w2, 1%R)
  /\ new_timer 0 (Some 5%R) s (mkT (new_watch 0) [(s, mkT w2 [])]) = mkT (new_watch 0) [(s, mkT w2 [])] /\ w_running w2 = false
  /\ toc true 6 w2 = None /\ exists w3, toc false 6 w2 = Some (w3, 7%R).
Proof.
  exists (lit "a"). eexists. eexists. exists (mkW 1 false 0). split; [reflexivity|]. split; [cbn; reflexivity|].
  split; [unfold toc; cbn [andb w_time w_start w_running negb]; replace (0 + (1 - 0))%R with 1%R by lra; reflexivity|].
  split; [reflexivity|]. split; [reflexivity|]. split; [reflexivity|].
  unfold toc. cbn [andb w_time w_start w_running negb]. replace (1 + (6 - 0))%R with 7%R by lra. eexists. reflexivity.
Qed.
(** A name used for the first time does start. *)
Theorem C142_first : forall g s w l a, child s l = None -> exists l' c, new_timer g (Some a) s (mkT w l) = mkT w l' /\ child s l' = Some (mkT c []) /\ w_running c = true
  /\ forall debug b, exists c', toc debug b c = Some (c', b - a)%R.
Proof.
  intros g s w l a H. unfold new_timer. rewrite H. eexists. exists (mkW 0 true a). split; [reflexivity|].
  split; [|split; [reflexivity|]].
  - induction l as [|[n y] l IH]; cbn [child app] in *; [rewrite (proj2 (usame_spec s s) eq_refl); reflexivity|]. destruct (usame n s); [discriminate|auto].
  - intros debug b. unfold toc. cbn [w_running negb w_time w_start]. rewrite andb_false_r. replace (0 + (b - a))%R with (b - a)%R by lra. eexists. reflexivity.
Qed.
Example C142_instance : child (lit "a") [] = None. Proof. reflexivity. Qed.

(** ** C143 Warnings *)
Definition count (m : str) (l : list str) : nat := List.length (filter (usame m) l).
Fixpoint listed (m : str) (t : list (str * nat)) : nat := match t with [] => 0 | (n, c) :: r => if usame n m then c else listed m r end.
(** First occurrences, in order. *)
Fixpoint firsts (seen l : list str) : list str := match l with [] => [] | x :: r => if existsb (usame x) seen then firsts seen r else x :: firsts (seen ++ [x]) r end.
Definition warn_all (l : list str) (st : list (str * nat) * list str) := fold_left (fun s m => warn m s) l st.
Definition table_ok (st : list (str * nat) * list str) : Prop := map fst (fst st) = snd st /\ NoDup (snd st) /\ Forall (fun x => 0 < snd x) (fst st).

Lemma bump_some : forall m t t', bump m t = Some t' -> map fst t' = map fst t /\ In m (map fst t) /\ (forall x, listed x t' = listed x t + if usame m x then 1 else 0) /\ (Forall (fun x => 0 < snd x) t -> Forall (fun x : str * nat => 0 < snd x) t').
Proof.
  induction t as [|[n c] t IH]; intros t' H; cbn [bump] in H; [discriminate|]. destruct (usame n m) eqn:E.
  - inversion H; subst. apply usame_spec in E. subst n. cbn [map fst]. split; [reflexivity|]. split; [left; reflexivity|]. split.
    + intros x. cbn [listed]. destruct (usame m x); lia.
    + intros F. inversion F; subst. constructor; [cbn in *; lia|assumption].
  - destruct (bump m t) as [r|] eqn:B; [|discriminate]. inversion H; subst. destruct (IH r eq_refl) as (A1 & A2 & A3 & A4). cbn [map fst]. rewrite A1. split; [reflexivity|]. split; [right; exact A2|]. split.
    + intros x. cbn [listed]. destruct (usame n x) eqn:NX; [|apply A3]. apply usame_spec in NX. subst x.
      assert (Z : usame m n = false) by (apply usame_not; apply usame_not in E; congruence). rewrite Z. lia.
    + intros F. inversion F; subst. constructor; auto.
Qed.
Lemma bump_none : forall m t, bump m t = None -> ~ In m (map fst t).
Proof.
  induction t as [|[n c] t IH]; cbn [bump]; intros H; [intros []|]. destruct (usame n m) eqn:E; [discriminate|]. destruct (bump m t); [discriminate|].
  apply usame_not in E. intros [K|K]; [apply E; exact K|exact (IH eq_refl K)].
Qed.
Lemma listed_absent : forall m t, ~ In m (map fst t) -> listed m t = 0.
Proof. induction t as [|[n c] t IH]; intros H; [reflexivity|]. cbn [listed]. cbn [map fst In] in H. rewrite (proj2 (usame_not n m)) by tauto. tauto. Qed.
Lemma listed_app : forall m t n c, ~ In n (map fst t) -> listed m (t ++ [(n, c)]) = listed m t + if usame n m then c else 0.
Proof.
  induction t as [|[k d] t IH]; intros n c H; cbn [app listed]; [destruct (usame n m); lia|]. cbn [map fst In] in H. destruct (usame k m) eqn:E; [|apply IH; tauto].
  apply usame_spec in E. subst k. rewrite (proj2 (usame_not n m)) by (intros K; apply H; auto). lia.
Qed.
Lemma NoDup_snoc : forall (l : list str) x, NoDup l -> ~ In x l -> NoDup (l ++ [x]).
Proof.
  induction l as [|y l IH]; intros x D N; cbn [app]; [constructor; [intros []|constructor]|]. inversion D; subst. constructor.
  - intros K. apply in_app_or in K. destruct K as [K|[K|[]]]; [tauto|]. subst. apply N. left. reflexivity.
  - apply IH; [assumption|]. intros K. apply N. right. exact K.
Qed.
Lemma warn_step : forall m st, table_ok st -> table_ok (warn m st) /\ (forall x, listed x (fst (warn m st)) = listed x (fst st) + if usame m x then 1 else 0)
  /\ snd (warn m st) = if existsb (usame m) (snd st) then snd st else snd st ++ [m].
Proof.
  intros m [t d] (A & B & C). cbn [fst snd] in *. unfold warn. cbn [fst snd]. destruct (bump m t) as [t'|] eqn:E.
  - destruct (bump_some _ _ _ E) as (P & Q & S' & T). cbn [fst snd]. split; [split; [cbn [fst snd]; rewrite P; exact A|split; [exact B|apply T; exact C]]|]. split; [exact S'|].
    assert (X : existsb (usame m) d = true) by (apply existsb_exists; exists m; split; [rewrite <- A; exact Q|apply usame_spec; reflexivity]). rewrite X. reflexivity.
  - pose proof (bump_none _ _ E) as N. cbn [fst snd]. split; [split; [cbn [fst snd]; rewrite map_app, A; reflexivity|split; [apply NoDup_snoc; [exact B|rewrite <- A; exact N]|apply Forall_app; split; [exact C|repeat constructor]]]|].
    split; [intros x; apply listed_app; exact N|].
    assert (X : existsb (usame m) d = false).
    { destruct (existsb (usame m) d) eqn:X; [|reflexivity]. apply existsb_exists in X. destruct X as (y & Y1 & Y2). apply usame_spec in Y2. subst y. rewrite <- A in Y1. contradiction. }
    rewrite X. reflexivity.
Qed.
Theorem C143_counts : forall l, let st := warn_all l ([], []) in
  (forall m, listed m (fst st) = count m l) /\ snd st = firsts [] l /\ NoDup (snd st) /\ map fst (fst st) = snd st.
Proof.
  intros l. cbv zeta.
  assert (K : forall l st, table_ok st -> table_ok (warn_all l st) /\ (forall m, listed m (fst (warn_all l st)) = listed m (fst st) + count m l) /\ snd (warn_all l st) = snd st ++ firsts (snd st) l).
  { clear l. induction l as [|x l IH]; intros st T.
    - cbn. split; [exact T|]. split; [intros; unfold count; cbn; lia|]. rewrite app_nil_r. reflexivity.
    - destruct (warn_step x st T) as (A & B & C). destruct (IH _ A) as (D & E & F). change (warn_all (x :: l) st) with (warn_all l (warn x st)). split; [exact D|]. split.
      + intros m. rewrite E, B. unfold count. cbn [filter].
        assert (Z : usame m x = usame x m) by (unfold usame; destruct (list_eq_dec ascii_dec m x), (list_eq_dec ascii_dec x m); congruence). rewrite Z. destruct (usame x m); cbn [List.length]; lia.
      + rewrite F, C. cbn [firsts]. destruct (existsb (usame x) (snd st)); [reflexivity|]. rewrite <- app_assoc. reflexivity. }
  destruct (K l ([], [])) as ((T1 & T2 & _) & B & C); [split; [reflexivity|split; constructor]|]. cbn [fst snd app] in *. repeat split; auto.
Qed.
(** Every attribute that is not recognised, and no other, is warned about. *)
Theorem C143_attributes : forall text known attrs st,
  validate_input text known attrs st = (forallb (fun a => existsb (usame a) known) attrs, warn_all (map text (filter (fun a => negb (existsb (usame a) known)) attrs)) st).
Proof.
  intros text known. induction attrs as [|a r IH]; intros st; cbn [validate_input forallb filter map]; [reflexivity|]. destruct (existsb (usame a) known); cbn [negb andb map].
  - apply IH.
  - rewrite IH. reflexivity.
Qed.
Example C143_instance : warn_all [lit "a"; lit "b"; lit "a"] ([], []) = ([(lit "a", 2); (lit "b", 1)], [lit "a"; lit "b"]).
Proof. vm_compute. reflexivity. Qed.

(** ** C144 The options choose the solver and sweeper they name *)
(** The documented table. *)
Definition corrected (ax : str) (k : SnKind) : Prop :=
  (ax = lit "dd" /\ k = CDD_DD) \/ (ax = lit "dd_ff" /\ k = CDD_DD_FF) \/ (ax = lit "sc" /\ k = CDD_SC) \/ (ax = lit "fw" /\ k = CDD_FW) \/ (ax = lit "pmb" /\ k = CDD_PMB).
(** Text as it is after removing surrounding space and capitals. *)
Definition means (t : option str) (default s : str) : Prop := match t with Some x => sanitize x = SVal s | None => s = default end.
Definition raw (t : option str) (default : str) : str := match t with Some x => x | None => default end.
Definition sn_table (eq ax : option str) (k : SnKind) : Prop :=
  (raw eq (lit "dd") = lit "dd" /\ ((raw ax (lit "dd") = lit "dd" /\ k = SN_DD) \/ (raw ax (lit "dd") = lit "sc" /\ k = SN_DD_SC)))
  \/ (raw eq (lit "dd") = lit "cdd" /\ exists a, means ax (lit "dd") a /\ corrected a k).
Lemma cdd_axial_spec : forall ax k, cdd_axial ax = SVal k <-> exists a, means ax (lit "dd") a /\ corrected a k.
Proof.
  intros ax k.
  assert (K : forall a, (if usame a (lit "dd") then SVal CDD_DD else if usame a (lit "dd_ff") then SVal CDD_DD_FF else if usame a (lit "sc") then SVal CDD_SC
     else if usame a (lit "fw") then SVal CDD_FW else if usame a (lit "pmb") then SVal CDD_PMB else SExc) = SVal k <-> corrected a k).
  { intros a. unfold corrected. split.
    - intros H. destruct (usame a (lit "dd")) eqn:E1; [apply usame_spec in E1; left; split; [exact E1|congruence]|].
      destruct (usame a (lit "dd_ff")) eqn:E2; [apply usame_spec in E2; right; left; split; [exact E2|congruence]|].
      destruct (usame a (lit "sc")) eqn:E3; [apply usame_spec in E3; right; right; left; split; [exact E3|congruence]|].
      destruct (usame a (lit "fw")) eqn:E4; [apply usame_spec in E4; right; right; right; left; split; [exact E4|congruence]|].
      destruct (usame a (lit "pmb")) eqn:E5; [apply usame_spec in E5; right; right; right; right; split; [exact E5|congruence]|discriminate].
    - intros [(-> & ->)|[(-> & ->)|[(-> & ->)|[(-> & ->)|(-> & ->)]]]]; reflexivity. }
  unfold cdd_axial, means. destruct ax as [x|]; cbn [sbind].
  - destruct (sanitize x) as [a| | |]; cbn [sbind].
    + rewrite K. split; [intros H; exists a; auto|intros (b & B & H); inversion B; subst; exact H].
    + split; [discriminate|intros (b & B & _); discriminate].
    + split; [discriminate|intros (b & B & _); discriminate].
    + split; [discriminate|intros (b & B & _); discriminate].
  - rewrite K. split; [intros H; eexists; split; [reflexivity|exact H]|intros (b & -> & H); exact H].
Qed.
Lemma cdd_san : sanitize (lit "cdd") = SVal (lit "cdd"). Proof. vm_compute. reflexivity. Qed.
Theorem C144_sn : forall fuel eq ax k, 2 <= fuel -> (sn_factory fuel eq ax = SVal k <-> sn_table eq ax k).
Proof.
  intros fuel eq ax k F. destruct fuel as [|[|fuel]]; try lia. cbn [sn_factory]. fold (raw eq (lit "dd")). unfold attr. fold (raw eq (lit "dd")). fold (raw ax (lit "dd")). unfold sn_table.
  destruct (usame (raw eq (lit "dd")) (lit "dd")) eqn:E.
  - apply usame_spec in E. rewrite E. split.
    + intros H. left. split; [reflexivity|]. destruct (usame (raw ax (lit "dd")) (lit "dd")) eqn:A; [apply usame_spec in A; inversion H; auto|].
      destruct (usame (raw ax (lit "dd")) (lit "sc")) eqn:B; [apply usame_spec in B; inversion H; auto|exfalso; congruence].
    + intros [(_ & [(-> & ->)|(-> & ->)])|(K & _)]; [reflexivity|reflexivity|discriminate].
  - apply usame_not in E. destruct (usame (raw eq (lit "dd")) (lit "cdd")) eqn:C.
    + apply usame_spec in C. rewrite C, cdd_san. cbn [sbind]. rewrite (proj2 (usame_spec (lit "cdd") (lit "cdd")) eq_refl). rewrite cdd_axial_spec.
      split; [intros H; right; auto|intros [(K & _)|(_ & H)]; [vm_compute in K; discriminate|exact H]].
    + apply usame_not in C. split; [discriminate|intros [(K & _)|(K & _)]; congruence].
Qed.
Theorem C144_2d3d : forall fuel eq ax k, 3 <= fuel -> (cdd_factory fuel eq ax = SVal k <->
  (means eq (lit "cdd") (lit "cdd") /\ exists a, means ax (lit "dd") a /\ corrected a k)
  \/ (raw eq (lit "cdd") = lit "dd" /\ sn_table eq ax k)).
Proof.
  intros fuel eq ax k F. destruct fuel as [|fuel]; [lia|]. assert (F2 : 2 <= fuel) by lia. unfold cdd_factory.
  destruct eq as [e|]; cbn [means raw].
  - destruct (sanitize e) as [e'| | |] eqn:S; cbn [sbind].
    + destruct (usame e' (lit "cdd")) eqn:E.
      * apply usame_spec in E. subst e'. rewrite cdd_axial_spec. split; [intros H; left; auto|]. intros [(_ & H)|(K & _)]; [exact H|]. subst e. vm_compute in S. discriminate.
      * apply usame_not in E. rewrite (C144_sn _ _ _ _ F2). split.
        -- intros H. right. split; [|exact H]. destruct H as [(K & _)|(K & _)]; [exact K|]. cbn [raw] in K. subst e. rewrite cdd_san in S. inversion S. congruence.
        -- intros [(K & _)|(_ & H)]; [inversion K; congruence|exact H].
    + split; [discriminate|]. intros [(K & _)|(K & _)]; [discriminate|]. subst e. vm_compute in S. discriminate.
    + split; [discriminate|]. intros [(K & _)|(K & _)]; [discriminate|]. subst e. vm_compute in S. discriminate.
    + split; [discriminate|]. intros [(K & _)|(K & _)]; [discriminate|]. subst e. vm_compute in S. discriminate.
  - cbn [sbind]. rewrite (proj2 (usame_spec (lit "cdd") (lit "cdd")) eq_refl), cdd_axial_spec. split; [intros H; left; auto|]. intros [(_ & H)|(K & _)]; [exact H|discriminate].
Qed.
(** The two factories calling each other always come to an end. *)
Theorem C144_ends : forall type eq ax, sweeper_factory 3 type eq ax <> SMore /\ forall fuel, 3 <= fuel -> sweeper_factory fuel type eq ax = sweeper_factory 3 type eq ax.
Proof.
  intros type eq ax.
  assert (NA : forall a, cdd_axial a <> SMore).
  { intros a. unfold cdd_axial. destruct a as [x|]; [unfold sanitize; destruct (existsb high x)|]; cbn [sbind]; try discriminate;
      repeat (match goal with |- (if ?c then _ else _) <> _ => destruct c end); discriminate. }
  assert (S2 : forall n e a, 2 <= n -> sn_factory n e a = sn_factory 2 e a /\ sn_factory n e a <> SMore).
  { intros n e a N. destruct n as [|[|n]]; try lia. cbn [sn_factory]. destruct (usame (attr "dd" e) (lit "dd")).
    - split; [reflexivity|]. destruct (usame _ _); [discriminate|]. destruct (usame _ _); discriminate.
    - destruct (usame (attr "dd" e) (lit "cdd")) eqn:C; [|split; [reflexivity|discriminate]]. apply usame_spec in C. rewrite C, cdd_san. cbn [sbind].
      rewrite (proj2 (usame_spec (lit "cdd") (lit "cdd")) eq_refl). split; [reflexivity|apply NA]. }
  assert (S3 : forall n e a, 3 <= n -> cdd_factory n e a = cdd_factory 3 e a /\ cdd_factory n e a <> SMore).
  { intros n e a N. destruct n as [|n]; [lia|]. assert (N2 : 2 <= n) by lia. destruct (S2 n e a N2) as [P Q]. unfold cdd_factory. rewrite P. rewrite P in Q. split; [reflexivity|].
    destruct e as [x|]; [unfold sanitize; destruct (existsb high x)|]; cbn [sbind]; try discriminate; (destruct (usame _ _); [apply NA|exact Q]). }
  assert (L3 : 3 <= 3) by lia. assert (L2 : 2 <= 3) by lia. unfold sweeper_factory. split.
  - destruct (usame _ _); [discriminate|]. destruct (usame _ _).
    { destruct (S2 3 eq ax L2) as [_ Q]. destruct (sn_factory 3 eq ax); cbn [sbind]; congruence. }
    destruct (usame _ _).
    { destruct (S3 3 eq ax L3) as [_ Q]. destruct (cdd_factory 3 eq ax); cbn [sbind]; congruence. }
    destruct (usame _ _); discriminate.
  - intros fuel F. assert (F2 : 2 <= fuel) by lia. rewrite (proj1 (S2 fuel eq ax F2)), (proj1 (S3 fuel eq ax F)), (proj1 (S2 3 eq ax L2)). reflexivity.
Qed.
Theorem C144_solver : forall t k, solver_factory t = Some k <->
  (t = Some (lit "eigenvalue") /\ k = EIGENVALUE) \/ (t = Some (lit "fixed_source") /\ k = FIXED_SOURCE) \/ (t = Some (lit "eigenvalue_mc") /\ k = EIGENVALUE_MC).
Proof.
  intros t k. unfold solver_factory, attr. destruct t as [s|].
  - split.
    + intros H. destruct (usame s (lit "eigenvalue")) eqn:A; [apply usame_spec in A; inversion H; subst; auto|].
      destruct (usame s (lit "fixed_source")) eqn:B; [apply usame_spec in B; inversion H; subst; auto|].
      destruct (usame s (lit "eigenvalue_mc")) eqn:C; [apply usame_spec in C; inversion H; subst; auto|discriminate].
    + intros [(E & ->)|[(E & ->)|(E & ->)]]; inversion E; subst; reflexivity.
  - split; [vm_compute; discriminate|intros [(E & _)|[(E & _)|(E & _)]]; discriminate].
Qed.
Theorem C144_threads : forall asked procs n w, threads asked procs = Some (n, w) <-> (1 <= asked)%Z /\ n = asked /\ (w = true <-> (procs < asked)%Z).
Proof.
  intros asked procs n w. unfold threads. destruct (asked <? 1)%Z eqn:E; [apply Z.ltb_lt in E|apply Z.ltb_ge in E].
  - split; [discriminate|]. intros (H & _). lia.
  - split.
    + intros H. inversion H; subst. repeat split; auto. intros K. apply Z.ltb_lt. exact K. intros K. apply Z.ltb_lt. exact K.
    + intros (_ & -> & H). f_equal. f_equal. destruct (procs <? asked)%Z eqn:K; [apply Z.ltb_lt in K; symmetry; apply H; exact K|]. apply Z.ltb_ge in K. destruct w; [|reflexivity]. assert (procs < asked)%Z by (apply H; reflexivity). lia.
Qed.
Example C144_instance : sweeper_factory 3 (Some (lit "sn")) (Some (lit "cdd")) (Some (lit " PMB")) = SVal (SW_SN CDD_PMB)
  /\ sweeper_factory 3 (Some (lit "2d3d")) None (Some (lit "fw")) = SVal (SW_2D3D CDD_FW) /\ sweeper_factory 3 (Some (lit "sn")) None (Some (lit "fw")) = SExc
  /\ solver_factory (Some (lit "eigenvalue")) = Some EIGENVALUE /\ threads 4 2 = Some (4%Z, true).
Proof. vm_compute. repeat split. Qed.

(** ** C145 Sn options mean the same alone and within 2D3D *)
Theorem C145_refuted :
  (exists eq ax k, sweeper_factory 3 (Some (lit "2d3d")) eq ax = SVal (SW_2D3D k) /\ sweeper_factory 3 (Some (lit "sn")) eq ax = SExc)
  /\ (exists ax k k', sweeper_factory 3 (Some (lit "2d3d")) None ax = SVal (SW_2D3D k) /\ sweeper_factory 3 (Some (lit "sn")) None ax = SVal (SW_SN k') /\ k <> k').
Proof. split; [exists (Some (lit "CDD")), None, CDD_DD|exists None, CDD_DD, SN_DD]; vm_compute; repeat split; discriminate. Qed.
(** They agree when the equation is given and spelt as documented. *)
Theorem C145_same : forall e ax, e = lit "dd" \/ e = lit "cdd" -> cdd_factory 3 (Some e) ax = sn_factory 3 (Some e) ax.
Proof.
  intros e ax [->| ->]; unfold cdd_factory, sn_factory.
  - reflexivity.
  - rewrite cdd_san. cbn [sbind attr]. rewrite cdd_san. reflexivity.
Qed.
Example C145_instance : cdd_factory 3 (Some (lit "cdd")) (Some (lit "SC ")) = SVal CDD_SC. Proof. vm_compute. reflexivity. Qed.
Print Assumptions C141_elapsed. Print Assumptions C141_toc. Print Assumptions C141_child. Print Assumptions C142_toc_refuted. Print Assumptions C142_start_refuted. Print Assumptions C142_first.
Print Assumptions C143_counts. Print Assumptions C143_attributes. Print Assumptions C144_sn. Print Assumptions C144_2d3d. Print Assumptions C144_ends. Print Assumptions C144_solver. Print Assumptions C144_threads.
Print Assumptions C145_refuted. Print Assumptions C145_same.
