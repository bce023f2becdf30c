(** C65: correction factors in files. *)
From Coq Require Import List Bool Reals Arith ZArith Lia Lra.
From Verif Require Import RUtil ListUtil McModel MatModel CorrModel.
Import ListNotations.
Open Scope nat_scope.

(** ** Specification *)
Definition shape_ok (h : Shape) : Prop := 0 < sh_nx h /\ 0 < sh_ny h /\ 0 < sh_nz h /\ 0 < sh_ng h /\ 0 < sh_na h.
(** An object holds one value per cell of each macroplane. *)
Definition fits (h : Shape) (s : Store) : Prop := forall f g a, g < sh_ng h -> a < sh_na h -> length (s f g a) = per h * sh_nz h.
(** A file with one macroplane's worth of values in each set. *)
Definition one_plane (h : Shape) (F : File) (w : Fac -> nat -> nat -> list R) : Prop :=
  forall f g a, g < sh_ng h -> a < sh_na h -> exists e, F f g a = Some (e, w f g a) /\ length (w f g a) = per h.
(** A tag that names its planes [b] .. [u] and a file with the values [w]. *)
Definition names (h : Shape) (t : Tag) (b u : nat) (w : Fac -> nat -> nat -> list R) : Prop :=
  dt_bot t = Some (Z.of_nat b) /\ dt_top t = Some (Z.of_nat u) /\ b < sh_nz h /\ u < sh_nz h /\ exists F, dt_file t = Some F /\ one_plane h F w.
(** Values of macroplane [ip]. *)
Definition holds (h : Shape) (l : list R) (ip : nat) (v : list R) : Prop := forall c, c < per h -> nth_error l (per h * ip + c) = nth_error v c.

(** ** Proofs *)
Lemma nth_skip : forall {A} (l : list A) n i, nth_error (skipn n l) i = nth_error l (n + i).
Proof. induction l as [|x l IH]; intros [|n] i; cbn; auto. now destruct i. Qed.
Lemma nth_firstn' : forall {A} (l : list A) n i, i < n -> nth_error (firstn n l) i = nth_error l i.
Proof. induction l as [|x l IH]; intros [|n] [|i] H; cbn; auto; try lia. apply IH. lia. Qed.
Lemma put_plane_ok : forall n v l ip, length v = n -> n * ip + n <= length l -> exists l', put_plane n v l (Z.of_nat ip) = Some l' /\ length l' = length l /\
  forall j, nth_error l' j = if (n * ip <=? j) && (j <? n * ip + n) then nth_error v (j - n * ip) else nth_error l j.
Proof.
  intros n v l ip Hv H. unfold put_plane. rewrite Nat2Z.id. set (a := n * ip) in *. clearbody a. destruct (Z.ltb_spec (Z.of_nat ip) 0); [lia|]. destruct (Nat.ltb_spec (length l) (a + n)); [lia|]. rewrite Hv, Nat.eqb_refl. cbn [orb negb].
  eexists. split; [reflexivity|]. split; [rewrite !app_length, firstn_length, skipn_length; lia|]. intros j. destruct (Nat.leb_spec a j); cbn [andb].
  - rewrite nth_error_app2 by (rewrite firstn_length; lia). rewrite firstn_length, Nat.min_l by lia. destruct (Nat.ltb_spec j (a + n)).
    + rewrite nth_error_app1 by lia. reflexivity.
    + rewrite nth_error_app2 by lia. rewrite nth_skip. f_equal. lia.
  - rewrite nth_error_app1 by (rewrite firstn_length; lia). apply nth_firstn'. lia.
Qed.
Lemma put_planes_ok : forall n v k ip l, length v = n -> n * (ip + k) <= length l -> exists l', put_planes n v k (Z.of_nat ip) l = Some l' /\ length l' = length l /\
  forall q c, c < n -> nth_error l' (n * q + c) = if (ip <=? q) && (q <? ip + k) then nth_error v c else nth_error l (n * q + c).
Proof.
  intros n v. induction k as [|k IH]; intros ip l Hv H.
  - exists l. cbn [put_planes]. split; [reflexivity|]. split; [reflexivity|]. intros q c Hc. destruct (Nat.leb_spec ip q); destruct (Nat.ltb_spec q (ip + 0)); cbn [andb]; auto; lia.
  - destruct (put_plane_ok n v l ip Hv) as (l1 & E1 & L1 & N1); [rewrite Nat.mul_add_distr_l, Nat.mul_succ_r in H; lia|]. cbn [put_planes]. rewrite E1. replace (Z.of_nat ip + 1)%Z with (Z.of_nat (S ip)) by lia.
    destruct (IH (S ip) l1 Hv) as (l2 & E2 & L2 & N2); [rewrite L1; now replace (S ip + k) with (ip + S k) by lia|]. exists l2. split; [exact E2|]. split; [congruence|]. intros q c Hc. rewrite N2 by exact Hc.
    destruct (Nat.leb_spec (S ip) q); cbn [andb].
    + destruct (Nat.ltb_spec q (S ip + k)); destruct (Nat.leb_spec ip q); destruct (Nat.ltb_spec q (ip + S k)); cbn [andb]; try lia; auto. rewrite N1. assert (n * S ip <= n * q) by (apply Nat.mul_le_mono_l; lia). rewrite Nat.mul_succ_r in *. destruct (Nat.leb_spec (n * ip) (n * q + c)); destruct (Nat.ltb_spec (n * q + c) (n * ip + n)); cbn [andb]; auto. exfalso. lia.
    + rewrite N1. destruct (Nat.leb_spec ip q); destruct (Nat.ltb_spec q (ip + S k)); cbn [andb]; try lia.
      * assert (q = ip) by lia. subst q. replace (n * ip + c - n * ip) with c by lia. destruct (Nat.leb_spec (n * ip) (n * ip + c)); destruct (Nat.ltb_spec (n * ip + c) (n * ip + n)); cbn [andb]; auto; lia.
      * assert (n * S q <= n * ip) by (apply Nat.mul_le_mono_l; lia). rewrite Nat.mul_succ_r in *. destruct (Nat.leb_spec (n * ip) (n * q + c)); cbn [andb]; auto. exfalso. lia.
Qed.
Lemma fac_eqb_spec : forall a b, fac_eqb a b = true <-> a = b.
Proof. intros [] []; cbn; split; congruence. Qed.
Lemma put_same : forall s f g a v, put s f g a v f g a = v.
Proof. intros. unfold put. rewrite !Nat.eqb_refl. destruct f; reflexivity. Qed.
Lemma put_other : forall s f g a v f' g' a', (f, g, a) <> (f', g', a') -> put s f g a v f' g' a' = s f' g' a'.
Proof.
  intros s f g a v f' g' a' N. unfold put. destruct (fac_eqb f f') eqn:E; cbn [andb]; auto. apply fac_eqb_spec in E. subst f'. destruct (Nat.eqb_spec g g'); cbn [andb]; auto. destruct (Nat.eqb_spec a a'); auto. subst. contradiction.
Qed.
(** What reading planes [b] .. [u] does to one set. *)
Definition updated (h : Shape) (b u : nat) (w l l' : list R) : Prop :=
  length l' = length l /\ forall q c, c < per h -> nth_error l' (per h * q + c) = if (b <=? q) && (q <=? u) then nth_error w c else nth_error l (per h * q + c).
Lemma read_set_ok : forall h F w b u f g a s, one_plane h F w -> fits h s -> u < sh_nz h -> b < sh_nz h -> g < sh_ng h -> a < sh_na h ->
  exists l', read_set h F (Z.of_nat b) (Z.of_nat u) (f, g, a) s = Got (put s f g a l') /\ updated h b u (w f g a) (s f g a) l'.
Proof.
  intros h F w b u f g a s O Fi Hu Hb Hg Ha. destruct (O f g a Hg Ha) as (e & EF & Lw). unfold read_set, h5_read. rewrite EF, Lw, Nat.eqb_refl.
  destruct (put_planes_ok (per h) (w f g a) (Z.to_nat (Z.of_nat u + 1 - Z.of_nat b)) b (s f g a) Lw) as (l' & E & L & N).
  { rewrite (Fi f g a Hg Ha). apply Nat.mul_le_mono_l. lia. }
  rewrite E. exists l'. split; [reflexivity|]. split; [exact L|]. intros q c Hc. rewrite N by exact Hc. destruct (Nat.leb_spec b q); destruct (Nat.ltb_spec q (b + Z.to_nat (Z.of_nat u + 1 - Z.of_nat b))); destruct (Nat.leb_spec q u); cbn [andb]; auto; lia.
Qed.
Lemma read_sets_ok : forall h F w b u, one_plane h F w -> u < sh_nz h -> b < sh_nz h -> forall l s, fits h s -> NoDup l -> (forall f g a, In (f, g, a) l -> g < sh_ng h /\ a < sh_na h) ->
  exists s', read_sets h F (Z.of_nat b) (Z.of_nat u) l s = Got s' /\ (forall f g a, In (f, g, a) l -> updated h b u (w f g a) (s f g a) (s' f g a)) /\ (forall f g a, ~ In (f, g, a) l -> s' f g a = s f g a).
Proof.
  intros h F w b u O Hu Hb. induction l as [|[[f g] a] l IH]; intros s Fi ND R.
  - exists s. cbn. repeat split; auto; contradiction.
  - inversion ND as [|? ? NI ND']; subst. destruct (R f g a (or_introl eq_refl)) as [Hg Ha]. destruct (read_set_ok h F w b u f g a s O Fi Hu Hb Hg Ha) as (l1 & E1 & U1). cbn [read_sets]. rewrite E1.
    destruct (IH (put s f g a l1)) as (s2 & E2 & A & B); auto.
    { intros f' g' a' Hg' Ha'. unfold put. destruct (fac_eqb f f' && (g =? g') && (a =? a')) eqn:Q; [|now apply Fi]. destruct U1 as [U1 _]. rewrite U1. now apply Fi. }
    { intros f' g' a' I. apply (R f' g' a'). now right. }
    exists s2. split; [exact E2|]. split.
    + intros f' g' a' [Q|I].
      * injection Q as <- <- <-. rewrite B by exact NI. rewrite put_same. exact U1.
      * assert ((f, g, a) <> (f', g', a')) by (intros Q; apply NI; now rewrite Q). rewrite <- (put_other s f g a l1 f' g' a') by assumption. now apply A.
    + intros f' g' a' N. rewrite B by (intros I; apply N; now right). apply put_other. intros Q. apply N. now left.
Qed.
Lemma NoDup_flat2 : forall {A B} (f : A -> list B) l, NoDup l -> (forall x, In x l -> NoDup (f x)) -> (forall x y b, In x l -> In y l -> In b (f x) -> In b (f y) -> x = y) -> NoDup (flat_map f l).
Proof.
  induction l as [|x l IH]; intros N D X; cbn; [constructor|]. inversion N as [|? ? NI N']; subst. 
  assert (T : forall p q : list B, NoDup p -> NoDup q -> (forall b, In b p -> ~ In b q) -> NoDup (p ++ q)).
  { induction p as [|b p IHp]; intros q P Q Y; cbn; auto. inversion P; subst. constructor; [|apply IHp; auto; intros c Hc; apply Y; now right]. intros I. apply in_app_or in I. destruct I as [I|I]; [contradiction|]. now apply (Y b (or_introl eq_refl)). }
  apply T; [apply D; now left|apply IH; auto|].
  - intros y Iy. apply D. now right.
  - intros y z b Iy Iz. apply X; now right.
  - intros b Ib I. apply in_flat_map in I. destruct I as (y & Iy & Iby). apply NI. rewrite (X x y b); auto; [now left|now right].
Qed.
Lemma all_sets_in : forall h f g a, In (f, g, a) (all_sets h) <-> g < sh_ng h /\ a < sh_na h.
Proof.
  intros h f g a. unfold all_sets. rewrite in_flat_map. split.
  - intros (g' & I & J). apply in_seq in I. apply in_flat_map in J. destruct J as (a' & K & L). apply in_seq in K. cbn in L. destruct L as [L|[L|[L|[]]]]; injection L as <- <- <-; lia.
  - intros [Hg Ha]. exists g. split; [apply in_seq; lia|]. apply in_flat_map. exists a. split; [apply in_seq; lia|]. destruct f; cbn; auto.
Qed.
Lemma all_sets_nodup : forall h, NoDup (all_sets h).
Proof.
  intros h. apply NoDup_flat2; [apply seq_NoDup| |].
  - intros g _. apply NoDup_flat2; [apply seq_NoDup| |].
    + intros a _. repeat constructor; cbn; intuition congruence.
    + intros a a' [[f g'] a2] _ _ I J. cbn in I, J. assert (a = a2) by (destruct I as [I|[I|[I|[]]]]; congruence). assert (a' = a2) by (destruct J as [J|[J|[J|[]]]]; congruence). congruence.
  - intros g g' [[f g2] a2] _ _ I J. apply in_flat_map in I. apply in_flat_map in J. destruct I as (a & _ & I). destruct J as (a' & _ & J). cbn in I, J. assert (g = g2) by (destruct I as [I|[I|[I|[]]]]; congruence). assert (g' = g2) by (destruct J as [J|[J|[J|[]]]]; congruence). congruence.
Qed.
Lemma read_all : forall h F w b u s, one_plane h F w -> fits h s -> u < sh_nz h -> b < sh_nz h -> exists s', read_sets h F (Z.of_nat b) (Z.of_nat u) (all_sets h) s = Got s' /\ fits h s' /\
  forall f g a, g < sh_ng h -> a < sh_na h -> updated h b u (w f g a) (s f g a) (s' f g a).
Proof.
  intros h F w b u s O Fi Hu Hb. destruct (read_sets_ok h F w b u O Hu Hb (all_sets h) s Fi (all_sets_nodup h)) as (s' & E & A & _); [intros f g a I; now apply all_sets_in in I|].
  exists s'. split; [exact E|]. assert (forall f g a, g < sh_ng h -> a < sh_na h -> updated h b u (w f g a) (s f g a) (s' f g a)) by (intros f g a Hg Ha; apply A; now apply all_sets_in). split; [|assumption].
  intros f g a Hg Ha. destruct (H f g a Hg Ha) as [L _]. rewrite L. now apply Fi.
Qed.
Lemma read_named : forall h t b u w s, names h t b u w -> fits h s -> exists s', read_single h t (Z.of_nat b) (Z.of_nat u) s = Got s' /\ fits h s' /\
  forall f g a, g < sh_ng h -> a < sh_na h -> updated h b u (w f g a) (s f g a) (s' f g a).
Proof.
  intros h t b u w s (B & U & Hb & Hu & F & EF & O) Fi. unfold read_single. rewrite B, U, !Z.eqb_refl, EF. cbn [negb orb]. now apply read_all.
Qed.

(** With a single macroplane, what was written is read back. *)
Theorem C65_round_trip_one_macroplane : forall h s s0 t, shape_ok h -> sh_nz h = 1 -> fits h s -> fits h s0 -> dt_file t = Some (output h s) ->
  (dt_bot t = None \/ dt_bot t = Some 0%Z) -> (dt_top t = None \/ dt_top t = Some 0%Z) ->
  exists s', from_data h [t] s0 = Got s' /\ forall f g a, g < sh_ng h -> a < sh_na h -> s' f g a = s f g a.
Proof.
  intros h s s0 t (X & Y & Z & G & A) N Fs F0 EF B U. unfold from_data. rewrite EF. unfold output at 1. destruct (Nat.ltb_spec 0 (sh_ng h)); [|lia]. destruct (Nat.ltb_spec 0 (sh_na h)); [|lia]. cbn [andb]. rewrite !Nat.eqb_refl. cbn [andb].
  assert (O : one_plane h (output h s) s).
  { intros f g a Hg Ha. unfold output. destruct (Nat.ltb_spec g (sh_ng h)); [|lia]. destruct (Nat.ltb_spec a (sh_na h)); [|lia]. cbn [andb]. eexists. split; [reflexivity|]. rewrite (Fs f g a Hg Ha), N. lia. }
  destruct (read_all h (output h s) s 0 0 s0 O F0) as (s' & E & Fi & Up); try lia. exists s'. split.
  - unfold read_single. rewrite EF, N. change (Z.of_nat 1 - 1)%Z with 0%Z. destruct B as [->| ->]; destruct U as [->| ->]; exact E.
  - intros f g a Hg Ha. destruct (Up f g a Hg Ha) as [L K]. assert (Ls := Fs f g a Hg Ha). assert (Li := Fi f g a Hg Ha). rewrite N in *. apply (nth_ext _ _ 0%R 0%R); [lia|]. intros c Hc. specialize (K 0 c ltac:(lia)). cbn [Nat.leb andb] in K. rewrite Nat.mul_0_r in K. cbn [Nat.add] in K.
    apply (f_equal (fun o => match o with Some r => r | None => 0%R end)) in K. rewrite !nth_error_nth' with (d := 0%R) in K by lia. exact K.
Qed.
Print Assumptions C65_round_trip_one_macroplane.

Lemma read_sets_size : forall h F bot top f g a l s, In (f, g, a) l -> (forall e v, F f g a = Some (e, v) -> length v <> per h) -> forall s', read_sets h F bot top l s <> Got s'.
Proof.
  intros h F bot top f g a. induction l as [|x l IH]; intros s I Sz s' E; [destruct I|]. cbn [read_sets] in E. destruct I as [->|I].
  - unfold read_set, h5_read in E. destruct (F f g a) as [[e v]|] eqn:EF; [|discriminate]. specialize (Sz e v eq_refl). destruct (Nat.eqb_spec (length v) (per h)); [contradiction|discriminate].
  - destruct (read_set h F bot top x s) as [s1| |]; try discriminate. now apply (IH s1 I Sz s' E).
Qed.
(** With two or more macroplanes it never is, whatever plane bounds the tag names. *)
Lemma written_unreadable : forall h s s0 t, shape_ok h -> 2 <= sh_nz h -> fits h s -> dt_file t = Some (output h s) -> forall s', from_data h [t] s0 <> Got s'.
Proof.
  intros h s s0 t (X & Y & Z & G & A) N Fs EF s' E. unfold from_data in E. rewrite EF in E. unfold output at 1 in E. destruct (Nat.ltb_spec 0 (sh_ng h)); [|lia]. destruct (Nat.ltb_spec 0 (sh_na h)); [|lia]. cbn [andb] in E. rewrite !Nat.eqb_refl in E. cbn [andb] in E.
  unfold read_single in E. destruct (_ || _) in E; [discriminate|]. rewrite EF in E. revert E. apply (read_sets_size h _ _ _ AX 0 0); [now apply all_sets_in|].
  intros e v. unfold output. destruct (Nat.ltb_spec 0 (sh_ng h)); [|lia]. destruct (Nat.ltb_spec 0 (sh_na h)); [|lia]. cbn [andb]. intros [= <- <-]. rewrite Fs by lia. unfold per. nia.
Qed.
Definition hx (nz : nat) : Shape := mkShape 1 1 nz 1 1.
Lemma fresh_fits : forall h, fits h (fresh h).
Proof. intros h f g a _ _. unfold fresh. apply repeat_length. Qed.
Theorem C65_round_trip_refuted : exists h s, shape_ok h /\ fits h s /\ forall s0 b u s', from_data h [mkTag b u (Some (output h s))] s0 <> Got s'.
Proof.
  exists (hx 2), (fresh (hx 2)). split; [unfold shape_ok; cbn; lia|]. split; [apply fresh_fits|]. intros s0 b u s'. apply (written_unreadable (hx 2) (fresh (hx 2))); [unfold shape_ok; cbn; lia|cbn; lia|apply fresh_fits|reflexivity].
Qed.
Print Assumptions C65_round_trip_refuted.

(** Several tags.  Those that name their planes, without overlap, are read: each macroplane named gets its file's values, the
    others are left as they were. *)
Definition tag_of (h : Shape) (ts : list Tag) (i b u : nat) (w : Fac -> nat -> nat -> list R) : Prop := exists t, nth_error ts i = Some t /\ names h t b u w.
Definition all_named (h : Shape) (ts : list Tag) : Prop := forall t, In t ts -> exists b u w, names h t b u w.
Definition apart (h : Shape) (ts : list Tag) : Prop := forall i j b u w b' u' w' ip, tag_of h ts i b u w -> tag_of h ts j b' u' w' -> b <= ip <= u -> b' <= ip <= u' -> i = j.
Lemma names_fun : forall h t b u w b' u' w', names h t b u w -> names h t b' u' w' -> b = b' /\ u = u' /\ forall f g a, g < sh_ng h -> a < sh_na h -> w f g a = w' f g a.
Proof.
  intros h t b u w b' u' w' (A1 & A2 & _ & _ & F & A3 & A4) (B1 & B2 & _ & _ & F' & B3 & B4). split; [|split].
  - rewrite A1 in B1. injection B1 as B1. lia.
  - rewrite A2 in B2. injection B2 as B2. lia.
  - intros f g a Hg Ha. destruct (A4 f g a Hg Ha) as (e & E & _). destruct (B4 f g a Hg Ha) as (e' & E' & _). congruence.
Qed.
Lemma mark_ok : forall k ip d, ip + k <= length d -> (forall q, ip <= q < ip + k -> nth_error d q = Some false) -> exists d', mark k (Z.of_nat ip) d = Got d' /\ length d' = length d /\
  forall q, nth_error d' q = if (ip <=? q) && (q <? ip + k) then Some true else nth_error d q.
Proof.
  induction k as [|k IH]; intros ip d L F.
  - exists d. cbn [mark]. repeat split. intros q. destruct (Nat.leb_spec ip q); destruct (Nat.ltb_spec q (ip + 0)); cbn [andb]; auto; lia.
  - cbn [mark]. rewrite Nat2Z.id. rewrite (F ip) by lia. destruct (set_nth d ip true) as [d1|] eqn:E.
    + destruct (set_nth_spec _ _ _ _ E) as (L1 & _ & N1). replace (Z.of_nat ip + 1)%Z with (Z.of_nat (S ip)) by lia. destruct (IH (S ip) d1) as (d2 & E2 & L2 & N2); [lia| |].
      { intros q Hq. rewrite N1. destruct (Nat.eqb_spec q ip); [lia|]. apply F. lia. }
      exists d2. split; [exact E2|]. split; [congruence|]. intros q. rewrite N2, N1. destruct (Nat.leb_spec (S ip) q); destruct (Nat.ltb_spec q (S ip + k)); destruct (Nat.leb_spec ip q); destruct (Nat.ltb_spec q (ip + S k)); destruct (Nat.eqb_spec q ip); cbn [andb]; auto; lia.
    + exfalso. assert (ip < length d) as Hd by lia. clear - E Hd. revert ip E Hd. induction d as [|x d IHd]; intros [|i] E Hd; cbn in *; try lia; try discriminate. destruct (set_nth d i true) eqn:Q; [discriminate|]. apply (IHd i Q). lia.
Qed.
Lemma check_ok : forall h ts d, all_named h ts -> apart h ts -> length d = sh_nz h -> (forall i b u w ip, tag_of h ts i b u w -> b <= ip <= u -> nth_error d ip = Some false) -> exists d', check_tags (Z.of_nat (sh_nz h)) ts d = Got d'.
Proof.
  intros h. induction ts as [|t ts IH]; intros d N A L F; [exists d; reflexivity|]. destruct (N t (or_introl eq_refl)) as (b & u & w & Nm). assert (T0 : tag_of h (t :: ts) 0 b u w) by (exists t; auto).
  assert (Nm' := Nm). destruct Nm' as (B & U & Hb & Hu & G & EF & O). cbn [check_tags]. rewrite B, U, EF.
  destruct (Z.ltb_spec (Z.of_nat b) 0); [lia|]. destruct (Z.leb_spec (Z.of_nat (sh_nz h)) (Z.of_nat b)); [lia|]. destruct (Z.ltb_spec (Z.of_nat u) 0); [lia|]. destruct (Z.leb_spec (Z.of_nat (sh_nz h)) (Z.of_nat u)); [lia|]. cbn [orb].
  destruct (mark_ok (Z.to_nat (Z.of_nat u + 1 - Z.of_nat b)) b d) as (d1 & E1 & L1 & N1); [lia|intros q Hq; apply (F 0 b u w q T0); lia|]. rewrite E1. apply IH.
  - intros t' I. apply N. now right.
  - intros i j b1 u1 w1 b2 u2 w2 ip (t1 & I1 & M1) (t2 & I2 & M2) R1 R2. assert (S i = S j); [|lia]. apply (A (S i) (S j) b1 u1 w1 b2 u2 w2 ip); auto; [exists t1; auto|exists t2; auto].
  - congruence.
  - intros i b1 u1 w1 ip (t1 & I1 & M1) R1. rewrite N1. assert (T1 : tag_of h (t :: ts) (S i) b1 u1 w1) by (exists t1; auto). destruct (Nat.leb_spec b ip); destruct (Nat.ltb_spec ip (b + Z.to_nat (Z.of_nat u + 1 - Z.of_nat b))); cbn [andb]; try (apply (F (S i) b1 u1 w1 ip T1 R1)).
    exfalso. assert (0 = S i); [|lia]. apply (A 0 (S i) b u w b1 u1 w1 ip T0 T1); lia.
Qed.
Lemma read_tags_ok : forall h ts s, all_named h ts -> apart h ts -> fits h s -> exists s', read_tags h ts s = Got s' /\ fits h s' /\
  (forall i b u w ip f g a, tag_of h ts i b u w -> b <= ip <= u -> g < sh_ng h -> a < sh_na h -> holds h (s' f g a) ip (w f g a)) /\
  (forall ip f g a c, (forall i b u w, tag_of h ts i b u w -> ~ b <= ip <= u) -> g < sh_ng h -> a < sh_na h -> c < per h -> nth_error (s' f g a) (per h * ip + c) = nth_error (s f g a) (per h * ip + c)).
Proof.
  intros h. induction ts as [|t ts IH]; intros s N A Fi.
  - exists s. cbn. split; [reflexivity|]. split; [exact Fi|]. split; [|auto]. intros i b u w ip f g a (t & E & _). destruct i; discriminate.
  - destruct (N t (or_introl eq_refl)) as (b & u & w & Nm). assert (T0 : tag_of h (t :: ts) 0 b u w) by (exists t; auto). cbn [read_tags].
    destruct (read_named h t b u w s Nm Fi) as (s1 & E1 & F1 & U1). assert (Nm' := Nm). destruct Nm' as (B & U & _). rewrite B, U, E1.
    destruct (IH s1) as (s2 & E2 & F2 & H2 & K2); auto.
    { intros t' I. apply N. now right. }
    { intros i j b1 u1 w1 b2 u2 w2 ip (t1 & I1 & M1) (t2 & I2 & M2) R1 R2. assert (S i = S j); [|lia]. apply (A (S i) (S j) b1 u1 w1 b2 u2 w2 ip); auto; [exists t1; auto|exists t2; auto]. }
    exists s2. split; [exact E2|]. split; [exact F2|]. split.
    + intros [|i] b1 u1 w1 ip f g a (t1 & I1 & M1) R1 Hg Ha; cbn [nth_error] in I1.
      * injection I1 as <-. destruct (names_fun h t b u w b1 u1 w1 Nm M1) as (<- & <- & Ew). intros c Hc. rewrite K2; auto.
        { destruct (U1 f g a Hg Ha) as [_ V]. rewrite V by exact Hc. destruct (Nat.leb_spec b ip); destruct (Nat.leb_spec ip u); cbn [andb]; try lia. now rewrite (Ew f g a Hg Ha). }
        intros i b2 u2 w2 (t2 & I2 & M2) R2. assert (0 = S i); [|lia]. apply (A 0 (S i) b u w b2 u2 w2 ip T0); auto. exists t2. auto.
      * apply (H2 i b1 u1 w1 ip f g a); auto. exists t1. auto.
    + intros ip f g a c NI Hg Ha Hc. rewrite K2; auto.
      * destruct (U1 f g a Hg Ha) as [_ V]. rewrite V by exact Hc. specialize (NI 0 b u w T0). destruct (Nat.leb_spec b ip); destruct (Nat.leb_spec ip u); cbn [andb]; auto; lia.
      * intros i b1 u1 w1 (t1 & I1 & M1) R1. apply (NI (S i) b1 u1 w1); auto. exists t1. auto.
Qed.
Theorem C65_several_files : forall h ts s, fits h s -> 2 <= length ts -> all_named h ts -> apart h ts -> exists s', from_data h ts s = Got s' /\
  (forall i b u w ip f g a, tag_of h ts i b u w -> b <= ip <= u -> g < sh_ng h -> a < sh_na h -> holds h (s' f g a) ip (w f g a)) /\
  (forall ip f g a c, (forall i b u w, tag_of h ts i b u w -> ~ b <= ip <= u) -> g < sh_ng h -> a < sh_na h -> c < per h -> nth_error (s' f g a) (per h * ip + c) = nth_error (s f g a) (per h * ip + c)).
Proof.
  intros h ts s Fi L N A. destruct (read_tags_ok h ts s N A Fi) as (s' & E & _ & H & K). exists s'. split; [|auto].
  replace (from_data h ts s) with (read_multi h ts s) by (destruct ts as [|? [|? ?]]; cbn in L; try lia; reflexivity). unfold read_multi.
  destruct (check_ok h ts (repeat false (sh_nz h)) N A (repeat_length _ _)) as (d & Ed); [|now rewrite Ed, E].
  intros i b u w ip (t & _ & _ & _ & _ & Hu & _) R. apply nth_error_repeat. lia.
Qed.
Print Assumptions C65_several_files.
(** Tags whose planes overlap are refused. *)
Lemma mark_hit : forall k ip d q d', ip <= q < ip + k -> nth_error d q = Some true -> mark k (Z.of_nat ip) d <> Got d'.
Proof.
  induction k as [|k IH]; intros ip d q d' R E G; [lia|]. cbn [mark] in G. rewrite Nat2Z.id in G. destruct (nth_error d ip) as [[]|] eqn:Ei; try discriminate. destruct (set_nth d ip true) as [d1|] eqn:Es; [|discriminate].
  destruct (set_nth_spec _ _ _ _ Es) as (_ & _ & N1). replace (Z.of_nat ip + 1)%Z with (Z.of_nat (S ip)) in G by lia. assert (q <> ip) by congruence. revert G. apply (IH (S ip) d1 q); [lia|]. rewrite N1. destruct (Nat.eqb_spec q ip); [lia|exact E].
Qed.
Lemma mark_keeps : forall k ip d d', mark k (Z.of_nat ip) d = Got d' -> (forall q, nth_error d q = Some true -> nth_error d' q = Some true) /\ (forall q, ip <= q < ip + k -> nth_error d' q = Some true).
Proof.
  induction k as [|k IH]; intros ip d d' G; cbn [mark] in G; [injection G as <-; split; [auto|intros; lia]|]. rewrite Nat2Z.id in G. destruct (nth_error d ip) as [[]|] eqn:Ei; try discriminate. destruct (set_nth d ip true) as [d1|] eqn:Es; [|discriminate].
  destruct (set_nth_spec _ _ _ _ Es) as (_ & _ & N1). replace (Z.of_nat ip + 1)%Z with (Z.of_nat (S ip)) in G by lia. destruct (IH (S ip) d1 d' G) as [A B]. split.
  - intros q Eq. apply A. rewrite N1. destruct (Nat.eqb_spec q ip); auto.
  - intros q R. destruct (Nat.eq_dec q ip) as [->|]; [|apply B; lia]. apply A. now rewrite N1, Nat.eqb_refl.
Qed.
Lemma check_hit : forall h ts d i b u w ip d', tag_of h ts i b u w -> b <= ip <= u -> nth_error d ip = Some true -> check_tags (Z.of_nat (sh_nz h)) ts d <> Got d'.
Proof.
  intros h. induction ts as [|t ts IH]; intros d i b u w ip d' (t1 & I & M) R E G; [destruct i; discriminate|]. cbn [check_tags] in G. destruct ((_ <? 0)%Z || _) eqn:Q1 in G; [discriminate|]. destruct ((_ <? 0)%Z || _) eqn:Q2 in G; [discriminate|]. destruct (dt_file t) eqn:QF; [|discriminate].
  destruct (mark _ _ d) as [d1| |] eqn:Em; try discriminate. destruct i as [|i]; cbn [nth_error] in I.
  - injection I as <-. destruct M as (B & U & _). rewrite B, U in Em. revert Em. apply (mark_hit _ b d ip); [lia|exact E].
  - revert G. apply (IH d1 i b u w ip); [exists t1; auto|exact R|]. apply orb_false_iff in Q1. destruct Q1 as [Q1 _]. apply Z.ltb_ge in Q1. rewrite <- (Z2Nat.id _ Q1) in Em. destruct (mark_keeps _ _ _ _ Em) as [Kp _]; now apply Kp.
Qed.
Theorem C65_overlap_refused : forall h ts s i j b u w b' u' w' ip s', i < j -> tag_of h ts i b u w -> tag_of h ts j b' u' w' -> b <= ip <= u -> b' <= ip <= u' -> from_data h ts s <> Got s'.
Proof.
  intros h ts s i j b u w b' u' w' ip s' Hij Ti Tj Ri Rj. assert (Ln : j < length ts) by (destruct Tj as (t & E & _); apply nth_error_Some; congruence).
  replace (from_data h ts s) with (read_multi h ts s) by (destruct ts as [|? [|? ?]]; cbn in Ln; try lia; reflexivity). unfold read_multi.
  destruct (check_tags _ ts _) as [d| |] eqn:E; try discriminate. exfalso. revert E. generalize (repeat false (sh_nz h)). revert i j Hij Ti Tj Ln. induction ts as [|t ts IH]; intros i j Hij Ti Tj Ln d0 G; [cbn in Ln; lia|].
  destruct j as [|j]; [lia|]. destruct Tj as (t2 & I2 & M2). cbn [nth_error] in I2. cbn [check_tags] in G. destruct ((_ <? 0)%Z || _) eqn:Q1 in G; [discriminate|]. destruct ((_ <? 0)%Z || _) eqn:Q2 in G; [discriminate|]. destruct (dt_file t) eqn:QF; [|discriminate].
  destruct (mark _ _ d0) as [d1| |] eqn:Em; try discriminate. destruct i as [|i].
  - destruct Ti as (t1 & I1 & M1). cbn [nth_error] in I1. injection I1 as <-. destruct M1 as (B & U & _). rewrite B, U in Em. revert G. apply (check_hit h ts d1 j b' u' w' ip); [exists t2; auto|exact Rj|]. apply (mark_keeps _ _ _ _ Em). lia.
  - destruct Ti as (t1 & I1 & M1). cbn [nth_error] in I1. apply (IH i j) with (l := d1); auto; [lia|exists t1; auto|exists t2; auto|cbn in Ln; lia].
Qed.
Print Assumptions C65_overlap_refused.

Definition fx (v : R) : File := fun _ g a => if (g =? 0) && (a =? 0) then Some ([1; 1; 1], [v]) else None.
Definition wx (v : R) : Fac -> nat -> nat -> list R := fun _ _ _ => [v].
Lemma fx_plane : forall n v, one_plane (hx n) (fx v) (wx v).
Proof. intros n v f g a Hg Ha. cbn in Hg, Ha. assert (g = 0) by lia. assert (a = 0) by lia. subst. exists [1; 1; 1]. split; reflexivity. Qed.
Definition tx (b u : Z) (v : R) : Tag := mkTag (Some b) (Some u) (Some (fx v)).
Lemma tx_names : forall n b u v, b < n -> u < n -> names (hx n) (tx (Z.of_nat b) (Z.of_nat u) v) b u (wx v).
Proof. intros n b u v Hb Hu. repeat (split; [auto|]). exists (fx v). split; [reflexivity|apply fx_plane]. Qed.
Definition tags3 : list Tag := [tx 0 0 7; tx 1 1 8]%Z.
Lemma tags3_ok : all_named (hx 3) tags3 /\ apart (hx 3) tags3.
Proof.
  pose proof (tx_names 3 0 0 7 ltac:(lia) ltac:(lia)) as A. pose proof (tx_names 3 1 1 8 ltac:(lia) ltac:(lia)) as B. split.
  - intros t [<-|[<-|[]]]; eauto.
  - intros i j b u w b' u' w' ip (t & I & M) (t' & I' & M') R R'. destruct i as [|[|[|]]]; destruct j as [|[|[|]]]; cbn in I, I'; try discriminate; auto; injection I as <-; injection I' as <-.
    + destruct (names_fun _ _ _ _ _ _ _ _ A M) as (<- & <- & _). destruct (names_fun _ _ _ _ _ _ _ _ B M') as (<- & <- & _). lia.
    + destruct (names_fun _ _ _ _ _ _ _ _ B M) as (<- & <- & _). destruct (names_fun _ _ _ _ _ _ _ _ A M') as (<- & <- & _). lia.
Qed.
Example C65_instance : shape_ok (hx 1) /\ fits (hx 1) (fun _ _ _ => [7%R]) /\ (exists s', from_data (hx 1) [mkTag None None (Some (output (hx 1) (fun _ _ _ => [7%R])))] (fresh (hx 1)) = Got s' /\ s' BETA 0 0 = [7%R]) /\
  fits (hx 3) (fresh (hx 3)) /\ all_named (hx 3) tags3 /\ apart (hx 3) tags3.
Proof.
  assert (S : shape_ok (hx 1)) by (unfold shape_ok; cbn; lia). assert (Fi : fits (hx 1) (fun _ _ _ => [7%R])) by (intros f g a _ _; reflexivity).
  split; [exact S|]. split; [exact Fi|]. split; [|split; [apply fresh_fits|exact tags3_ok]].
  destruct (C65_round_trip_one_macroplane (hx 1) (fun _ _ _ => [7%R]) (fresh (hx 1)) (mkTag None None (Some (output (hx 1) (fun _ _ _ => [7%R])))) S eq_refl Fi (fresh_fits _) eq_refl (or_introl eq_refl) (or_introl eq_refl)) as (s' & E & K).
  exists s'. split; [exact E|]. apply K; cbn; lia.
Qed.
(** Macroplane 2 is named by no tag: the data are taken without complaint and it keeps the value of a new object. *)
Theorem C65_uncovered_refuted : exists h ts s', 3 = sh_nz h /\ all_named h ts /\ (forall i b u w, tag_of h ts i b u w -> ~ b <= 2 <= u) /\ from_data h ts (fresh h) = Got s' /\ nth_error (s' AX 0 0) 2 = Some 0.5%R.
Proof.
  destruct tags3_ok as [A B]. destruct (C65_several_files (hx 3) tags3 (fresh (hx 3)) (fresh_fits _) ltac:(cbn; lia) A B) as (s' & E & _ & K). exists (hx 3), tags3, s'. split; [reflexivity|]. split; [exact A|].
  assert (NI : forall i b u w, tag_of (hx 3) tags3 i b u w -> ~ b <= 2 <= u).
  { pose proof (tx_names 3 0 0 7 ltac:(lia) ltac:(lia)) as X. pose proof (tx_names 3 1 1 8 ltac:(lia) ltac:(lia)) as Y. intros i b u w (t & I & M) R. destruct i as [|[|[|]]]; cbn in I; try discriminate; injection I as <-.
    - destruct (names_fun _ _ _ _ _ _ _ _ X M) as (<- & <- & _). lia.
    - destruct (names_fun _ _ _ _ _ _ _ _ Y M) as (<- & <- & _). lia. }
  split; [exact NI|]. split; [exact E|]. apply (K 2 AX 0 0 0 NI); cbn; lia.
Qed.
Print Assumptions C65_uncovered_refuted.
(** The upper bound may be left out according to the checks, which take it to be the top of the core; the data are then refused
    unless there is one macroplane only. *)
Lemma default_top : forall h ts t s, 2 <= sh_nz h -> 2 <= length ts -> In t ts -> dt_top t = None -> forall s', from_data h ts s <> Got s'.
Proof.
  intros h ts t s N L I T s' E. replace (from_data h ts s) with (read_multi h ts s) in E by (destruct ts as [|? [|? ?]]; cbn in L; try lia; reflexivity). unfold read_multi in E. destruct (check_tags _ _ _); try discriminate. clear L. revert s E. induction ts as [|t' ts IH]; intros s E; [destruct I|]. cbn [read_tags] in E. destruct I as [->|I].
  - unfold read_single in E. rewrite T in E. destruct (Z.eqb_spec (Z.of_nat (sh_nz h) - 1) 0); [lia|]. cbn [negb] in E. rewrite orb_true_r in E. discriminate.
  - destruct (read_single h t' _ _ s) as [s1| |]; try discriminate. now apply (IH I s1).
Qed.
Theorem C65_default_top_refuted : exists h ts d, check_tags (Z.of_nat (sh_nz h)) ts (repeat false (sh_nz h)) = Got d /\ Forall (fun b => b = true) d /\ (forall t, In t ts -> exists F w, dt_file t = Some F /\ one_plane h F w) /\ forall s s', from_data h ts s <> Got s'.
Proof.
  exists (hx 2), [tx 0 0 7; mkTag (Some 1%Z) None (Some (fx 8))], [true; true]. split; [reflexivity|]. split; [repeat constructor|]. split.
  - intros t [<-|[<-|[]]]; do 2 eexists; (split; [reflexivity|apply fx_plane]).
  - intros s s'. apply (default_top (hx 2) _ (mkTag (Some 1%Z) None (Some (fx 8)))); cbn; auto; lia.
Qed.
Print Assumptions C65_default_top_refuted.
