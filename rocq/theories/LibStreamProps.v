(** C202: a material library made from an open file, against one made from an input element. *)
From Coq Require Import Ascii String List Bool Arith ZArith Reals Lia Lra.
From Verif Require Import StrModel StrProps MatModel MatProps LibFileModel LibFileProofs LibFileProps LibStreamModel.
Import ListNotations.
Local Open Scope char_scope.
Local Open Scope nat_scope.
Local Open Scope list_scope.

(** ** Spec: lines that start with the numbers wanted *)
(** The lines of the contents from line [i] on start with the numbers of [rows], [k] on each; what follows them is free. *)
Definition Begin (k i : nat) (ls : list str) (rows : list (list Num)) : Prop :=
  forall g ns, nth_error rows g = Some ns -> Starts ns (nth (i + g) ls []) /\ List.length ns = k.
(** [Leads ns s r]: [s] starts with the numbers [ns], followed by [r]. *)
Inductive Leads : list Num -> str -> str -> Prop :=
  | Leads_nil : forall s, Leads [] s s
  | Leads_blank : forall c n ns s r, isspace c = true -> Leads (n :: ns) s r -> Leads (n :: ns) (c :: s) r
  | Leads_num : forall n ns t r, num_ok n -> ends n t -> Leads ns t r -> Leads (n :: ns) (num_text n ++ t) r.
(** What comes next is there but cannot be a number. *)
Definition Wordy (r : str) : Prop := exists b c q, blank b /\ r = b ++ c :: q /\ isspace c = false /\ isdigit c = false /\ ~ In c ["."; "+"; "-"].
Definition zero : Num := mkNum None ["0"] None None.
(** A row of the scattering matrix: the numbers wanted, or all but the last, a word in its place counting as zero. *)
Definition ScatRow (k : nat) (l : str) (ns : list Num) : Prop :=
  List.length ns = k /\ (Starts ns l \/ exists ms r, ns = ms ++ [zero] /\ Leads ms l r /\ Wordy r).
Definition BeginSc (k i : nat) (ls : list str) (rows : list (list Num)) : Prop := forall g ns, nth_error rows g = Some ns -> ScatRow k (nth (i + g) ls []) ns.
(** A material of [ng] groups whose heading is on line [i]. *)
Definition LooseMat (ng i : nat) (ls : list str) (m : MatText) : Prop :=
  Named (nth i ls []) (mt_name m) /\ (List.length (mt_xs m) = ng /\ Begin 4 (i + 1) ls (mt_xs m)) /\ (List.length (mt_sc m) = ng /\ BeginSc ng (i + 1 + ng) ls (mt_sc m)).
(** The second and third lines: the numbers of groups and of materials, and the group bounds. *)
Definition Header (ls : list str) (ng nm : nat) (bs : list Num) : Prop :=
  (exists r q, Count (nth 1 ls []) (Z.of_nat ng) r /\ Count r (Z.of_nat nm) q) /\ Starts bs (nth 2 ls []) /\ List.length bs = ng.
Definition place (ng j : nat) : nat := 3 + j * (1 + 2 * ng).

(** ** Lines *)
Lemma row_reads : forall ns s, Starts ns s -> stream_row (List.length ns) s = SVal (map num_dec ns).
Proof.
  intros ns s H. assert (G : get_bounds (List.length ns) s = SVal (map num_dec ns)) by (apply get_bounds_iff; eauto). clear H. revert s G.
  induction ns as [|n ns IH]; intros s G; [reflexivity|]. cbn [List.length get_bounds stream_row map] in *. destruct (get_double s) as [[v r]|]; [|discriminate].
  destruct (get_bounds (List.length ns) r) as [l| | |] eqn:B; try discriminate. cbn [sbind] in G. inversion G; subst. rewrite (IH r B). reflexivity.
Qed.
Lemma ltrim_none : forall s, ltrim s = [] -> get_double s = None.
Proof. intros s H. unfold get_double. rewrite H. reflexivity. Qed.
Lemma four_reads : forall ns s, Starts ns s -> List.length ns = 4 -> stream_four s = SVal (map num_dec ns).
Proof.
  intros ns s H L. assert (G : get_bounds 4 s = SVal (map num_dec ns)) by (apply get_bounds_iff; eauto). unfold stream_four. destruct (ltrim s) eqn:E; [|exact G].
  cbn [get_bounds] in G. rewrite (ltrim_none s E) in G. discriminate.
Qed.
Lemma row_short : forall k ns s, Nums ns s -> List.length ns < k -> stream_row k s = SUB.
Proof.
  induction k as [|k IH]; intros ns s H L; [lia|]. cbn [stream_row]. destruct ns as [|n ns].
  - apply Nums_nil_blank in H. pose proof (ltrim_blank_nil s H) as E. rewrite (ltrim_none s E), E. reflexivity.
  - destruct (Nums_split _ _ _ H) as [b [r [B [-> [N [E R]]]]]]. rewrite (get_double_complete n r b N E B). rewrite (IH ns r R) by (cbn in L; lia). reflexivity.
Qed.

(** ** Rows *)
Lemma rows_read : forall f (P : list Num -> str -> Prop) (F : forall ns s, P ns s -> f s = SVal (map num_dec ns)) rows i ls,
  (forall g ns, nth_error rows g = Some ns -> P ns (nth (i + g) ls [])) ->
  stream_rows pop f (List.length rows) (skipn i ls) = SVal (map (map num_dec) rows, skipn (i + List.length rows) ls).
Proof.
  intros f P F. induction rows as [|ns rows IH]; intros i ls H; cbn [List.length stream_rows map]; [rewrite Nat.add_0_r; reflexivity|].
  unfold with_line. unfold pop at 1. rewrite hd_nth, nth_skip, tl_skip, skip_skip. pose proof (H 0 ns eq_refl) as S1. rewrite (F ns _ S1). cbn [sbind].
  rewrite IH; [cbn [sbind fst snd]; do 3 f_equal; lia|]. intros g x X. specialize (H (S g) x X). replace (i + 1 + g) with (i + S g) by lia. exact H.
Qed.
(** Rows of which one is undefined, after some that can be read. *)
Lemma rows_stop : forall f (P : list Num -> str -> Prop) (F : forall ns s, P ns s -> f s = SVal (map num_dec ns)) rows i ls n,
  (forall g ns, nth_error rows g = Some ns -> P ns (nth (i + g) ls [])) ->
  List.length rows < n -> f (nth (i + List.length rows) ls []) = SUB -> stream_rows pop f n (skipn i ls) = SUB.
Proof.
  intros f P F. induction rows as [|ns rows IH]; intros i ls n H L U; (destruct n as [|n]; [cbn in L; lia|]); cbn [stream_rows]; unfold with_line; unfold pop at 1; rewrite hd_nth, nth_skip.
  - cbn [List.length] in U. rewrite U. reflexivity.
  - rewrite tl_skip, skip_skip. pose proof (H 0 ns eq_refl) as S1. rewrite (F ns _ S1). cbn [sbind]. rewrite (IH (i + 1) ls n); [reflexivity| |cbn in L; lia|].
    + intros g x X. specialize (H (S g) x X). replace (i + 1 + g) with (i + S g) by lia. exact H.
    + cbn [List.length] in U. replace (i + 1 + List.length rows) with (i + S (List.length rows)) by lia. exact U.
Qed.
Lemma Leads_split : forall n ns s r, Leads (n :: ns) s r -> exists b t, blank b /\ s = b ++ num_text n ++ t /\ num_ok n /\ ends n t /\ Leads ns t r.
Proof.
  intros n ns s r H. remember (n :: ns) as l eqn:L. revert n ns L. induction H as [|c m l s r C H IH|m l t r N E H IH]; intros n ns L; [discriminate| |].
  - inversion L; subst. destruct (IH n ns eq_refl) as [b [t [B [-> X]]]]. exists (c :: b), t. split; [constructor; assumption|]. split; [reflexivity|exact X].
  - inversion L; subst. exists [], t. split; [constructor|]. auto.
Qed.
Lemma wordy_row : forall r, Wordy r -> stream_row 1 r = SVal [num_dec zero].
Proof.
  intros r [b [c [q [B [-> [C1 [C2 C3]]]]]]]. assert (L : ltrim (b ++ c :: q) = c :: q) by (rewrite (ltrim_blank b _ B); cbn; rewrite C1; reflexivity).
  assert (S1 : sign (c :: q) = (false, c :: q)) by (apply sign_none; intros ->; apply C3; cbn; auto).
  assert (D : digits (c :: q) = ([], c :: q)) by (cbn; rewrite C2; reflexivity).
  assert (T : dot (c :: q) = ([], c :: q)) by (apply dot_other; intros ->; apply C3; cbn; auto). unfold dot in T.
  cbn [stream_row]. unfold left_value. assert (G : get_double (b ++ c :: q) = None) by (unfold get_double; rewrite L, S1, D, T; reflexivity).
  assert (U : any_number (b ++ c :: q) = None) by (unfold any_number; rewrite L, S1, D, T; reflexivity). rewrite G, U, L. reflexivity.
Qed.
Lemma word_reads : forall ms s r, Leads ms s r -> Wordy r -> stream_row (List.length ms + 1) s = SVal (map num_dec (ms ++ [zero])).
Proof.
  induction ms as [|n ms IH]; intros s r H W.
  - inversion H; subst. exact (wordy_row _ W).
  - destruct (Leads_split _ _ _ _ H) as [b [t [B [-> [N [E H']]]]]]. cbn [List.length Nat.add stream_row app map]. rewrite (get_double_complete n t b N E B), (IH t r H' W). reflexivity.
Qed.
Lemma row_reads_k : forall k ns s, ScatRow k s ns -> stream_row k s = SVal (map num_dec ns).
Proof. intros k ns s [<- [H|[ms [r [-> [H W]]]]]]; [apply row_reads; exact H|]. rewrite app_length. eapply word_reads; eassumption. Qed.
Lemma four_reads_k : forall ns s, Starts ns s /\ List.length ns = 4 -> stream_four s = SVal (map num_dec ns).
Proof. intros ns s [H L]. apply four_reads; assumption. Qed.

Section Mats.
Variable A : Type.
Variable build : list Dec -> list Dec -> list Dec -> list Dec -> list (list Dec) -> SOut A.
(** After some materials that can be read and made, reading goes on with the rest. *)
Lemma materials_after : forall ng mats l n i ls, (forall j m, nth_error mats j = Some m -> LooseMat ng (i + j * (1 + 2 * ng)) ls m) ->
  Forall2 (fun m p => fst p = mt_name m /\ dec_build build m = SVal (snd p)) mats l ->
  stream_materials pop build ng (List.length mats + n) (skipn i ls)
  = sbind (stream_materials pop build ng n (skipn (i + List.length mats * (1 + 2 * ng)) ls)) (fun r => SVal (l ++ r)).
Proof.
  intros ng. induction mats as [|m mats IH]; intros l n i ls H F; inversion F as [|? [nm a] ? l' [P1 P2] F']; subst; cbn [List.length].
  - cbn [Nat.add]. rewrite Nat.mul_0_l, Nat.add_0_r. destruct (stream_materials _ _ _ _ _); reflexivity.
  - change (S (List.length mats) + n) with (S (List.length mats + n)). cbn [stream_materials]. unfold with_line. unfold pop at 1. rewrite hd_nth, nth_skip, Nat.add_0_r, tl_skip, skip_skip.
    destruct (H 0 m eq_refl) as [N [[X1 X2] [S1 S2]]]. replace (i + 0 * (1 + 2 * ng)) with i in * by lia.
    pose proof (rows_read stream_four _ four_reads_k (mt_xs m) (i + 1) ls X2) as R1. rewrite X1 in R1. rewrite R1. cbn [sbind fst snd].
    pose proof (rows_read (stream_row ng) (fun ns s => ScatRow ng s ns) (row_reads_k ng) (mt_sc m) (i + 1 + ng) ls S2) as R2. rewrite S1 in R2. rewrite R2. cbn [sbind fst snd].
    unfold dec_build in P2. cbn [fst snd] in *. cbv zeta in P2. rewrite P2. cbn [sbind]. rewrite (IH l' n (i + 1 + ng + ng) ls).
    + replace (i + 1 + ng + ng + List.length mats * (1 + 2 * ng)) with (i + S (List.length mats) * (1 + 2 * ng)) by lia.
      destruct (stream_materials pop build ng n _); cbn [sbind]; try reflexivity. apply heading_iff in N. rewrite N, P1. reflexivity.
    + intros j x X. specialize (H (S j) x X). replace (i + 1 + ng + ng + j * (1 + 2 * ng)) with (i + S j * (1 + 2 * ng)) by lia. exact H.
    + exact F'.
Qed.
Lemma library_from : forall ls ng nm bs, Header ls ng nm bs ->
  stream_library pop build ls = sbind (stream_materials pop build ng nm (skipn 3 ls)) (fun ms => SVal (Z.of_nat ng, map num_dec bs, ms)).
Proof.
  intros ls ng nm bs [[r [q [U1 U2]]] [B1 B2]]. unfold stream_library, with_line. unfold pop at 1 2 3. rewrite !hd_nth, !nth_tl, !tl_skip, !skip_skip.
  apply get_unsigned_iff in U1, U2. rewrite U1, U2, !Nat2Z.id. rewrite (proj2 (get_bounds_iff ng _ (map num_dec bs))) by eauto. reflexivity.
Qed.
Section Sim.
Variable fuel : nat.
Let nx := scrub fuel ["!"].
Lemma rows_sim : forall f n s ls, follows fuel s ls -> same_rows fuel (stream_rows nx f n s) (stream_rows pop f n ls).
Proof.
  intros f. induction n as [|n IH]; intros s ls F; cbn [stream_rows]; [split; [reflexivity|assumption]|].
  destruct (follows_next fuel s ls F) as [t [E F']]. unfold with_line at 1 2. unfold nx at 1. rewrite E. cbn [pop]. destruct (f (hd [] ls)) as [v| | |]; cbn [sbind]; try exact I.
  specialize (IH t (tl ls) F'). destruct (stream_rows nx f n t) as [[v1 t1]| | |]; destruct (stream_rows pop f n (tl ls)) as [[w1 u1]| | |]; cbn in *; try exact I; try contradiction.
  destruct IH as [-> IH]. auto.
Qed.
Lemma materials_sim : forall n ng s ls, follows fuel s ls -> stream_materials nx build ng n s = stream_materials pop build ng n ls.
Proof.
  induction n as [|n IH]; intros ng s ls F; cbn [stream_materials]; [reflexivity|].
  destruct (follows_next fuel s ls F) as [t [E F']]. unfold with_line at 1 2. unfold nx at 1. rewrite E. cbn [pop].
  pose proof (rows_sim stream_four ng t (tl ls) F') as Q. destruct (stream_rows nx stream_four ng t) as [[v1 t1]| | |]; destruct (stream_rows pop stream_four ng (tl ls)) as [[w1 u1]| | |]; cbn in Q; try contradiction; try reflexivity.
  destruct Q as [-> F1]. cbn [sbind fst snd]. pose proof (rows_sim (stream_row ng) ng t1 u1 F1) as Q.
  destruct (stream_rows nx (stream_row ng) ng t1) as [[v2 t2]| | |]; destruct (stream_rows pop (stream_row ng) ng u1) as [[w2 u2]| | |]; cbn in Q; try contradiction; try reflexivity.
  destruct Q as [-> F2]. cbn [sbind fst snd]. destruct (build _ _ _ _ _); cbn [sbind]; try reflexivity. rewrite (IH ng t2 u2 F2). reflexivity.
Qed.
Lemma library_sim : forall s ls, follows fuel s ls -> stream_library nx build s = stream_library pop build ls.
Proof.
  intros s ls F. unfold stream_library. destruct (follows_next fuel s ls F) as [t [E F']]. unfold with_line at 1 4. unfold nx at 1. rewrite E. cbn [pop].
  destruct (follows_next fuel t (tl ls) F') as [t2 [E2 F2]]. unfold with_line at 1 3. unfold nx at 1. rewrite E2. cbn [pop].
  destruct (get_unsigned (hd [] (tl ls))) as [[ng r]|]; [|reflexivity]. destruct (get_unsigned r) as [[nm q]|]; [|reflexivity].
  destruct (follows_next fuel t2 (tl (tl ls)) F2) as [t3 [E3 F3]]. unfold with_line. unfold nx at 1. rewrite E3. cbn [pop]. destruct (get_bounds _ _); cbn [sbind]; try reflexivity.
  rewrite (materials_sim (Z.to_nat nm) (Z.to_nat ng) t3 _ F3). reflexivity.
Qed.
End Sim.
Lemma read_stream_lines : forall text, read_stream build text = stream_library pop build (content_of text).
Proof. intros text. unfold read_stream. apply library_sim. split; [apply lines_length|reflexivity]. Qed.
End Mats.

(** ** C202 *)
(** A file whose lines start with the numbers wanted is read to exactly the groups, bounds and materials written in it; a word as last
    entry of a row of the scattering matrix counts as zero. *)
Theorem C202_reads : forall text ls ng nm bs mats ms, content text ls -> Header ls ng nm bs -> List.length mats = nm ->
  (forall j m, nth_error mats j = Some m -> LooseMat ng (place ng j) ls m) -> Forall2 makes mats ms ->
  stream_lib text = SVal (Z.of_nat ng, map num_value bs, make_lib (named mats ms)).
Proof.
  intros text ls ng nm bs mats ms C H L M F. unfold stream_lib. rewrite read_stream_lines, <- (content_unique text ls C), (library_from _ _ ls ng nm bs H).
  destruct (makes_list mats ms F) as [l [Fl El]]. pose proof (materials_after _ build_material ng mats l 0 3 ls M Fl) as Q. rewrite Nat.add_0_r, L in Q. rewrite Q.
  cbn [stream_materials sbind fst snd]. rewrite app_nil_r. destruct (build_named mats l Fl) as [_ E]. rewrite E, El, map_map, (map_ext _ _ num_dec_value). reflexivity.
Qed.
Print Assumptions C202_reads.

Lemma MatAt_loose : forall ng i ls m, MatAt ng i ls m -> LooseMat ng i ls m.
Proof.
  intros ng i ls m [N [[X1 X2] [S1 S2]]]. split; [exact N|]. split; (split; [assumption|]); intros g ns G; [destruct (X2 g ns G) as [_ [P Q]]|destruct (S2 g ns G) as [_ [P Q]]]; [split; [apply Nums_Starts|]; assumption|split; [assumption|left; apply Nums_Starts; assumption]].
Qed.
Lemma Count_nonneg : forall s v r, Count s v r -> (0 <= v)%Z.
Proof. intros s v r [b [o [d [_ [_ [_ [_ [_ [_ ->]]]]]]]]]. apply Z.mod_pos_bound. lia. Qed.
(** Every file that the constructor from an input element accepts gives the same library. *)
Theorem C202_same : forall text ng bs L, material_lib (Some (Some text)) [] = SVal (ng, bs, L) -> stream_lib text = SVal (ng, bs, L).
Proof.
  intros text ng bs L H. apply C188_accepts in H. destruct H as [ls [nm [bn [mats [ms [C [[[r [q [C1 C2]]] [B1 [B2 [M1 M2]]]] [F [-> E]]]]]]]]].
  cbn [assign_all] in E. inversion E; subst L. pose proof (Count_nonneg _ _ _ C1). pose proof (Count_nonneg _ _ _ C2).
  rewrite (C202_reads text ls (Z.to_nat ng) (Z.to_nat nm) bn mats ms C); [rewrite Z2Nat.id by assumption; reflexivity| |assumption| |assumption].
  - split; [|auto]. exists r, q. rewrite !Z2Nat.id by assumption. auto.
  - intros j m M. apply MatAt_loose. apply M2. assumption.
Qed.
Print Assumptions C202_same.

(** A row of the scattering matrix with too few numbers, the first fault of the file, is undefined here and refused there. *)
Theorem C202_short : forall text ls ng nm bs mats ms xs sc ns, content text ls -> Header ls ng nm bs -> List.length mats < nm ->
  (forall j m, nth_error mats j = Some m -> LooseMat ng (place ng j) ls m) -> Forall2 makes mats ms ->
  List.length xs = ng -> Begin 4 (place ng (List.length mats) + 1) ls xs ->
  List.length sc < ng -> BeginSc ng (place ng (List.length mats) + 1 + ng) ls sc ->
  Nums ns (nth (place ng (List.length mats) + 1 + ng + List.length sc) ls []) -> List.length ns < ng ->
  stream_lib text = SUB /\ forall asg out, material_lib (Some (Some text)) asg <> SVal out.
Proof.
  intros text ls ng nm bs mats ms xs sc ns C H L M F X1 X2 S1 S2 N K. split.
  - unfold stream_lib. rewrite read_stream_lines, <- (content_unique text ls C), (library_from _ _ ls ng nm bs H).
    destruct (makes_list mats ms F) as [l [Fl El]]. pose proof (materials_after _ build_material ng mats l (nm - List.length mats) 3 ls M Fl) as Q.
    replace (List.length mats + (nm - List.length mats)) with nm in Q by lia. rewrite Q. clear Q. change (3 + List.length mats * (1 + 2 * ng)) with (place ng (List.length mats)). set (p := place ng (List.length mats)) in *.
    destruct (nm - List.length mats) as [|n] eqn:D; [lia|]. cbn [stream_materials]. unfold with_line. unfold pop at 1. rewrite hd_nth, nth_skip, tl_skip, skip_skip.
    pose proof (rows_read stream_four _ four_reads_k xs (p + 1) ls X2) as R1. rewrite X1 in R1. rewrite R1. cbn [sbind fst snd].
    rewrite (rows_stop (stream_row ng) (fun ns s => ScatRow ng s ns) (row_reads_k ng) sc (p + 1 + ng) ls ng S2 S1 (row_short _ _ _ N K)). reflexivity.
  - intros asg [[g b] L'] E. apply C188_accepts in E. destruct E as [ls' [nm' [bn [mats' [ms' [C' [[[r [q [C1 C2]]] [_ [_ [M1 M2]]]] _]]]]]]].
    rewrite (content_unique _ _ C') in *. rewrite (content_unique _ _ C) in *. destruct H as [[r' [q' [D1 D2]]] _]. destruct (Count_unique _ _ _ _ _ C1 D1) as [-> ->]. destruct (Count_unique _ _ _ _ _ C2 D2) as [-> _].
    rewrite !Nat2Z.id in *. destruct (nth_error mats' (List.length mats)) as [m|] eqn:E; [|apply nth_error_None in E; lia]. destruct (M2 _ m E) as [_ [_ [T1 T2]]].
    destruct (nth_error (mt_sc m) (List.length sc)) as [row|] eqn:E2; [|apply nth_error_None in E2; lia]. destruct (T2 _ row E2) as [A1 [A2 A3]].
    assert (Y : explode_doubles (nth (3 + List.length mats * (1 + 2 * ng) + 1 + ng + List.length sc) (content_of text) []) = SVal (map num_dec row)) by (apply explode_doubles_iff; eauto).
    assert (W : explode_doubles (nth (3 + List.length mats * (1 + 2 * ng) + 1 + ng + List.length sc) (content_of text) []) = SVal (map num_dec ns)) by (apply explode_doubles_iff; eauto).
    rewrite Y in W. inversion W as [V]. apply (f_equal (@List.length _)) in V. rewrite !map_length in V. lia.
Qed.
Print Assumptions C202_short.

(** So is a file that ends before the last cross section line of a material it announces. *)
Theorem C202_missing : forall text ls ng nm bs mats ms xs, content text ls -> Header ls ng nm bs -> List.length mats < nm ->
  (forall j m, nth_error mats j = Some m -> LooseMat ng (place ng j) ls m) -> Forall2 makes mats ms ->
  List.length xs < ng -> Begin 4 (place ng (List.length mats) + 1) ls xs -> List.length ls <= place ng (List.length mats) + 1 + List.length xs ->
  stream_lib text = SUB.
Proof.
  intros text ls ng nm bs mats ms xs C H L M F X1 X2 E.
  unfold stream_lib. rewrite read_stream_lines, <- (content_unique text ls C), (library_from _ _ ls ng nm bs H).
  destruct (makes_list mats ms F) as [l [Fl El]]. pose proof (materials_after _ build_material ng mats l (nm - List.length mats) 3 ls M Fl) as Q.
  replace (List.length mats + (nm - List.length mats)) with nm in Q by lia. rewrite Q. clear Q. change (3 + List.length mats * (1 + 2 * ng)) with (place ng (List.length mats)). set (p := place ng (List.length mats)) in *.
  destruct (nm - List.length mats) as [|n] eqn:D; [lia|]. cbn [stream_materials]. unfold with_line. unfold pop at 1. rewrite hd_nth, nth_skip, tl_skip, skip_skip.
  rewrite (rows_stop stream_four _ four_reads_k xs (p + 1) ls ng X2 X1); [reflexivity|]. rewrite nth_overflow by exact E. reflexivity.
Qed.
Print Assumptions C202_missing.

(** *** Files of two groups and one material *)
(** The data of the materials as read, for looking at them. *)
Definition as_read (ab nf f ch : list Dec) (sc : list (list Dec)) : SOut (list (list Dec) * list (list Dec)) := SVal ([ab; nf; f; ch], sc).
Definition two_groups (a b c d : string) : str :=
  txt "Two groups" ++ nl ++ txt "2 1" ++ nl ++ txt "9 1" ++ nl ++ txt "XSMACRO fuel 2" ++ nl ++ txt a ++ nl ++ txt b ++ nl ++ txt c ++ nl ++ txt d ++ nl.
Definition extra_lines : list str := map txt ["Two groups"; "2 1"; "9 1"; "XSMACRO fuel 2"; "1 0 0 0 5"; "2 0 0 0"; "3 4 5"; "6 none"]%string.
Definition whole_num (s : string) : Num := n_of None s None None.
Definition extra_mat : MatText := mkMatText (txt "fuel") [map whole_num ["1"; "0"; "0"; "0"]; map whole_num ["2"; "0"; "0"; "0"]]%string [map whole_num ["3"; "4"]; map whole_num ["6"; "0"]]%string.
Lemma one_start : forall s ns, forallb form_b [whole_num s] = true -> forall r, Starts ns r -> (r = [] \/ exists q, r = " " :: q) -> Starts (whole_num s :: ns) (txt s ++ r).
Proof.
  intros s ns F r H E. replace (txt s ++ r) with (num_text (whole_num s) ++ r) by (unfold num_text, whole_num, n_of; cbn; rewrite app_nil_r; reflexivity).
  apply Starts_num; [apply form_b_ok; cbn in F; rewrite andb_true_r in F; exact F| |exact H]. destruct E as [->|[q ->]]; [exact I|apply ends_blank; reflexivity].
Qed.
Ltac starts := repeat first [apply Starts_nil
  | match goal with |- Starts (whole_num ?s :: _) _ => let t := eval compute in (txt s) in lazymatch goal with
      | |- Starts _ (" " :: _) => apply Starts_blank; [reflexivity|]
      | |- Starts _ (?c :: ?r) => change (c :: r) with (txt s ++ r); apply one_start; [vm_compute; reflexivity| |first [left; reflexivity|right; eexists; reflexivity]] end end].
Lemma extra_content : content (two_groups "1 0 0 0 5" "2 0 0 0" "3 4 5" "6 none") extra_lines.
Proof. replace extra_lines with (content_of (two_groups "1 0 0 0 5" "2 0 0 0" "3 4 5" "6 none")) by (vm_compute; reflexivity). apply content_of_ok. Qed.
Lemma two_header : forall a, Header (map txt ["Two groups"; "2 1"; "9 1"]%string ++ a) 2 1 (map whole_num ["9"; "1"]%string).
Proof.
  intros a. split; [|split; [|reflexivity]].
  - exists (txt " 1"), []. split; apply get_unsigned_iff; vm_compute; reflexivity.
  - cbn. starts.
Qed.
Lemma extra_loose : LooseMat 2 3 extra_lines extra_mat.
Proof.
  split; [left; exists (txt "2"); split; [exact (words_Spaced (txt "XSMACRO fuel 2"))|repeat constructor]|].
  split; (split; [reflexivity|]); intros [|[|[|g]]] ns G; try discriminate; inversion G; subst ns; [split; [cbn; starts|reflexivity]|split; [cbn; starts|reflexivity]|split; [reflexivity|left; cbn; starts]|].
  split; [reflexivity|]. right. exists [whole_num "6"], (txt " none"). split; [reflexivity|]. split.
  - apply (Leads_num (whole_num "6") [] (txt " none")); [apply form_b_ok; vm_compute; reflexivity|apply ends_blank; reflexivity|constructor].
  - exists (txt " "), "n", (txt "one"). split; [repeat constructor|]. split; [reflexivity|]. split; [reflexivity|]. split; [reflexivity|]. intros [X|[X|[X|[]]]]; discriminate.
Qed.
(** More numbers than wanted on two lines and a word in place of a last entry: read here, refused there. *)
Example C202_instance : content (two_groups "1 0 0 0 5" "2 0 0 0" "3 4 5" "6 none") extra_lines /\ Header extra_lines 2 1 (map whole_num ["9"; "1"]%string)
  /\ LooseMat 2 (place 2 0) extra_lines extra_mat
  /\ (exists a, makes extra_mat a /\ stream_lib (two_groups "1 0 0 0 5" "2 0 0 0" "3 4 5" "6 none") = SVal (2%Z, map num_value (map whole_num ["9"; "1"]%string), make_lib [("fuel"%string, a)]))
  /\ material_lib (Some (Some (two_groups "1 0 0 0 5" "2 0 0 0" "3 4 5" "6 none"))) [] = SExc.
Proof.
  split; [exact extra_content|]. split; [exact (two_header (skipn 3 extra_lines))|]. split; [exact extra_loose|]. split.
  - assert (M : exists a, makes extra_mat a).
    { unfold makes. destruct (C39_construction (by_group 0 extra_mat) (by_group 1 extra_mat) (by_group 2 extra_mat) (by_group 3 extra_mat) (scattering extra_mat)) as [X _]; try reflexivity.
      - intros v V. unfold extra_mat, by_group, whole_num, n_of, num_value, exponent, whole, parts, frac_digits in V. cbn [mt_xs map nth n_sign n_int n_frac n_exp option_map txt list_ascii_of_string fold_left] in V.
        repeat match type of V with context [dig ?c] => let v := eval vm_compute in (dig c) in change (dig c) with v in V end.
        change (powerRZ 10 0) with 1%R in V. destruct V as [<-|[<-|[]]]; lra.
      - destruct X as [a [X _]]; [|exists a; exact X]. intros r R. unfold scattering, extra_mat in *. cbn in R. destruct R as [<-|[<-|[]]]; reflexivity. }
    destruct M as [a M]. exists a. split; [exact M|].
    rewrite (C202_reads _ _ 2 1 _ [extra_mat] [a] extra_content (two_header (skipn 3 extra_lines)) eq_refl); [reflexivity| |constructor; [exact M|constructor]].
    intros [|[|j]] m E; try discriminate. inversion E; subst m. exact extra_loose.
  - cbn [material_lib]. rewrite read_library_lines. vm_compute. reflexivity.
Qed.
(** A row too short, and a file that ends too early, are undefined here and refused there. *)
Example C202_instance_short : stream_lib (two_groups "1 0 0 0" "2 0 0 0" "3" "6 7") = SUB /\ material_lib (Some (Some (two_groups "1 0 0 0" "2 0 0 0" "3" "6 7"))) [] = SExc
  /\ stream_lib (two_groups "1 0 0 0" "" "" "") = SUB /\ material_lib (Some (Some (two_groups "1 0 0 0" "" "" ""))) [] = SExc.
Proof. unfold stream_lib. cbn [material_lib]. rewrite !read_stream_lines, !read_library_lines. vm_compute. auto. Qed.
(** The last entry of a row of the scattering matrix need not be a number: a word is read as zero and a number too large as the largest
    double; as the first entry of two it is undefined.  A word among the cross sections is refused. *)
Example C202_instance_word : read_stream as_read (two_groups "1 0 0 0" "2 0 0 0" "3 none" "6 -1e999")
    = SVal (2%Z, [(9, 0); (1, 0)]%Z, [(txt "fuel", ([[(1, 0); (2, 0)]; [(0, 0); (0, 0)]; [(0, 0); (0, 0)]; [(0, 0); (0, 0)]]%Z, [[(3, 0); (0, 0)]; [(6, 0); (- (2 ^ 1024 - 2 ^ 971), 0)]]%Z))])
  /\ read_stream as_read (two_groups "1 0 0 0" "2 0 0 0" "none 3" "6 7") = SUB /\ read_stream as_read (two_groups "1 0 0 none" "2 0 0 0" "3 4" "6 7") = SExc
  /\ read_library as_read (two_groups "1 0 0 0" "2 0 0 0" "3 none" "6 7") = SExc.
Proof. rewrite !read_stream_lines, read_library_lines. vm_compute. auto. Qed.
