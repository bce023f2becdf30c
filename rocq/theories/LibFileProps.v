(** C187, C188: what reading a material library from a file gives, and which files are accepted. *)
From Coq Require Import Ascii String List Bool Arith ZArith Reals Lia Lra.
From Verif Require Import StrModel StrProps MatModel MatProps LibFileModel LibFileProofs.
Import ListNotations.
Local Open Scope char_scope.
Local Open Scope nat_scope.
Local Open Scope list_scope.

(** ** C187: a file in the documented format *)
(** Numbers properly separated by blanks. *)
Definition Listed (l : str) (ns : list Num) : Prop := Spaced (map num_text ns) l /\ Forall num_ok ns.
(** The contents of a file with [ng] groups: a title, the numbers of groups and materials, the group bounds, and for each material its heading, a line of
    four numbers for each group, and a line of [ng] numbers for each row of the scattering matrix; what follows is free. *)
Record Proper (ls : list str) (ng : nat) (bs : list Num) (mats : list MatText) : Prop := mkProper {
  pr_counts : exists dg dm, Spaced [dg; dm] (nth 1 ls []) /\ digs dg /\ digs dm /\ value dg = Z.of_nat ng /\ value dm = Z.of_nat (List.length mats);
  pr_small : (Z.of_nat ng < 2 ^ 32)%Z /\ (Z.of_nat (List.length mats) < 2 ^ 32)%Z;
  pr_bounds : Listed (nth 2 ls []) bs /\ List.length bs = ng;
  pr_heads : forall j m, nth_error mats j = Some m -> is_heading (nth (3 + j * (1 + 2 * ng)) ls []) (mt_name m);
  pr_xs : forall j m, nth_error mats j = Some m -> List.length (mt_xs m) = ng /\
    forall g row, nth_error (mt_xs m) g = Some row -> Listed (nth (3 + j * (1 + 2 * ng) + 1 + g) ls []) row /\ List.length row = 4;
  pr_sc : forall j m, nth_error mats j = Some m -> List.length (mt_sc m) = ng /\
    forall g row, nth_error (mt_sc m) g = Some row -> Listed (nth (3 + j * (1 + 2 * ng) + 1 + ng + g) ls []) row /\ List.length row = ng }.
(** The data of a material as numbers: the [i]-th number of each group's line, and the scattering matrix. *)
Definition by_group (i : nat) (m : MatText) : list R := map (fun row => nth i (map num_value row) 0%R) (mt_xs m).
Definition scattering (m : MatText) : list (list R) := map (map num_value) (mt_sc m).
Definition makes (m : MatText) (a : Material) : Prop := make_material (by_group 0 m) (by_group 1 m) (by_group 2 m) (by_group 3 m) (scattering m) = Got a.
Definition named (mats : list MatText) (ms : list Material) : list (string * Material) := combine (map (fun m => string_of_list_ascii (mt_name m)) mats) ms.

Lemma dval_columns : forall i rows, map dval (column (0, 0)%Z i (map (map num_dec) rows)) = map (fun row => nth i (map num_value row) 0%R) rows.
Proof.
  intros i rows. unfold column. rewrite !map_map. apply map_ext. intros row.
  assert (Z : dval (0, 0)%Z = 0%R) by (unfold dval; cbn; ring). cbv beta. rewrite <- Z. rewrite <- (map_ext _ _ num_dec_value row). rewrite <- (map_map num_dec dval row). symmetry. apply map_nth.
Qed.
Lemma build_makes : forall m a, dec_build build_material m = SVal a <-> makes m a.
Proof.
  intros m a. unfold dec_build, build_material, makes, by_group, scattering. rewrite !dval_columns, map_map.
  rewrite (map_ext (fun x => map dval (map num_dec x)) (map num_value)) by (intros r; rewrite map_map; apply map_ext; apply num_dec_value).
  destruct (make_material _ _ _ _ _); split; intros H; inversion H; reflexivity.
Qed.
Lemma build_named : forall mats l, Forall2 (fun m p => fst p = mt_name m /\ dec_build build_material m = SVal (snd p)) mats l ->
  Forall2 makes mats (map snd l) /\ map (fun p => (string_of_list_ascii (fst p), snd p)) l = named mats (map snd l).
Proof.
  intros mats l H. induction H as [|m [nm a] mats l [H1 H2] H [IH1 IH2]]; [split; [constructor|reflexivity]|]. cbn [map fst snd] in *. split.
  - constructor; [apply build_makes; assumption|assumption].
  - unfold named in *. cbn [map combine]. rewrite IH2, H1. reflexivity.
Qed.
Lemma makes_list : forall mats ms, Forall2 makes mats ms -> exists l, Forall2 (fun m p => fst p = mt_name m /\ dec_build build_material m = SVal (snd p)) mats l /\ map snd l = ms.
Proof.
  intros mats ms H. induction H as [|m a mats ms H1 H [l [IH1 IH2]]]; [exists []; split; [constructor|reflexivity]|].
  exists ((mt_name m, a) :: l). split; [|cbn; congruence]. constructor; [|assumption]. split; [reflexivity|]. apply build_makes. assumption.
Qed.
Lemma Library_reads : forall text ls ng nm bs mats ms asg, content text ls -> Library ls ng nm bs mats -> Forall2 makes mats ms ->
  material_lib (Some (Some text)) asg = match assign_all (make_lib (named mats ms)) asg with None => SExc | Some L => SVal (ng, map num_value bs, L) end.
Proof.
  intros text ls ng nm bs mats ms asg C H F. cbn [material_lib]. rewrite read_library_lines, <- (content_unique text ls C). destruct (makes_list mats ms F) as [l [Fl El]].
  rewrite (proj2 (get_library_iff Material build_material ls ng (map num_dec bs) l)) by (exists nm, bs, mats; auto). cbn [sbind fst snd]. destruct (build_named mats l Fl) as [_ E]. rewrite E, El.
  rewrite map_map, (map_ext _ _ num_dec_value). reflexivity.
Qed.

(** Separated numbers are numbers one after the other. *)
Lemma Listed_Nums : forall ns l, Listed l ns -> Nums ns l.
Proof.
  intros ns l [H F]. remember (map num_text ns) as ts eqn:T. revert ns T F. induction H as [|c ts s C H IH|t ts r N B R H IH]; intros ns T F.
  - destruct ns; [constructor|discriminate].
  - constructor; auto.
  - destruct ns as [|n ns]; [discriminate|]. inversion T; subst. inversion F; subst. constructor; [assumption| |apply IH; [reflexivity|assumption]].
    destruct R as [->|[c [q [-> C]]]]; [exact I|apply ends_blank; assumption].
Qed.
Lemma Nums_Starts : forall ns s, Nums ns s -> Starts ns s.
Proof.
  intros ns s H. induction H as [|c ns s C H IH|n ns r N E H IH]; [constructor| |constructor; assumption]. destruct ns; [constructor|constructor; assumption].
Qed.
Lemma digs_ascii : forall d, digs d -> ascii_only d.
Proof. intros d. apply Forall_impl. intros [[] [] [] [] [] [] [] []] H; try reflexivity; discriminate. Qed.
Lemma space_ascii : forall c, isspace c = true -> high c = false.
Proof. intros [[] [] [] [] [] [] [] []] H; try reflexivity; discriminate. Qed.
Lemma sign_ascii : forall o, ascii_only (sign_text o).
Proof. intros [[|]|]; repeat constructor. Qed.
Lemma num_ascii : forall n, num_form n -> ascii_only (num_text n).
Proof.
  intros n [D1 [D2 [_ E]]]. unfold num_text, ascii_only. rewrite !Forall_app. split; [apply sign_ascii|]. split; [apply digs_ascii; assumption|]. split.
  - unfold frac_digits in D2. destruct (n_frac n); cbn; [constructor; [reflexivity|apply digs_ascii; assumption]|constructor].
  - destruct (n_exp n) as [[[c s] d]|]; cbn; [|constructor]. destruct E as [E1 [E2 _]]. constructor; [destruct E1 as [->| ->]; reflexivity|]. apply Forall_app. split; [apply sign_ascii|apply digs_ascii; assumption].
Qed.
Lemma Nums_ascii : forall ns s, Nums ns s -> ascii_only s.
Proof.
  intros ns s H. induction H as [|c ns s C H IH|n ns r N E H IH]; [constructor|constructor; [apply space_ascii; assumption|assumption]|].
  apply Forall_app. split; [apply num_ascii; apply N|assumption].
Qed.
Lemma Listed_Row : forall k l ns, Listed l ns -> List.length ns = k -> Row k l ns.
Proof. intros k l ns H L. apply Listed_Nums in H. split; [eapply Nums_ascii; exact H|auto]. Qed.
Lemma Spaced_split : forall t ts s, Spaced (t :: ts) s -> exists b r, blank b /\ s = b ++ t ++ r /\ (r = [] \/ exists c q, r = c :: q /\ isspace c = true) /\ Spaced ts r /\ t <> [].
Proof.
  intros t ts s H. remember (t :: ts) as l eqn:L. revert t ts L. induction H as [|c l s C H IH|u l r N B R H IH]; intros t ts L; [discriminate| |].
  - destruct (IH t ts L) as [b [r [B [-> X]]]]. exists (c :: b), r. split; [constructor; assumption|]. split; [reflexivity|assumption].
  - inversion L; subst. exists [], r. split; [constructor|]. auto.
Qed.
Lemma Spaced_Count : forall d ts s, Spaced (d :: ts) s -> digs d -> (value d < 2 ^ 32)%Z -> exists r, Count s (value d) r /\ Spaced ts r.
Proof.
  intros d ts s H D L. destruct (Spaced_split _ _ _ H) as [b [r [B [-> [R [X N]]]]]]. exists r. split; [|assumption]. exists b, None, d.
  split; [assumption|]. split; [reflexivity|]. split; [assumption|]. split; [assumption|]. split.
  - destruct R as [->|[c [q [-> C]]]]; [left; reflexivity|]. right. exists c, q. split; [reflexivity|apply space_nodigit; assumption].
  - split; [assumption|]. cbn [minus]. symmetry. apply Z.mod_small. split; [apply value_nonneg; assumption|assumption].
Qed.
Lemma Proper_Library : forall ls ng bs mats, Proper ls ng bs mats -> Library ls (Z.of_nat ng) (Z.of_nat (List.length mats)) bs mats.
Proof.
  intros ls ng bs mats [[dg [dm [S1 [D1 [D2 [V1 V2]]]]]] [L1 L2] [B1 B2] H X S]. unfold Library. rewrite !Nat2Z.id. split; [|split; [|split; [assumption|split; [reflexivity|]]]].
  - destruct (Spaced_Count _ _ _ S1 D1 ltac:(lia)) as [r [C1 R1]]. destruct (Spaced_Count _ _ _ R1 D2 ltac:(lia)) as [q [C2 _]]. exists r, q. rewrite <- V1, <- V2. auto.
  - apply Nums_Starts, Listed_Nums. assumption.
  - intros j m M. destruct (X j m M) as [X1 X2]. destruct (S j m M) as [S2 S3]. split; [left; apply (H j m M)|]. split; (split; [assumption|]).
    + intros g ns G. destruct (X2 g ns G). apply Listed_Row; assumption.
    + intros g ns G. destruct (S3 g ns G). apply Listed_Row; assumption.
Qed.

(** A file in the documented format is read to exactly the groups, bounds and materials written in it, however it is spaced and commented. *)
Theorem C187_reads : forall text ls ng bs mats ms asg, content text ls -> Proper ls ng bs mats -> Forall2 makes mats ms ->
  material_lib (Some (Some text)) asg = match assign_all (make_lib (named mats ms)) asg with None => SExc | Some L => SVal (Z.of_nat ng, map num_value bs, L) end.
Proof. intros text ls ng bs mats ms asg C P F. eapply Library_reads; [exact C|apply Proper_Library; exact P|exact F]. Qed.
Print Assumptions C187_reads.

(** With spectra which are not negative every material of such a file can be made. *)
Theorem C187_makes : forall ls ng bs mats, Proper ls ng bs mats ->
  (forall m, In m mats -> forall v, In v (by_group 3 m) -> (0 <= v)%R) -> exists ms, Forall2 makes mats ms /\
  Forall2 (fun m a => xsab a = by_group 0 m /\ xsnf a = by_group 1 m /\ xsf a = by_group 2 m) mats ms.
Proof.
  intros ls ng bs mats [_ _ _ _ X S] P.
  assert (Q : forall m, In m mats -> exists a, makes m a /\ xsab a = by_group 0 m /\ xsnf a = by_group 1 m /\ xsf a = by_group 2 m).
  { intros m M. destruct (In_nth_error _ _ M) as [j J]. destruct (X j m J) as [X1 _]. destruct (S j m J) as [S1 S2].
    assert (L : forall i, List.length (by_group i m) = ng) by (intros i; unfold by_group; rewrite map_length; assumption).
    assert (L4 : List.length (scattering m) = ng) by (unfold scattering; rewrite map_length; assumption).
    destruct (C39_construction (by_group 0 m) (by_group 1 m) (by_group 2 m) (by_group 3 m) (scattering m)) as [G _]; try (rewrite ?L, ?L4; reflexivity).
    - apply P. assumption.
    - destruct G as [a G]; [|exists a; exact G]. intros r R. rewrite L4. unfold scattering in R. apply in_map_iff in R. destruct R as [row [<- R]]. rewrite map_length.
      destruct (In_nth_error _ _ R) as [g E]. apply (S2 g row E). }
  clear X S P. induction mats as [|m mats IH]; [exists []; split; constructor|]. destruct (Q m (or_introl eq_refl)) as [a [A1 A2]]. destruct IH as [ms [M1 M2]]; [intros x H; apply Q; right; assumption|].
  exists (a :: ms). split; constructor; assumption.
Qed.
Print Assumptions C187_makes.

(** *** A library of one material and two groups *)
Definition n_of (sg : option bool) (ip : string) (f : option string) (e : option (ascii * option bool * string)) : Num :=
  mkNum sg (txt ip) (option_map txt f) (option_map (fun p => (fst (fst p), snd (fst p), txt (snd p))) e).
Definition dec (ip f : string) : Num := n_of None ip (Some f) None.
Definition lib_text : str :=
  txt "Two groups" ++ nl ++ txt " 2  1   ! groups, materials" ++ nl ++ txt "2.0E+07 10." ++ nl ++ txt "! data" ++ nl ++ nl ++ txt "XSMACRO UO2-3.3 2" ++ nl ++
  txt " 1.5e-2 0.25 0.1 1.0" ++ nl ++ txt " 0.1 0.5 0.2 0.0" ++ nl ++ txt "0.2 0.03!down" ++ nl ++ txt " 0. .4" ++ nl.
Definition lib_bounds : list Num := [n_of None "2" (Some "0"%string) (Some ("E", Some false, "07"%string)); dec "10" ""].
Definition lib_mat : MatText := mkMatText (txt "UO2-3.3")
  [[n_of None "1" (Some "5"%string) (Some ("e", Some true, "2"%string)); dec "0" "25"; dec "0" "1"; dec "1" "0"]; [dec "0" "1"; dec "0" "5"; dec "0" "2"; dec "0" "0"]]
  [[dec "0" "2"; dec "0" "03"]; [dec "0" ""; dec "" "4"]].
Definition lib_lines : list str := map txt ["Two groups"; "2  1"; "2.0E+07 10."; "XSMACRO UO2-3.3 2"; "1.5e-2 0.25 0.1 1.0"; "0.1 0.5 0.2 0.0"; "0.2 0.03"; "0. .4"]%string.
Lemma lib_content : content lib_text lib_lines.
Proof. replace lib_lines with (content_of lib_text) by (vm_compute; reflexivity). apply content_of_ok. Qed.
Definition form_b (n : Num) : bool := forallb isdigit (n_int n) && forallb isdigit (frac_digits n) && nonempty (n_int n ++ frac_digits n)
  && match n_exp n with None => true | Some (c, _, d) => (Ascii.eqb c "e" || Ascii.eqb c "E") && forallb isdigit d && nonempty d end && negb (overflows (num_dec n)).
Lemma form_b_ok : forall n, form_b n = true -> num_ok n.
Proof.
  intros n H. unfold form_b in H. rewrite !andb_true_iff in H. destruct H as [[[[H1 H2] H3] H4] H5]. split.
  - unfold num_form. rewrite <- !forallb_digs. split; [assumption|]. split; [assumption|]. split; [destruct (n_int n ++ frac_digits n); [discriminate|discriminate]|].
    destruct (n_exp n) as [[[c s] d]|]; [|exact I]. rewrite !andb_true_iff in H4. destruct H4 as [[H4 H6] H7]. split; [apply eE_spec; assumption|]. split; [apply forallb_digs; assumption|]. destruct d; discriminate.
  - apply finite_overflows. destruct (overflows (num_dec n)); [discriminate|reflexivity].
Qed.
Lemma Listed_b : forall l ns, words l = map num_text ns -> forallb form_b ns = true -> Listed l ns.
Proof.
  intros l ns W F. split; [rewrite <- W; apply words_Spaced|]. apply Forall_forall. intros n N. apply form_b_ok. rewrite forallb_forall in F. auto.
Qed.
Lemma lib_proper : Proper lib_lines 2 lib_bounds [lib_mat].
Proof.
  constructor.
  - exists (txt "2"), (txt "1"). split; [exact (words_Spaced (txt "2  1"))|]. repeat split; repeat constructor.
  - cbn; lia.
  - split; [apply Listed_b; vm_compute; reflexivity|reflexivity].
  - intros [|[|j]] m M; try discriminate. inversion M; subst m. exists (txt "2"). split; [exact (words_Spaced (txt "XSMACRO UO2-3.3 2"))|repeat constructor].
  - intros [|[|j]] m M; try discriminate. inversion M; subst m. split; [reflexivity|]. intros [|[|[|g]]] row G; try discriminate; inversion G; subst row; (split; [apply Listed_b; vm_compute; reflexivity|reflexivity]).
  - intros [|[|j]] m M; try discriminate. inversion M; subst m. split; [reflexivity|]. intros [|[|[|g]]] row G; try discriminate; inversion G; subst row; (split; [apply Listed_b; vm_compute; reflexivity|reflexivity]).
Qed.
Lemma lib_bounds_values : map num_value lib_bounds = [20000000; 10]%R.
Proof.
  unfold lib_bounds, dec, n_of, num_value, exponent, whole, parts, frac_digits. cbn [map n_sign n_int n_frac n_exp option_map fst snd txt list_ascii_of_string fold_left].
  repeat match goal with |- context [dig ?c] => let v := eval vm_compute in (dig c) in change (dig c) with v end.
  change (value ["0"; "7"]) with 7%Z. change (powerRZ 10 0) with 1%R. replace (powerRZ 10 7) with 10000000%R by (change (powerRZ 10 7) with (10 ^ 7)%R; lra).
  f_equal; [|f_equal]; lra.
Qed.
Example C187_instance : content lib_text lib_lines /\ Proper lib_lines 2 lib_bounds [lib_mat] /\ map num_value lib_bounds = [20000000; 10]%R
  /\ exists a L, makes lib_mat a /\ get_material_by_id L 4%Z = Some a
     /\ material_lib (Some (Some lib_text)) [(4%Z, "UO2-3.3"%string)] = SVal (2%Z, [20000000; 10]%R, L).
Proof.
  split; [exact lib_content|]. split; [exact lib_proper|]. split; [exact lib_bounds_values|].
  destruct (C187_makes _ _ _ _ lib_proper) as [ms [M _]].
  { intros m [<-|[]] v V. unfold lib_mat, by_group, dec, n_of, num_value, exponent, whole, parts, frac_digits in V.
    cbn [mt_xs map nth n_sign n_int n_frac n_exp option_map fst snd txt list_ascii_of_string fold_left] in V.
    repeat match type of V with context [dig ?c] => let v := eval vm_compute in (dig c) in change (dig c) with v in V end.
    change (powerRZ 10 0) with 1%R in V. destruct V as [<-|[<-|[]]]; lra. }
  inversion M as [|? a ? ? A N]; subst. inversion N; subst. eexists a, _. split; [assumption|]. rewrite (C187_reads _ _ _ _ _ _ _ lib_content lib_proper M), lib_bounds_values.
  unfold named. cbn. split; [|reflexivity]. reflexivity.
Qed.

(** ** C188: which files are accepted *)
Theorem C188_accepts : forall text asg ng bs L, material_lib (Some (Some text)) asg = SVal (ng, bs, L) <->
  exists ls nm bn mats ms, content text ls /\ Library ls ng nm bn mats /\ Forall2 makes mats ms
    /\ bs = map num_value bn /\ assign_all (make_lib (named mats ms)) asg = Some L.
Proof.
  intros text asg ng bs L. split.
  - cbn [material_lib]. rewrite read_library_lines. destruct (get_library pop build_material (content_of text)) as [[[g b] l]| | |] eqn:G; try discriminate. cbn [sbind fst snd].
    apply get_library_iff in G. destruct G as [nm [bn [mats [G1 [-> F]]]]]. destruct (build_named mats l F) as [F1 F2]. rewrite F2.
    destruct (assign_all _ asg) as [L'|] eqn:E; [|discriminate]. intros H. inversion H; subst.
    exists (content_of text), nm, bn, mats, (map snd l). split; [apply content_of_ok|]. split; [assumption|]. split; [assumption|]. split; [|assumption].
    rewrite map_map. apply map_ext. apply num_dec_value.
  - intros [ls [nm [bn [mats [ms [C [Lb [F [-> E]]]]]]]]]. rewrite (Library_reads _ _ _ _ _ _ _ asg C Lb F), E. reflexivity.
Qed.
Print Assumptions C188_accepts.

(** Reading ends; without an element or a file that opens there is an exception. *)
Theorem C188_ends : forall input asg, material_lib input asg <> SMore /\ ((forall text, input <> Some (Some text)) -> material_lib input asg = SExc).
Proof.
  intros input asg. split.
  - destruct input as [[text|]|]; try discriminate. cbn [material_lib]. pose proof (read_library_ends Material build_material text) as H.
    destruct (read_library build_material text) as [d| | |]; cbn [sbind]; [destruct (assign_all _ asg); discriminate|discriminate|discriminate|].
    exfalso. apply H; [|reflexivity]. intros a b c d e. unfold build_material. destruct (make_material _ _ _ _ _); discriminate.
  - intros H. destruct input as [[text|]|]; [destruct (H text eq_refl)|reflexivity|reflexivity].
Qed.
Print Assumptions C188_ends.

(** A file with fewer materials than it announces is refused. *)
Theorem C188_too_short : forall text asg ng bs L, material_lib (Some (Some text)) asg = SVal (ng, bs, L) -> (1 <= ng)%Z ->
  exists ls nm r q, content text ls /\ Count (nth 1 ls []) ng r /\ Count r nm q /\ (nm = 0 \/ 3 + nm * (1 + 2 * ng) <= Z.of_nat (List.length ls))%Z.
Proof.
  intros text asg ng bs L H G. apply C188_accepts in H. destruct H as [ls [nm [bn [mats [ms [C [[[r [q [C1 C2]]] [_ [_ [M1 M2]]]] _]]]]]]].
  exists ls, nm, r, q. split; [assumption|]. split; [assumption|]. split; [assumption|].
  assert (P : (0 <= nm)%Z) by (destruct C2 as [b [o [d [_ [_ [_ [_ [_ [_ ->]]]]]]]]]; apply Z.mod_pos_bound; lia).
  destruct (Z.eq_dec nm 0) as [E|E]; [left; assumption|]. right. set (g := Z.to_nat ng) in *. assert (Eg : ng = Z.of_nat g) by lia. set (k := Z.to_nat nm) in *. assert (Ek : nm = Z.of_nat k) by lia.
  rewrite Eg, Ek. assert (K : exists k', k = S k') by (destruct k; [lia|eauto]). destruct K as [k' K].
  destruct (nth_error mats k') as [m|] eqn:E1; [|apply nth_error_None in E1; lia]. destruct (M2 k' m E1) as [_ [_ [S1 S2]]].
  assert (G' : exists g', g = S g') by (destruct g; [lia|eauto]). destruct G' as [g' G']. destruct (nth_error (mt_sc m) g') as [row|] eqn:E2; [|apply nth_error_None in E2; lia].
  destruct (S2 g' row E2) as [_ [N L1]]. destruct (le_lt_dec (List.length ls) (3 + k' * (1 + 2 * g) + 1 + g + g')) as [Q|Q].
  - rewrite nth_overflow in N by exact Q. apply Nums_blank_nil in N; [|constructor]. subst row. cbn in L1. lia.
  - nia.
Qed.
Print Assumptions C188_too_short.

(** The title, what follows the two numbers and the bounds on their lines, and all lines after the last material are not looked at. *)
Lemma Rows_agree : forall k n i ls ls' rows, Rows k n i ls rows -> (forall g, g < n -> nth (i + g) ls' [] = nth (i + g) ls []) -> Rows k n i ls' rows.
Proof.
  intros k n i ls ls' rows [H1 H2] A. split; [assumption|]. intros g ns G. rewrite A; [apply H2; assumption|]. rewrite <- H1. apply nth_error_Some. congruence.
Qed.
Theorem C188_unused : forall text text' ls ls' asg ng bs L nm r q, content text ls -> content text' ls' -> material_lib (Some (Some text)) asg = SVal (ng, bs, L) ->
  Count (nth 1 ls []) ng r -> Count r nm q ->
  (forall i, 1 <= i -> i < 3 + Z.to_nat nm * (1 + 2 * Z.to_nat ng) -> nth i ls' [] = nth i ls []) ->
  material_lib (Some (Some text')) asg = SVal (ng, bs, L).
Proof.
  intros text text' ls ls' asg ng bs L nm r q C C' H C1 C2 A. apply C188_accepts in H. destruct H as [ls0 [nm0 [bn [mats [ms [C0 [[[r0 [q0 [D1 D2]]] [B1 [B2 [M1 M2]]]] [F [E1 E2]]]]]]]]].
  rewrite (content_unique _ _ C) in *. rewrite (content_unique _ _ C0) in *. set (ls1 := content_of text) in *.
  destruct (Count_unique _ _ _ _ _ C1 D1) as [_ <-]. destruct (Count_unique _ _ _ _ _ C2 D2) as [<- <-].
  apply C188_accepts. exists ls', nm, bn, mats, ms. split; [assumption|]. split; [|auto]. unfold Library. rewrite (A 1) by lia. rewrite (A 2) by lia.
  split; [eauto|]. split; [assumption|]. split; [assumption|]. split; [assumption|]. intros j m M. destruct (M2 j m M) as [N1 [N2 N3]].
  assert (J : j < Z.to_nat nm) by (rewrite <- M1; apply nth_error_Some; congruence). set (g := Z.to_nat ng) in *.
  assert (Q : j * (1 + 2 * g) + (1 + 2 * g) <= Z.to_nat nm * (1 + 2 * g)) by nia.
  split; [rewrite A by lia; assumption|]. split; eapply Rows_agree; try eassumption; intros i I; apply A; lia.
Qed.
Print Assumptions C188_unused.

(** *** What is accepted although it is not in the documented format *)
(** A heading with a mistake: the material is stored without a name, so that it cannot be used under the name it was given. *)
Definition odd_text : str :=
  txt "One group" ++ nl ++ txt "1 1 and more" ++ nl ++ txt "1.0 x" ++ nl ++ txt "XSMACR0 fuel 1" ++ nl ++ txt "1.5.25+1e0+2.E+0" ++ nl ++ txt "0.5" ++ nl.
Definition odd_lines : list str := map txt ["One group"; "1 1 and more"; "1.0 x"; "XSMACR0 fuel 1"; "1.5.25+1e0+2.E+0"; "0.5"]%string.
Definition odd_row : list Num := [dec "1" "5"; dec "" "25"; n_of (Some false) "1" None (Some ("e", None, "0"%string)); n_of (Some false) "2" (Some ""%string) (Some ("E", Some false, "0"%string))].
Definition odd_mat : MatText := mkMatText [] [odd_row] [[dec "0" "5"]].
Lemma odd_content : content odd_text odd_lines.
Proof. replace odd_lines with (content_of odd_text) by (vm_compute; reflexivity). apply content_of_ok. Qed.
Lemma odd_library : Library odd_lines 1 1 [dec "1" "0"] [odd_mat].
Proof.
  split; [|split; [|split; [reflexivity|split; [reflexivity|]]]].
  - exists (txt " 1 and more"), (txt " and more"). split; apply get_unsigned_iff; vm_compute; reflexivity.
  - change (nth 2 odd_lines []) with (num_text (dec "1" "0") ++ txt " x"). constructor; [apply form_b_ok; vm_compute; reflexivity|apply ends_blank; reflexivity|constructor].
  - intros [|[|j]] m M; try discriminate. inversion M; subst m. split; [apply heading_iff; vm_compute; reflexivity|]. split; (split; [reflexivity|]); intros [|[|g]] ns G; try discriminate; inversion G; subst ns.
    + split; [apply high_free; vm_compute; reflexivity|]. split; [|reflexivity].
      change (nth _ odd_lines []) with (num_text (nth 0 odd_row (dec "" "")) ++ num_text (nth 1 odd_row (dec "" "")) ++ num_text (nth 2 odd_row (dec "" "")) ++ num_text (nth 3 odd_row (dec "" "")) ++ []).
      unfold odd_row at 1. repeat (apply Nums_num; [apply form_b_ok; vm_compute; reflexivity|cbn; repeat split; try discriminate|]). constructor.
    + apply Listed_Row; [|reflexivity]. apply Listed_b; vm_compute; reflexivity.
Qed.
Lemma odd_values : map num_value odd_row = [3/2; 1/4; 1; 2]%R.
Proof.
  unfold odd_row, dec, n_of, num_value, exponent, whole, parts, frac_digits. cbn [map n_sign n_int n_frac n_exp option_map fst snd txt list_ascii_of_string fold_left].
  repeat match goal with |- context [dig ?c] => let v := eval vm_compute in (dig c) in change (dig c) with v end.
  change (value ["0"]) with 0%Z. change (powerRZ 10 0) with 1%R. repeat (f_equal; try lra).
Qed.
Lemma odd_makes : exists a, makes odd_mat a /\ xsab a = [3/2]%R /\ xsnf a = [1/4]%R /\ xsf a = [1]%R.
Proof.
  assert (G : forall i, by_group i odd_mat = [nth i [3/2; 1/4; 1; 2] 0]%R) by (intros i; unfold by_group, odd_mat; cbn [mt_xs map]; rewrite odd_values; reflexivity).
  unfold makes. rewrite !G. cbn [nth]. destruct (C39_construction [3/2]%R [1/4]%R [1]%R [2]%R (scattering odd_mat)) as [X _]; try reflexivity.
  - intros v [<-|[]]. lra.
  - apply X. intros r R. unfold scattering, odd_mat in *. cbn in R. destruct R as [<-|[]]. reflexivity.
Qed.
Lemma odd_bound : map num_value [dec "1" "0"] = [1]%R.
Proof.
  unfold dec, n_of, num_value, exponent, whole, parts, frac_digits. cbn [map n_sign n_int n_frac n_exp option_map fst snd txt list_ascii_of_string fold_left].
  repeat match goal with |- context [dig ?c] => let v := eval vm_compute in (dig c) in change (dig c) with v end. change (powerRZ 10 0) with 1%R. f_equal. lra.
Qed.
Theorem C188_headings_refuted : exists text ls a, content text ls /\ nth 3 ls [] = txt "XSMACR0 fuel 1" /\ (forall nm, ~ is_heading (nth 3 ls []) nm)
  /\ (exists L, material_lib (Some (Some text)) [(1%Z, ""%string)] = SVal (1%Z, [1]%R, L) /\ get_material_by_id L 1%Z = Some a)
  /\ material_lib (Some (Some text)) [(1%Z, "fuel"%string)] = SExc.
Proof.
  destruct odd_makes as [a [M _]]. exists odd_text, odd_lines, a. split; [exact odd_content|]. split; [reflexivity|]. split.
  - intros nm [d [W _]]. apply Spaced_words in W. vm_compute in W. discriminate.
  - assert (F : Forall2 makes [odd_mat] [a]) by (constructor; [exact M|constructor]).
    split; [|rewrite (Library_reads _ _ _ _ _ _ _ _ odd_content odd_library F); reflexivity].
    eexists. rewrite (Library_reads _ _ _ _ _ _ _ _ odd_content odd_library F), odd_bound. cbn. split; reflexivity.
Qed.
Print Assumptions C188_headings_refuted.

(** Four numbers need not be separated: 1.5.25+1e0+2.E+0 is read as 1.5, .25, +1e0 and +2.E+0. *)
Theorem C188_separation_refuted : exists text ls L a, content text ls /\ nth 4 ls [] = txt "1.5.25+1e0+2.E+0" /\ words (nth 4 ls []) = [nth 4 ls []]
  /\ material_lib (Some (Some text)) [(1%Z, ""%string)] = SVal (1%Z, [1]%R, L) /\ get_material_by_id L 1%Z = Some a
  /\ xsab a = [3/2]%R /\ xsnf a = [1/4]%R /\ xsf a = [1]%R.
Proof.
  destruct odd_makes as [a [M X]]. assert (F : Forall2 makes [odd_mat] [a]) by (constructor; [exact M|constructor]).
  eexists odd_text, odd_lines, _, a. split; [exact odd_content|]. split; [reflexivity|]. split; [vm_compute; reflexivity|].
  rewrite (Library_reads _ _ _ _ _ _ _ _ odd_content odd_library F), odd_bound. cbn. split; [reflexivity|]. split; [reflexivity|exact X].
Qed.
Print Assumptions C188_separation_refuted.

(** The hypotheses of the theorems above are met: a file accepted, of which all lines are needed, and one which is one line short. *)
Example C188_instance : (exists L, material_lib (Some (Some odd_text)) [(1%Z, ""%string)] = SVal (1%Z, [1]%R, L))
  /\ Library odd_lines 1 1 [dec "1" "0"] [odd_mat] /\ (Z.of_nat (List.length odd_lines) = 3 + 1 * (1 + 2 * 1))%Z
  /\ material_lib (Some (Some (txt "One group" ++ nl ++ txt "1 1 and more" ++ nl ++ txt "1.0 x" ++ nl ++ txt "XSMACRO fuel 1" ++ nl ++ txt "1.5 .25 1e0 2.E+0"))) [] = SExc.
Proof.
  destruct odd_makes as [a [M _]]. assert (F : Forall2 makes [odd_mat] [a]) by (constructor; [exact M|constructor]).
  split; [|split; [exact odd_library|split; [reflexivity|]]].
  - eexists. rewrite (Library_reads _ _ _ _ _ _ _ _ odd_content odd_library F), odd_bound. reflexivity.
  - cbn [material_lib]. rewrite read_library_lines. vm_compute. reflexivity.
Qed.
