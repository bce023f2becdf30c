(** Properties C38, C39 and C75: materials and the material library. *)
From Coq Require Import List Lia Bool Reals Lra ZArith String.
From Verif Require Import RUtil McModel McProofs ListUtil ScatModel ScatProofs ScatProps MatModel.
Import ListNotations.
Open Scope nat_scope.

Lemma map_at_set : forall {K V} (eqb : K -> K -> bool), (forall a b, eqb a b = true <-> a = b) ->
  forall (l : list (K * V)) k v k', map_at eqb (map_set eqb l k v) k' = if eqb k' k then Some v else map_at eqb l k'.
Proof.
  intros K V eqb E l k v k'. induction l as [|[a b] l IH]; cbn.
  - reflexivity.
  - destruct (eqb k a) eqn:Ka; cbn.
    + apply E in Ka. subst a. now destruct (eqb k' k).
    + destruct (eqb k' a) eqn:Kb; rewrite ?IH; auto.
      destruct (eqb k' k) eqn:Kc; auto. apply E in Kc. apply E in Kb. subst. rewrite (proj2 (E a a) eq_refl) in Ka. discriminate.
Qed.
Lemma string_eqb_eq : forall a b, String.eqb a b = true <-> a = b.
Proof. intros a b. destruct (String.eqb_spec a b); split; congruence. Qed.

(** Specification: the last element of [l] with key [k]. *)
Fixpoint last_of {B} (l : list (Z * B)) (k : Z) : option B :=
  match l with
  | [] => None
  | (i, b) :: r => match last_of r k with Some x => Some x | None => if (i =? k)%Z then Some b else None end
  end.
(** Specification: a name and the material it stands for in the library file (the last one of that name). *)
Fixpoint named {A} (l : list (string * A)) (s : string) : option A :=
  match l with
  | [] => None
  | (t, a) :: r => match named r s with Some x => Some x | None => if String.eqb t s then Some a else None end
  end.

Lemma load_ok : forall {A} (l : list (string * A)) i nm s,
  match map_at String.eqb (load l i nm) s with
  | Some k => (exists a, named l s = Some a /\ i <= k /\ nth_error l (k - i) = Some (s, a)) \/
              (named l s = None /\ map_at String.eqb nm s = Some k)
  | None => named l s = None /\ map_at String.eqb nm s = None
  end.
Proof.
  intros A. induction l as [|[t a] l IH]; intros i nm s; cbn [load named].
  - destruct (map_at String.eqb nm s) eqn:E; auto.
  - specialize (IH (S i) (map_set String.eqb nm t i) s).
    destruct (map_at String.eqb (load l (S i) (map_set String.eqb nm t i)) s) as [k|].
    + destruct IH as [(x & N & H1 & H2)|(N & M)].
      * left. exists x. rewrite N. split; auto. split; [lia|]. replace (k - i) with (S (k - S i)) by lia. exact H2.
      * rewrite N. rewrite map_at_set in M by apply string_eqb_eq. rewrite String.eqb_sym in M.
        destruct (String.eqb_spec t s) as [->|].
        -- injection M as <-. left. exists a. split; auto. split; [lia|]. now rewrite Nat.sub_diag.
        -- right. auto.
    + destruct IH as [N M]. rewrite N. rewrite map_at_set in M by apply string_eqb_eq. rewrite String.eqb_sym in M.
      destruct (String.eqb_spec t s); [discriminate|]. auto.
Qed.

Lemma lookup_name : forall {A} (l : list (string * A)) s,
  match map_at String.eqb (names (make_lib l)) s with
  | Some k => nth_error (lib_materials (make_lib l)) k = named l s /\ named l s <> None
  | None => named l s = None
  end.
Proof.
  intros A l s. unfold make_lib. cbn [names lib_materials]. pose proof (load_ok l 0 [] s) as H.
  destruct (map_at String.eqb (load l 0 []) s) as [k|].
  - destruct H as [(a & N & _ & E)|(_ & H)]; [|discriminate]. rewrite N. split; [|discriminate].
    rewrite Nat.sub_0_r in E. now rewrite nth_error_map, E.
  - tauto.
Qed.

(** Invariant of a library under assignments. *)
Lemma assign_inv : forall {A} (lib : list (string * A)) asg (L : Lib A),
  assign_all (make_lib lib) asg = Some L ->
  names L = names (make_lib lib) /\ lib_materials L = lib_materials (make_lib lib) /\ n_material L = List.length asg /\
  List.length (assigned L) = List.length asg /\
  (forall id, get_material_by_id L id = match last_of asg id with Some s => named lib s | None => None end) /\
  (forall id, has L id = match last_of asg id with Some _ => true | None => false end) /\
  (forall id, match get_index_by_id L id with
              | Some k => k < List.length asg /\ (exists s, nth_error asg k = Some (id, s)) /\ nth_error (assigned L) k = get_material_by_id L id
              | None => last_of asg id = None end).
Proof.
  intros A lib asg. induction asg as [|[i s] asg IH] using rev_ind; intros L H.
  - cbn in H. injection H as <-. repeat split; auto.
  - assert (X : exists L0, assign_all (make_lib lib) asg = Some L0 /\ assignID L0 i s = Some L).
    { clear IH. revert H. generalize (make_lib lib). induction asg as [|[j t] asg IH]; intros L0 H; cbn in H.
      - destruct (assignID L0 i s) eqn:E; [|discriminate]. injection H as <-. exists L0. auto.
      - cbn. destruct (assignID L0 j t); [|discriminate]. auto. }
    destruct X as (L0 & E0 & E). specialize (IH L0 E0). destruct IH as (I1 & I2 & I3 & I4 & I5 & I6 & I7).
    assert (La : forall id, last_of (asg ++ [(i, s)]) id = if (i =? id)%Z then Some s else last_of asg id).
    { intros id. clear. induction asg as [|[j t] asg IH]; cbn; [now destruct (i =? id)%Z|]. rewrite IH.
      destruct (i =? id)%Z; auto. }
    unfold assignID in E. pose proof (lookup_name lib s) as Nm. rewrite I1 in E.
    destruct (map_at String.eqb (names (make_lib lib)) s) as [k|] eqn:Ek; [|discriminate]. destruct Nm as [Nm1 Nm2].
    rewrite <- I2 in Nm1. destruct (nth_error (lib_materials L0) k) as [m|] eqn:Em; [|discriminate].
    injection E as <-. cbn [names lib_materials n_material assigned ids dense].
    rewrite !app_length. cbn [List.length].
    split; [auto|]. split; [auto|]. split; [lia|]. split; [lia|].
    assert (G : forall id, get_material_by_id (mkLib (lib_materials L0) (assigned L0 ++ [m]) (names (make_lib lib)) (map_set Z.eqb (ids L0) i k) (map_set Z.eqb (dense L0) i (n_material L0)) (S (n_material L0))) id
       = if (i =? id)%Z then Some m else get_material_by_id L0 id).
    { intros id. unfold get_material_by_id. cbn [ids lib_materials]. rewrite map_at_set by apply Z.eqb_eq.
      rewrite Z.eqb_sym. destruct (i =? id)%Z; auto. }
    split; [|split].
    + intros id. rewrite G, La. destruct (i =? id)%Z; auto.
    + intros id. rewrite La. unfold has. cbn [ids]. rewrite map_at_set by apply Z.eqb_eq. rewrite Z.eqb_sym.
      destruct (i =? id)%Z; auto. apply I6.
    + intros id. rewrite G, La. unfold get_index_by_id. cbn [dense]. rewrite map_at_set by apply Z.eqb_eq. rewrite (Z.eqb_sym id i).
      destruct (Z.eqb_spec i id) as [->|Ne].
      * rewrite I3. split; [lia|]. split.
        -- exists s. rewrite nth_error_app2, Nat.sub_diag by lia. reflexivity.
        -- rewrite <- I4, nth_error_app2, Nat.sub_diag by lia. reflexivity.
      * specialize (I7 id). unfold get_index_by_id in I7. destruct (map_at Z.eqb (dense L0) id) as [d|]; auto.
        destruct I7 as (D1 & (s' & D2) & D3). split; [lia|]. split.
        -- exists s'. rewrite nth_error_app1 by lia. exact D2.
        -- rewrite nth_error_app1 by lia. exact D3.
Qed.

(** ** C38 *)

(** The material of an identifier is the one of its last assignment; [has] and the rejection of unknown identifiers
    agree with the assignments made. *)
Theorem C38_lookup_by_id : forall {A} (lib : list (string * A)) asg L, assign_all (make_lib lib) asg = Some L ->
  forall id, get_material_by_id L id = match last_of asg id with Some s => named lib s | None => None end /\
             has L id = (if in_dec Z.eq_dec id (map fst asg) then true else false) /\
             (has L id = true -> get_material_by_id L id <> None).
Proof.
  intros A lib asg L H id. destruct (assign_inv lib asg L H) as (I1 & I2 & _ & _ & I5 & I6 & _).
  assert (Q : last_of asg id <> None <-> In id (map fst asg)).
  { clear. induction asg as [|[j t] asg IH]; cbn; [tauto|]. destruct (last_of asg id) as [x|].
    - split; [intros _; right; now apply IH|discriminate].
    - destruct (Z.eqb_spec j id) as [->|Ne]; split; try tauto; try discriminate. }
  split; [auto|]. split.
  - rewrite I6. destruct (in_dec Z.eq_dec id (map fst asg)) as [Y|Y]; [apply Q in Y|].
    + destruct (last_of asg id); [auto|contradiction].
    + destruct (last_of asg id) eqn:E; auto. exfalso. apply Y. apply Q. congruence.
  - unfold has, get_material_by_id. destruct (map_at Z.eqb (ids L) id) as [k|] eqn:E; [|discriminate]. intros _.
    specialize (I5 id). unfold get_material_by_id in I5. rewrite E in I5. rewrite I5.
    specialize (I6 id). unfold has in I6. rewrite E in I6. destruct (last_of asg id) as [s|] eqn:El; [|congruence].
    (* the name was accepted, so it exists *)
    clear - H El. assert (X : forall asg (L0 L : Lib A), names L0 = names (make_lib lib) -> assign_all L0 asg = Some L -> last_of asg id = Some s ->
        map_at String.eqb (names (make_lib lib)) s <> None).
    { clear. induction asg as [|[j t] asg IH]; intros L0 L N H El; cbn [assign_all last_of] in *; [congruence|].
      unfold assignID in H. rewrite N in H. destruct (map_at String.eqb (names (make_lib lib)) t) eqn:Et; [|congruence].
      destruct (nth_error (lib_materials L0) n); [|congruence].
      destruct (last_of asg id) as [x|] eqn:Ex.
      - injection El as ->. eapply IH; [|exact H|reflexivity]. reflexivity.
      - destruct (j =? id)%Z; [|congruence]. injection El as ->. congruence. }
    specialize (X asg (make_lib lib) L eq_refl H El). pose proof (lookup_name lib s) as Nm.
    destruct (map_at String.eqb (names (make_lib lib)) s); [apply Nm|contradiction].
Qed.
Print Assumptions C38_lookup_by_id.

(** Every dense index is in range and selects, among the materials iterated over, the material of that identifier. *)
Theorem C38_dense_index : forall {A} (lib : list (string * A)) asg L id, assign_all (make_lib lib) asg = Some L ->
  In id (map fst asg) -> exists k, get_index_by_id L id = Some k /\ k < n_material L /\
    nth_error (assigned L) k = get_material_by_id L id.
Proof.
  intros A lib asg L id H Hi. destruct (assign_inv lib asg L H) as (_ & _ & I3 & _ & _ & I6 & I7).
  specialize (I7 id). destruct (get_index_by_id L id) as [k|].
  - exists k. rewrite I3. split; [auto|]. split; apply I7.
  - exfalso. destruct (C38_lookup_by_id lib asg L H id) as (_ & X & _). rewrite I6, I7 in X.
    destruct (in_dec Z.eq_dec id (map fst asg)); [discriminate|contradiction].
Qed.
Print Assumptions C38_dense_index.

(** Distinct identifiers have distinct dense indices. *)
Theorem C38_dense_injective : forall {A} (lib : list (string * A)) asg L i j k, assign_all (make_lib lib) asg = Some L ->
  get_index_by_id L i = Some k -> get_index_by_id L j = Some k -> i = j.
Proof.
  intros A lib asg L i j k H Hi Hj. destruct (assign_inv lib asg L H) as (_ & _ & _ & _ & _ & _ & I7).
  pose proof (I7 i) as Ii. pose proof (I7 j) as Ij. rewrite Hi in Ii. rewrite Hj in Ij.
  destruct Ii as (_ & (s & E1) & _), Ij as (_ & (t & E2) & _). rewrite E1 in E2. now injection E2.
Qed.
Print Assumptions C38_dense_injective.

(** The count is the number of distinct identifiers provided no identifier is assigned twice. *)
Theorem C38_count_partial : forall {A} (lib : list (string * A)) asg L, assign_all (make_lib lib) asg = Some L ->
  NoDup (map fst asg) -> n_material L = List.length (nodup Z.eq_dec (map fst asg)) /\
    List.length (assigned L) = n_material L.
Proof.
  intros A lib asg L H ND. destruct (assign_inv lib asg L H) as (_ & _ & I3 & I4 & _).
  rewrite (nodup_fixed_point Z.eq_dec ND), map_length. split; congruence.
Qed.
Print Assumptions C38_count_partial.

Definition two : list (string * nat) := [("a"%string, 10); ("b"%string, 20)].
Theorem C38_count_refuted : exists (lib : list (string * nat)) asg L, assign_all (make_lib lib) asg = Some L /\
  n_material L <> List.length (nodup Z.eq_dec (map fst asg)).
Proof.
  exists two, [(1%Z, "a"%string); (1%Z, "b"%string)]. eexists. split; [reflexivity|]. cbn. lia.
Qed.
Print Assumptions C38_count_refuted.

Example C38_instance : exists L, assign_all (make_lib two) [(7%Z, "b"%string); (3%Z, "a"%string)] = Some L /\
  get_material_by_id L 7 = Some 20 /\ get_material_by_id L 4 = None /\ get_index_by_id L 3 = Some 1 /\
  NoDup (map fst [(7%Z, "b"%string); (3%Z, "a"%string)]).
Proof.
  eexists. split; [reflexivity|]. repeat split. repeat constructor; cbn; lia.
Qed.

(** ** C39 *)

Lemma fold_rsum : forall l a, fold_left Rplus l a = (a + fold_right Rplus 0 l)%R.
Proof. induction l as [|x l IH]; intros a; cbn; [lra|]. rewrite IH. lra. Qed.

Theorem C39_spectrum_normalised : forall ab nf f ch sc m, make_material ab nf f ch sc = Got m ->
  (exists v, In v (firstn (List.length ab) ch) /\ (0 < v)%R) -> fold_right Rplus 0%R (xsch m) = 1%R /\
  (forall i v, nth_error (firstn (List.length ab) ch) i = Some v ->
     exists w, nth_error (xsch m) i = Some w /\ (w * fold_right Rplus 0 (firstn (List.length ab) ch) = v)%R).
Proof.
  intros ab nf f ch sc m H (v & Hv & Hp). unfold make_material in H.
  destruct (convert_vvec sc) as [d|]; [|discriminate]. destruct (compress (List.length sc) d) as [s|]; [|discriminate].
  destruct ((List.length nf <? List.length ab) || (List.length f <? List.length ab) || (List.length ch <? List.length ab)); [discriminate|].
  set (l := firstn (List.length ab) ch) in *.
  destruct (normalize_chi l) as [c|] eqn:Ec; [|discriminate]. destruct (transport ab (out s)); [|discriminate].
  injection H as <-. cbn [xsch]. unfold normalize_chi in Ec.
  assert (Ex : existsb (fun v => Rltb 0 v) l = true) by (apply existsb_exists; exists v; split; auto; now apply Rltb_true).
  rewrite Ex in Ec. destruct (Reqb_spec (vsum l) 0) as [|Ne]; [discriminate|]. injection Ec as <-.
  unfold vsum in *. rewrite fold_rsum, Rplus_0_l in *. set (t := fold_right Rplus 0%R l) in *. split.
  - assert (X : forall q, fold_right Rplus 0%R (map (fun c => (c / t)%R) q) = (fold_right Rplus 0 q / t)%R).
    { intros q. induction q as [|x q IH]; cbn [map fold_right]; [unfold Rdiv; ring|]. rewrite IH. field. auto. }
    rewrite X. fold t. field. auto.
  - intros i w Hw. exists (w / t)%R. rewrite nth_error_map, Hw. split; auto. field. auto.
Qed.
Print Assumptions C39_spectrum_normalised.

(** A spectrum without positive entries is stored as given. *)
Theorem C39_spectrum_unfissile : forall ab nf f ch sc m, make_material ab nf f ch sc = Got m ->
  (forall v, In v (firstn (List.length ab) ch) -> (v <= 0)%R) -> xsch m = firstn (List.length ab) ch.
Proof.
  intros ab nf f ch sc m H Hv. unfold make_material in H.
  destruct (convert_vvec sc) as [d|]; [|discriminate]. destruct (compress (List.length sc) d) as [s|]; [|discriminate].
  destruct ((List.length nf <? List.length ab) || (List.length f <? List.length ab) || (List.length ch <? List.length ab)); [discriminate|].
  destruct (normalize_chi (firstn (List.length ab) ch)) as [c|] eqn:Ec; [|discriminate]. destruct (transport ab (out s)); [|discriminate].
  injection H as <-. cbn [xsch]. unfold normalize_chi in Ec.
  destruct (existsb (fun v => Rltb 0 v) (firstn (List.length ab) ch)) eqn:Ex; [|now injection Ec].
  apply existsb_exists in Ex. destruct Ex as (v & Hin & P). specialize (Hv v Hin). rewrite Rltb_false in P by auto. discriminate.
Qed.
Print Assumptions C39_spectrum_unfissile.

Lemma transport_nth : forall ab o tr, transport ab o = Some tr -> forall i a x, nth_error ab i = Some a -> nth_error o i = Some x ->
  nth_error tr i = Some (a + x)%R.
Proof.
  induction ab as [|b ab IH]; intros o tr H i a x Ha Hx; [destruct i; discriminate|].
  destruct o as [|y o]; cbn in H; [discriminate|]. destruct (transport ab o) as [r|] eqn:E; [|discriminate]. injection H as <-.
  destruct i; cbn in *; [now injection Ha as ->; injection Hx as ->|]. eapply IH; eauto.
Qed.
Lemma transport_len : forall ab o tr, transport ab o = Some tr -> List.length tr = List.length ab /\ List.length ab <= List.length o.
Proof.
  induction ab as [|b ab IH]; intros o tr H; cbn in H; [injection H as <-; cbn; lia|].
  destruct o as [|y o]; [discriminate|]. destruct (transport ab o) as [r|] eqn:E; [|discriminate]. injection H as <-.
  destruct (IH _ _ E). cbn. lia.
Qed.

(** Transport = absorption + scattering out of the group (a column sum of the table that was given). *)
Theorem C39_transport_is_total : forall ab nf f ch sc m, make_material ab nf f ch sc = Got m ->
  (forall r x i g, nth_error sc i = Some r -> nth_error r g = Some x -> i <> g -> (0 <= x)%R) ->
  List.length (xstr m) = List.length ab /\
  forall g a, nth_error ab g = Some a ->
    nth_error (xstr m) g = Some (a + rsum (fun to => nth g (nth to sc []) 0) (List.length sc))%R.
Proof.
  intros ab nf f ch sc m H N. unfold make_material in H.
  destruct (convert_vvec sc) as [d|] eqn:Ed; [|discriminate].
  assert (Dd : forall i g, d i g = nth g (nth i sc []) 0%R).
  { unfold convert_vvec in Ed. destruct (forallb _ sc); [|discriminate]. now injection Ed as <-. }
  assert (Sq : forall r, In r sc -> List.length r = List.length sc).
  { intros r Hr. unfold convert_vvec in Ed. destruct (forallb (fun r => List.length r =? List.length sc) sc) eqn:Ef; [|discriminate].
    rewrite forallb_forall in Ef. apply Nat.eqb_eq. now apply Ef. }
  destruct (C19_out_is_column_sum_partial (List.length sc) d) as (s & Es & Lo & Os).
  { intros i g Hi Hg Ne. rewrite Dd. destruct (nth_error sc i) as [r|] eqn:Er; [|apply nth_error_None in Er; lia].
    rewrite (nth_error_nth sc i [] Er). destruct (nth_error r g) as [x|] eqn:Ex.
    - rewrite (nth_error_nth r g 0%R Ex). eapply N; eauto.
    - apply nth_error_None in Ex. rewrite nth_overflow by auto. lra. }
  rewrite Es in H.
  destruct ((List.length nf <? List.length ab) || (List.length f <? List.length ab) || (List.length ch <? List.length ab)); [discriminate|].
  destruct (normalize_chi (firstn (List.length ab) ch)); [|discriminate]. destruct (transport ab (out s)) as [tr|] eqn:Et; [|discriminate].
  injection H as <-. cbn [xstr]. destruct (transport_len _ _ _ Et) as [L1 L2]. split; auto.
  intros g a Ha. assert (g < List.length ab) by (apply nth_error_Some; congruence).
  rewrite (transport_nth _ _ _ Et g a _ Ha (Os g ltac:(lia))). do 2 f_equal. apply rsum_ext. intros i Hi. apply Dd.
Qed.
Print Assumptions C39_transport_is_total.

(** With no condition on signs: transport = absorption + column sum of the matrix as stored. *)
Theorem C39_transport_is_stored_total : forall ab nf f ch sc m, make_material ab nf f ch sc = Got m ->
  forall g a, nth_error ab g = Some a ->
    nth_error (xstr m) g = Some (a + rsum (fun to => match nth_error (rows (xssc m)) to with
                                                     | Some r => match row_get (xssc m) r g with Some v => v | None => 0 end
                                                     | None => 0 end) (ng (xssc m)))%R.
Proof.
  intros ab nf f ch sc m H g a Ha. unfold make_material in H.
  destruct (convert_vvec sc) as [d|] eqn:Ed; [|discriminate].
  destruct (compress_ok (List.length sc) d) as (s & Es & Eg & Lr & _ & Rw & Os & Lo & _). rewrite Es in H.
  destruct ((List.length nf <? List.length ab) || (List.length f <? List.length ab) || (List.length ch <? List.length ab)); [discriminate|].
  destruct (normalize_chi (firstn (List.length ab) ch)); [|discriminate]. destruct (transport ab (out s)) as [tr|] eqn:Et; [|discriminate].
  injection H as <-. cbn [xstr xssc]. destruct (transport_len _ _ _ Et) as [L1 L2].
  assert (g < List.length ab) by (apply nth_error_Some; congruence).
  rewrite (transport_nth _ _ _ Et g a _ Ha (Os g ltac:(lia))). do 2 f_equal. rewrite Eg. apply rsum_ext. intros i Hi.
  destruct (Rw i Hi) as (r & Er & Hh). rewrite Er, (row_get_holds s r _ _ g Hh).
  now destruct (in_band (band (List.length sc) (d i) i) g).
Qed.
Print Assumptions C39_transport_is_stored_total.

(** Construction succeeds for well-formed data, throws for a ragged table. *)
Theorem C39_construction : forall ab nf f ch sc,
  List.length nf = List.length ab -> List.length f = List.length ab -> List.length ch = List.length ab -> List.length sc = List.length ab ->
  (forall v, In v ch -> (0 <= v)%R) ->
  ((forall r, In r sc -> List.length r = List.length sc) -> exists m, make_material ab nf f ch sc = Got m /\ xsab m = ab /\ xsnf m = nf /\ xsf m = f) /\
  ((exists r, In r sc /\ List.length r <> List.length sc) -> make_material ab nf f ch sc = Threw).
Proof.
  intros ab nf f ch sc L1 L2 L3 L4 P. split.
  - intros Sq. unfold make_material. destruct (C19_square_input sc) as [[T _] _].
    destruct (convert_vvec sc) as [d|] eqn:Ed.
    2:{ destruct (T eq_refl) as (r & Hr & Hn). exfalso. apply Hn. now apply Sq. }
    destruct (compress_ok (List.length sc) d) as (s & Es & _ & _ & _ & _ & _ & Lo & _). rewrite Es, L1, L2, L3, Nat.ltb_irrefl. cbn [orb].
    assert (C : exists c, normalize_chi (firstn (List.length ab) ch) = Some c).
    { unfold normalize_chi. rewrite <- L3, firstn_all. destruct (existsb (fun v => Rltb 0 v) ch) eqn:Ex; [|eauto].
      destruct (Reqb_spec (vsum ch) 0) as [Z|]; [|eauto]. exfalso. unfold vsum in Z. rewrite fold_rsum, Rplus_0_l in Z.
      apply existsb_exists in Ex. destruct Ex as (v & Hv & Pv). destruct (Rltb_spec 0 v); [|discriminate].
      assert (G : forall l, (forall v, In v l -> (0 <= v)%R) -> (0 <= fold_right Rplus 0 l)%R /\ (forall v, In v l -> (v <= fold_right Rplus 0 l)%R)).
      { induction l as [|x l IH]; intros Pl; cbn; [split; [lra|tauto]|].
        destruct IH as [I1 I2]; [intros; apply Pl; now right|]. assert (0 <= x)%R by (apply Pl; now left). split; [lra|].
        intros w [->|Hw]; [lra|]. specialize (I2 w Hw). lra. }
      destruct (G ch P) as [_ G2]. specialize (G2 v Hv). lra. }
    destruct C as (c & Ec). rewrite Ec.
    assert (T2 : forall q o, List.length o = List.length q -> exists tr, transport q o = Some tr).
    { intros q. induction q as [|x q IH]; intros o Lo'; cbn; [eauto|]. destruct o as [|y o]; [discriminate|].
      destruct (IH o) as (tr & ->); [cbn in Lo'; lia|]. eauto. }
    destruct (T2 ab (out s) ltac:(lia)) as (tr & ->).
    eexists. split; [reflexivity|]. cbn. rewrite <- L1 at 1. rewrite firstn_all. rewrite <- L2, firstn_all. auto.
  - intros E. unfold make_material. destruct (C19_square_input sc) as [[_ T] _]. now rewrite (T E).
Qed.
Print Assumptions C39_construction.

Example C39_instance : exists m, make_material [1; 2]%R [3; 4]%R [1; 1]%R [2; 6]%R [[1; 0]; [5; 7]]%R = Got m.
Proof.
  destruct (C39_construction [1; 2]%R [3; 4]%R [1; 1]%R [2; 6]%R [[1; 0]; [5; 7]]%R) as [H _]; auto.
  - intros v [<-|[<-|[]]]; lra.
  - destruct H as (m & Hm & _); eauto. intros r [<-|[<-|[]]]; reflexivity.
Qed.

(** ** C75 *)

(** A name that occurs once in the library file denotes that material. *)
Theorem C75_unique_name : forall {A} (pre post : list (string * A)) s a, 
  ~ In s (map fst pre) -> ~ In s (map fst post) ->
  exists L, assignID (make_lib (pre ++ (s, a) :: post)) 1 s = Some L /\ get_material_by_id L 1 = Some a.
Proof.
  intros A pre post s a H1 H2. set (lib := pre ++ (s, a) :: post).
  assert (N : named lib s = Some a).
  { unfold lib. clear H1. assert (P : named post s = None).
    { induction post as [|[t b] post IH]; cbn; auto. cbn in H2. rewrite IH by tauto. destruct (String.eqb_spec t s); auto. tauto. }
    induction pre as [|[t b] pre IH]; cbn; [rewrite P, String.eqb_refl; auto|]. now rewrite IH. }
  pose proof (lookup_name lib s) as K. unfold assignID.
  destruct (map_at String.eqb (names (make_lib lib)) s) as [k|]; [|congruence]. destruct K as [K _].
  rewrite K, N. eexists. split; [reflexivity|]. unfold get_material_by_id. cbn [ids lib_materials].
  rewrite map_at_set by apply Z.eqb_eq. cbn [Z.eqb Pos.eqb]. rewrite <- N. exact K.
Qed.
Print Assumptions C75_unique_name.

(** A library with two materials of the same name is accepted, and the first of them becomes unreachable. *)
Theorem C75_duplicate_names_refuted : exists (lib : list (string * nat)) L,
  ~ NoDup (map fst lib) /\ assign_all (make_lib lib) [(1%Z, "fuel"%string)] = Some L /\
  get_material_by_id L 1 = Some 20 /\ In ("fuel"%string, 10) lib.
Proof.
  exists [("fuel"%string, 10); ("fuel"%string, 20)]. eexists. split.
  - intros H. inversion H as [|? ? X _]. apply X. now left.
  - split; [reflexivity|]. split; [reflexivity|]. now left.
Qed.
Print Assumptions C75_duplicate_names_refuted.

Example C75_instance : ~ In "b"%string (map fst [("a"%string, 1)]) /\ ~ In "b"%string (map fst [("c"%string, 3)]).
Proof. cbn. split; intros [H|[]]; discriminate. Qed.
