(** Properties of cross-section meshes: material regions (C34), expansion (C35), region equality (C37), reaction
    probabilities (C87).  Homogenization is in HomProps. *)
From Coq Require Import List Lia Bool Reals ZArith Arith Permutation Sorting.Sorted Lra.
From Verif Require Import RUtil ListUtil McModel ScatModel ScatProofs ScatProps MatModel CoreProofs XsModel.
Import ListNotations.
Open Scope nat_scope.

(** ** C34 *)
(** Specification: the material id of each flat source region, pins in order, each material repeated over its regions. *)
Definition flat_ids (pins : list (list (Z * nat))) : list Z := flat_map (fun p => flat_map (fun q => repeat (fst q) (snd q)) p) pins.
(** Specification: the regions holding a material, in increasing order. *)
Definition pos_of (id : Z) (fl : list Z) : list nat := filter (fun r => (nth r fl 0 =? id)%Z) (seq 0 (length fl)).

Lemma pos_of_snoc : forall id k fl, pos_of id (fl ++ [k]) = pos_of id fl ++ (if (k =? id)%Z then [length fl] else []).
Proof.
  intros id k fl. unfold pos_of. rewrite app_length, seq_app, filter_app. cbn [length seq filter Nat.add]. rewrite app_nth2, Nat.sub_diag by lia. cbn [nth].
  f_equal. apply filter_ext_in. intros r I. apply in_seq in I. now rewrite app_nth1 by lia.
Qed.
Lemma in_pos_of : forall id fl r, In r (pos_of id fl) <-> nth_error fl r = Some id.
Proof.
  intros id fl r. unfold pos_of. rewrite filter_In, in_seq, Z.eqb_eq. split.
  - intros [B <-]. apply nth_error_nth'. lia.
  - intros H. split; [|now apply nth_error_nth]. assert (nth_error fl r <> None) by congruence. apply nth_error_Some in H0. lia.
Qed.

(** Invariant of the accumulation. *)
Record inv (fl : list Z) (l : list (Z * list nat)) : Prop := {
  inv_sorted : StronglySorted Z.lt (map fst l);
  inv_val : forall k v, In (k, v) l -> v = pos_of k fl /\ v <> [];
  inv_all : forall k, In k fl -> In k (map fst l);
  inv_perm : Permutation (concat (map snd l)) (seq 0 (length fl))
}.

Lemma map_push_keys : forall l id r k, In k (map fst (map_push l id r)) <-> k = id \/ In k (map fst l).
Proof.
  induction l as [|[k0 v0] l IH]; intros id r k; cbn [map_push].
  - cbn. intuition.
  - destruct (Z.ltb_spec id k0); [cbn; intuition|]. destruct (Z.eqb_spec id k0) as [->|]; [cbn; intuition|]. cbn [map fst In]. rewrite IH. intuition.
Qed.
Lemma map_push_sorted : forall l id r, StronglySorted Z.lt (map fst l) -> StronglySorted Z.lt (map fst (map_push l id r)).
Proof.
  induction l as [|[k0 v0] l IH]; intros id r H; cbn [map_push].
  - cbn. constructor; [constructor|constructor].
  - cbn [map fst] in H. inversion H as [|? ? S F]; subst. destruct (Z.ltb_spec id k0); [|destruct (Z.eqb_spec id k0) as [->|]].
    + cbn [map fst]. constructor; [exact H|]. constructor; [lia|]. eapply Forall_impl; [|exact F]. cbn; intros; lia.
    + exact H.
    + cbn [map fst]. constructor; [now apply IH|]. apply Forall_forall. intros k I. apply map_push_keys in I. destruct I as [->|I]; [lia|]. rewrite Forall_forall in F. auto.
Qed.
Lemma map_push_perm : forall l id r, Permutation (concat (map snd (map_push l id r))) (concat (map snd l) ++ [r]).
Proof.
  induction l as [|[k0 v0] l IH]; intros id r; cbn [map_push].
  - reflexivity.
  - destruct (Z.ltb_spec id k0); [|destruct (Z.eqb_spec id k0)].
    + cbn [map snd concat app]. apply Permutation_cons_append.
    + cbn [map snd concat]. rewrite <- !app_assoc. apply Permutation_app_head, Permutation_app_comm.
    + cbn [map snd concat]. rewrite <- app_assoc. apply Permutation_app_head, IH.
Qed.
Lemma map_push_val : forall l id r k v, StronglySorted Z.lt (map fst l) -> In (k, v) (map_push l id r) ->
  (k <> id /\ In (k, v) l) \/ (k = id /\ ((exists v0, In (id, v0) l /\ v = v0 ++ [r]) \/ (~ In id (map fst l) /\ v = [r]))).
Proof.
  induction l as [|[k0 v0] l IH]; intros id r k v H I; cbn [map_push] in I.
  - destruct I as [[= <- <-]|[]]. right. split; [reflexivity|]. right. split; [intros []|reflexivity].
  - cbn [map fst] in H. inversion H as [|? ? S F]; subst. rewrite Forall_forall in F. destruct (Z.ltb_spec id k0) as [L|L]; [|destruct (Z.eqb_spec id k0) as [->|D]].
    + destruct I as [[= <- <-]|I].
      * right. split; [reflexivity|]. right. split; [|reflexivity]. cbn. intros [E|E]; [lia|]. apply F in E. lia.
      * left. split; [|exact I]. destruct I as [[= <- <-]|I]; [lia|]. apply (in_map fst) in I. apply F in I. cbn in I. lia.
    + destruct I as [[= <- <-]|I].
      * right. split; [reflexivity|]. left. exists v0. split; [now left|reflexivity].
      * left. split; [|now right]. apply (in_map fst) in I. apply F in I. cbn in I. lia.
    + destruct I as [[= <- <-]|I]; [left; split; [congruence|now left]|].
      destruct (IH _ _ _ _ S I) as [[A B]|[-> [(v1 & B & ->)|[B ->]]]].
      * left. split; [exact A|now right].
      * right. split; [reflexivity|]. left. exists v1. split; [now right|reflexivity].
      * right. split; [reflexivity|]. right. split; [|reflexivity]. cbn. intros [E|E]; [congruence|auto].
Qed.
Lemma map_push_inv : forall l id fl, inv fl l -> inv (fl ++ [id]) (map_push l id (length fl)).
Proof.
  intros l id fl [S V A P]. constructor.
  - now apply map_push_sorted.
  - intros k v I. rewrite pos_of_snoc. destruct (map_push_val _ _ _ _ _ S I) as [[D I']|[-> [(v0 & I' & ->)|[N ->]]]].
    + rewrite (proj2 (Z.eqb_neq id k)) by congruence. rewrite app_nil_r. auto.
    + rewrite Z.eqb_refl. destruct (V _ _ I') as [-> _]. split; [reflexivity|]. now destruct (pos_of id fl).
    + rewrite Z.eqb_refl. split; [|discriminate]. destruct (pos_of id fl) as [|x t] eqn:Ep; [reflexivity|]. exfalso. apply N, A.
      assert (I0 : In x (pos_of id fl)) by (rewrite Ep; now left). apply in_pos_of in I0. now apply nth_error_In in I0.
  - intros k I. apply map_push_keys. apply in_app_or in I. destruct I as [I|[->|[]]]; auto.
  - rewrite map_push_perm, P. rewrite app_length, seq_app. reflexivity.
Qed.
Lemma push_regs_inv : forall n id fl l, inv fl l -> inv (fl ++ repeat id n) (push_regs id n (length fl) l).
Proof.
  induction n as [|n IH]; intros id fl l H; cbn [push_regs repeat]; [now rewrite app_nil_r|].
  change (id :: repeat id n) with ([id] ++ repeat id n). rewrite app_assoc. replace (S (length fl)) with (length (fl ++ [id])) by (rewrite app_length; cbn; lia). apply IH. now apply map_push_inv.
Qed.
Lemma push_pin_inv : forall p fl l, inv fl l -> let fl' := fl ++ flat_map (fun q => repeat (fst q) (snd q)) p in
  fst (push_pin p (length fl) l) = length fl' /\ inv fl' (snd (push_pin p (length fl) l)).
Proof.
  induction p as [|[id n] p IH]; intros fl l H; cbn [push_pin flat_map fst snd].
  - cbn. rewrite app_nil_r. auto.
  - rewrite app_assoc. replace (length fl + n) with (length (fl ++ repeat id n)) by (rewrite app_length, repeat_length; lia). apply IH. now apply push_regs_inv.
Qed.
Lemma push_pins_inv : forall ps fl l, inv fl l -> inv (fl ++ flat_ids ps) (snd (push_pins ps (length fl) l)).
Proof.
  induction ps as [|p ps IH]; intros fl l H; cbn [push_pins].
  - unfold flat_ids. cbn. now rewrite app_nil_r.
  - unfold flat_ids. cbn [flat_map]. fold (flat_ids ps). destruct (push_pin_inv p fl l H) as [E I]. destruct (push_pin p (length fl) l) as [i l']. cbn [fst snd] in E, I. subst i. rewrite app_assoc. now apply IH.
Qed.
Lemma inv_nil : inv [] [].
Proof. constructor; cbn; try constructor; try contradiction. Qed.
Lemma sum_lengths : forall l : list (Z * list nat), list_sum (map (fun p => length (snd p)) l) = length (concat (map snd l)).
Proof. induction l as [|[k v] l IH]; [reflexivity|]. cbn [map list_sum snd concat]. rewrite app_length. cbn [fold_right]. rewrite <- IH. reflexivity. Qed.

Lemma removal_spec : forall tr s cnt ig rm, removal tr s ig cnt = Some rm -> length rm = cnt /\
  forall g, g < cnt -> exists t x, nth_error tr (ig + g) = Some t /\ self_scat s (ig + g) = Some x /\ nth_error rm g = Some (t - x)%R.
Proof.
  intros tr s. induction cnt as [|c IH]; intros ig rm E; cbn [removal] in E.
  - injection E as <-. split; [reflexivity|]. intros; lia.
  - destruct (nth_error tr ig) as [t|] eqn:Et; [|discriminate]. destruct (self_scat s ig) as [x|] eqn:Ex; [|discriminate].
    destruct (removal tr s (S ig) c) as [r|] eqn:Er; [|discriminate]. injection E as <-. destruct (IH _ _ Er) as [L H]. split; [cbn; congruence|].
    intros g Hg. destruct g as [|g].
    + rewrite Nat.add_0_r. exists t, x. auto.
    + destruct (H g ltac:(lia)) as (t' & x' & A & B & C). rewrite <- Nat.add_succ_comm. exists t', x'. auto.
Qed.
Lemma make_region_spec : forall regs tr nf f ch s x, make_region regs tr nf f ch s = Some x ->
  xr_reg x = regs /\ xr_tr x = tr /\ xr_nf x = nf /\ xr_f x = f /\ xr_ch x = ch /\ xr_sc x = s /\
  (xr_fissile x = true <-> exists g v, g < ng s /\ nth_error nf g = Some v /\ (0 < v)%R) /\
  forall g, g < ng s -> exists t y, nth_error tr g = Some t /\ self_scat s g = Some y /\ nth_error (xr_rm x) g = Some (t - y)%R.
Proof.
  intros regs tr nf f ch s x E. unfold make_region in E. destruct (removal tr s 0 (ng s)) as [rm|] eqn:Er; [|discriminate].
  destruct (Nat.ltb_spec (length nf) (ng s)) as [|L]; [discriminate|]. injection E as <-. cbn. repeat (split; [reflexivity|]). split.
  - rewrite existsb_exists. split.
    + intros (v & I & P). destruct (Rltb_spec 0 v); [|discriminate]. apply In_nth_error in I. destruct I as [g G].
      assert (Hg : g < ng s). { assert (nth_error (firstn (ng s) nf) g <> None) by congruence. apply nth_error_Some in H. rewrite firstn_length in H. lia. }
      exists g, v. rewrite <- (firstn_skipn (ng s) nf), nth_error_app1 by (rewrite firstn_length; lia). auto.
    + intros (g & v & Hg & G & P). exists v. split; [|destruct (Rltb_spec 0 v); [reflexivity|contradiction]].
      rewrite <- (firstn_skipn (ng s) nf), nth_error_app1 in G by (rewrite firstn_length; lia). now apply nth_error_In in G.
  - exact (proj2 (removal_spec _ _ _ _ _ Er)).
Qed.

Lemma regions_of_spec : forall L l xs, regions_of L l = Got xs -> Forall2 (fun p x => exists m, get_material_by_id L (fst p) = Some m /\ make_region (snd p) (xstr m) (xsnf m) (xsf m) (xsch m) (xssc m) = Some x) l xs.
Proof.
  intros L. induction l as [|[id regs] l IH]; intros xs E; cbn [regions_of] in E.
  - injection E as <-. constructor.
  - destruct (get_material_by_id L id) as [m|] eqn:Em; [|discriminate]. destruct (make_region regs _ _ _ _ _) as [x|] eqn:Ex; [|discriminate].
    destruct (regions_of L l) as [xs'| |] eqn:Er; try discriminate. injection E as <-. constructor; [|now apply IH]. exists m. cbn. auto.
Qed.

(** C34: the regions partition the flat source regions.  Each belongs to one material id (increasing, so all distinct)
    and holds exactly the flat source regions of that material; group constants are the library's, removal is transport
    minus self-scatter. *)
Theorem C34_partition : forall L pins xs n, make_xs_mesh L pins = Got (xs, n) ->
  n = length (flat_ids pins) /\ Permutation (concat (map xr_reg xs)) (seq 0 n) /\
  exists ids, StronglySorted Z.lt ids /\ (forall id, In id ids <-> In id (flat_ids pins)) /\
    Forall2 (fun id x => exists m, get_material_by_id L id = Some m /\ (forall r, In r (xr_reg x) <-> nth_error (flat_ids pins) r = Some id) /\
      xr_tr x = xstr m /\ xr_nf x = xsnf m /\ xr_f x = xsf m /\ xr_ch x = xsch m /\ xr_sc x = xssc m /\
      (xr_fissile x = true <-> exists g v, g < ng (xssc m) /\ nth_error (xsnf m) g = Some v /\ (0 < v)%R) /\
      forall g, g < ng (xssc m) -> exists t y, nth_error (xstr m) g = Some t /\ self_scat (xssc m) g = Some y /\ nth_error (xr_rm x) g = Some (t - y)%R) ids xs.
Proof.
  intros L pins xs n E. unfold make_xs_mesh in E. pose proof (push_pins_inv pins [] [] inv_nil) as I. cbn [length app] in I.
  set (l := snd (push_pins pins 0 [])) in *. destruct (regions_of L l) as [xs'| |] eqn:Er; try discriminate. injection E as <- <-. destruct I as [S V A P].
  pose proof (regions_of_spec _ _ _ Er) as F. rewrite sum_lengths. rewrite (Permutation_length P), seq_length. split; [reflexivity|]. split.
  - rewrite <- P. clear -F. induction F as [|p x l xs (m & _ & M) F IH]; [reflexivity|]. cbn [map concat]. apply make_region_spec in M. destruct M as [-> _]. now apply Permutation_app_head.
  - exists (map fst l). split; [exact S|]. split.
    + intros id. split; [|apply A]. intros I. apply in_map_iff in I. destruct I as ([k v] & <- & I). destruct (V _ _ I) as [Ev Nv]. destruct v as [|r t]; [congruence|].
      assert (Ir : In r (pos_of k (flat_ids pins))) by (rewrite <- Ev; now left). apply in_pos_of in Ir. now apply nth_error_In in Ir.
    + clear Er A P. revert V. clear S. induction F as [|[id v] x l xs (m & G & M) F IH]; intros V; [constructor|]. constructor.
      * cbn [fst snd] in *. apply make_region_spec in M. destruct M as (M1 & M2 & M3 & M4 & M5 & M6 & M7 & M8). exists m. rewrite M1. split; [exact G|]. split; [|split; [exact M2|split; [exact M3|split; [exact M4|split; [exact M5|split; [exact M6|split; [exact M7|exact M8]]]]]]].
        intros r. destruct (V id v (or_introl eq_refl)) as [-> _]. apply in_pos_of.
      * apply IH. intros k v' I. apply V. now right.
Qed.
Print Assumptions C34_partition.

Lemma removal_def : forall tr s cnt ig, ig + cnt <= length tr -> (forall g, g < ig + cnt -> self_scat s g <> None) -> exists rm, removal tr s ig cnt = Some rm.
Proof.
  intros tr s. induction cnt as [|c IH]; intros ig L H; cbn [removal]; [eauto|].
  destruct (nth_error tr ig) as [t|] eqn:Et; [|apply nth_error_None in Et; lia]. destruct (self_scat s ig) as [x|] eqn:Ex; [|exfalso; apply (H ig); [lia|exact Ex]].
  destruct (IH (S ig)) as [rm ->]; [lia|intros g Hg; apply H; lia|]. eauto.
Qed.
(** A material as the library holds them (see C21): every vector has an entry per group. *)
Definition mat_good (m : Material) : Prop := length (xstr m) = ng (xssc m) /\ length (xsnf m) = ng (xssc m) /\ exists f, compress (ng (xssc m)) f = Some (xssc m).

Lemma regions_of_def : forall L l, (forall k m, In k (map fst l) -> get_material_by_id L k = Some m -> mat_good m) ->
  ((forall k, In k (map fst l) -> get_material_by_id L k <> None) -> exists xs, regions_of L l = Got xs) /\
  ((exists k, In k (map fst l) /\ get_material_by_id L k = None) -> regions_of L l = Threw).
Proof.
  intros L. induction l as [|[id regs] l IH]; intros G; cbn [regions_of].
  - split; [eauto|]. intros (k & [] & _).
  - destruct IH as [A B]; [intros k m I; apply G; now right|]. destruct (get_material_by_id L id) as [m|] eqn:Em.
    + destruct (G id m (or_introl eq_refl) Em) as (L1 & L2 & f & C). destruct (compress_ok (ng (xssc m)) f) as (s & Es & _). rewrite Es in C. injection C as ->.
      assert (R : exists x, make_region regs (xstr m) (xsnf m) (xsf m) (xsch m) (xssc m) = Some x).
      { unfold make_region. destruct (removal_def (xstr m) (xssc m) (ng (xssc m)) 0) as [rm ->]; [lia| |].
        - intros g Hg. destruct (C19_self_scatter (ng (xssc m)) f) as (s' & E' & H'). rewrite Es in E'. injection E' as <-. rewrite H' by lia. discriminate.
        - rewrite (proj2 (Nat.ltb_ge _ _)) by lia. eauto. }
      destruct R as [x ->]. split.
      * intros H. destruct A as [xs ->]; [intros k I; apply H; now right|]. eauto.
      * intros (k & [<-|I] & N); [cbn in N; congruence|]. now rewrite B by eauto.
    + split; [|reflexivity]. intros H. exfalso. apply (H id); [now left|exact Em].
Qed.

(** C34: with materials as the library makes them, the mesh is built when every material used is defined and an
    exception is raised otherwise. *)
Theorem C34_defined : forall L pins, (forall k m, get_material_by_id L k = Some m -> mat_good m) ->
  ((forall k, In k (flat_ids pins) -> get_material_by_id L k <> None) -> exists xs n, make_xs_mesh L pins = Got (xs, n)) /\
  ((exists k, In k (flat_ids pins) /\ get_material_by_id L k = None) -> make_xs_mesh L pins = Threw).
Proof.
  intros L pins G. unfold make_xs_mesh. pose proof (push_pins_inv pins [] [] inv_nil) as I. cbn [length app] in I. set (l := snd (push_pins pins 0 [])) in *. destruct I as [S V A P].
  assert (K : forall k, In k (map fst l) <-> In k (flat_ids pins)).
  { intros k. split; [|apply A]. intros I. apply in_map_iff in I. destruct I as ([k' v] & <- & I). destruct (V _ _ I) as [Ev Nv]. destruct v as [|r t]; [congruence|].
    assert (Ir : In r (pos_of k' (flat_ids pins))) by (rewrite <- Ev; now left). apply in_pos_of in Ir. now apply nth_error_In in Ir. }
  destruct (regions_of_def L l) as [B C]; [intros k m _; apply G|]. split.
  - intros H. destruct B as [xs ->]; [intros k I; apply H; now apply K|]. eauto.
  - intros (k & I & N). rewrite C; [reflexivity|]. exists k. split; [now apply K|exact N].
Qed.
Print Assumptions C34_defined.

(** Two pins, material 7 in both: regions of material 2 and of material 7 interleave. *)
Example C34_instance : map snd (snd (push_pins [[(7%Z, 2); (2%Z, 1)]; [(7%Z, 1); (3%Z, 0)]] 0 [])) = [[2]; [0; 1; 3]].
Proof. reflexivity. Qed.
Definition one_group : SM := mkSM 1 [1%R] [1%R] [mkRow 0 0 0].
Definition lib_ex : Lib Material := mkLib [mkMat [1%R] [2%R] [3%R] [1%R] [1%R] one_group] [] [] [(7%Z, 0)] [] 1.
Lemma one_group_made : compress 1 (fun _ _ => 1%R) = Some one_group.
Proof.
  unfold compress, band. cbn [first_bound last_bound map seq]. destruct (Rltb_spec 0 1); [|lra]. unfold one_group. cbn. repeat f_equal. lra.
Qed.
Example C34_defined_instance : (forall k m, get_material_by_id lib_ex k = Some m -> mat_good m) /\ get_material_by_id lib_ex 7%Z <> None /\ get_material_by_id lib_ex 8%Z = None.
Proof.
  split; [|split; [discriminate|reflexivity]]. intros k m E. unfold get_material_by_id in E. cbn in E. destruct (k =? 7)%Z; [|discriminate]. cbn in E. injection E as <-.
  split; [reflexivity|]. split; [reflexivity|]. exists (fun _ _ => 1%R). apply one_group_made.
Qed.

(** ** C35 *)
(** Specification: regions of the mesh are disjoint and inside the array. *)
Definition regs_fit (regs : list (list nat * (nat -> R))) (n : nat) : Prop := NoDup (concat (map fst regs)) /\ forall r, In r (concat (map fst regs)) -> r < n.
(** Specification: every region of the array holds its cross section of group [g] plus [add]. *)
Definition holds (regs : list (list nat * (nat -> R))) (g : nat) (add : nat -> R) (arr : list R) : Prop :=
  forall l xs r, In (l, xs) regs -> In r l -> nth_error arr r = Some (xs g + add r)%R.

Lemma write_regs_ok : forall l v arr, NoDup l -> (forall r, In r l -> r < length arr) -> exists a, write_regs l v arr = Some a /\ length a = length arr /\
  (forall r, In r l -> nth_error a r = Some (v r)) /\ forall r, ~ In r l -> nth_error a r = nth_error arr r.
Proof.
  induction l as [|r l IH]; intros v arr N B; cbn [write_regs].
  - exists arr. repeat split; auto. intros r [].
  - inversion N as [|? ? N1 N2]; subst. destruct (set_nth_lt arr r (v r)) as [a0 E0]; [apply B; now left|]. rewrite E0. destruct (set_nth_spec _ _ _ _ E0) as (L0 & S0 & O0).
    destruct (IH v a0 N2) as (a & E & L & P & Q); [intros; rewrite L0; apply B; now right|]. exists a. split; [exact E|]. split; [congruence|]. split.
    + intros r' [<-|I]; [|now apply P]. rewrite Q by exact N1. now rewrite O0, Nat.eqb_refl.
    + intros r' I. rewrite Q by (intros J; apply I; now right). rewrite O0. destruct (Nat.eqb_spec r' r) as [->|]; [|reflexivity]. exfalso. apply I. now left.
Qed.
Lemma write_all_ok : forall regs g add arr, regs_fit regs (length arr) -> exists a, write_all regs g add arr = Some a /\ length a = length arr /\ holds regs g add a /\
  forall r, ~ In r (concat (map fst regs)) -> nth_error a r = nth_error arr r.
Proof.
  induction regs as [|[l xs] regs IH]; intros g add arr [N B]; cbn [write_all].
  - exists arr. repeat split; auto. intros l xs r [].
  - cbn [map fst concat] in N, B. destruct (write_regs_ok l (fun r => xs g + add r)%R arr) as (a0 & E0 & L0 & P0 & Q0).
    + clear -N. induction l as [|x l IH]; [constructor|]. cbn in N. inversion N; subst. constructor; [|auto]. intros I. apply H1, in_or_app. now left.
    + intros r I. apply B, in_or_app. now left.
    + rewrite E0. assert (N2 : NoDup (concat (map fst regs)) /\ forall r, In r l -> ~ In r (concat (map fst regs))).
      { clear -N. induction l as [|x l IH]; [split; [exact N|intros r []]|]. cbn in N. inversion N; subst. destruct IH as [IH1 IH2]; [assumption|]. split; [exact IH1|]. intros r [<-|I]; [|auto]. intros J. apply H1, in_or_app. now right. }
      destruct N2 as [N2 D]. destruct (IH g add a0) as (a & E & L & P & Q); [split; [exact N2|intros r I; rewrite L0; apply B, in_or_app; now right]|].
      exists a. split; [exact E|]. split; [congruence|]. split.
      * intros l' xs' r [[= <- <-]|I] Ir; [rewrite Q by (now apply D); now apply P0|]. now apply (P l' xs' r).
      * intros r I. cbn [map fst concat] in I. rewrite Q by (intros J; apply I, in_or_app; now right). apply Q0. intros J. apply I, in_or_app. now left.
Qed.

(** Operations on an expanded cross section and the mesh it belongs to. *)
Inductive XOp := OpExpand (g : nat) | OpSplit (g : nat) (split : list R) | OpUpdate (f : list (nat -> R)).
Definition x_run (o : XOp) (s : XState) : option XState :=
  match o with OpExpand g => expand g s | OpSplit g sp => expand_split g sp s | OpUpdate f => Some (update_xs f s) end.
Fixpoint x_runs (os : list XOp) (s : XState) : option XState := match os with [] => Some s | o :: r => match x_run o s with Some s' => x_runs r s' | None => None end end.
(** Each update supplies cross sections for every region. *)
Definition op_fits (s : XState) (o : XOp) : Prop := match o with OpUpdate f => length f = length (xm_regs s) | _ => True end.
(** No splitting. *)
Definition op_plain (o : XOp) : Prop := match o with OpSplit _ (_ :: _) => False | _ => True end.

(** Invariant of the histories. *)
Definition x_ok (s : XState) : Prop := regs_fit (xm_regs s) (length (xe_arr s)) /\ (xe_seen s <= xm_state s)%Z.
Definition x_fresh (s : XState) : Prop := forall g, xe_group s = Z.of_nat g -> xe_seen s = xm_state s -> holds (xm_regs s) g (fun _ => 0%R) (xe_arr s).

Lemma map_fst_combine : forall {A B} (l : list A) (m : list B), length m = length l -> map fst (combine l m) = l.
Proof. induction l as [|a l IH]; intros [|b m] H; try discriminate; [reflexivity|]. cbn. f_equal. apply IH. now injection H. Qed.

Lemma expand_ok : forall g s, x_ok s -> x_fresh s -> exists s', expand g s = Some s' /\ xm_regs s' = xm_regs s /\ xm_state s' = xm_state s /\ length (xe_arr s') = length (xe_arr s) /\
  x_ok s' /\ x_fresh s' /\ holds (xm_regs s') g (fun _ => 0%R) (xe_arr s').
Proof.
  intros g s [F S] Fr. unfold expand. destruct (Z.eqb_spec (Z.of_nat g) (xe_group s)) as [Eg|Ng]; cbn [negb orb].
  - destruct (Z.eqb_spec (xm_state s) (xe_seen s)) as [Es|Ns]; cbn [negb].
    + exists s. repeat (split; [first [reflexivity | assumption | split; assumption]|]). apply Fr; auto.
    + destruct (write_all_ok (xm_regs s) g (fun _ => 0%R) _ F) as (a & -> & L & H & _). eexists. split; [reflexivity|]. cbn. repeat split; auto; cbn; try rewrite L; try apply F; try lia.
      intros g' E _. cbn in *. replace g' with g by lia. exact H.
  - destruct (write_all_ok (xm_regs s) g (fun _ => 0%R) _ F) as (a & -> & L & H & _). eexists. split; [reflexivity|]. cbn. repeat split; auto; cbn; try rewrite L; try apply F; try lia.
    intros g' E _. cbn in *. replace g' with g by lia. exact H.
Qed.
Lemma runs_ok : forall os s, x_ok s -> x_fresh s -> Forall (op_fits s) os -> Forall op_plain os -> exists s', x_runs os s = Some s' /\ x_ok s' /\ x_fresh s' /\ map fst (xm_regs s') = map fst (xm_regs s) /\ length (xe_arr s') = length (xe_arr s).
Proof.
  assert (Fit : forall os s s', length (xm_regs s') = length (xm_regs s) -> Forall (op_fits s) os -> Forall (op_fits s') os).
  { intros os s s' L. apply Forall_impl. intros [g|g sp|f]; cbn; auto. congruence. }
  induction os as [|o os IH]; intros s O F T P; cbn [x_runs]; [exists s; auto|].
  inversion T as [|? ? T1 T2]; inversion P as [|? ? P1 P2]; subst.
  assert (St : exists s', x_run o s = Some s' /\ x_ok s' /\ x_fresh s' /\ map fst (xm_regs s') = map fst (xm_regs s) /\ length (xe_arr s') = length (xe_arr s)).
  { destruct o as [g|g [|v sp]|f]; cbn [x_run expand_split op_plain] in *; try contradiction.
    - destruct (expand_ok g s O F) as (s' & E & R & S & L & O' & F' & _). exists s'. rewrite R. auto.
    - destruct (expand_ok g s O F) as (s' & E & R & S & L & O' & F' & _). exists s'. rewrite R. auto.
    - eexists. split; [reflexivity|]. cbn in T1. destruct O as [[N B] S]. assert (M : map fst (combine (map fst (xm_regs s)) f) = map fst (xm_regs s)) by (apply map_fst_combine; rewrite map_length; exact T1).
      split; [|split; [|split; [exact M|reflexivity]]].
      + split; [unfold regs_fit, update_xs; cbn; rewrite M; split; assumption|cbn; lia].
      + intros g _ E. cbn in E. lia. }
  destruct St as (s' & -> & O' & F' & M' & L'). destruct (IH s' O' F') as (s'' & E & O2 & F2 & M2 & L2).
  - apply Fit with (s := s); [|exact T2]. apply (f_equal (@length _)) in M'. now rewrite !map_length in M'.
  - exact P2.
  - exists s''. repeat split; try apply O2; try exact F2; congruence.
Qed.

(** C35: starting from a new object, after any history of expansions without splitting and updates of the cross
    sections, an expansion gives the current cross sections of the requested group. *)
Theorem C35_unsplit : forall regs st arr os g, (0 <= st)%Z -> regs_fit regs (length arr) -> Forall (op_fits (new_expanded regs st arr)) os -> Forall op_plain os ->
  exists s s', x_runs os (new_expanded regs st arr) = Some s /\ expand g s = Some s' /\ map fst (xm_regs s') = map fst regs /\ holds (xm_regs s') g (fun _ => 0%R) (xe_arr s') /\ xm_regs s' = xm_regs s.
Proof.
  intros regs st arr os g Hs F T P. destruct (runs_ok os (new_expanded regs st arr)) as (s & E & O & Fr & M & L); auto.
  - split; [exact F|]. cbn. lia.
  - intros g' E. cbn in E. lia.
  - destruct (expand_ok g s O Fr) as (s' & E' & R & _ & _ & _ & _ & H). exists s, s'. rewrite R in *. auto.
Qed.
Print Assumptions C35_unsplit.

(** C35: an expansion with splitting always gives the current cross sections plus the splitting, whatever came before. *)
Theorem C35_split : forall s g sp, sp <> [] -> length sp = length (xe_arr s) -> regs_fit (xm_regs s) (length (xe_arr s)) ->
  exists s', expand_split g sp s = Some s' /\ xm_regs s' = xm_regs s /\ holds (xm_regs s') g (fun r => nth r sp 0%R) (xe_arr s').
Proof.
  intros s g sp N Ls F. destruct sp as [|v sp]; [congruence|]. cbn [expand_split].
  rewrite (proj2 (forallb_forall _ _)); [|intros p Ip; apply forallb_forall; intros r Ir; apply Nat.ltb_lt; rewrite Ls; apply F; apply in_concat; exists (fst p); split; [now apply in_map|exact Ir]]. destruct (write_all_ok (xm_regs s) g (fun r => nth r (v :: sp) 0%R) _ F) as (a & -> & L & H & _).
  eexists. split; [reflexivity|]. cbn [xm_regs xe_arr]. auto.
Qed.
Print Assumptions C35_split.

(** Two regions of one cell each. *)
Definition xregs_ex : list (list nat * (nat -> R)) := [([1], fun g => INR g); ([0], fun g => (2 + INR g)%R)].
Example C35_instance : regs_fit xregs_ex 2 /\ Forall (op_fits (new_expanded xregs_ex 0 [0; 0]%R)) [OpExpand 1; OpUpdate [(fun _ => 5%R); (fun _ => 6%R)]] /\
  Forall op_plain [OpExpand 1; OpUpdate [(fun _ => 5%R); (fun _ => 6%R)]].
Proof.
  split; [|split].
  - split; [repeat constructor; cbn; intuition lia|]. cbn. intuition lia.
  - repeat (apply Forall_cons; [cbn; auto|]); apply Forall_nil.
  - repeat (apply Forall_cons; [cbn; auto|]); apply Forall_nil.
Qed.

(** C35 refuted in general: expanding a group without splitting after expanding the same group with splitting leaves the
    split cross sections in place. *)
Theorem C35_stale_refuted : exists regs arr os g s s', regs_fit regs (length arr) /\ x_runs os (new_expanded regs 0 arr) = Some s /\ expand g s = Some s' /\ ~ holds (xm_regs s') g (fun _ => 0%R) (xe_arr s').
Proof.
  exists [([0], fun _ => 1%R)], [0%R], [OpExpand 0; OpSplit 0 [5%R]], 0.
  eexists. eexists. split; [|split; [cbn; reflexivity|split; [cbn; reflexivity|]]].
  - split; [repeat constructor; intros []|]. cbn. intuition lia.
  - intros H. specialize (H [0] (fun _ => 1%R) 0 (or_introl eq_refl) (or_introl eq_refl)). cbn in H. injection H as H. lra.
Qed.
Print Assumptions C35_stale_refuted.

(** ** C37 *)
Lemma groups_eqb_spec : forall ulp a b cnt ig, groups_eqb ulp a b ig cnt = Some true -> forall g, ig <= g -> g < ig + cnt -> sm_eqb (xr_sc a) (xr_sc b) = true /\
  exists t t' n n' f f' r r', nth_error (xr_tr a) g = Some t /\ nth_error (xr_tr b) g = Some t' /\ nth_error (xr_nf a) g = Some n /\ nth_error (xr_nf b) g = Some n' /\
    nth_error (xr_f a) g = Some f /\ nth_error (xr_f b) g = Some f' /\ nth_error (xr_rm a) g = Some r /\ nth_error (xr_rm b) g = Some r' /\
    ulp t t' = true /\ ulp n n' = true /\ ulp f f' = true /\ ulp r r' = true.
Proof.
  intros ulp a b. induction cnt as [|c IH]; intros ig E g Hg1 Hg2; [lia|]. cbn [groups_eqb] in E.
  destruct (nth_error (xr_tr a) ig) as [t|] eqn:E1; [|discriminate]. destruct (nth_error (xr_tr b) ig) as [t'|] eqn:E2; [|discriminate].
  destruct (nth_error (xr_nf a) ig) as [n|] eqn:E3; [|discriminate]. destruct (nth_error (xr_nf b) ig) as [n'|] eqn:E4; [|discriminate].
  destruct (nth_error (xr_f a) ig) as [f|] eqn:E5; [|discriminate]. destruct (nth_error (xr_f b) ig) as [f'|] eqn:E6; [|discriminate].
  destruct (nth_error (xr_rm a) ig) as [r|] eqn:E7; [|discriminate]. destruct (nth_error (xr_rm b) ig) as [r'|] eqn:E8; [|discriminate].
  destruct (ulp t t') eqn:U1; [|discriminate]. destruct (ulp n n') eqn:U2; [|discriminate]. destruct (ulp f f') eqn:U3; [|discriminate]. destruct (ulp r r') eqn:U4; [|discriminate].
  destruct (sm_eqb _ _) eqn:U5; [|discriminate]. cbn [andb] in E. destruct (Nat.eq_dec g ig) as [->|D].
  - split; [reflexivity|]. exists t, t', n, n', f, f', r, r'. repeat split; auto.
  - destruct (IH (S ig) E g) as [_ H]; [lia|lia|]. split; [reflexivity|exact H].
Qed.
(** C37: regions that compare equal have the same number of groups, and in every group transport, nu-fission, fission and
    removal cross sections agree to the comparison tolerance; the scattering data are equal. *)
Theorem C37_equal_partial : forall ulp a b, xsr_eqb ulp a b = Some true -> ng (xr_sc a) = ng (xr_sc b) /\
  (0 < ng (xr_sc a) -> scat (xr_sc a) = scat (xr_sc b) /\ out (xr_sc a) = out (xr_sc b)) /\
  forall g, g < ng (xr_sc a) -> exists t t' n n' f f' r r', nth_error (xr_tr a) g = Some t /\ nth_error (xr_tr b) g = Some t' /\ nth_error (xr_nf a) g = Some n /\ nth_error (xr_nf b) g = Some n' /\
    nth_error (xr_f a) g = Some f /\ nth_error (xr_f b) g = Some f' /\ nth_error (xr_rm a) g = Some r /\ nth_error (xr_rm b) g = Some r' /\
    ulp t t' = true /\ ulp n n' = true /\ ulp f f' = true /\ ulp r r' = true.
Proof.
  intros ulp a b E. unfold xsr_eqb in E. destruct (Nat.eqb_spec (ng (xr_sc a)) (ng (xr_sc b))) as [N|]; [|discriminate]. split; [exact N|]. split.
  - intros H. destruct (groups_eqb_spec _ _ _ _ _ E 0) as [Q _]; [lia|lia|]. unfold sm_eqb in Q. apply andb_prop in Q. destruct Q as [Q Q3]. apply andb_prop in Q. destruct Q as [_ Q2].
    split; now apply vec_eqb_eq.
  - intros g Hg. apply (groups_eqb_spec _ _ _ _ _ E g); lia.
Qed.
Print Assumptions C37_equal_partial.

Lemma groups_eqb_def : forall ulp a b cnt ig, (forall x, ulp x x = true) -> ig + cnt <= length (xr_tr a) -> ig + cnt <= length (xr_nf a) -> ig + cnt <= length (xr_f a) -> ig + cnt <= length (xr_rm a) ->
  xr_tr a = xr_tr b -> xr_nf a = xr_nf b -> xr_f a = xr_f b -> xr_rm a = xr_rm b -> xr_sc a = xr_sc b -> groups_eqb ulp a b ig cnt = Some true.
Proof.
  intros ulp a b. induction cnt as [|c IH]; intros ig U L1 L2 L3 L4 E1 E2 E3 E4 E5; [reflexivity|]. cbn [groups_eqb]. rewrite <- E1, <- E2, <- E3, <- E4.
  destruct (nth_error (xr_tr a) ig) as [t|] eqn:F1; [|apply nth_error_None in F1; lia]. destruct (nth_error (xr_nf a) ig) as [n|] eqn:F2; [|apply nth_error_None in F2; lia].
  destruct (nth_error (xr_f a) ig) as [f|] eqn:F3; [|apply nth_error_None in F3; lia]. destruct (nth_error (xr_rm a) ig) as [r|] eqn:F4; [|apply nth_error_None in F4; lia].
  rewrite !U, E5. unfold sm_eqb. rewrite Nat.eqb_refl, !(proj2 (vec_eqb_eq _ _) eq_refl). cbn [andb]. apply IH; auto; lia.
Qed.
(** C37: regions with the same cross sections compare equal. *)
Theorem C37_same : forall ulp a b, (forall x, ulp x x = true) -> ng (xr_sc a) <= length (xr_tr a) -> ng (xr_sc a) <= length (xr_nf a) -> ng (xr_sc a) <= length (xr_f a) -> ng (xr_sc a) <= length (xr_rm a) ->
  xr_tr a = xr_tr b -> xr_nf a = xr_nf b -> xr_f a = xr_f b -> xr_rm a = xr_rm b -> xr_sc a = xr_sc b -> xsr_eqb ulp a b = Some true.
Proof.
  intros ulp a b U L1 L2 L3 L4 E1 E2 E3 E4 E5. unfold xsr_eqb. rewrite <- E5, Nat.eqb_refl. now apply groups_eqb_def.
Qed.
Print Assumptions C37_same.

(** C37 refuted as stated: the fission spectrum and the list of regions are not compared. *)
Theorem C37_spectrum_refuted : forall ulp, (forall x, ulp x x = true) -> exists a b, xsr_eqb ulp a b = Some true /\ xr_ch a <> xr_ch b /\ xr_reg a <> xr_reg b /\
  (exists regs tr nf f ch s, make_region regs tr nf f ch s = Some a) /\ exists regs tr nf f ch s, make_region regs tr nf f ch s = Some b.
Proof.
  intros ulp U. exists (mkXR [0] true [2%R] [1%R] [1%R] [1%R] [(2 - 1)%R] one_group), (mkXR [1] true [2%R] [1%R] [1%R] [0%R] [(2 - 1)%R] one_group).
  split; [apply C37_same; cbn; auto|]. split; [cbn; injection; lra|]. split; [discriminate|].
  split; [exists [0], [2%R], [1%R], [1%R], [1%R], one_group|exists [1], [2%R], [1%R], [1%R], [0%R], one_group]; unfold make_region; cbn; (destruct (Rltb_spec 0 1); [reflexivity|lra]).
Qed.
Print Assumptions C37_spectrum_refuted.
Example C37_instance : xsr_eqb Reqb (mkXR [0] true [2%R] [1%R] [1%R] [1%R] [1%R] one_group) (mkXR [0] true [2%R] [1%R] [1%R] [1%R] [1%R] one_group) = Some true.
Proof. apply C37_same; cbn; auto. intros x. destruct (Reqb_spec x x); [reflexivity|contradiction]. Qed.

(** ** C87 *)
Lemma chi_sums_spec : forall ch cnt ig sum l, chi_sums ch ig cnt sum = Some l -> length l = cnt /\
  forall g, g < cnt -> nth_error l g = Some (sum + rsum (fun i => nth (ig + i) ch 0%R) (S g))%R.
Proof.
  intros ch. induction cnt as [|c IH]; intros ig sum l E; cbn [chi_sums] in E.
  - injection E as <-. split; [reflexivity|]. intros; lia.
  - destruct (nth_error ch ig) as [v|] eqn:Ev; [|discriminate]. destruct (chi_sums ch (S ig) c (sum + v)) as [l'|] eqn:El; [|discriminate]. injection E as <-.
    destruct (IH _ _ _ El) as [L H]. split; [cbn; congruence|]. intros g Hg. apply (nth_error_nth _ _ 0%R) in Ev. destruct g as [|g].
    + cbn [nth_error rsum]. rewrite Nat.add_0_r, Ev. f_equal. lra.
    + cbn [nth_error]. rewrite H by lia. f_equal. change (S (S g)) with (1 + S g). rewrite rsum_app. rewrite (rsum_ext (fun i => nth (S ig + i) ch 0%R) (fun i => nth (ig + (1 + i)) ch 0%R)) by (intros; f_equal; lia).
      set (X := rsum _ (S g)). cbn [rsum]. rewrite Nat.add_0_r, Ev. lra.
Qed.
(** C87: for a positive transport cross section, non-negative scattering and fission, and fission plus scattering at most
    the transport cross section, the reaction table increases from 0 to 1 and each reaction's share is its cross section
    over the transport cross section. *)
Theorem C87_reaction : forall x ig t o f, nth_error (xr_tr x) ig = Some t -> nth_error (out (xr_sc x)) ig = Some o -> nth_error (xr_f x) ig = Some f ->
  (0 < t)%R -> (0 <= o)%R -> (0 <= f)%R -> (o + f <= t)%R -> exists a b, reaction_cdf x ig = Some [a; b; 1%R] /\ (0 <= a)%R /\ (a <= b)%R /\ (b <= 1)%R /\
    (a * t = o)%R /\ ((b - a) * t = f)%R /\ ((1 - b) * t = t - o - f)%R.
Proof.
  intros x ig t o f Et Eo Ef Ht Ho Hf Hs. unfold reaction_cdf. rewrite Et, Eo, Ef. destruct (Reqb_spec t 0); [lra|].
  assert (P : (0 < 1 / t)%R) by (apply Rdiv_lt_0_compat; lra). eexists. eexists. split; [reflexivity|].
  assert (M1 : (0 <= o * (1 / t))%R) by (apply Rmult_le_pos; lra). assert (M2 : (0 <= f * (1 / t))%R) by (apply Rmult_le_pos; lra).
  assert (M3 : ((o + f) * (1 / t) <= 1)%R). { apply Rmult_le_reg_r with t; [exact Ht|]. replace ((o + f) * (1 / t) * t)%R with (o + f)%R by (field; lra). lra. }
  repeat split; try lra; field; lra.
Qed.
Print Assumptions C87_reaction.
(** C87: the fission spectrum table holds the running sums; for a spectrum that is non-negative and sums to one it
    increases and ends at one. *)
Theorem C87_spectrum : forall x l, chi_cdf x = Some l -> length l = ng (xr_sc x) /\ (forall g, g < ng (xr_sc x) -> nth_error l g = Some (rsum (fun i => nth i (xr_ch x) 0%R) (S g))) /\
  ((forall c, In c (xr_ch x) -> (0 <= c)%R) -> forall g v w, nth_error l g = Some v -> nth_error l (S g) = Some w -> (v <= w)%R) /\
  (0 < ng (xr_sc x) -> rsum (fun i => nth i (xr_ch x) 0%R) (ng (xr_sc x)) = 1%R -> nth_error l (ng (xr_sc x) - 1) = Some 1%R).
Proof.
  intros x l E. unfold chi_cdf in E. destruct (chi_sums_spec _ _ _ _ _ E) as [L H].
  assert (H' : forall g, g < ng (xr_sc x) -> nth_error l g = Some (rsum (fun i => nth i (xr_ch x) 0%R) (S g))). { intros g Hg. rewrite H by exact Hg. f_equal. rewrite Rplus_0_l. reflexivity. }
  split; [exact L|]. split; [exact H'|]. split.
  - intros P g v w Ev Ew. assert (Hg : S g < ng (xr_sc x)). { assert (nth_error l (S g) <> None) by congruence. apply nth_error_Some in H0. lia. }
    rewrite H' in Ev by lia. rewrite H' in Ew by lia. injection Ev as <-. injection Ew as <-. change (rsum (fun i => nth i (xr_ch x) 0%R) (S (S g))) with (rsum (fun i => nth i (xr_ch x) 0%R) (S g) + nth (S g) (xr_ch x) 0%R)%R.
    destruct (nth_in_or_default (S g) (xr_ch x) 0%R) as [I|D]; [apply P in I; lra|]. rewrite D. lra.
  - intros N S1. rewrite H' by lia. replace (S (ng (xr_sc x) - 1)) with (ng (xr_sc x)) by lia. now rewrite S1.
Qed.
Print Assumptions C87_spectrum.
(** C87 refuted without the condition: nothing ensures fission plus scattering is at most the transport cross section, and
    the table then exceeds one (capture is never sampled). *)
Theorem C87_reaction_refuted : exists x a b, (exists regs tr nf f ch s, make_region regs tr nf f ch s = Some x) /\ reaction_cdf x 0 = Some [a; b; 1%R] /\ (1 < b)%R.
Proof.
  exists (mkXR [0] true [2%R] [1%R] [3%R] [1%R] [(2 - 1)%R] one_group). eexists. eexists. split; [|split].
  - exists [0], [2%R], [1%R], [3%R], [1%R], one_group. unfold make_region. cbn. destruct (Rltb_spec 0 1); [reflexivity|lra].
  - unfold reaction_cdf. cbn [xr_tr xr_sc xr_f nth_error one_group out]. destruct (Reqb_spec 2 0); [lra|]. reflexivity.
  - lra.
Qed.
Print Assumptions C87_reaction_refuted.
Example C87_instance : exists x, (exists regs tr nf f ch s, make_region regs tr nf f ch s = Some x) /\ nth_error (xr_tr x) 0 = Some 2%R /\ nth_error (out (xr_sc x)) 0 = Some 1%R /\ nth_error (xr_f x) 0 = Some (1 / 2)%R /\ chi_cdf x = Some [(0 + 1)%R].
Proof.
  exists (mkXR [0] true [2%R] [1%R] [(1 / 2)%R] [1%R] [(2 - 1)%R] one_group). split; [|repeat split; reflexivity].
  exists [0], [2%R], [1%R], [(1 / 2)%R], [1%R], one_group. unfold make_region. cbn. destruct (Rltb_spec 0 1); [reflexivity|lra].
Qed.
