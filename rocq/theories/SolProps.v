(** Properties of the solvers: C48 (iteration limits), C49 (dumps), C50 (fixed source), C51 (power iteration), C52
    (normalisation). *)
From Coq Require Import List Lia Bool Reals ZArith Arith Permutation Lra Sorted.
From Verif Require Import RUtil ListUtil RngModel McModel ScatModel ScatProofs MatModel CoreProofs MocProofs XsModel XsProps HomProps SrcModel SrcProps SolModel.
Import ListNotations.
Open Scope nat_scope.

(** ** C52 *)
Lemma total_lsum : forall l, total l = lsum (fun v : R => v) l.
Proof. assert (Q : forall l a, fold_left Rplus l a = (a + lsum (fun v : R => v) l)%R). { induction l as [|b l IH]; intros a; cbn [fold_left lsum]; [lra|]. rewrite IH. lra. } intros l. unfold total. rewrite Q. lra. Qed.
Lemma total_scaled : forall l c, total (map (fun v => v * c)%R l) = (total l * c)%R.
Proof. intros l c. rewrite !total_lsum, lsum_map. apply (lsum_scal (fun v : R => v)). Qed.
Lemma count_scaled : forall l c, (0 < c)%R -> count_pos (map (fun v => v * c)%R l) = count_pos l.
Proof.
  intros l c Hc. unfold count_pos. induction l as [|v l IH]; cbn [map filter]; [reflexivity|]. destruct (Rltb_spec 0 v), (Rltb_spec 0 (v * c)%R); cbn [length]; rewrite ?IH; auto; exfalso; nra.
Qed.
Lemma count_pos_pos : forall l, (0 < total l)%R -> (0 < INR (count_pos l))%R.
Proof.
  intros l. rewrite total_lsum. intros H. apply lt_0_INR. unfold count_pos. induction l as [|v l IH]; cbn [lsum filter length] in *; [lra|]. destruct (Rltb_spec 0 v); cbn [length]; [lia|]. apply IH. lra.
Qed.
(** C52: the entries sum to the number of positive entries and keep their ratios. *)
Theorem C52_sum : forall l, total l <> 0%R -> exists l' f, normalize l = Some (l', f) /\ l' = map (fun v => v * f)%R l /\ total l' = INR (count_pos l).
Proof.
  intros l H. unfold normalize. destruct (Reqb_spec (total l) 0) as [|_]; [contradiction|]. eexists _, _. split; [reflexivity|]. split; [reflexivity|]. rewrite total_scaled. field. exact H.
Qed.
Print Assumptions C52_sum.
(** C52: with a positive total, normalising again changes nothing. *)
Theorem C52_idempotent_partial : forall l l' f, (0 < total l)%R -> normalize l = Some (l', f) -> normalize l' = Some (l', 1%R).
Proof.
  intros l l' f H E. assert (Hn : total l <> 0%R) by lra. destruct (C52_sum l Hn) as (m & g & E' & Em & Tm). rewrite E in E'. injection E' as <- <-. pose proof (count_pos_pos l H) as Cp.
  assert (Hf : (0 < f)%R). { unfold normalize in E. destruct (Reqb_spec (total l) 0) as [|_]; [lra|]. injection E as _ <-. apply Rdiv_lt_0_compat; lra. }
  assert (C : count_pos l' = count_pos l) by (rewrite Em; now apply count_scaled). unfold normalize. rewrite Tm, C. destruct (Reqb_spec (INR (count_pos l)) 0) as [|_]; [lra|].
  replace (INR (count_pos l) / INR (count_pos l))%R with 1%R by (field; lra). do 2 f_equal. rewrite <- (map_id l') at 2. apply map_ext. intros a. lra.
Qed.
Print Assumptions C52_idempotent_partial.
(** C52: the scale of the input does not matter. *)
Theorem C52_scale : forall l c l' f, (0 < c)%R -> normalize l = Some (l', f) -> exists g, normalize (map (fun v => v * c)%R l) = Some (l', g).
Proof.
  intros l c l' f Hc E. unfold normalize in *. rewrite total_scaled, count_scaled by exact Hc. destruct (Reqb_spec (total l) 0) as [|H]; [discriminate|]. injection E as <- _. destruct (Reqb_spec (total l * c) 0) as [Z|_].
  - apply Rmult_integral in Z. destruct Z; [contradiction|lra].
  - eexists. f_equal. f_equal. rewrite map_map. apply map_ext. intros v. field. split; lra.
Qed.
Print Assumptions C52_scale.
(** C52: scaling entries first normalises the scaled entries. *)
Theorem C52_scaled : forall l w, length w = length l -> (forall x, In x w -> (0 < x)%R) -> total (map (fun p => fst p * snd p)%R (combine l w)) <> 0%R ->
  exists l' f, normalize_scaled l w = Some (l', f) /\ normalize (map (fun p => fst p * snd p)%R (combine l w)) = Some (l', f) /\ total l' = INR (count_pos l).
Proof.
  intros l w L P H. unfold normalize_scaled. rewrite (proj2 (Nat.ltb_ge _ _)) by lia. destruct (Reqb_spec (total (map (fun p => fst p * snd p)%R (combine l w))) 0) as [|_]; [contradiction|].
  assert (C : count_pos (map (fun p => fst p * snd p)%R (combine l w)) = count_pos l).
  { clear H. revert w L P. unfold count_pos. induction l as [|v l IH]; intros [|x w] L P; cbn in L; try lia; [reflexivity|]. cbn [combine map filter fst snd]. pose proof (P x (or_introl eq_refl)). assert (I : length (filter (fun v => Rltb 0 v) (map (fun p : R * R => (fst p * snd p)%R) (combine l w))) = length (filter (fun v => Rltb 0 v) l)) by (apply IH; [lia|intros; apply P; now right]).
    destruct (Rltb_spec 0 v), (Rltb_spec 0 (v * x)%R); cbn [length]; rewrite ?I; auto; exfalso; nra. }
  eexists _, _. split; [reflexivity|]. split.
  - unfold normalize. rewrite C. destruct (Reqb_spec (total (map (fun p => fst p * snd p)%R (combine l w))) 0) as [|_]; [contradiction|]. reflexivity.
  - rewrite total_scaled. field. exact H.
Qed.
Print Assumptions C52_scaled.
Lemma total_neg : total [-3; 1; 1]%R = (-1)%R. Proof. unfold total. cbn. lra. Qed.
Lemma count_neg : count_pos [-3; 1; 1]%R = 2.
Proof. unfold count_pos. cbn [filter]. rewrite (Rltb_false 0 (-3)), (Rltb_true 0 1) by lra. reflexivity. Qed.
(** C52 refuted: a negative total makes the factor negative and normalising again changes the values. *)
Theorem C52_idempotent_refuted : exists l l' f l'' g, normalize l = Some (l', f) /\ normalize l' = Some (l'', g) /\ l'' <> l' /\ (f < 0)%R.
Proof.
  exists [-3; 1; 1]%R. destruct (C52_sum [-3; 1; 1]%R) as (l' & f & E & El & T); [rewrite total_neg; lra|]. rewrite count_neg in T. assert (Ef : f = (-2)%R). { unfold normalize in E. rewrite total_neg, count_neg in E. destruct (Reqb_spec (-1) 0) as [|_]; [lra|]. injection E as _ <-. cbn. lra. }
  subst l' f. destruct (C52_sum (map (fun v => (v * -2)%R) [-3; 1; 1]%R)) as (l'' & g & E' & El' & T'); [rewrite T; cbn; lra|]. exists (map (fun v => (v * -2)%R) [-3; 1; 1]%R), (-2)%R, l'', g. split; [exact E|]. split; [exact E'|]. split; [|lra].
  assert (C : count_pos (map (fun v => (v * -2)%R) [-3; 1; 1]%R) = 1). { unfold count_pos. cbn [map filter]. rewrite (Rltb_true 0 (-3 * -2)), (Rltb_false 0 (1 * -2)) by lra. reflexivity. }
  rewrite C in T'. intros ->. rewrite T' in T. cbn in T. lra.
Qed.
Print Assumptions C52_idempotent_refuted.
Example C52_instance : (0 < total [1; 0; 3]%R)%R /\ count_pos [1; 0; 3]%R = 2.
Proof. split; [unfold total; cbn; lra|]. unfold count_pos. cbn [filter]. rewrite (Rltb_true 0 1), (Rltb_false 0 0), (Rltb_true 0 3) by lra. reflexivity. Qed.

(** ** C48, C49 *)
(** [n] steps in a row. *)
Fixpoint steps {St} (step : St -> Out St) (n : nat) (s : St) : Out St := match n with O => Got s | S k => match step s with Got s' => steps step k s' | o => o end end.
Lemma loop_inv : forall St (step : St -> Out St) conv left n mn dl next s du s' n' du', eigen_loop St step conv left n mn dl next s du = Got (s', n', du') ->
  exists j, n' = n + j /\ j <= left /\ steps step j s = Got s' /\ (j < left -> 0 < j /\ conv s' = true /\ mn < n') /\
    forall i t, 0 < i < j -> steps step i s = Got t -> conv t = true -> n + i <= mn.
Proof.
  intros St step conv. induction left as [|l IH]; intros n mn dl next s du s' n' du' E; cbn [eigen_loop] in E.
  - injection E as <- <- <-. exists 0. split; [lia|]. split; [lia|]. split; [reflexivity|]. split; [lia|]. intros; lia.
  - destruct (step s) as [s1| |] eqn:Es; try discriminate.
    assert (Stop : forall d, (if conv s1 && (mn <=? n) then Got (s1, n + 1, d) else Undef) = Got (s', n', du') -> conv s1 && (mn <=? n) = true -> exists j, n' = n + j /\ j <= S l /\ steps step j s = Got s' /\ (j < S l -> 0 < j /\ conv s' = true /\ mn < n') /\
      forall i t, 0 < i < j -> steps step i s = Got t -> conv t = true -> n + i <= mn).
    { intros d H C. rewrite C in H. injection H as <- <- <-. apply andb_true_iff in C. destruct C as [C1 C2]. apply Nat.leb_le in C2. exists 1. split; [lia|]. split; [lia|]. split; [cbn; now rewrite Es|]. split; [intros _; split; [lia|]; split; [exact C1|lia]|]. intros; lia. }
    assert (Go : forall dl' next' d, conv s1 && (mn <=? n) = false -> eigen_loop St step conv l (n + 1) mn dl' next' s1 d = Got (s', n', du') -> exists j, n' = n + j /\ j <= S l /\ steps step j s = Got s' /\ (j < S l -> 0 < j /\ conv s' = true /\ mn < n') /\
      forall i t, 0 < i < j -> steps step i s = Got t -> conv t = true -> n + i <= mn).
    { intros dl' next' d C H. destruct (IH _ _ _ _ _ _ _ _ _ H) as (j & A & B & D & F & G). exists (S j). split; [lia|]. split; [lia|]. split; [cbn; now rewrite Es|]. split.
      - intros Hj. destruct (F ltac:(lia)) as (F1 & F2 & F3). split; [lia|]. now split.
      - intros i t Hi St' Ct. destruct i as [|i]; [lia|]. cbn [steps] in St'. rewrite Es in St'. destruct i as [|i].
        + injection St' as <-. rewrite Ct in C. cbn in C. apply Nat.leb_gt in C. lia.
        + specialize (G (S i) t ltac:(lia) St' Ct). lia. }
    destruct (Z.of_nat (n + 1) =? next)%Z; [destruct dl as [|d0 dl']; [discriminate|]|]; destruct (conv s1 && (mn <=? n)) eqn:C; eauto; (eapply Stop; [rewrite C; exact E|exact C]).
Qed.
(** C48: at most max_iter steps and at least min_iter; it stops before max_iter only when converged after more than
    min_iter steps, and at the first such step. *)
Theorem C48_limits_partial : forall St (step : St -> Out St) conv p dumps s s' n du, ep_min p <= ep_max p -> eigen_solve St step conv p dumps s = Got (s', n, du) ->
  n <= ep_max p /\ ep_min p <= n /\ steps step n s = Got s' /\ (n < ep_max p -> conv s' = true /\ ep_min p < n) /\
  forall i t, 0 < i < n -> steps step i s = Got t -> conv t = true -> i <= ep_min p.
Proof.
  intros St step conv p dumps s s' n du Hm E. unfold eigen_solve in E. destruct (loop_inv _ _ _ _ _ _ _ _ _ _ _ _ _ E) as (j & -> & B & D & F & G). cbn [Nat.add] in *. split; [exact B|]. split.
  - destruct (Nat.lt_ge_cases j (ep_max p)) as [H|H]; [destruct (F H) as (_ & _ & X); lia|lia].
  - split; [exact D|]. split; [intros H; destruct (F H) as (_ & X); exact X|]. exact G.
Qed.
Print Assumptions C48_limits_partial.
(** C48: accepted parameters have the limits in order and positive tolerances; anything else is rejected. *)
Theorem C48_parameters : forall k psi mx mn, (forall p, read_params k psi mx mn = Got p -> (0 < ep_ktol p)%R /\ (0 < ep_ptol p)%R /\ ep_min p <= ep_max p /\ mx = Some (Z.of_nat (ep_max p)) /\ (mn = None /\ ep_min p = 0 \/ mn = Some (Z.of_nat (ep_min p)))) /\
  ((exists p, read_params k psi mx mn = Got p) <-> exists a b m, k = Some a /\ psi = Some b /\ mx = Some m /\ (0 < a)%R /\ (0 < b)%R /\ (0 <= m)%Z /\ match mn with None => True | Some n => (0 <= n <= m)%Z end).
Proof.
  intros k psi mx mn. assert (A : forall p, read_params k psi mx mn = Got p -> exists a b m, k = Some a /\ psi = Some b /\ mx = Some m /\ (0 < a)%R /\ (0 < b)%R /\ (0 <= m)%Z /\ ep_ktol p = a /\ ep_ptol p = b /\ ep_max p = Z.to_nat m /\
    match mn with None => ep_min p = 0 | Some n => (0 <= n <= m)%Z /\ ep_min p = Z.to_nat n end).
  { intros p E. unfold read_params in E. destruct k as [a|]; cbn [or_else] in E; [|destruct (Rleb_spec (-1) 0); [discriminate|lra]]. destruct (Rleb_spec a 0); [discriminate|].
    destruct psi as [b|]; cbn [or_else] in E; [|destruct (Rleb_spec (-1) 0); [discriminate|lra]]. destruct (Rleb_spec b 0); [discriminate|].
    destruct mx as [m|]; cbn [or_else] in E; [|discriminate]. destruct (Z.ltb_spec m 0); [discriminate|]. exists a, b, m. destruct mn as [n'|].
    - destruct (Z.ltb_spec n' 0); [discriminate|]. destruct (Z.ltb_spec m n'); [discriminate|]. injection E as <-. cbn. repeat split; auto; lra.
    - injection E as <-. cbn. repeat split; auto; lra. }
  split.
  - intros p E. destruct (A p E) as (a & b & m & -> & -> & -> & Ha & Hb & Hm & -> & -> & -> & X). split; [exact Ha|]. split; [exact Hb|]. destruct mn as [n|].
    + destruct X as [X ->]. split; [lia|]. split; [f_equal; lia|]. right. f_equal. lia.
    + rewrite X. split; [lia|]. split; [f_equal; lia|]. left. auto.
  - split.
    + intros [p E]. destruct (A p E) as (a & b & m & H1 & H2 & H3 & Ha & Hb & Hm & _ & _ & _ & X). exists a, b, m. repeat split; auto. destruct mn; [tauto|exact I].
    + intros (a & b & m & -> & -> & -> & Ha & Hb & Hm & X). unfold read_params. cbn [or_else]. destruct (Rleb_spec a 0); [lra|]. destruct (Rleb_spec b 0); [lra|]. destruct (Z.ltb_spec m 0); [lia|]. destruct mn as [nn|]; [|eauto]. destruct (Z.ltb_spec nn 0); [lia|]. destruct (Z.ltb_spec m nn); [lia|]. cbn. eauto.
Qed.
Print Assumptions C48_parameters.
(** C48 refuted: convergence exactly after min_iter steps is not accepted; one more is done. *)
Theorem C48_min_refuted : exists St (step : St -> Out St) conv p s s' n, ep_min p < ep_max p /\ eigen_solve St step conv p [] s = Got (s', n, []) /\ n <> ep_min p /\
  0 < ep_min p /\ exists t, steps step (ep_min p) s = Got t /\ conv t = true.
Proof.
  exists nat, (fun n => Got (S n)), (fun _ => true), (mkEP 1 1 3 2), 0, 3, 3. split; [cbn; lia|]. split; [reflexivity|]. split; [cbn; lia|]. split; [cbn; lia|]. exists 2. split; reflexivity.
Qed.
Print Assumptions C48_min_refuted.
Example C48_instance : exists s, eigen_solve nat (fun n => Got (S n)) (fun n => n =? 4) (mkEP 1 1 9 2) [3%Z; 1%Z] 0 = Got (s, 4, [1; 3]).
Proof. eexists. reflexivity. Qed.

Lemma insert_perm : forall x l, Permutation (insert_z x l) (x :: l).
Proof. intros x. induction l as [|y l IH]; cbn [insert_z]; [reflexivity|]. destruct (x <=? y)%Z; [reflexivity|]. rewrite IH. apply perm_swap. Qed.
Lemma sort_perm : forall l, Permutation (sort_z l) l.
Proof. induction l as [|x l IH]; [reflexivity|]. unfold sort_z in *. cbn [fold_right]. rewrite insert_perm. now constructor. Qed.
Lemma insert_sorted : forall x l, StronglySorted Z.le l -> StronglySorted Z.le (insert_z x l).
Proof.
  intros x l S. induction S as [|y l S IH F]; cbn [insert_z]; [repeat constructor|]. destruct (Z.leb_spec x y) as [H|H].
  - constructor; [now constructor|]. constructor; [exact H|]. eapply Forall_impl; [|exact F]. intros; lia.
  - constructor; [exact IH|]. rewrite Forall_forall in *. intros z I. apply (Permutation_in _ (insert_perm x l)) in I. destruct I as [<-|I]; [lia|now apply F].
Qed.
Lemma sort_sorted : forall l, StronglySorted Z.le (sort_z l).
Proof. induction l as [|x l IH]; [constructor|]. unfold sort_z in *. cbn [fold_right]. now apply insert_sorted. Qed.

(** Where the dump iterator stands: everything up to [n] is done. *)
Definition dump_state (dl : list Z) (next : Z) : Prop := match dl with [] => next = INT_MAX \/ next = UINT_MAX | d :: _ => next = d end.
Lemma w32_small : forall d, (0 < d < 2 ^ 32)%Z -> w32 d = d.
Proof. intros. unfold w32. apply Z.mod_small. lia. Qed.
Lemma loop_dumps : forall St (step : St -> Out St) conv left n mn dl next s du s' n' du', eigen_loop St step conv left n mn dl next s du = Got (s', n', du') -> dump_state dl next -> StronglySorted Z.lt dl -> (forall d, In d dl -> (Z.of_nat n < d <= INT_MAX)%Z) ->
  (Z.of_nat (n + left) < INT_MAX)%Z -> exists e, du' = du ++ e /\ NoDup e /\ forall i, In i e <-> (n < i <= n' /\ In (Z.of_nat i) dl).
Proof.
  intros St step conv. induction left as [|l IH]; intros n mn dl next s du s' n' du' E D So B Hl; cbn [eigen_loop] in E.
  - injection E as <- <- <-. exists []. split; [now rewrite app_nil_r|]. split; [constructor|]. intros i. split; [intros []|lia].
  - destruct (step s) as [s1| |]; try discriminate. destruct (Z.eqb_spec (Z.of_nat (n + 1)) next) as [En|En].
    + destruct dl as [|d dl']; [discriminate|]. cbn in D. subst next d. inversion So as [|? ? So' F]; subst. rewrite Forall_forall in F.
      destruct (conv s1 && (mn <=? n)) eqn:C.
      * injection E as <- <- <-. exists [n + 1]. split; [reflexivity|]. split; [repeat constructor; auto|]. intros i. split.
        -- intros [<-|[]]. split; [lia|]. now left.
        -- intros [Hi _]. left. lia.
      * destruct (IH _ _ _ _ _ _ _ _ _ E) as (e & -> & Ne & P); auto.
        { destruct dl' as [|d dl'']; cbn; [now left|]. apply w32_small. specialize (B d (or_intror (or_introl eq_refl))). unfold INT_MAX in B. lia. }
        { intros d I. specialize (F d I). specialize (B d (or_intror I)). lia. } { lia. }
        exists ((n + 1) :: e). split; [now rewrite <- app_assoc|]. split.
        -- constructor; [|exact Ne]. intros I. apply P in I. lia.
        -- intros i. cbn [In]. rewrite P. destruct (loop_inv _ _ _ _ _ _ _ _ _ _ _ _ _ E) as (j & -> & _). split.
           ++ intros [<-|[H I]]; [split; [lia|now left]|]. split; [lia|now right].
           ++ intros [H [I|I]]; [left; lia|right]. split; [|exact I]. specialize (F _ I). lia.
    + assert (Nn : forall i, In i dl -> i <> Z.of_nat (n + 1)). { intros i I Ei. subst i. destruct dl as [|d dl']; [destruct I|]. cbn in D. subst d. destruct I as [I|I]; [congruence|]. inversion So as [|? ? So' F]; subst. rewrite Forall_forall in F. specialize (F _ I). specialize (B next (or_introl eq_refl)). lia. }
      destruct (conv s1 && (mn <=? n)) eqn:C.
      * injection E as <- <- <-. exists []. split; [now rewrite app_nil_r|]. split; [constructor|]. intros i. split; [intros []|]. intros [Hi I]. apply (Nn _ I). lia.
      * destruct (IH _ _ _ _ _ _ _ _ _ E) as (e & -> & Ne & P); auto.
        { intros d I. specialize (B d I). specialize (Nn d I). lia. } { lia. }
        exists e. split; [reflexivity|]. split; [exact Ne|]. intros i. rewrite P. split; intros [H I]; (split; [|exact I]); [lia|]. specialize (Nn _ I). lia.
Qed.
(** C49: with distinct positive requests, exactly the requested iterations that were performed are dumped, once each. *)
Theorem C49_dumps_partial : forall St (step : St -> Out St) conv p dumps s s' n du, NoDup dumps -> (forall d, In d dumps -> (0 < d <= INT_MAX)%Z) -> (Z.of_nat (ep_max p) < INT_MAX)%Z ->
  eigen_solve St step conv p dumps s = Got (s', n, du) -> NoDup du /\ forall i, In i du <-> (1 <= i <= n /\ In (Z.of_nat i) dumps).
Proof.
  intros St step conv p dumps s s' n du N B Hm E. unfold eigen_solve in E. pose proof (sort_perm dumps) as Pm. set (dl := sort_z dumps) in *.
  assert (Bd : forall d, In d dl -> (0 < d <= INT_MAX)%Z) by (intros d I; apply B; now apply (Permutation_in _ Pm)).
  destruct (loop_dumps _ _ _ _ _ _ _ _ _ _ _ _ _ E) as (e & -> & Ne & P).
  - destruct dl as [|d dl']; cbn; [now right|]. apply w32_small. specialize (Bd d (or_introl eq_refl)). unfold INT_MAX in Bd. lia.
  - assert (Nd : NoDup dl) by (eapply Permutation_NoDup; [symmetry; exact Pm|exact N]). pose proof (sort_sorted dumps) as So. fold dl in So. clear - Nd So. induction So as [|d l So IH F]; [constructor|]. inversion Nd; subst. constructor; [auto|]. rewrite Forall_forall in *. intros x I. specialize (F x I). assert (d <> x) by (intros ->; contradiction). lia.
  - intros d I. specialize (Bd d I). lia.
  - exact Hm.
  - cbn [app]. split; [exact Ne|]. intros i. rewrite P. split; intros [H I]; (split; [lia|]); [now apply (Permutation_in _ Pm)|apply (Permutation_in _ (Permutation_sym Pm)); exact I].
Qed.
Print Assumptions C49_dumps_partial.
(** C49: the loop never walks the iterator past the end when the limit is below the largest int. *)
Theorem C49_defined : forall St (step : St -> Out St) conv p dumps s, (forall t, exists t', step t = Got t') -> (Z.of_nat (ep_max p) < INT_MAX)%Z -> exists r, eigen_solve St step conv p dumps s = Got r.
Proof.
  intros St step conv p dumps s T H. unfold eigen_solve.
  assert (Q : forall left n mn dl next s du, (dl = [] -> next = INT_MAX \/ next = UINT_MAX) -> (Z.of_nat (n + left) < INT_MAX)%Z -> exists r, eigen_loop St step conv left n mn dl next s du = Got r).
  { clear - T. induction left as [|l IH]; intros n mn dl next s du D Hl; cbn [eigen_loop]; [eauto|]. destruct (T s) as [t ->]. destruct (Z.eqb_spec (Z.of_nat (n + 1)) next) as [En|En].
    - destruct dl as [|d dl']; [destruct (D eq_refl) as [X|X]; subst next; unfold UINT_MAX, INT_MAX in *; lia|]. destruct (_ && _); [eauto|]. apply IH; [|lia]. intros ->. now left.
    - destruct (_ && _); [eauto|]. apply IH; [exact D|lia]. }
  apply Q; [|exact H]. intros ->. now right.
Qed.
Print Assumptions C49_defined.
(** C49 refuted: a repeated, zero or negative request blocks all later ones. *)
Theorem C49_blocked_refuted : let run dumps := eigen_solve nat (fun n => Got (S n)) (fun _ => false) (mkEP 1 1 6 0) dumps 0 in
  run [5; 2; 2]%Z = Got (6, 6, [2]) /\ run [0; 5]%Z = Got (6, 6, []) /\ run [5; -1]%Z = Got (6, 6, []).
Proof. cbn. repeat split; reflexivity. Qed.
Print Assumptions C49_blocked_refuted.
Example C49_instance : NoDup [3%Z; 1%Z] /\ (forall d, In d [3%Z; 1%Z] -> (0 < d <= INT_MAX)%Z).
Proof. split; [repeat constructor; cbn; intuition lia|]. unfold INT_MAX. intros d [<-|[<-|[]]]; lia. Qed.

(** ** C50 *)
(** C50: a positive limit is taken as given, zero is rejected, and the loop respects the limit and stops at the first small
    residual. *)
Theorem C50_limit_partial : forall St (step : St -> Out St) small n s, (0 < n < 2 ^ 31)%Z -> forall tol, (0 < tol)%R ->
  read_fixed (Some n) (Some tol) = Got (n, tol) /\ read_fixed (Some 0%Z) (Some tol) = Threw /\ (forall t, (t <= 0)%R -> read_fixed (Some n) (Some t) = Threw) /\ read_fixed (Some n) None = Threw /\
  forall s' m, fixed_loop St step small (Z.to_nat n) 0 s = Got (s', m) -> 1 <= m <= Z.to_nat n /\ steps step m s = Got s' /\ (m < Z.to_nat n -> small s' = true) /\ forall i t, 0 < i < m -> steps step i s = Got t -> small t = false.
Proof.
  intros St step small n s Hn tol Ht. assert (W : w64 n = n) by (unfold w64; apply Z.mod_small; lia). unfold read_fixed. cbn [or_else]. rewrite W. destruct (Z.leb_spec n 0); [lia|]. split; [destruct (Rleb_spec tol 0); [lra|reflexivity]|]. split; [reflexivity|].
  split; [intros t Hr; destruct (Rleb_spec t 0); [reflexivity|lra]|]. split; [destruct (Rleb_spec (-1) 0); [reflexivity|lra]|].
  assert (Q : forall l k s s' m, fixed_loop St step small l k s = Got (s', m) -> exists j, m = k + j /\ (0 < l -> 0 < j) /\ j <= l /\ steps step j s = Got s' /\ (j < l -> small s' = true) /\ forall i t, 0 < i < j -> steps step i s = Got t -> small t = false).
  { clear. induction l as [|l IH]; intros k s s' m E; cbn [fixed_loop] in E.
    - injection E as <- <-. exists 0. repeat split; try lia.
    - destruct (step s) as [s1| |] eqn:Es; try discriminate. destruct (small s1) eqn:Sm.
      + injection E as <- <-. exists 1. split; [lia|]. split; [lia|]. split; [lia|]. split; [cbn; now rewrite Es|]. split; [auto|]. intros; lia.
      + destruct (IH _ _ _ _ E) as (j & -> & A & B & C & D & F). exists (S j). split; [lia|]. split; [lia|]. split; [lia|]. split; [cbn; now rewrite Es|]. split; [intros; apply D; lia|].
        intros i t Hi St'. destruct i as [|i]; [lia|]. cbn [steps] in St'. rewrite Es in St'. destruct i as [|i]; [now injection St' as <-|]. apply (F (S i)); [lia|exact St']. }
  intros s' m E. destruct (Q _ _ _ _ _ E) as (j & -> & A & B & C & D & F). cbn [Nat.add]. split; [split; [apply A|]; lia|]. split; [exact C|]. split; [exact D|exact F].
Qed.
Print Assumptions C50_limit_partial.
(** C50 refuted: a missing or negative limit is accepted and means at least 2^63 iterations. *)
Theorem C50_negative_refuted : forall mx, mx = None \/ (exists n, mx = Some n /\ (- 2 ^ 31 <= n < 0)%Z) -> forall tol, (0 < tol)%R -> exists m, read_fixed mx (Some tol) = Got (m, tol) /\ (2 ^ 63 <= m)%Z.
Proof.
  intros mx H tol Ht. assert (W : forall n, (- 2 ^ 31 <= n < 0)%Z -> w64 n = (n + 2 ^ 64)%Z). { intros n Hn. unfold w64. symmetry. apply Z.mod_unique with (q := (-1)%Z); [left|]; lia. }
  unfold read_fixed. assert (exists n, or_else mx (-1)%Z = n /\ (- 2 ^ 31 <= n < 0)%Z) as (n & -> & Hn). { destruct H as [->|(n & -> & Hn)]; cbn; eexists; (split; [reflexivity|]); lia. }
  rewrite W by exact Hn. destruct (Z.leb_spec (n + 2 ^ 64) 0); [lia|]. cbn [or_else]. destruct (Rleb_spec tol 0); [lra|]. eexists. split; [reflexivity|lia].
Qed.
Print Assumptions C50_negative_refuted.
Example C50_instance : exists s, fixed_loop nat (fun n => Got (S n)) (fun n => n =? 2) 5 0 0 = Got (s, 2).
Proof. eexists. reflexivity. Qed.

(** ** C51 *)
Section PowerIteration.
Variable Sw : Type.
Variable flux : Sw -> list (list R).
Variable sweep : nat -> list R -> Sw -> option Sw.
Variable xs : list XReg.
Variable ngr nreg : nat.
Variable vol : list R.
Notation estep := (eigen_step Sw flux sweep xs ngr nreg vol).
Notation iter := (eigen_iter Sw flux sweep xs ngr nreg vol).
Notation prod s := (total_fission xs ngr (flux (e_sw Sw s)) vol).

Lemma step_ratio : forall s s', estep s = Some s' -> exists a b, prod s = Some a /\ prod s' = Some b /\ a <> 0%R /\ e_k Sw s' = (e_k Sw s * b / a)%R /\ e_kp Sw s' = e_k Sw s /\ e_hist Sw s' = e_hist Sw s.
Proof.
  intros s s' E. unfold eigen_step in E. destruct (calc_fission_source _ _ _ _ _) as [f1|]; [|discriminate]. destruct (fss_groups _ _ _ _ _ _ _ _ _ _) as [[src' sw']|]; [|discriminate].
  destruct (total_fission xs ngr (flux sw') vol) as [b|] eqn:Eb; [|discriminate]. destruct (prod s) as [a|] eqn:Ea; [|discriminate]. destruct (Reqb_spec a 0) as [|Ha]; [discriminate|].
  destruct (calc_fission_source (e_k Sw s * b / a) _ _ _ _) as [f2|]; [|discriminate]. injection E as <-. cbn. exists a, b. auto 10.
Qed.
Lemma iter_ratio : forall s s', iter s = Got s' -> exists a b, prod s = Some a /\ prod s' = Some b /\ a <> 0%R /\ e_k Sw s' = (e_k Sw s * b / a)%R /\ exists r, e_hist Sw s' = e_hist Sw s ++ [(e_k Sw s', Rabs (e_k Sw s' - e_k Sw s), r)].
Proof.
  intros s s' E. unfold eigen_iter in E. destruct (estep s) as [s1|] eqn:E1; [|discriminate]. destruct (step_ratio s s1 E1) as (a & b & A & B & Na & K & Kp & H).
  destruct (normalize (e_fs Sw s1)) as [[f g]|]; [|discriminate]. destruct (normalize (e_fsp Sw s1)) as [[fp g']|]; [|discriminate]. destruct (sum_sq nreg f fp) as [e|]; [|discriminate]. destruct (n_fissile xs =? 0); [discriminate|]. injection E as <-. cbn [e_k e_sw e_hist]. exists a, b. rewrite H, Kp. eauto 10.
Qed.
Lemma history : forall n s s', steps iter n s = Got s' -> exists h, e_hist Sw s' = e_hist Sw s ++ h /\ length h = n.
Proof.
  induction n as [|n IH]; intros s s' E; cbn [steps] in E; [injection E as <-; exists []; now rewrite app_nil_r|]. destruct (iter s) as [s1| |] eqn:E1; try discriminate. destruct (iter_ratio s s1 E1) as (_ & _ & _ & _ & _ & _ & r & H1). destruct (IH s1 s' E) as (h & H2 & L). exists ((e_k Sw s1, Rabs (e_k Sw s1 - e_k Sw s), r) :: h). rewrite H2, H1, <- app_assoc. split; [reflexivity|]. cbn. lia.
Qed.
Lemma ratio : forall n s s' a, steps iter n s = Got s' -> prod s = Some a -> exists b, prod s' = Some b /\ (0 < n -> a <> 0%R) /\ (e_k Sw s' * a = e_k Sw s * b)%R.
Proof.
  induction n as [|n IH]; intros s s' a E A; cbn [steps] in E; [injection E as <-; exists a; split; [exact A|]; split; [lia|reflexivity]|]. destruct (iter s) as [s1| |] eqn:E1; try discriminate.
  destruct (iter_ratio s s1 E1) as (a' & b1 & A' & B1 & Na & K & _). rewrite A in A'. injection A' as <-. destruct (IH s1 s' b1 E B1) as (b & B & Nb & Kb). exists b. split; [exact B|]. split; [auto|]. rewrite K in Kb.
  destruct n as [|n]; [cbn in E; injection E as <-; rewrite B1 in B; injection B as <-; rewrite K; field; exact Na|]. specialize (Nb ltac:(lia)).
  assert (Kb' : (e_k Sw s' * b1 = e_k Sw s * b1 / a * b)%R) by exact Kb. apply (Rmult_eq_reg_r b1); [|exact Nb]. replace (e_k Sw s' * a * b1)%R with (e_k Sw s' * b1 * a)%R by ring. rewrite Kb'. field. exact Na.
Qed.
End PowerIteration.

(** C51: after any number of iterations k is the initial k times the ratio of the fission productions of the final and the
    initial flux, and every iteration is recorded with its change of k. *)
Theorem C51_ratio : forall Sw flux sweep xs ngr nreg vol n (s s' : ESt Sw) a, steps (eigen_iter Sw flux sweep xs ngr nreg vol) n s = Got s' -> total_fission xs ngr (flux (e_sw Sw s)) vol = Some a ->
  exists b h, total_fission xs ngr (flux (e_sw Sw s')) vol = Some b /\ (0 < n -> a <> 0%R) /\ (e_k Sw s' * a = e_k Sw s * b)%R /\ e_hist Sw s' = e_hist Sw s ++ h /\ length h = n.
Proof.
  intros. destruct (ratio _ _ _ _ _ _ _ _ _ _ _ H H0) as (b & A & B & C). destruct (history _ _ _ _ _ _ _ _ _ _ H) as (h & D & E). eauto 10.
Qed.
Print Assumptions C51_ratio.

(** Scaling of lists and of options of lists. *)
Definition sc (c : R) (l : list R) : list R := map (fun v => v * c)%R l.
Lemma sc_nth : forall c l i, nth_error (sc c l) i = option_map (fun v => v * c)%R (nth_error l i).
Proof. intros c l i. unfold sc. apply nth_error_map. Qed.
Lemma sc_set : forall c l i v, set_nth (sc c l) i (v * c)%R = option_map (sc c) (set_nth l i v).
Proof. intros c. induction l as [|a l IH]; intros [|i] v; cbn; auto. specialize (IH i v). unfold sc in IH. rewrite IH. destruct (set_nth l i v); reflexivity. Qed.
Lemma sc_at2 : forall c fl i g, at2 (map (sc c) fl) i g = option_map (fun v => v * c)%R (at2 fl i g).
Proof. intros c fl i g. unfold at2. rewrite nth_error_map. destruct (nth_error fl i); [apply sc_nth|reflexivity]. Qed.
Lemma sc_add_regs : forall c regs f f' v, (forall r, f' r = option_map (fun v => v * c)%R (f r)) -> add_regs regs f' (sc c v) = option_map (sc c) (add_regs regs f v).
Proof.
  intros c. induction regs as [|r regs IH]; intros f f' v H; cbn [add_regs]; [reflexivity|]. rewrite H, sc_nth. destruct (f r) as [x|]; cbn [option_map]; [|reflexivity]. destruct (nth_error v r) as [y|]; cbn [option_map]; [|reflexivity].
  replace (y * c + x * c)%R with ((y + x) * c)%R by ring. rewrite sc_set. destruct (set_nth v r (y + x)%R); cbn [option_map]; [now apply IH|reflexivity].
Qed.
Lemma sc_fission : forall c xs fs ig src, fission xs (sc c fs) ig (sc c src) = option_map (sc c) (fission xs fs ig src).
Proof.
  intros c. induction xs as [|x xs IH]; intros fs ig src; cbn [fission]; [reflexivity|]. destruct (nth_error (xr_ch x) ig) as [ch|]; [|reflexivity].
  rewrite (sc_add_regs c (xr_reg x) (fun i => match nth_error fs i with Some f => Some (ch * f)%R | None => None end)); [destruct (add_regs _ _ _); cbn [option_map]; [apply IH|reflexivity]|].
  intros r. rewrite sc_nth. destruct (nth_error fs r); cbn [option_map]; [f_equal; ring|reflexivity].
Qed.
Lemma sc_scatter_row : forall c x row fl ig cnt gg src, scatter_row x row (map (sc c) fl) ig gg cnt (sc c src) = option_map (sc c) (scatter_row x row fl ig gg cnt src).
Proof.
  intros c x row fl ig. induction cnt as [|n IH]; intros gg src; cbn [scatter_row]; [reflexivity|]. destruct (nth_error _ _) as [s|]; [|reflexivity]. destruct (gg =? ig); [apply IH|].
  rewrite (sc_add_regs c (xr_reg x) (fun i => match at2 fl i gg with Some p => Some (s * p)%R | None => None end)); [destruct (add_regs _ _ _); cbn [option_map]; [apply IH|reflexivity]|].
  intros r. rewrite sc_at2. destruct (at2 fl r gg); cbn [option_map]; [f_equal; ring|reflexivity].
Qed.
Lemma sc_in_scatter : forall c xs fl ig src, in_scatter xs (map (sc c) fl) ig (sc c src) = option_map (sc c) (in_scatter xs fl ig src).
Proof.
  intros c. induction xs as [|x xs IH]; intros fl ig src; cbn [in_scatter]; [reflexivity|]. destruct (xr_reg x); [apply IH|]. destruct (nth_error _ _); [|reflexivity]. rewrite sc_scatter_row. destruct (scatter_row _ _ _ _ _ _ _); cbn [option_map]; [apply IH|reflexivity].
Qed.
Lemma sc_zero : forall c (l l' : list R), length l' = length l -> map (fun _ => 0%R) l' = sc c (map (fun _ : R => 0%R) l).
Proof. intros c. induction l as [|a l IH]; intros [|b l'] H; cbn in H; try discriminate; [reflexivity|]. cbn. f_equal; [ring|]. apply IH. lia. Qed.
Lemma sc_fs_groups : forall c rk x fl cnt ig fs, fs_groups rk x (map (sc c) fl) ig cnt (sc c fs) = option_map (sc c) (fs_groups rk x fl ig cnt fs).
Proof.
  intros c rk x fl. induction cnt as [|n IH]; intros ig fs; cbn [fs_groups]; [reflexivity|]. destruct (nth_error _ _) as [nf|]; [|reflexivity].
  rewrite (sc_add_regs c (xr_reg x) (fun i => match at2 fl i ig with Some p => Some (rk * nf * p)%R | None => None end)); [destruct (add_regs _ _ _); cbn [option_map]; [apply IH|reflexivity]|].
  intros r. rewrite sc_at2. destruct (at2 fl r ig); cbn [option_map]; [f_equal; ring|reflexivity].
Qed.
Lemma sc_calc : forall c k xs ng fl fs fs', length fs' = length fs -> calc_fission_source k xs ng (map (sc c) fl) fs' = option_map (sc c) (calc_fission_source k xs ng fl fs).
Proof.
  intros c k xs ng fl fs fs' L. unfold calc_fission_source. destruct (Reqb k 0); [reflexivity|]. rewrite (sc_zero c fs fs' L). generalize (map (fun _ : R => 0%R) fs) as v. induction xs as [|x xs IH]; intros v; cbn [fs_mesh]; [reflexivity|]. rewrite sc_fs_groups. destruct (fs_groups _ _ _ _ _ _); cbn [option_map]; [apply IH|reflexivity].
Qed.
Lemma sc_fis_regs : forall c nf fl vol ig regs t, fis_regs nf (map (sc c) fl) vol ig regs (t * c)%R = option_map (fun v => v * c)%R (fis_regs nf fl vol ig regs t).
Proof.
  intros c nf fl vol ig. induction regs as [|r regs IH]; intros t; cbn [fis_regs]; [reflexivity|]. rewrite sc_at2. destruct (at2 fl r ig); cbn [option_map]; [|reflexivity]. destruct (nth_error vol r); [|reflexivity]. rewrite <- IH. f_equal. ring.
Qed.
Lemma sc_total : forall c xs ng fl vol, total_fission xs ng (map (sc c) fl) vol = option_map (fun v => v * c)%R (total_fission xs ng fl vol).
Proof.
  intros c xs ng fl vol. unfold total_fission. replace 0%R with (0 * c)%R at 1 by ring. generalize 0%R as t. induction xs as [|x xs IH]; intros t; cbn [fis_mesh]; [reflexivity|].
  assert (G : forall cnt ig t, fis_groups x (map (sc c) fl) vol ig cnt (t * c)%R = option_map (fun v => v * c)%R (fis_groups x fl vol ig cnt t)).
  { induction cnt as [|n IHn]; intros ig u; cbn [fis_groups]; [reflexivity|]. destruct (nth_error _ _); [|reflexivity]. rewrite sc_fis_regs. destruct (fis_regs _ _ _ _ _ _); cbn [option_map]; [apply IHn|reflexivity]. }
  rewrite G. destruct (fis_groups _ _ _ _ _ _); cbn [option_map]; [apply IH|reflexivity].
Qed.
Lemma calc_length : forall k xs ng fl fs fs', calc_fission_source k xs ng fl fs = Some fs' -> length fs' = length fs.
Proof.
  intros k xs ng fl fs fs' E. unfold calc_fission_source in E. destruct (Reqb k 0); [discriminate|]. rewrite <- (map_length (fun _ : R => 0%R) fs). revert E. generalize (map (fun _ : R => 0%R) fs) as v.
  assert (A : forall regs f v v', add_regs regs f v = Some v' -> length v' = length v). { clear. induction regs as [|r regs IH]; intros f v v' E; cbn [add_regs] in E; [injection E as <-; reflexivity|]. destruct (f r); [|discriminate]. destruct (nth_error v r); [|discriminate]. destruct (set_nth v r _) eqn:S; [|discriminate]. apply IH in E. apply set_nth_spec in S. destruct S as [S _]. congruence. }
  assert (G : forall rk x fl cnt ig v v', fs_groups rk x fl ig cnt v = Some v' -> length v' = length v). { clear - A. induction cnt as [|n IH]; intros ig v v' E; cbn [fs_groups] in E; [injection E as <-; reflexivity|]. destruct (nth_error _ _); [|discriminate]. destruct (add_regs _ _ _) eqn:S; [|discriminate]. apply IH in E. apply A in S. congruence. }
  induction xs as [|x xs IH]; intros v E; cbn [fs_mesh] in E; [injection E as <-; reflexivity|]. destruct (fs_groups _ _ _ _ _ _) eqn:S; [|discriminate]. apply IH in E. apply G in S. congruence.
Qed.

(** A sweeper is homogeneous when scaling its state and its source by the same factor scales the result; [scaled] relates
    states that differ by a factor. *)
Definition homogeneous {Sw} (flux : Sw -> list (list R)) (sweep : nat -> list R -> Sw -> option Sw) (scaled : R -> Sw -> Sw -> Prop) : Prop :=
  (forall c a b, scaled c a b -> flux b = map (sc c) (flux a)) /\
  forall c g src a b a', (0 < c)%R -> scaled c a b -> sweep g src a = Some a' -> exists b', sweep g (sc c src) b = Some b' /\ scaled c a' b'.

Section Scale.
Variable Sw : Type.
Variable flux : Sw -> list (list R).
Variable sweep : nat -> list R -> Sw -> option Sw.
Variable scaled : R -> Sw -> Sw -> Prop.
Hypothesis Hom : homogeneous flux sweep scaled.
Variable xs : list XReg.
Variable ngr nreg : nat.
Variable vol : list R.
Variable c : R.
Hypothesis Hc : (0 < c)%R.

Lemma scaled_groups : forall fs cnt ig src sw src' sw' tsrc tw, scaled c sw tw -> length tsrc = length src -> fss_groups Sw flux sweep xs nreg None (Some fs) ig cnt (src, sw) = Some (src', sw') ->
  exists tsrc' tw', fss_groups Sw flux sweep xs nreg None (Some (sc c fs)) ig cnt (tsrc, tw) = Some (tsrc', tw') /\ length tsrc' = length src' /\ scaled c sw' tw'.
Proof.
  destruct Hom as [Hf Hs]. intros fs. induction cnt as [|n IH]; intros ig src sw src' sw' tsrc tw Sc L E; cbn [fss_groups] in *; [injection E as <- <-; eauto|].
  unfold fss_group in *. cbn [initialize_group] in *. rewrite (sc_zero c src tsrc L), sc_fission. destruct (fission xs fs ig (map (fun _ : R => 0%R) src)) as [s1|]; [|discriminate]. cbn [option_map]. rewrite (Hf c sw tw Sc), sc_in_scatter.
  destruct (in_scatter xs (flux sw) ig s1) as [s2|]; [|discriminate]. cbn [option_map]. destruct (sweep ig s2 sw) as [sw1|] eqn:Es; [|discriminate]. destruct (Hs c ig s2 sw tw sw1 Hc Sc Es) as (tw1 & -> & Sc1). apply (IH _ _ _ _ _ (sc c s2) tw1 Sc1) in E; [exact E|]. unfold sc. now rewrite map_length.
Qed.
Definition Rel (s t : ESt Sw) : Prop := length (e_src Sw t) = length (e_src Sw s) /\ scaled c (e_sw Sw s) (e_sw Sw t) /\ e_k Sw t = e_k Sw s /\ e_kp Sw t = e_kp Sw s /\ length (e_fs Sw t) = length (e_fs Sw s) /\ e_hist Sw t = e_hist Sw s.
Lemma rel_iter : forall s t s', Rel s t -> eigen_iter Sw flux sweep xs ngr nreg vol s = Got s' -> exists t', eigen_iter Sw flux sweep xs ngr nreg vol t = Got t' /\ Rel s' t'.
Proof.
  intros s t s' (L1 & Sc & K & Kp & L2 & Hh) E. unfold eigen_iter, eigen_step in *. destruct Hom as [Hf _]. rewrite (Hf c _ _ Sc), K, (sc_calc c _ _ _ _ (e_fs Sw s) _ L2).
  destruct (calc_fission_source (e_k Sw s) xs ngr (flux (e_sw Sw s)) (e_fs Sw s)) as [f1|] eqn:E1; [|discriminate]. cbn [option_map]. destruct (fss_groups Sw flux sweep xs nreg None (Some f1) 0 ngr (e_src Sw s, e_sw Sw s)) as [[src' sw']|] eqn:E2; [|discriminate].
  destruct (scaled_groups _ _ _ _ _ _ _ (e_src Sw t) (e_sw Sw t) Sc L1 E2) as (tsrc' & tw' & -> & L3 & Sc'). rewrite (Hf c _ _ Sc'), !sc_total. destruct (total_fission xs ngr (flux sw') vol) as [b|]; [|discriminate]. destruct (total_fission xs ngr (flux (e_sw Sw s)) vol) as [a|]; [|discriminate]. cbn [option_map].
  destruct (Reqb_spec a 0) as [|Na]; [discriminate|]. destruct (Reqb_spec (a * c) 0) as [Z|_]; [apply Rmult_integral in Z; destruct Z; [contradiction|lra]|]. replace (e_k Sw s * (b * c) / (a * c))%R with (e_k Sw s * b / a)%R by (field; split; lra).
  rewrite (sc_calc c _ _ _ _ f1 (sc c f1)) by (unfold sc; now rewrite map_length). destruct (calc_fission_source (e_k Sw s * b / a) xs ngr (flux sw') f1) as [f2|]; [|discriminate]. cbn [option_map e_fs e_fsp e_src e_sw e_k e_kp e_hist] in *.
  destruct (normalize f2) as [[g2 h2]|] eqn:N2; [|discriminate]. destruct (normalize f1) as [[g1 h1]|] eqn:N1; [|discriminate]. unfold sc at 1 2. destruct (C52_scale _ c _ _ Hc N2) as [? ->]. destruct (C52_scale _ c _ _ Hc N1) as [? ->].
  destruct (sum_sq nreg g2 g1) as [e|]; [|discriminate]. destruct (n_fissile xs =? 0); [discriminate|]. injection E as <-. eexists. split; [reflexivity|]. unfold Rel. cbn. rewrite Hh. auto 10.
Qed.
End Scale.
Lemma rel_loop : forall St (step : St -> Out St) conv (Q : St -> St -> Prop), (forall s t, Q s t -> conv t = conv s) -> (forall s t s', Q s t -> step s = Got s' -> exists t', step t = Got t' /\ Q s' t') ->
  forall left n mn dl next s t du s' n' du', Q s t -> eigen_loop St step conv left n mn dl next s du = Got (s', n', du') -> exists t', eigen_loop St step conv left n mn dl next t du = Got (t', n', du') /\ Q s' t'.
Proof.
  intros St step conv Q Qc Qs. induction left as [|l IH]; intros n mn dl next s t du s' n' du' H E; cbn [eigen_loop] in *; [injection E as <- <- <-; eauto|]. destruct (step s) as [s1| |] eqn:Es; try discriminate. destruct (Qs s t s1 H Es) as (t1 & -> & H1). rewrite (Qc s1 t1 H1).
  destruct (Z.of_nat (n + 1) =? next)%Z; [destruct dl as [|d dl']; [discriminate|]|]; destruct (conv s1 && (mn <=? n)); try (injection E as <- <- <-; eauto); eapply IH; eauto.
Qed.
(** C51: starting from a flux scaled by any positive constant, the solver performs the same iterations, writes the same
    dumps, and records the same k and errors. *)
Theorem C51_scale : forall Sw flux sweep scaled xs ngr nreg vol p dumps src sw tw fs fsp c s' n du, @homogeneous Sw flux sweep scaled -> (0 < c)%R -> scaled c sw tw ->
  eigen_run Sw flux sweep xs ngr nreg vol p dumps src sw fs fsp = Got (s', n, du) ->
  exists t', eigen_run Sw flux sweep xs ngr nreg vol p dumps src tw fs fsp = Got (t', n, du) /\ e_k Sw t' = e_k Sw s' /\ e_hist Sw t' = e_hist Sw s' /\ flux (e_sw Sw t') = map (sc c) (flux (e_sw Sw s')).
Proof.
  intros Sw flux sweep scaled xs ngr nreg vol p dumps src sw tw fs fsp c s' n du Hom Hc Sc E. unfold eigen_run in *. rewrite (proj1 Hom c _ _ Sc), (sc_calc c _ _ _ _ fs fs eq_refl). destruct (calc_fission_source 1 xs ngr (flux sw) fs) as [f|] eqn:Ef; [|discriminate]. cbn [option_map]. unfold eigen_solve in *.
  assert (Q0 : Rel Sw scaled c (mkE Sw src sw 1%R 1%R f fsp []) (mkE Sw src tw 1%R 1%R (sc c f) fsp [])) by (unfold Rel, sc; cbn; rewrite map_length; auto 10).
  assert (Qc : forall s t, Rel Sw scaled c s t -> eigen_conv Sw p t = eigen_conv Sw p s) by (intros s t (_ & _ & _ & _ & _ & H); unfold eigen_conv; now rewrite H).
  destruct (rel_loop (ESt Sw) _ _ _ Qc (rel_iter Sw flux sweep scaled Hom xs ngr nreg vol c Hc) _ _ _ _ _ _ _ _ _ _ _ Q0 E) as (t' & -> & H).
  destruct H as (_ & S' & K & _ & _ & Hh). exists t'. split; [reflexivity|]. split; [exact K|]. split; [exact Hh|]. apply (proj1 Hom). exact S'.
Qed.
Print Assumptions C51_scale.

(** A sweeper whose flux is half its source in every region. *)
Definition half_sweep (g : nat) (src : list R) (fl : list (list R)) : option (list (list R)) :=
  match set_nth (repeat 0%R 1) g 0%R with Some _ => Some (map (fun v => [v / 2]%R) src) | None => None end.
Lemma half_homogeneous : homogeneous (fun fl => fl) half_sweep (fun c a b => b = map (sc c) a).
Proof.
  split; [auto|]. intros c g src a b a' Hc -> E. unfold half_sweep in *. destruct (set_nth _ _ _); [|discriminate]. injection E as <-. eexists. split; [reflexivity|]. unfold sc. rewrite !map_map. apply map_ext. intros v. cbn. f_equal. lra.
Qed.
Definition sm_one : SM := mkSM 1 [1]%R [0 + 1]%R [mkRow 0 0 0].
Definition xr_one : XReg := mkXR [0] true [4]%R [3]%R [1]%R [1]%R [3]%R sm_one.
Example C51_instance : homogeneous (fun fl => fl) half_sweep (fun c a b => b = map (sc c) a) /\
  exists s, eigen_run _ (fun fl => fl) half_sweep [xr_one] 1 1 [1]%R (mkEP 1 1 1 0) [] [0]%R [[2]]%R [0]%R [0]%R = Got (s, 1, []) /\ e_k _ s = (3 / 2)%R.
Proof.
  split; [apply half_homogeneous|]. unfold eigen_run, calc_fission_source, eigen_solve, eigen_loop. cbn [ep_max ep_min sort_z fold_right first_dump]. destruct (Reqb_spec 1 0) as [|_]; [lra|]. cbn [fs_mesh fs_groups xr_one xr_nf xr_reg nth_error map add_regs at2 set_nth].
  unfold eigen_iter, eigen_step, calc_fission_source. cbn [e_k e_sw e_fs e_src e_hist e_kp e_fsp map]. destruct (Reqb_spec 1 0) as [|_]; [lra|]. cbn [fs_mesh fs_groups xr_one xr_nf xr_reg nth_error map add_regs at2 set_nth].
  cbn [fss_groups fss_group initialize_group map fission xr_one xr_ch xr_reg nth_error add_regs set_nth in_scatter xr_sc sm_one rows min_g max_g Nat.add Nat.sub scatter_row scat rpos Nat.eqb half_sweep repeat]. unfold total_fission. cbn [fis_mesh fis_groups xr_one xr_nf xr_reg nth_error fis_regs at2].
  destruct (Reqb_spec (0 + 2 * 1 * 3) 0) as [|_]; [lra|]. match goal with |- context [Reqb ?e 0] => destruct (Reqb_spec e 0) as [Z|_]; [exfalso; lra|] end.
  cbn [fs_mesh fs_groups xr_one xr_nf xr_reg nth_error map add_regs at2 set_nth e_fs e_fsp]. unfold normalize, total. cbn [fold_left].
  repeat match goal with |- context [Reqb ?e 0] => destruct (Reqb_spec e 0) as [Z|_]; [exfalso; field_simplify in Z; lra|] end. cbn [map sum_sq]. unfold n_fissile. cbn [map existsb xr_one xr_nf xr_reg]. rewrite (Rltb_true 0 3) by lra. cbn [orb length list_sum fold_right Nat.add Nat.eqb].
  match goal with |- context [(?a =? ?b)%Z] => change (a =? b)%Z with false end. cbv iota. match goal with |- context [if ?b then _ else _] => destruct b end; eexists; (split; [reflexivity|]); cbn [e_k]; lra.
Qed.
