(** What a Monte Carlo eigenvalue calculation reports: C157 (records of the cycles), C158 (spatial tallies), C159 (the results agree
    with each other), C160 (input and first source), C161 (refusals), C162 (the cross sections of a
    region). *)
From Coq Require Import Reals ZArith List Bool Lia Lra Psatz Permutation.
From Verif Require Import RUtil ListUtil CoreProofs StdAlg MeshModel GeomModel AngModel AngProofs AngProps BcModel PmModel ScatModel XsModel PartModel PartProps PartFlightProps SolModel SolProps McModel McProofs TallyModel TallyProofs TallyProps HistModel HistProps RngModel McEigModel McEigProofs.
Import ListNotations.
Local Open Scope R_scope.
Notation total := TallyProofs.total.

(** ** C157: the records *)
(** The cycles of a calculation, in order: [all] of them and those after the inactive ones. *)
Definition all_cycles (n_cycles n_inactive : Z) (cyc : nat -> Cycle) : list Cycle := map cyc (seq 0 (Z.to_nat n_inactive + Z.to_nat (n_cycles - n_inactive + 1))).
Definition active_cycles (n_cycles n_inactive : Z) (cyc : nat -> Cycle) : list Cycle := map cyc (seq (Z.to_nat n_inactive) (Z.to_nat (n_cycles - n_inactive + 1))).
Lemma solved : forall g nc ni ng cvol vol cyc s, so_solve g nc ni (so_new ng cvol vol) cyc = SOk s ->
  recorded g (all_cycles nc ni cyc) (active_cycles nc ni cyc) s /\ tallied ng cvol vol (active_cycles nc ni cyc) (so_pu s) /\ Forall (fun c => Forall (fine_ok ng (length vol)) (cy_ev c)) (active_cycles nc ni cyc).
Proof.
  intros g nc ni ng cvol vol cyc s H. unfold so_solve in H. destruct (so_steps g false (so_new ng cvol vol) (map cyc (seq 0 (Z.to_nat ni)))) as [s1| |] eqn:E; try discriminate.
  destruct (steps_recorded g ng cvol vol false _ _ _ [] [] [] E (recorded_new _ _ _ _) (tallied_new _ _ _) ltac:(repeat split)) as (R1 & T1 & F1 & _).
  destruct (steps_recorded g ng cvol vol true _ _ _ _ _ [] H (recorded_clear _ _ _ _ R1) (tallied_reset _ _ _ _ _ T1) (fresh_reset true _)) as (R2 & T2 & F2 & O2).
  cbn [app] in *. unfold all_cycles. rewrite seq_app, map_app. cbn [plus]. auto.
Qed.
(** The value of each estimator is recorded for every cycle: the scores of that cycle over the weight started in it, and the sites
    banked over the particles started; so is the entropy of its source. *)
Theorem C157_histories : forall g nc ni ng cvol vol cyc s, so_solve g nc ni (so_new ng cvol vol) cyc = SOk s ->
  let o := so_output s in let all := all_cycles nc ni cyc in
  mo_ktl o = map (per_weight k_track) all /\ mo_kcol o = map (per_weight k_collide) all /\ mo_kan o = map yield all /\
  map EOk (mo_h o) = map (fun c => shannon_entropy g (cy_src c)) all.
Proof. intros g nc ni ng cvol vol cyc s H o all. destruct (solved _ _ _ _ _ _ _ _ H) as ([] & _ & _). auto. Qed.
Print Assumptions C157_histories.
(** The means recorded: after the j-th active cycle, the average of the values of the first j active cycles and, from the second
    on, the relative standard deviation of that average. *)
Definition averages (vals : list R) : list R := map (fun j => average (firstn (S j) vals)) (seq 0 (length vals)).
Lemma fst_running : forall l, fst (running l) = average l.
Proof. intro l. unfold running. rewrite ts_run. cbn. rewrite !Rplus_0_l. reflexivity. Qed.
Lemma means_made : forall vals, map fst (map running (prefixes vals)) = averages vals.
Proof. intro vals. rewrite map_map. unfold prefixes, averages. rewrite map_map. apply map_ext. intro j. apply fst_running. Qed.
Lemma deviation_made : forall vals j, (0 < j < length vals)%nat -> nth_error (map snd (map running (prefixes vals))) j =
  Some (let l := firstn (S j) vals in sqrt (sample_variance l / INR (S j)) / average l).
Proof.
  intros vals j H. rewrite map_map. unfold prefixes. rewrite map_map, nth_error_map. replace (nth_error (seq 0 (length vals)) j) with (Some j) by (symmetry; rewrite (nth_error_nth' _ 0%nat) by (rewrite seq_length; lia); rewrite seq_nth by lia; reflexivity).
  cbn [option_map]. f_equal. unfold running. assert (L : length (firstn (S j) vals) = S j) by (rewrite firstn_length; lia). rewrite ts_get_stats by lia. cbv zeta. rewrite L. reflexivity.
Qed.
Theorem C157_means : forall g nc ni ng cvol vol cyc s, so_solve g nc ni (so_new ng cvol vol) cyc = SOk s ->
  let o := so_output s in let act := active_cycles nc ni cyc in
  mo_mtl o = averages (map (per_weight k_track) act) /\ mo_mcol o = averages (map (per_weight k_collide) act) /\ mo_man o = averages (map yield act) /\
  forall j, (0 < j < length act)%nat ->
    let dev := fun vals => let l := firstn (S j) vals in Some (sqrt (sample_variance l / INR (S j)) / average l) in
    nth_error (mo_stl o) j = dev (map (per_weight k_track) act) /\ nth_error (mo_scol o) j = dev (map (per_weight k_collide) act) /\ nth_error (mo_san o) j = dev (map yield act).
Proof.
  intros g nc ni ng cvol vol cyc s H o act. destruct (solved _ _ _ _ _ _ _ _ H) as ([_ _ _ _ _ _ _ M1 M2 M3] & _ & _). unfold o. cbn [so_output mo_mtl mo_mcol mo_man mo_stl mo_scol mo_san]. rewrite M1, M2, M3, !means_made.
  split; [reflexivity|]. split; [reflexivity|]. split; [reflexivity|]. intros j Hj. rewrite !deviation_made by (rewrite map_length; exact Hj). auto.
Qed.
Print Assumptions C157_means.

(** ** C158: the spatial tallies *)
(** The numbers of a flux written for group [g] and cell [i]. *)
Definition flux_of (l : list (list R * list R)) (g i : nat) : option R := match nth_error l g with Some p => nth_error (fst p) i | None => None end.
Definition dev_of (l : list (list R * list R)) (g i : nat) : option R := match nth_error l g with Some p => nth_error (snd p) i | None => None end.
Lemma out_at : forall l g t i, nth_error l g = Some t -> flux_of (out_flux l) g i = option_map fst (nth_error (tp_get t) i) /\ dev_of (out_flux l) g i = option_map snd (nth_error (tp_get t) i).
Proof. intros l g t i H. unfold flux_of, dev_of, out_flux. rewrite nth_error_map, H. cbn [option_map fst snd]. rewrite !nth_error_map. auto. Qed.
(** The average over the active cycles of the score per weight, over the volume; and its spread. *)
Definition mean_of (f : Ev -> R) (act : list Cycle) (v : R) : R := average (map (per_weight f) act) / v.
Definition spread_of (f : Ev -> R) (act : list Cycle) (v : R) : R := sqrt (sample_variance (map (per_weight f) act) / v) / mean_of f act v.
Lemma out_mean : forall norm f n l act g i v, length l = n -> (forall g t, nth_error l g = Some t -> held norm (fun i => map (per_weight (f g i)) act) (length act) t) ->
  (g < n)%nat -> nth_error norm i = Some v -> act <> [] ->
  flux_of (out_flux l) g i = Some (mean_of (f g i) act v) /\ ((2 <= length act)%nat -> dev_of (out_flux l) g i = Some (spread_of (f g i) act v)).
Proof.
  intros norm f n l act g i v L H Hg Hv Ha. destruct (nth_error l g) as [t|] eqn:E; [|apply nth_error_None in E; lia]. destruct (out_at l g t i E) as [A B]. rewrite A, B.
  destruct (held_get _ _ _ _ i v (H g t E) Hv) as (sd & G & S); [apply map_length|destruct act; [contradiction|cbn; lia]|]. rewrite G. cbn [option_map fst snd]. split; [reflexivity|]. intro N. rewrite (S N). reflexivity.
Qed.
(** The fluxes written are averages over the active cycles only, of the scores per weight of the cycle over the volume of the cell. *)
Theorem C158_fluxes : forall g nc ni ng cvol vol cyc s, so_solve g nc ni (so_new ng cvol vol) cyc = SOk s ->
  let o := so_output s in let act := active_cycles nc ni cyc in act <> [] -> forall ig, (ig < ng)%nat ->
  (forall i v, nth_error cvol i = Some v -> flux_of (mo_flux o) ig i = Some (mean_of (coarse_at ig i) act v)) /\
  (forall i v, nth_error vol i = Some v -> flux_of (mo_fsr o) ig i = Some (mean_of (fine_at ig i) act v) /\ flux_of (mo_fsr_col o) ig i = Some (mean_of (col_at ig i) act v)) /\
  ((2 <= length act)%nat ->
   (forall i v, nth_error cvol i = Some v -> dev_of (mo_flux o) ig i = Some (spread_of (coarse_at ig i) act v)) /\
   (forall i v, nth_error vol i = Some v -> dev_of (mo_fsr o) ig i = Some (spread_of (fine_at ig i) act v) /\ dev_of (mo_fsr_col o) ig i = Some (spread_of (col_at ig i) act v))).
Proof.
  intros g nc ni ng cvol vol cyc s H o act Ha ig Hg. destruct (solved _ _ _ _ _ _ _ _ H) as (_ & [L1 L2 L3 H1 H2 H3 _] & _). unfold o. cbn [so_output mo_flux mo_fsr mo_fsr_col].
  split; [|split; [|intro N; split]].
  - intros i v Hv. exact (proj1 (out_mean cvol coarse_at _ _ act ig i v L1 H1 Hg Hv Ha)).
  - intros i v Hv. split; [exact (proj1 (out_mean vol fine_at _ _ act ig i v L2 H2 Hg Hv Ha))|exact (proj1 (out_mean vol col_at _ _ act ig i v L3 H3 Hg Hv Ha))].
  - intros i v Hv. exact (proj2 (out_mean cvol coarse_at _ _ act ig i v L1 H1 Hg Hv Ha) N).
  - intros i v Hv. split; [exact (proj2 (out_mean vol fine_at _ _ act ig i v L2 H2 Hg Hv Ha) N)|exact (proj2 (out_mean vol col_at _ _ act ig i v L3 H3 Hg Hv Ha) N)].
Qed.
Print Assumptions C158_fluxes.
(** The pin powers written are in the proportions of the averages over the active cycles; they sum to the number of pins whose
    average is positive.  Their deviations are those of the averages. *)
Theorem C158_powers : forall g nc ni ng cvol vol cyc s pw sd, so_solve g nc ni (so_new ng cvol vol) cyc = SOk s -> let act := active_cycles nc ni cyc in act <> [] ->
  mo_power (so_output s) = Some (pw, sd) ->
  exists raw f, length raw = length cvol /\ (forall i v, nth_error cvol i = Some v -> nth_error raw i = Some (mean_of (power_at i) act v)) /\
    pw = map (fun x => x * f) raw /\ SolModel.total pw = INR (count_pos raw) /\
    ((2 <= length act)%nat -> forall i v, nth_error cvol i = Some v -> nth_error sd i = Some (spread_of (power_at i) act v)).
Proof.
  intros g nc ni ng cvol vol cyc s pw sd H act Ha P. destruct (solved _ _ _ _ _ _ _ _ H) as (_ & [_ _ _ _ _ _ HP] & _). cbn [so_output mo_power] in P. unfold out_power in P. set (t := pu_pp (so_pu s)) in *.
  destruct (normalize (map fst (tp_get t))) as [[q f]|] eqn:N; [|discriminate]. injection P as <- <-. exists (map fst (tp_get t)), f.
  assert (N0 : SolModel.total (map fst (tp_get t)) <> 0) by (intro Z; unfold normalize in N; destruct (Reqb_spec (SolModel.total (map fst (tp_get t))) 0); [discriminate|contradiction]).
  destruct (C52_sum _ N0) as (l' & f' & E1 & E2 & E3). rewrite N in E1. injection E1 as <- <-.
  assert (LA : (0 < length act)%nat) by (destruct act; [contradiction|cbn; lia]).
  assert (K : forall i v, nth_error cvol i = Some v -> exists sd, nth_error (tp_get t) i = Some (mean_of (power_at i) act v, sd) /\ ((2 <= length act)%nat -> sd = spread_of (power_at i) act v)).
  { intros i v Hv. exact (held_get _ _ _ _ i v HP Hv ltac:(apply map_length) LA). }
  split; [rewrite map_length; unfold tp_get; rewrite map_length, combine_length, (hd_norm _ _ _ _ HP), (hd_data _ _ _ _ HP); apply Nat.min_id|].
  split; [intros i v Hv; destruct (K i v Hv) as (x & X & _); rewrite nth_error_map, X; reflexivity|]. split; [exact E2|]. split; [exact E3|].
  intros N2 i v Hv. destruct (K i v Hv) as (x & X & Y). rewrite nth_error_map, X. cbn. rewrite (Y N2). reflexivity.
Qed.
Print Assumptions C158_powers.

(** ** C159: the results agree *)
(** [pin_of r] is the coarse cell of region [r]: the regions found at a place are those of the pin there. *)
Definition placed (W : World) (pin_of : nat -> nat) : Prop := forall x y z d L q d' r xs, wo_locate W x y z d = Some L -> regions W L q d' = Some (r, xs) -> pin_of r = lo_pin L.
(** Scores come together: a flight scores in its region and in the pin of that region, a collision in its region. *)
Inductive paired (W : World) (pin_of : nat -> nat) : list Ev -> Prop :=
  | pr_nil : paired W pin_of []
  | pr_fly : forall g r v l, paired W pin_of l -> paired W pin_of (Fine g r v :: Coarse g (pin_of r) v :: Power (pin_of r) (v * fiss_xs W r g) :: TrackK (v * prod_xs W r g) :: l)
  | pr_col : forall g r v k l, k = v * prod_xs W r g -> paired W pin_of l -> paired W pin_of (FineCol g r v :: CollideK k :: l).
Record sited (W : World) (pin_of : nat -> nat) (h : Hist) : Prop := mkSited {
  si_match : matched W h; si_loc : exists x y z d, wo_locate W x y z d = Some (hi_loc h); si_pin : pin_of (hi_reg h) = lo_pin (hi_loc h); si_ev : paired W pin_of (hi_ev h) }.
Lemma relocate_sited : forall W pin_of p q L r x, placed W pin_of -> relocate W p = Some (q, L, r, x) -> (exists x y z d, wo_locate W x y z d = Some L) /\ pin_of r = lo_pin L.
Proof.
  intros W pin_of p q L r x P H. unfold relocate in H. destruct (wo_locate W (pgx p) (pgy p) (pgz p) (pdir p)) as [L'|] eqn:E; [|discriminate]. destruct (regions W L' (lo_local L') (pdir p)) as [[r' x']|] eqn:E2; [|discriminate]. injection H as <- <- <- <-.
  split; [eauto|]. exact (P _ _ _ _ _ _ _ _ _ E E2).
Qed.
Lemma turn_sited : forall ltr W pin_of h h', placed W pin_of -> sited W pin_of h -> turn ltr W h = HNext h' -> sited W pin_of h'.
Proof.
  intros ltr W pin_of h h' PL [M Lc Pn Pr] H. pose proof (turn_turned ltr W h h' M H) as TT. pose proof (tu_match _ _ _ TT) as M'. clear TT. unfold turn in H. unfold matched in M. destruct (nth_error (wo_xs W) (hi_xs h)) as [x|] eqn:Ex; [|discriminate]. destruct (hi_us h) as [|u us1]; [discriminate|].
  set (p := hi_p h) in *. destruct (nth_error (xr_tr x) (pgroup p)) as [tr|] eqn:Et; [|discriminate]. destruct (nth_error (xr_nf x) (pgroup p)) as [nf|] eqn:En; [|discriminate]. destruct (nth_error (xr_f x) (pgroup p)) as [f|] eqn:Ef; [|discriminate].
  destruct (lo_dist (hi_loc h) (ploc p) (pdir p) (pcoinc p)) as [[d0 flag0] c]. destruct (lo_low (hi_loc h)) as [[lx ly] lz]. destruct (lo_high (hi_loc h)) as [[hx hy] hz].
  destruct (to_surface (d0, flag0) (distance_to_pin lx ly lz hx hy hz p)) as [ds box]. destruct (omin (to_collision tr u) ds) as [tl|]; [|discriminate].
  assert (PN : prod_xs W (hi_reg h) (pgroup p) = nf) by (unfold prod_xs; rewrite <- M; apply nth_error_nth; exact En).
  assert (PF : fiss_xs W (hi_reg h) (pgroup p) = f) by (unfold fiss_xs; rewrite <- M; apply nth_error_nth; exact Ef).
  assert (PE : paired W pin_of (Fine (pgroup p) (hi_reg h) (tl * pweight p) :: Coarse (pgroup p) (lo_pin (hi_loc h)) (tl * pweight p) :: Power (lo_pin (hi_loc h)) (tl * pweight p * f) :: TrackK (tl * pweight p * nf) :: hi_ev h)).
  { rewrite <- PN, <- PF, <- Pn. apply pr_fly. exact Pr. }
  match type of H with (if ?b then _ else _) = _ => destruct b end.
  - destruct (collide ltr x (set_coinc (move (set_coinc p c) tl) (-1)) us1) as [cl|] eqn:C; [|discriminate]. injection H as <-. destruct (collide_facts _ _ _ _ _ C) as (W1 & I1 & A1 & S1 & tr' & nf' & T' & N' & K' & F').
    change (pgroup (set_coinc (move (set_coinc p c) tl) (-1))) with (pgroup p) in *. change (pweight (set_coinc (move (set_coinc p c) tl) (-1))) with (pweight p) in *. rewrite En in N'. injection N' as <-.
    constructor; cbn [hi_p hi_loc hi_reg hi_xs hi_ev hi_sites]; auto. apply pr_col; [|exact PE]. rewrite PN, K', F'. unfold Rdiv. ring.
  - destruct (negb box).
    + destruct (regions W (hi_loc h) _ _) as [[ireg ixs]|] eqn:Rg; [|discriminate]. injection H as <-. constructor; cbn [hi_p hi_loc hi_reg hi_xs hi_ev hi_sites]; auto. destruct Lc as (x' & y' & z' & d' & Lc). exact (PL _ _ _ _ _ _ _ _ _ Lc Rg).
    + destruct (at_boundary W _) as [q|] eqn:B; [|discriminate]. destruct (palive q).
      * destruct (relocate W q) as [[[[q' L] ireg] ixs]|] eqn:Rg; [|discriminate]. injection H as <-. destruct (relocate_sited _ _ _ _ _ _ _ PL Rg) as [S1 S2]. constructor; cbn [hi_p hi_loc hi_reg hi_xs hi_ev hi_sites]; auto.
      * injection H as <-. constructor; cbn [hi_p hi_loc hi_reg hi_xs hi_ev hi_sites]; auto.
Qed.
Lemma history_paired : forall ltr W pin_of p us h0 h, placed W pin_of -> start W p us = HNext h0 -> runs ltr W h0 h -> paired W pin_of (hi_ev h).
Proof.
  intros ltr W pin_of p us h0 h PL S0 RU. unfold start in S0. destruct (relocate W p) as [[[[q L] ireg] ixs]|] eqn:Rg; [|discriminate]. injection S0 as <-. destruct (relocate_match _ _ _ _ _ _ Rg) as [MM _]. destruct (relocate_sited _ _ _ _ _ _ _ PL Rg) as [S1 S2].
  apply si_ev. remember (mkHist (set_alive q true) L ireg ixs [] [] us) as h0 eqn:E0. induction RU as [h|h h1 h2 RU IH A T].
  - subst h. constructor; cbn; auto. constructor.
  - exact (turn_sited _ _ _ _ _ PL (IH E0) T).
Qed.

(** Totals over the scores of a history, and over those of a cycle made of histories. *)
Definition tally (f : Ev -> R) (l : list Ev) : R := total (map f l).
Lemma scored_app : forall f a b, scored f (a ++ b) = scored f a + scored f b.
Proof. intros. unfold scored. rewrite map_app. apply total_app. Qed.
Lemma scored_perm : forall f a b, Permutation a b -> scored f a = scored f b.
Proof. intros. unfold scored. apply total_perm. apply Permutation_map. assumption. Qed.
Lemma total_rev : forall l, total (rev l) = total l.
Proof. intro l. apply total_perm. symmetry. apply Permutation_rev. Qed.
Lemma scored_hist : forall f ph, scored f (hist_ops ph) = tally f (hi_ev (snd ph)).
Proof. intros f [p h]. unfold hist_ops. cbn [fst snd]. rewrite scored_cons, Rplus_0_l. unfold scored, tally. rewrite map_map, map_rev. apply total_rev. Qed.
Lemma scored_hists : forall f hs, scored f (flat_map hist_ops hs) = total (map (fun ph => tally f (hi_ev (snd ph))) hs).
Proof. intros f hs. induction hs as [|ph hs IH]; [reflexivity|]. cbn [flat_map map]. rewrite scored_app, scored_hist, IH. reflexivity. Qed.
Lemma concat_flat : forall {A B} (f : A -> list B) s, concat (map (flat_map f) s) = flat_map f (concat s).
Proof. intros A B f s. induction s as [|a s IH]; [reflexivity|]. cbn [map concat]. rewrite flat_map_app, IH. reflexivity. Qed.
Lemma weight_app : forall a b, weight_in (a ++ b) = weight_in a + weight_in b.
Proof. intros. unfold weight_in. rewrite map_app. apply total_app. Qed.
Lemma weight_hist : forall ph, weight_in (hist_ops ph) = pweight (fst ph).
Proof.
  intros [p h]. unfold hist_ops. cbn [fst snd]. rewrite weight_cons. assert (E : forall l, weight_in (map Made l) = 0) by (induction l as [|e l IH]; [reflexivity|]; cbn [map]; rewrite weight_cons, IH; lra). rewrite E. lra.
Qed.
Lemma cycle_scored : forall ltr W bank c, cycle_of ltr W bank c -> exists hs, Forall (fun ph => exists us h0, start W (fst ph) us = HNext h0 /\ runs ltr W h0 (snd ph)) hs /\
  (forall f, scored f (cy_ev c) = total (map (fun ph => tally f (hi_ev (snd ph))) hs)) /\ weight_in (cy_ev c) = total (map pweight bank).
Proof.
  intros ltr W bank c (hs & sched & B & F & P & M & _ & _). exists hs. apply merge_perm in M. rewrite concat_flat in M.
  assert (Q : Permutation (flat_map hist_ops hs) (cy_ev c)).
  { rewrite <- M. apply Permutation_flat_map. symmetry. exact P. }
  split; [|split].
  - apply Forall_forall. intros ph I. rewrite Forall_forall in F. destruct (F ph I) as (us & h0 & A & C & _). eauto.
  - intro f. rewrite <- (scored_perm f _ _ Q). apply scored_hists.
  - subst bank. unfold weight_in. rewrite <- (total_perm _ _ (Permutation_map _ Q)). fold (weight_in (flat_map hist_ops hs)). clear. induction hs as [|ph hs IH]; [reflexivity|]. cbn [flat_map map]. rewrite weight_app, weight_hist, IH. reflexivity.
Qed.
(** Region scores weighted by a factor for each group and region. *)
Definition fine_w (x : nat -> nat -> R) (e : Ev) : R := match e with Fine g r v => x g r * v | _ => 0 end.
Definition col_w (x : nat -> nat -> R) (e : Ev) : R := match e with FineCol g r v => x g r * v | _ => 0 end.
Lemma tally_cons : forall f e l, tally f (e :: l) = f e + tally f l.
Proof. reflexivity. Qed.
Lemma paired_sums : forall W pin_of l, paired W pin_of l ->
  (forall g c, tally (coarse_at g c) l = tally (fine_w (fun g' r => if (g' =? g)%nat && (pin_of r =? c)%nat then 1 else 0)) l) /\
  (forall c, tally (power_at c) l = tally (fine_w (fun g r => if (pin_of r =? c)%nat then fiss_xs W r g else 0)) l) /\
  tally k_track l = tally (fine_w (fun g r => prod_xs W r g)) l /\ tally k_collide l = tally (col_w (fun g r => prod_xs W r g)) l.
Proof.
  intros W pin_of l H. induction H as [|g r v l H (A & B & C & D)|g r v k l Hk H (A & B & C & D)].
  - unfold tally, total. cbn. auto.
  - split; [|split; [|split]]; intros; rewrite !tally_cons; cbn [coarse_at power_at k_track k_collide fine_w col_w].
    + rewrite A. destruct ((g =? g0)%nat && (pin_of r =? c)%nat); lra.
    + rewrite B. destruct (pin_of r =? c)%nat; lra.
    + rewrite C. lra.
    + rewrite D. lra.
  - split; [|split; [|split]]; intros; rewrite !tally_cons; cbn [coarse_at power_at k_track k_collide fine_w col_w].
    + rewrite A. lra.
    + rewrite B. lra.
    + rewrite C. lra.
    + rewrite D, Hk. lra.
Qed.
Lemma cycle_pairs : forall ltr W pin_of bank c, placed W pin_of -> cycle_of ltr W bank c -> forall f f', (forall l, paired W pin_of l -> tally f l = tally f' l) -> scored f (cy_ev c) = scored f' (cy_ev c).
Proof.
  intros ltr W pin_of bank c PL H f f' E. destruct (cycle_scored _ _ _ _ H) as (hs & F & S0 & _). rewrite !S0. f_equal. apply map_ext_in. intros ph I. rewrite Forall_forall in F. destruct (F ph I) as (us & h0 & A & B). apply E. exact (history_paired _ _ _ _ _ _ _ PL A B).
Qed.
(** Sums over groups and regions. *)
Lemma pick2 : forall (x : nat -> nat -> R) ng nr g r v, (g < ng)%nat -> (r < nr)%nat ->
  rsum (fun r' => rsum (fun g' => x g' r' * (if (g =? g')%nat && (r =? r')%nat then v else 0)) ng) nr = x g r * v.
Proof.
  intros x ng nr g r v Hg Hr. rewrite (rsum_single _ nr r Hr).
  - rewrite (rsum_single _ ng g Hg); [rewrite !Nat.eqb_refl; reflexivity|]. intros i Hi N. destruct (Nat.eqb_spec g i); [congruence|]. cbn [andb]. ring.
  - intros i Hi N. rewrite (rsum_ext _ (fun _ => 0)); [apply rsum_zero|]. intros j Hj. destruct (Nat.eqb_spec r i); [congruence|]. rewrite andb_false_r. ring.
Qed.
Lemma zero2 : forall (x : nat -> nat -> R) ng nr, rsum (fun r' => rsum (fun g' => x g' r' * 0) ng) nr = 0.
Proof. intros. rewrite (rsum_ext _ (fun _ => 0)); [apply rsum_zero|]. intros i _. rewrite (rsum_ext _ (fun _ => 0)); [apply rsum_zero|]. intros; ring. Qed.
Lemma plus2 : forall (x a b : nat -> nat -> R) ng nr, rsum (fun r => rsum (fun g => x g r * (a g r + b g r)) ng) nr = rsum (fun r => rsum (fun g => x g r * a g r) ng) nr + rsum (fun r => rsum (fun g => x g r * b g r) ng) nr.
Proof. intros. rewrite <- rsum_plus. apply rsum_ext. intros i _. rewrite <- rsum_plus. apply rsum_ext. intros j _. ring. Qed.
Lemma scored_fine : forall x ng nr es, Forall (fine_ok ng nr) es -> scored (fine_w x) es = rsum (fun r => rsum (fun g => x g r * scored (fine_at g r) es) ng) nr.
Proof.
  intros x ng nr es F. induction F as [|e es Fe F IH].
  - unfold scored, total. cbn. symmetry. apply zero2.
  - rewrite scored_cons, IH. symmetry. erewrite rsum_ext; [|intros r Hr; apply rsum_ext; intros g Hg; rewrite scored_cons; reflexivity]. rewrite plus2. f_equal.
    destruct e as [w|[]]; cbn [fine_at fine_w]; try apply zero2. destruct Fe as [Hg Hr]. apply pick2; assumption.
Qed.
Lemma scored_col : forall x ng nr es, Forall (fine_ok ng nr) es -> scored (col_w x) es = rsum (fun r => rsum (fun g => x g r * scored (col_at g r) es) ng) nr.
Proof.
  intros x ng nr es F. induction F as [|e es Fe F IH].
  - unfold scored, total. cbn. symmetry. apply zero2.
  - rewrite scored_cons, IH. symmetry. erewrite rsum_ext; [|intros r Hr; apply rsum_ext; intros g Hg; rewrite scored_cons; reflexivity]. rewrite plus2. f_equal.
    destruct e as [w|[]]; cbn [col_at col_w]; try apply zero2. destruct Fe as [Hg Hr]. apply pick2; assumption.
Qed.
(** Averages over the cycles. *)
Lemma average_sum2 : forall (x : nat -> nat -> R) (F : nat -> nat -> Cycle -> R) ng nr act,
  average (map (fun c => rsum (fun r => rsum (fun g => x g r * F g r c) ng) nr) act) = rsum (fun r => rsum (fun g => x g r * average (map (F g r) act)) ng) nr.
Proof.
  intros x F ng nr act. unfold average. rewrite map_length. assert (E : total (map (fun c => rsum (fun r => rsum (fun g => x g r * F g r c) ng) nr) act) = rsum (fun r => rsum (fun g => x g r * total (map (F g r) act)) ng) nr).
  { induction act as [|c act IH]; [unfold total; cbn; symmetry; apply zero2|]. cbn [map]. change (total (?a :: ?l)) with (a + total l). rewrite IH, <- plus2. reflexivity. }
  rewrite E. unfold Rdiv at 1. rewrite <- rsum_scal_r. apply rsum_ext. intros i _. rewrite <- rsum_scal_r. apply rsum_ext. intros j _. rewrite map_length. unfold Rdiv. ring.
Qed.
Lemma per_weight_sum2 : forall x (at_ : nat -> nat -> Ev -> R) f ng nr act, (forall c, In c act -> scored f (cy_ev c) = rsum (fun r => rsum (fun g => x g r * scored (at_ g r) (cy_ev c)) ng) nr) ->
  average (map (per_weight f) act) = rsum (fun r => rsum (fun g => x g r * average (map (per_weight (at_ g r)) act)) ng) nr.
Proof.
  intros x at_ f ng nr act H. rewrite <- average_sum2. f_equal. apply map_ext_in. intros c I. unfold per_weight. rewrite (H c I). unfold Rdiv at 1. rewrite <- rsum_scal_r. apply rsum_ext. intros i _. rewrite <- rsum_scal_r. apply rsum_ext. intros j _. unfold Rdiv. ring.
Qed.
Lemma last_averages : forall l, l <> [] -> last (averages l) 0 = average l.
Proof.
  intros l H. unfold averages. destruct (length l) as [|n] eqn:E; [destruct l; [contradiction|discriminate]|]. rewrite seq_S, map_app. cbn [map plus]. rewrite last_last, firstn_all2 by lia. reflexivity.
Qed.
Definition val (o : option R) : R := match o with Some v => v | None => 0 end.
(** In a calculation whose active cycles are made of histories in one world: the mean of the track-length estimate of k is the
    production of the region fluxes written; that of the collision estimate is the production of the collision fluxes written; the
    flux written for a pin is the volume average of those of its regions; the pin powers are in the proportions of the fission
    rates of the region fluxes, per volume of the pin. *)
Theorem C159_agree : forall ltr W pin_of g nc ni ng cvol vol cyc s, so_solve g nc ni (so_new ng cvol vol) cyc = SOk s ->
  placed W pin_of -> Forall (fun c => exists bank, cycle_of ltr W bank c) (active_cycles nc ni cyc) -> active_cycles nc ni cyc <> [] ->
  Forall (fun v => v <> 0) cvol -> Forall (fun v => v <> 0) vol ->
  let o := so_output s in let nr := length vol in
  let rate := fun l x => rsum (fun r => rsum (fun ig => x ig r * (val (flux_of l ig r) * nth r vol 0)) ng) nr in
  last (mo_mtl o) 0 = rate (mo_fsr o) (fun ig r => prod_xs W r ig) /\
  last (mo_mcol o) 0 = rate (mo_fsr_col o) (fun ig r => prod_xs W r ig) /\
  (forall ig c, (ig < ng)%nat -> (c < length cvol)%nat -> val (flux_of (mo_flux o) ig c) * nth c cvol 0 = rsum (fun r => if (pin_of r =? c)%nat then val (flux_of (mo_fsr o) ig r) * nth r vol 0 else 0) nr) /\
  (forall pw sd, mo_power o = Some (pw, sd) -> exists f, forall c, (c < length cvol)%nat -> nth c pw 0 * nth c cvol 0 = f * rate (mo_fsr o) (fun ig r => if (pin_of r =? c)%nat then fiss_xs W r ig else 0)).
Proof.
  intros ltr W pin_of g nc ni ng cvol vol cyc s H PL Hc Ha Vc Vf o nr rate. destruct (solved _ _ _ _ _ _ _ _ H) as (_ & _ & OK). destruct (C157_means _ _ _ _ _ _ _ _ H) as (M1 & M2 & _ & _).
  pose proof (fun ig Hg => C158_fluxes _ _ _ _ _ _ _ _ H Ha ig Hg) as FX. pose proof (fun pw sd => C158_powers _ _ _ _ _ _ _ _ pw sd H Ha) as PW. fold o in M1, M2, FX, PW. set (act := active_cycles nc ni cyc) in *.
  assert (NE : forall f : Cycle -> R, map f act <> []) by (intros f E; apply map_eq_nil in E; contradiction).
  assert (VN : forall r, (r < nr)%nat -> nth_error vol r = Some (nth r vol 0)) by (intros; apply nth_error_nth'; assumption).
  assert (V0 : forall r, (r < nr)%nat -> nth r vol 0 <> 0) by (intros r Hr; rewrite Forall_forall in Vf; apply Vf, nth_In; exact Hr).
  assert (KF : forall x f, (forall l, paired W pin_of l -> tally f l = tally (fine_w x) l) -> average (map (per_weight f) act) = rate (mo_fsr o) x).
  { intros x f E. rewrite (per_weight_sum2 x fine_at f ng nr act).
    - unfold rate. apply rsum_ext. intros r Hr. apply rsum_ext. intros ig Hg. destruct (FX ig Hg) as (_ & F2 & _). destruct (F2 r _ (VN r Hr)) as [-> _]. cbn [val]. unfold mean_of. field. exact (V0 r Hr).
    - intros c I. rewrite Forall_forall in Hc, OK. destruct (Hc c I) as [bank B]. rewrite (cycle_pairs _ _ _ _ _ PL B _ _ E). apply scored_fine. exact (OK c I). }
  assert (KC : average (map (per_weight k_collide) act) = rate (mo_fsr_col o) (fun ig r => prod_xs W r ig)).
  { rewrite (per_weight_sum2 (fun ig r => prod_xs W r ig) col_at k_collide ng nr act).
    - unfold rate. apply rsum_ext. intros r Hr. apply rsum_ext. intros ig Hg. destruct (FX ig Hg) as (_ & F2 & _). destruct (F2 r _ (VN r Hr)) as [_ ->]. cbn [val]. unfold mean_of. field. exact (V0 r Hr).
    - intros c I. rewrite Forall_forall in Hc, OK. destruct (Hc c I) as [bank B]. rewrite (cycle_pairs _ _ _ _ _ PL B _ (col_w (fun ig r => prod_xs W r ig)) (fun l Pl => proj2 (proj2 (proj2 (paired_sums W pin_of l Pl))))). apply scored_col. exact (OK c I). }
  split; [|split; [|split]].
  - rewrite M1, last_averages by apply NE. apply KF. intros l Pl. exact (proj1 (proj2 (proj2 (paired_sums W pin_of l Pl)))).
  - rewrite M2, last_averages by apply NE. exact KC.
  - intros ig c Hg Hc'. destruct (FX ig Hg) as (F1 & _). rewrite (F1 c _ (nth_error_nth' cvol 0 Hc')). cbn [val]. unfold mean_of. rewrite (KF (fun g' r => if (g' =? ig)%nat && (pin_of r =? c)%nat then 1 else 0)); [|intros l Pl; apply (proj1 (paired_sums W pin_of l Pl))].
    assert (N0 : nth c cvol 0 <> 0) by (rewrite Forall_forall in Vc; apply Vc, nth_In; exact Hc'). unfold Rdiv. rewrite Rmult_assoc, Rinv_l, Rmult_1_r by exact N0. unfold rate. apply rsum_ext. intros r Hr. rewrite (rsum_single _ ng ig Hg).
    + rewrite Nat.eqb_refl. cbn [andb]. destruct (pin_of r =? c)%nat; ring.
    + intros i Hi N. destruct (Nat.eqb_spec i ig); [contradiction|]. cbn [andb]. ring.
  - intros pw sd P. destruct (PW pw sd P) as (raw & f & L & Rw & -> & _ & _). exists f. intros c Hc'. pose proof (Rw c _ (nth_error_nth' cvol 0 Hc')) as Q.
    rewrite (nth_indep _ 0 (0 * f)) by (rewrite map_length; lia). rewrite (map_nth (fun x => x * f)). rewrite (nth_error_nth _ _ 0 Q). unfold mean_of. rewrite (KF (fun ig r => if (pin_of r =? c)%nat then fiss_xs W r ig else 0)); [|intros l Pl; apply (proj1 (proj2 (paired_sums W pin_of l Pl)))].
    assert (N0 : nth c cvol 0 <> 0) by (rewrite Forall_forall in Vc; apply Vc, nth_In; exact Hc'). field. exact N0.
Qed.
Print Assumptions C159_agree.
(** Two active cycles of one particle that crosses half of a unit cube. *)
Definition one_src : list (Point3 * R) := [(mkP3 (1/2) (1/2) (1/2), 1)].
Definition one_cycle : Cycle := mkCy one_src 0 [Begin 1; Made (TrackK (3/2)); Made (Power 4 (1/2)); Made (Coarse 0 4 (1/2)); Made (Fine 0 0 (1/2))].
Lemma one_entropy : exists h, shannon_entropy unit_mesh one_src = EOk h.
Proof.
  destruct C24_instance as (Ix & _ & _). apply C24_entropy_defined_partial; try exact Ix. constructor; [|constructor]. exists 0%nat, 0%nat, 0%nat, 0, 1, 0, 1, 0, 1. cbn. repeat split; lra.
Qed.
Lemma one_made : exists bank, cycle_of true cube bank one_cycle.
Proof.
  exists [eastward]. destruct C105_instance as (h0 & h & S0 & RU & D & _ & Ev & SI). exists [(eastward, h)], [[(eastward, h)]]. cbn [map fst snd concat app flat_map].
  split; [reflexivity|]. split; [constructor; [exists [0; 1/3], h0; cbn; auto|constructor]|]. split; [apply Permutation_refl|].
  split; [|split].
  - cbn [map flat_map app]. unfold hist_ops. cbn [fst snd]. rewrite Ev. cbn [rev app map]. apply merge_one.
  - rewrite SI. reflexivity.
  - reflexivity.
Qed.
Lemma cube_placed : placed cube (fun _ => 4%nat).
Proof. intros x y z d L q d' r xs H _. cbn in H. injection H as <-. reflexivity. Qed.
Lemma step_ok : forall g b s c p h, pu_simulate (so_pu s) c = Some p -> shannon_entropy g (cy_src c) = EOk h -> exists s', so_step g b s c = SOk s' /\ so_pu s' = pu_reset false p.
Proof. intros g b s c p h H E. unfold so_step. rewrite H, E. destruct b; eexists; split; reflexivity. Qed.
Lemma one_solved : exists s, so_solve unit_mesh 1 0 (so_new 1 [1; 1; 1; 1; 2] [2]) (fun _ => one_cycle) = SOk s.
Proof.
  destruct one_entropy as [h E]. unfold so_solve. change (Z.to_nat 0) with 0%nat. change (Z.to_nat (1 - 0 + 1)) with 2%nat. cbn [seq map so_steps].
  destruct (pu_simulate (so_pu (so_clear (so_new 1 [1; 1; 1; 1; 2] [2]))) one_cycle) as [p|] eqn:P; [|discriminate P]. destruct (step_ok _ true _ _ _ _ P E) as (s1 & S1 & Q1). rewrite S1.
  destruct (pu_simulate (so_pu s1) one_cycle) as [p'|] eqn:P'; [|exfalso; rewrite Q1 in P'; unfold pu_simulate in P; cbn in P; injection P as <-; cbn in P'; discriminate]. destruct (step_ok _ true _ _ _ _ P' E) as (s2 & S2 & _). rewrite S2. eauto.
Qed.
Example C157_instance : exists s, so_solve unit_mesh 1 0 (so_new 1 [1; 1; 1; 1; 2] [2]) (fun _ => one_cycle) = SOk s /\ mo_ktl (so_output s) = [3/2; 3/2] /\ mo_mtl (so_output s) = [3/2; 3/2] /\ mo_kan (so_output s) = [0; 0].
Proof.
  destruct one_solved as [s H]. exists s. split; [exact H|]. destruct (C157_histories _ _ _ _ _ _ _ _ H) as (K1 & _ & K3 & _). destruct (C157_means _ _ _ _ _ _ _ _ H) as (M1 & _).
  assert (P : per_weight k_track one_cycle = 3/2) by (unfold per_weight, scored, weight_in, total; cbn; field). assert (Y : yield one_cycle = 0) by (unfold yield; cbn; field).
  rewrite K1, K3, M1. unfold all_cycles, active_cycles. change (Z.to_nat 0) with 0%nat. change (Z.to_nat (1 - 0 + 1)) with 2%nat. cbn [plus seq map]. rewrite P, Y. split; [reflexivity|]. split; [|reflexivity].
  unfold averages, average, total. cbn [length seq map firstn fold_right INR]. f_equal; [field|f_equal; field].
Qed.
Example C158_instance : exists s, so_solve unit_mesh 1 0 (so_new 1 [1; 1; 1; 1; 2] [2]) (fun _ => one_cycle) = SOk s /\ length (active_cycles 1 0 (fun _ => one_cycle)) = 2%nat /\
  nth_error [1; 1; 1; 1; 2] 4 = Some 2 /\ flux_of (mo_flux (so_output s)) 0 4 = Some (1/4) /\ flux_of (mo_fsr_col (so_output s)) 0 0 = Some 0.
Proof.
  destruct one_solved as [s H]. exists s. split; [exact H|]. assert (A : active_cycles 1 0 (fun _ => one_cycle) = [one_cycle; one_cycle]) by reflexivity. split; [rewrite A; reflexivity|]. split; [reflexivity|].
  destruct (C158_fluxes _ _ _ _ _ _ _ _ H) with (ig := 0%nat) as (F1 & F2 & _); [rewrite A; discriminate|lia|]. rewrite (F1 4%nat 2 eq_refl). destruct (F2 0%nat 2 eq_refl) as [_ ->]. rewrite A.
  unfold mean_of, average, per_weight, scored, weight_in, total. cbn. split; f_equal; field.
Qed.
Example C159_instance : exists s, so_solve unit_mesh 1 0 (so_new 1 [1; 1; 1; 1; 2] [2]) (fun _ => one_cycle) = SOk s /\ placed cube (fun _ => 4%nat) /\
  Forall (fun c => exists bank, cycle_of true cube bank c) (active_cycles 1 0 (fun _ => one_cycle)) /\ active_cycles 1 0 (fun _ => one_cycle) <> [] /\ Forall (fun v => v <> 0) [1; 1; 1; 1; 2] /\ Forall (fun v => v <> 0) [2] /\
  prod_xs cube 0 0 = 3 /\ flux_of (mo_fsr (so_output s)) 0 0 = Some (1/4) /\ flux_of (mo_flux (so_output s)) 0 4 = Some (1/4).
Proof.
  destruct one_solved as [s H]. exists s. split; [exact H|]. split; [exact cube_placed|]. assert (A : active_cycles 1 0 (fun _ => one_cycle) = [one_cycle; one_cycle]) by reflexivity.
  split; [rewrite A; constructor; [exact one_made|constructor; [exact one_made|constructor]]|]. split; [rewrite A; discriminate|]. split; [repeat constructor; lra|]. split; [repeat constructor; lra|]. split; [reflexivity|].
  destruct (C158_fluxes _ _ _ _ _ _ _ _ H) with (ig := 0%nat) as (F1 & F2 & _); [rewrite A; discriminate|lia|]. rewrite (F1 4%nat 2 eq_refl). destruct (F2 0%nat 2 eq_refl) as [-> _]. rewrite A.
  unfold mean_of, average, per_weight, scored, weight_in, total. cbn. split; f_equal; field.
Qed.

(** ** C160: the input and the first source *)
(** The box is given in full and is not empty. *)
Definition box_good (b : option FBox) (x0 x1 y0 y1 z0 z1 : R) : Prop := b = Some (mkFB (Some x0) (Some x1) (Some y0) (Some y1) (Some z0) (Some z1)) /\ x0 < x1 /\ y0 < y1 /\ z0 < z1.
(** The numbers are those of a generator: from 0 up to 1 (1 itself can come up, see C03). *)
Definition unit_numbers (us : list R) : Prop := Forall (fun u => 0 <= u <= 1) us.
Definition order_ok (o : nat * nat * nat) : Prop := (fst (fst o) < 3)%nat /\ (snd (fst o) < 3)%nat /\ (snd o < 3)%nat.
(** A site: new, of unit weight, in the box, with a direction of unit length. *)
Record site_in (x0 x1 y0 y1 z0 z1 : R) (p : Particle) : Prop := mkSI {
  st_w : pweight p = 1; st_alive : palive p = true; st_coin : pcoinc p = (-1)%Z; st_x : x0 <= pgx p <= x1; st_y : y0 <= pgy p <= y1; st_z : z0 <= pgz p <= z1;
  st_d : ox (pdir p) * ox (pdir p) + oy (pdir p) * oy (pdir p) + oz (pdir p) * oz (pdir p) = 1 }.
Lemma scaled_in : forall a b u, a < b -> 0 <= u <= 1 -> a <= a + (b - a) * u <= b.
Proof. intros. nra. Qed.
Lemma pick3 : forall k a b c, (k < 3)%nat -> 0 <= a <= 1 -> 0 <= b <= 1 -> 0 <= c <= 1 -> 0 <= nth k [a; b; c] 0 <= 1.
Proof. intros [|[|[|k]]] a b c H A B C; cbn; try assumption; lia. Qed.
Lemma draw_int_bound : forall u n, 0 <= u < 1 -> (0 < n)%nat -> (draw_int u n < n)%nat.
Proof.
  intros u n H Hn. unfold draw_int. assert (N : 0 < INR n) by (apply lt_0_INR; exact Hn). destruct (base_Int_part (u * INR n)) as [A B].
  assert (IZR (Int_part (u * INR n)) < IZR (Z.of_nat n)) by (rewrite <- INR_IZR_INZ; nra). apply lt_IZR in H0. lia.
Qed.
Lemma box_made : forall o ltr x0 x1 y0 y1 z0 z1 ng n i us l us', order_ok o -> x0 < x1 -> y0 < y1 -> z0 < z1 -> unit_numbers us -> box_sites o ltr x0 x1 y0 y1 z0 z1 ng n i us = Some (l, us') ->
  map pid l = map (fun k => (i + Z.of_nat k)%Z) (seq 0 n) /\ Forall (site_in x0 x1 y0 y1 z0 z1) l /\ unit_numbers us' /\ length us = (6 * n + length us')%nat /\
  (Forall (fun u => u < 1) us -> (0 < ng)%nat -> Forall (fun p => (pgroup p < ng)%nat) l).
Proof.
  intros o ltr x0 x1 y0 y1 z0 z1 ng n. induction n as [|n IH]; intros i us l us' Ho X Y Z0 U H; cbn [box_sites] in H.
  - injection H as <- <-. cbn. auto.
  - destruct us as [|a [|b [|c us1]]]; try discriminate. destruct us1 as [|d1 [|d2 us2]]; try discriminate. cbn [draw_direction] in H. destruct us2 as [|f us3]; [discriminate|].
    destruct (box_sites o ltr x0 x1 y0 y1 z0 z1 ng n (i + 1) us3) as [[l0 u0]|] eqn:E; [|discriminate]. injection H as <- <-. unfold unit_numbers in U. rewrite !Forall_cons_iff in U. destruct U as (A & B & C & D1 & D2 & F & U).
    destruct (IH _ _ _ _ Ho X Y Z0 U E) as (I1 & I2 & I3 & I4 & I5). destruct Ho as (O1 & O2 & O3). split; [|split; [|split; [exact I3|split; [cbn [length]; lia|]]]].
    + cbn [map new_particle pid seq]. rewrite I1. f_equal; [lia|]. rewrite <- seq_shift, map_map. apply map_ext. intro k. lia.
    + constructor; [|exact I2]. constructor; cbn [new_particle pweight palive pcoinc pgx pgy pgz pdir]; auto; try (apply scaled_in; [assumption|]; apply pick3; assumption).
      destruct ltr; apply C72_direction_unit.
    + intros L Hn. rewrite !Forall_cons_iff in L. destruct L as (_ & _ & _ & _ & _ & L & L'). constructor; [|exact (I5 L' Hn)]. cbn [new_particle pgroup]. apply draw_int_bound; [lra|exact Hn].
Qed.
Lemma box_enough : forall o ltr x0 x1 y0 y1 z0 z1 ng n i us, (6 * n <= length us)%nat -> exists l us', box_sites o ltr x0 x1 y0 y1 z0 z1 ng n i us = Some (l, us').
Proof.
  intros o ltr x0 x1 y0 y1 z0 z1 ng n. induction n as [|n IH]; intros i us H; cbn [box_sites]; [eauto|]. destruct us as [|a [|b [|c [|d [|e [|f us]]]]]]; cbn [length] in H; try lia. cbn [draw_direction]. destruct (IH (i + 1)%Z us ltac:(lia)) as (l & us' & ->). eauto.
Qed.
(** An input is accepted just when it has a proper box, non-negative counts and an odd seed, and the numbers last. *)
Theorem C160_accepted : forall o ltr i ng us,
  (exists src left ws, mc_make o ltr (Some i) ng us = MMade_ok src left ws) <->
  (exists x0 x1 y0 y1 z0 z1, box_good (mi_box i) x0 x1 y0 y1 z0 z1) /\ (0 <= mi_particles i)%Z /\ (0 <= mi_cycles i)%Z /\ (0 <= mi_inactive i)%Z /\ Z.odd (mi_seed i) = true /\
  (6 * Z.to_nat (mi_particles i) <= length us)%nat.
Proof.
  intros o ltr i ng us. unfold mc_make, box_bank. split.
  - intros (src & left & ws & H). destruct (mi_box i) as [[[x0|] [x1|] [y0|] [y1|] [z0|] [z1|]]|] eqn:B; cbn [fb_x0 fb_x1 fb_y0 fb_y1 fb_z0 fb_z1] in H; try discriminate.
    destruct (Rleb_spec x1 x0); [discriminate|]. destruct (Rleb_spec y1 y0); [discriminate|]. destruct (Rleb_spec z1 z0); [discriminate|]. cbn [orb] in H. destruct (Z.ltb_spec (mi_particles i) 0); [discriminate|].
    destruct (box_sites _ _ _ _ _ _ _ _ _ _ _ _) as [[l us']|] eqn:E; [|discriminate]. destruct (Z.eqb_spec (Z.rem (mi_seed i) 2) 0) as [|N]; [discriminate|]. destruct (Z.ltb_spec (mi_cycles i) 0); [discriminate|]. destruct (Z.ltb_spec (mi_inactive i) 0); [discriminate|].
    split; [exists x0, x1, y0, y1, z0, z1; split; [reflexivity|lra]|]. split; [assumption|]. split; [assumption|]. split; [assumption|]. split.
    + destruct (Z.odd (mi_seed i)) eqn:O; [reflexivity|]. exfalso. apply N. apply Z.rem_divide; [lia|]. rewrite <- Z.negb_even in O. apply negb_false_iff, Z.even_spec in O. destruct O as [k ->]. exists k. lia.
    + clear - E. revert E. generalize 0%Z, (Z.to_nat (mi_particles i)). intros j n. revert j us l us'. induction n as [|n IH]; intros j us l us' E; [lia|]. cbn [box_sites] in E. destruct us as [|a [|b [|c [|d [|e [|f us]]]]]]; try discriminate. cbn [draw_direction] in E.
      destruct (box_sites _ _ _ _ _ _ _ _ _ n (j + 1) us) as [[l0 u0]|] eqn:E'; [|discriminate]. specialize (IH _ _ _ _ E'). cbn [length]. lia.
  - intros ((x0 & x1 & y0 & y1 & z0 & z1 & B & X & Y & Z0) & P & C & I & O & L). rewrite B. cbn [fb_x0 fb_x1 fb_y0 fb_y1 fb_z0 fb_z1]. destruct (Rleb_spec x1 x0); [lra|]. destruct (Rleb_spec y1 y0); [lra|]. destruct (Rleb_spec z1 z0); [lra|]. cbn [orb]. destruct (Z.ltb_spec (mi_particles i) 0); [lia|].
    destruct (box_enough o ltr x0 x1 y0 y1 z0 z1 ng _ 0%Z us L) as (l & us' & ->). destruct (Z.eqb_spec (Z.rem (mi_seed i) 2) 0) as [N|N].
    { exfalso. apply Z.rem_divide in N; [|lia]. destruct N as [k E]. rewrite E in O. rewrite Z.odd_mul in O. cbn in O. rewrite andb_false_r in O. discriminate. }
    destruct (Z.ltb_spec (mi_cycles i) 0); [lia|]. destruct (Z.ltb_spec (mi_inactive i) 0); [lia|]. eauto.
Qed.
Print Assumptions C160_accepted.
(** The first source: as many sites as particles per cycle, numbered from 0, of unit weight, in the box, with directions of unit
    length; and, unless the generator returns 1, in groups that exist. *)
Theorem C160_source : forall o ltr i ng us src left ws x0 x1 y0 y1 z0 z1, order_ok o -> unit_numbers us -> mc_make o ltr (Some i) ng us = MMade_ok src left ws -> box_good (mi_box i) x0 x1 y0 y1 z0 z1 ->
  Z.of_nat (length src) = mi_particles i /\ map pid src = map Z.of_nat (seq 0 (length src)) /\ Forall (site_in x0 x1 y0 y1 z0 z1) src /\ (Forall (fun u => u < 1) us -> (0 < ng)%nat -> Forall (fun p => (pgroup p < ng)%nat) src) /\
  (In WCycles ws <-> mi_cycles i = 0%Z) /\ (In WInactive ws <-> mi_inactive i = 0%Z) /\ (In WParticles ws <-> mi_particles i = 0%Z).
Proof.
  intros o ltr i ng us src left ws x0 x1 y0 y1 z0 z1 Ho U H (B & X & Y & Z0). unfold mc_make, box_bank in H. rewrite B in H. cbn [fb_x0 fb_x1 fb_y0 fb_y1 fb_z0 fb_z1] in H. destruct (Rleb_spec x1 x0); [lra|]. destruct (Rleb_spec y1 y0); [lra|]. destruct (Rleb_spec z1 z0); [lra|]. cbn [orb] in H.
  destruct (Z.ltb_spec (mi_particles i) 0); [discriminate|]. destruct (box_sites _ _ _ _ _ _ _ _ _ _ _ _) as [[l us']|] eqn:E; [|discriminate]. destruct (Z.rem (mi_seed i) 2 =? 0)%Z; [discriminate|]. destruct (mi_cycles i <? 0)%Z; [discriminate|]. destruct (mi_inactive i <? 0)%Z; [discriminate|]. injection H as <- <- <-.
  destruct (box_made _ _ _ _ _ _ _ _ _ _ _ _ _ _ Ho X Y Z0 U E) as (I1 & I2 & I3 & I4 & I5). assert (L : length l = Z.to_nat (mi_particles i)) by (rewrite <- (map_length pid), I1, map_length, seq_length; reflexivity).
  split; [rewrite L; lia|]. split; [rewrite I1, L; reflexivity|]. split; [exact I2|]. split; [exact I5|].
  destruct (mi_reject i), (Z.eqb_spec (mi_cycles i) 0), (Z.eqb_spec (mi_inactive i) 0), (Z.eqb_spec (mi_particles i) 0); cbn [app In]; repeat split; intro Q; repeat match goal with H : _ \/ _ |- _ => destruct H end; try contradiction; try discriminate; auto.
Qed.
Print Assumptions C160_source.
Definition small_box : FBox := mkFB (Some 0) (Some 2) (Some 0) (Some 1) (Some 1) (Some 3).
Definition small_in : McIn := mkMI 5 2 1 7 (Some small_box) false.
Example C160_instance : order_ok (0, 1, 2)%nat /\ unit_numbers [1/2; 1/3; 1/4; 1/5; 1/6; 2/3] /\ box_good (mi_box small_in) 0 2 0 1 1 3 /\
  exists src, mc_make (0, 1, 2)%nat true (Some small_in) 2 [1/2; 1/3; 1/4; 1/5; 1/6; 2/3] = MMade_ok src [] [] /\ map pgx src = [1] /\ map pgroup src = [1%nat].
Proof.
  split; [repeat split; cbn; lia|]. split; [repeat constructor; lra|]. split; [split; [reflexivity|lra]|]. unfold mc_make, box_bank. cbn [small_in mi_box mi_reject mi_particles mi_seed mi_cycles mi_inactive small_box fb_x0 fb_x1 fb_y0 fb_y1 fb_z0 fb_z1].
  destruct (Rleb_spec 2 0); [lra|]. destruct (Rleb_spec 1 0); [lra|]. destruct (Rleb_spec 3 1); [lra|]. cbn [orb]. change (1 <? 0)%Z with false. change (Z.to_nat 1) with 1%nat. cbn [box_sites draw_direction].
  change (Z.rem 7 2 =? 0)%Z with false. change (5 <? 0)%Z with false. change (2 <? 0)%Z with false. change (5 =? 0)%Z with false. change (2 =? 0)%Z with false. change (1 =? 0)%Z with false. cbn [app]. eexists. split; [reflexivity|]. cbn [map new_particle pgx pgroup fst snd nth]. split; [f_equal; lra|]. f_equal.
  unfold draw_int. replace (Int_part (2 / 3 * INR 2)) with 1%Z; [reflexivity|]. unfold Int_part. replace (up (2 / 3 * INR 2)) with 2%Z; [reflexivity|]. apply tech_up; cbn [INR IZR]; rewrite <- ?INR_IPR; cbn; lra.
Qed.

(** ** C161: refusals *)
(** The messages for a negative number of particles and for an empty input never appear: the bank is made first, and throws. *)
Theorem C161_messages_refuted : (forall o ltr inp ng us, mc_make o ltr inp ng us <> MErr EParticles /\ mc_make o ltr inp ng us <> MErr ENoInput) /\
  (forall o ltr ng us, mc_make o ltr None ng us = MErr ENoBox) /\
  (forall o ltr i ng us x0 x1 y0 y1 z0 z1, box_good (mi_box i) x0 x1 y0 y1 z0 z1 -> (mi_particles i < 0)%Z -> mc_make o ltr (Some i) ng us = MErr ELength).
Proof.
  split; [|split].
  - intros o ltr [i|] ng us; [|split; discriminate]. unfold mc_make, box_bank. destruct (mi_box i) as [[[x0|] [x1|] [y0|] [y1|] [z0|] [z1|]]|]; cbn [fb_x0 fb_x1 fb_y0 fb_y1 fb_z0 fb_z1]; try (split; discriminate).
    destruct (Rleb x1 x0 || Rleb y1 y0 || Rleb z1 z0); [split; discriminate|]. destruct (mi_particles i <? 0)%Z; [split; discriminate|]. destruct (box_sites _ _ _ _ _ _ _ _ _ _ _ _) as [[l us']|]; [|split; discriminate].
    destruct (Z.rem (mi_seed i) 2 =? 0)%Z; [split; discriminate|]. destruct (mi_cycles i <? 0)%Z; [split; discriminate|]. destruct (mi_inactive i <? 0)%Z; split; discriminate.
  - reflexivity.
  - intros o ltr i ng us x0 x1 y0 y1 z0 z1 (B & X & Y & Z0) P. unfold mc_make, box_bank. rewrite B. cbn [fb_x0 fb_x1 fb_y0 fb_y1 fb_z0 fb_z1]. destruct (Rleb_spec x1 x0); [lra|]. destruct (Rleb_spec y1 y0); [lra|]. destruct (Rleb_spec z1 z0); [lra|]. cbn [orb]. destruct (Z.ltb_spec (mi_particles i) 0); [reflexivity|lia].
Qed.
Print Assumptions C161_messages_refuted.
(** More inactive cycles than cycles is accepted, and such a calculation has no active cycle: it writes no mean of k, and its flux
    tallies hold no realization. *)
Theorem C161_inactive_refuted : (exists o ltr i ng us src left ws, (mi_cycles i + 1 <= mi_inactive i)%Z /\ mc_make o ltr (Some i) ng us = MMade_ok src left ws) /\
  (forall g nc ni ng cvol vol cyc s, (nc + 1 <= ni)%Z -> so_solve g nc ni (so_new ng cvol vol) cyc = SOk s -> mo_mtl (so_output s) = [] /\ (forall ig t, nth_error (pu_fi (so_pu s)) ig = Some t -> tp_n t = 0%nat)).
Proof.
  split.
  - destruct (proj2 (C160_accepted (0, 1, 2)%nat true (mkMI 5 6 0 7 (Some small_box) false) 1 [])) as (src & left & ws & H).
    + cbn. split; [exists 0, 2, 0, 1, 1, 3; split; [reflexivity|lra]|]. repeat split; lia.
    + exists (0, 1, 2)%nat, true, (mkMI 5 6 0 7 (Some small_box) false), 1%nat, [], src, left, ws. split; [cbn; lia|exact H].
  - intros g nc ni ng cvol vol cyc s L H. assert (A : active_cycles nc ni cyc = []) by (unfold active_cycles; replace (Z.to_nat (nc - ni + 1)) with 0%nat by lia; reflexivity). destruct (C157_means _ _ _ _ _ _ _ _ H) as (M & _). rewrite A in M. split; [exact M|].
    destruct (solved _ _ _ _ _ _ _ _ H) as (_ & T & _). rewrite A in T. intros ig t E. exact (hd_n _ _ _ _ (tl_hfi _ _ _ _ _ T ig t E)).
Qed.
Print Assumptions C161_inactive_refuted.
(** A generator that returns 1 puts a site in a group that does not exist. *)
Theorem C161_group_refuted : forall ng, draw_int 1 ng = ng.
Proof. intro ng. unfold draw_int. rewrite Rmult_1_l, INR_IZR_INZ. unfold Int_part. rewrite <- (tech_up (IZR (Z.of_nat ng)) (Z.of_nat ng + 1)); rewrite ?plus_IZR; try lra. replace (Z.of_nat ng + 1 - 1)%Z with (Z.of_nat ng) by lia. apply Nat2Z.id. Qed.
Print Assumptions C161_group_refuted.
(** What is refused is refused with the right message: once the bank is made, an even seed, then a negative number of cycles, then
    of inactive cycles. *)
Theorem C161_refused : forall o ltr i ng us x0 x1 y0 y1 z0 z1, box_good (mi_box i) x0 x1 y0 y1 z0 z1 -> (0 <= mi_particles i)%Z -> (6 * Z.to_nat (mi_particles i) <= length us)%nat ->
  (Z.even (mi_seed i) = true -> mc_make o ltr (Some i) ng us = MErr ESeed) /\
  (Z.odd (mi_seed i) = true -> (mi_cycles i < 0)%Z -> mc_make o ltr (Some i) ng us = MErr ECycles) /\
  (Z.odd (mi_seed i) = true -> (0 <= mi_cycles i)%Z -> (mi_inactive i < 0)%Z -> mc_make o ltr (Some i) ng us = MErr EInactive).
Proof.
  intros o ltr i ng us x0 x1 y0 y1 z0 z1 (B & X & Y & Z0) P L. unfold mc_make, box_bank. rewrite B. cbn [fb_x0 fb_x1 fb_y0 fb_y1 fb_z0 fb_z1]. destruct (Rleb_spec x1 x0); [lra|]. destruct (Rleb_spec y1 y0); [lra|]. destruct (Rleb_spec z1 z0); [lra|]. cbn [orb]. destruct (Z.ltb_spec (mi_particles i) 0); [lia|].
  destruct (box_enough o ltr x0 x1 y0 y1 z0 z1 ng _ 0%Z us L) as (l & us' & ->).
  assert (OD : Z.odd (mi_seed i) = true -> (Z.rem (mi_seed i) 2 =? 0)%Z = false).
  { intro O. apply Z.eqb_neq. intro N. apply Z.rem_divide in N; [|lia]. destruct N as [k E]. rewrite E, Z.odd_mul in O. cbn in O. rewrite andb_false_r in O. discriminate. }
  split; [|split].
  - intro E. apply Z.even_spec in E. destruct E as [k ->]. replace (Z.rem (2 * k) 2) with 0%Z by (symmetry; rewrite Z.mul_comm; apply Z.rem_mul; lia). reflexivity.
  - intros O C. rewrite (OD O). destruct (Z.ltb_spec (mi_cycles i) 0); [reflexivity|lia].
  - intros O C I. rewrite (OD O). destruct (Z.ltb_spec (mi_cycles i) 0); [lia|]. destruct (Z.ltb_spec (mi_inactive i) 0); [reflexivity|lia].
Qed.
Print Assumptions C161_refused.
Example C161_instance : box_good (mi_box small_in) 0 2 0 1 1 3 /\ (0 <= mi_particles small_in)%Z /\ Z.odd (mi_seed small_in) = true.
Proof. split; [split; [reflexivity|lra]|]. split; [cbn; lia|reflexivity]. Qed.

(** ** C162: the cross sections a particle meets in a region *)
Lemma map_regs_spec : forall regs m k m', map_regs m k regs = Some m' -> length m' = length m /\ Forall (fun r => (r < length m)%nat) regs /\ forall r, (In r regs -> nth_error m' r = Some k) /\ (~ In r regs -> nth_error m' r = nth_error m r).
Proof.
  induction regs as [|a regs IH]; intros m k m' H; cbn [map_regs] in H; [injection H as <-; cbn; repeat split; try constructor; contradiction|].
  destruct (set_nth m a k) as [m1|] eqn:E; [|discriminate]. destruct (set_nth_spec _ _ _ _ E) as (L1 & K1 & N1). destruct (IH _ _ _ H) as (L2 & F2 & N2). rewrite L1 in *. split; [exact L2|]. split; [constructor; assumption|].
  intro r. destruct (N2 r) as [A B]. split.
  - intros [->|I]; [|exact (A I)]. destruct (in_dec Nat.eq_dec r regs) as [I|I]; [exact (A I)|]. rewrite (B I), N1, Nat.eqb_refl. reflexivity.
  - intro I. cbn [In] in I. rewrite B by tauto. rewrite N1. destruct (Nat.eqb_spec r a); [subst; exfalso; apply I; auto|reflexivity].
Qed.
Lemma map_regs_ok : forall regs m k, Forall (fun r => (r < length m)%nat) regs -> exists m', map_regs m k regs = Some m'.
Proof.
  induction regs as [|a regs IH]; intros m k H; cbn [map_regs]; [eauto|]. apply Forall_cons_iff in H. destruct H as [A H]. destruct (set_nth_lt m a k A) as [m1 E]. rewrite E. apply IH. destruct (set_nth_spec _ _ _ _ E) as (L1 & _ & _). rewrite L1. exact H.
Qed.
Lemma map_xs_spec : forall xs m k m', map_xs m k xs = Some m' -> length m' = length m /\ Forall (Forall (fun r => (r < length m)%nat)) xs /\
  forall r, (forall j, (j < length xs)%nat -> In r (nth j xs []) -> (forall j', (j < j' < length xs)%nat -> ~ In r (nth j' xs [])) -> nth_error m' r = Some (k + Z.of_nat j)%Z) /\ (Forall (fun l => ~ In r l) xs -> nth_error m' r = nth_error m r).
Proof.
  induction xs as [|l xs IH]; intros m k m' H; cbn [map_xs] in H.
  - injection H as <-. split; [reflexivity|]. split; [constructor|]. intro r. split; [intros j Hj; cbn in Hj; lia|reflexivity].
  - destruct (map_regs m k l) as [m1|] eqn:E; [|discriminate]. destruct (map_regs_spec _ _ _ _ E) as (L1 & F1 & N1). destruct (IH _ _ _ H) as (L2 & F2 & N2). rewrite L1 in *. split; [exact L2|]. split; [constructor; assumption|]. intro r. destruct (N2 r) as [A B]. split.
    + intros [|j] Hj I Z.
      * cbn [nth] in I. rewrite B; [rewrite (proj1 (N1 r) I); f_equal; lia|]. apply Forall_forall. intros l' Il Ir. destruct (In_nth _ _ [] Il) as (j' & J1 & J2). apply (Z (S j')); [cbn [length]; lia|]. cbn [nth]. rewrite J2. exact Ir.
      * cbn [nth length] in *. rewrite (A j ltac:(lia) I); [f_equal; lia|]. intros j' J. exact (Z (S j') ltac:(lia)).
    + intro F. apply Forall_cons_iff in F. destruct F as [F0 F]. rewrite (B F). exact (proj2 (N1 r) F0).
Qed.
(** The regions listed in one cross-section region get it, whatever the order of the lists; if several list a region the last one
    counts; a region listed nowhere gets -1.  A listed region the mesh does not have is undefined behaviour, and nothing else is. *)
Theorem C162_regions : forall n xs m, xs_map n xs = Some m ->
  length m = n /\ forall r, (r < n)%nat ->
    (forall k, (k < length xs)%nat -> In r (nth k xs []) -> (forall j, (k < j < length xs)%nat -> ~ In r (nth j xs [])) -> nth_error m r = Some (Z.of_nat k)) /\
    (Forall (fun l => ~ In r l) xs -> nth_error m r = Some (-1)%Z).
Proof.
  intros n xs m H. destruct (map_xs_spec _ _ _ _ H) as (L & _ & N). rewrite repeat_length in L. split; [exact L|]. intros r Hr. destruct (N r) as [A B]. split; [exact A|]. intro F. rewrite (B F), (nth_error_nth' _ 0%Z) by (rewrite repeat_length; exact Hr). f_equal. rewrite (nth_indep _ 0%Z (-1)%Z) by (rewrite repeat_length; exact Hr). apply nth_repeat.
Qed.
Print Assumptions C162_regions.
Theorem C162_defined : forall n xs, (exists m, xs_map n xs = Some m) <-> Forall (Forall (fun r => (r < n)%nat)) xs.
Proof.
  intros n xs. split.
  - intros [m H]. destruct (map_xs_spec _ _ _ _ H) as (_ & F & _). rewrite repeat_length in F. exact F.
  - intro F. unfold xs_map. assert (L : length (repeat (-1)%Z n) = n) by apply repeat_length. revert L. generalize (repeat (-1)%Z n), 0%Z. induction xs as [|l xs IH]; intros m k L; cbn [map_xs]; [eauto|]. apply Forall_cons_iff in F. destruct F as [F0 F].
    destruct (map_regs_ok l m k ltac:(rewrite L; exact F0)) as [m1 E]. rewrite E. apply (IH F). destruct (map_regs_spec _ _ _ _ E) as (L1 & _ & _). lia.
Qed.
Print Assumptions C162_defined.
Example C162_instance : xs_map 4 [[0; 2]; [3]]%nat = Some [0; -1; 0; 1]%Z.
Proof. reflexivity. Qed.
