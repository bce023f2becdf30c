(** Property theorems for one particle's history: C105 (scores), C106 (boundaries). *)
From Coq Require Import Reals ZArith List Bool Lia Lra Psatz.
From Verif Require Import RUtil StdAlg StdAlgProofs GeomModel TallyProofs MeshModel CoreModel CoreProofs AsmModel BcModel AngModel AngProofs AngProps PmModel ScatModel XsModel PartModel PartProps PartFlightProps HistModel.
Import ListNotations.
Local Open Scope R_scope.

(** ** C105: scores *)
(** The material of a region of the mesh, through the map from regions to materials. *)
Definition material (W : World) (reg : nat) : option XReg :=
  match nth_error (wo_map W) reg with Some z => if (z <? 0)%Z then None else nth_error (wo_xs W) (Z.to_nat z) | None => None end.
Definition prod_xs (W : World) (reg g : nat) : R := match material W reg with Some x => nth g (xr_nf x) 0 | None => 0 end.
Definition fiss_xs (W : World) (reg g : nat) : R := match material W reg with Some x => nth g (xr_f x) 0 | None => 0 end.
(** Totals of the scores. *)
Fixpoint total (f : Ev -> R) (l : list Ev) : R := match l with [] => 0 | e :: r => f e + total f r end.
Definition fine_in (g : nat) (e : Ev) : R := match e with Fine g' _ v => if Nat.eqb g g' then v else 0 | _ => 0 end.
Definition coarse_in (g : nat) (e : Ev) : R := match e with Coarse g' _ v => if Nat.eqb g g' then v else 0 | _ => 0 end.
Definition track_k (e : Ev) : R := match e with TrackK v => v | _ => 0 end.
Definition power (e : Ev) : R := match e with Power _ v => v | _ => 0 end.
Definition collide_k (e : Ev) : R := match e with CollideK v => v | _ => 0 end.
Definition fine_times (xs : nat -> nat -> R) (e : Ev) : R := match e with Fine g r v => v * xs r g | _ => 0 end.
Definition fine_col_times (xs : nat -> nat -> R) (e : Ev) : R := match e with FineCol g r v => v * xs r g | _ => 0 end.

(** The stored cross-section region is the material of the stored region. *)
Definition matched (W : World) (h : Hist) : Prop := nth_error (wo_xs W) (hi_xs h) = material W (hi_reg h).
Lemma regions_match : forall W L q d r x, regions W L q d = Some (r, x) -> nth_error (wo_xs W) x = material W r.
Proof.
  intros W L q d r x H. unfold regions in H. destruct (lo_reg L q d) as [k|]; [|discriminate]. unfold zat in H. destruct (Z.ltb_spec (lo_off L + k) 0); [discriminate|].
  destruct (nth_error (wo_map W) (Z.to_nat (lo_off L + k))) as [z|] eqn:E; [|discriminate]. destruct (Z.ltb_spec z 0) as [|Q]; [discriminate|]. destruct (nth_error (wo_xs W) (Z.to_nat z)) as [y|] eqn:E2; [|discriminate].
  injection H as <- <-. unfold material. rewrite E. destruct (Z.ltb_spec z 0); [lia|]. reflexivity.
Qed.
Lemma relocate_match : forall W p q L r x, relocate W p = Some (q, L, r, x) -> nth_error (wo_xs W) x = material W r /\ q = at_loc p (lo_local L).
Proof.
  intros W p q L r x H. unfold relocate in H. destruct (wo_locate W (pgx p) (pgy p) (pgz p) (pdir p)) as [L'|]; [|discriminate]. destruct (regions W L' (lo_local L') (pdir p)) as [[r' x']|] eqn:E; [|discriminate]. injection H as <- <- <- <-.
  split; [exact (regions_match _ _ _ _ _ _ E)|reflexivity].
Qed.
Lemma collide_facts : forall ltr x p us c, collide ltr x p us = Some c ->
  pweight (c_part c) = pweight p /\ pid (c_part c) = pid p /\ (palive (c_part c) = true -> palive p = true /\ c_sites c = []) /\
  (forall q, In q (c_sites c) -> pweight q = 1 /\ pid q = pid p /\ pgx q = pgx p /\ pgy q = pgy p /\ pgz q = pgz p) /\
  exists tr nf, nth_error (xr_tr x) (pgroup p) = Some tr /\ nth_error (xr_nf x) (pgroup p) = Some nf /\ c_k c = pweight p * nf / tr /\ c_flux c = pweight p / tr.
Proof.
  intros ltr x p us c H. unfold collide in H. destruct us as [|u us1]; [discriminate|]. destruct (reaction_cdf x (pgroup p)) as [rc|]; [|discriminate].
  destruct (nth_error (xr_tr x) (pgroup p)) as [tr|] eqn:Et; [|discriminate]. destruct (nth_error (xr_nf x) (pgroup p)) as [nf|] eqn:En; [|discriminate]. destruct (nth_error (xr_f x) (pgroup p)) as [f|]; [|discriminate].
  destruct (sample rc u) as [[|[|k]]|]; [| | |discriminate].
  - destruct (out_cdf (xr_sc x) (pgroup p)) as [cdf|]; [|discriminate]. destruct us1 as [|v us2]; [discriminate|]. destruct (sample cdf v) as [ig|]; [|discriminate]. destruct (draw_direction ltr us2) as [[d us3]|]; [|discriminate]. injection H as <-.
    cbn [c_part c_sites c_k c_flux scattered pweight pid palive]. split; [reflexivity|]. split; [reflexivity|]. split; [auto|]. split; [intros q []|]. exists tr, nf. auto.
  - destruct (chi_cdf x) as [chi|]; [|discriminate]. destruct us1 as [|v us2]; [discriminate|]. destruct (Reqb f 0); [discriminate|]. destruct (fission_sites ltr chi p _ us2) as [[l us3]|] eqn:E; [|discriminate]. injection H as <-.
    cbn [c_part c_sites c_k c_flux set_alive pweight pid palive]. split; [reflexivity|]. split; [reflexivity|]. split; [discriminate|]. split; [|exists tr, nf; auto].
    revert us2 l us3 E. generalize (n_fission (pweight p) (nf / f) v). intros n. induction n as [|n IH]; intros us2 l us3 E; cbn [fission_sites] in E.
    + injection E as <- <-. intros q [].
    + destruct us2 as [|y r]; [discriminate|]. destruct (sample chi y) as [ig|]; [|discriminate]. destruct (draw_direction ltr r) as [[d r']|]; [|discriminate]. destruct (fission_sites ltr chi p n r') as [[l' r'']|] eqn:E'; [|discriminate]. injection E as <- <-.
      intros q [<-|I]; [unfold new_particle; cbn; auto|]. exact (IH _ _ _ E' q I).
  - injection H as <-. cbn [c_part c_sites c_k c_flux set_alive pweight pid palive]. split; [reflexivity|]. split; [reflexivity|]. split; [discriminate|]. split; [intros q []|]. exists tr, nf. auto.
Qed.
Lemma cross_bounds_facts : forall W l p refl q b, cross_bounds W l p refl = Some (q, b) -> pweight q = pweight p /\ pid q = pid p /\ (palive q = true -> palive p = true) /\ pgx q = pgx p /\ pgy q = pgy p /\ pgz q = pgz p.
Proof.
  intros W l. induction l as [|[s|] l IH]; intros p refl q b H; cbn [cross_bounds] in H.
  - injection H as <- <-. auto 10.
  - destruct (palive p) eqn:A; [|destruct (IH _ _ _ _ H) as (H1 & H2 & H3 & H4); rewrite A in H3; auto 10].
    destruct (wo_bc W s); try discriminate; destruct (IH _ _ _ _ H) as (H1 & H2 & H3 & H4); auto 10.
  - exact (IH _ _ _ _ H).
Qed.
Lemma at_boundary_facts : forall W p q, at_boundary W p = Some q -> pweight q = pweight p /\ pid q = pid p /\ (palive q = true -> palive p = true).
Proof.
  intros W p q H. unfold at_boundary in H. destruct (cross_bounds W _ p false) as [[q' b]|] eqn:E; [|discriminate]. injection H as <-. destruct (cross_bounds_facts _ _ _ _ _ _ E) as (H1 & H2 & H3 & _). destruct b; cbn; auto.
Qed.
(** What one turn does to the scores and to the particle's identity. *)
Record turned (W : World) (h h' : Hist) : Prop := mkTurned {
  tu_match : matched W h';
  tu_fine : forall g, total (fine_in g) (hi_ev h') - total (fine_in g) (hi_ev h) = total (coarse_in g) (hi_ev h') - total (coarse_in g) (hi_ev h);
  tu_k : total track_k (hi_ev h') - total track_k (hi_ev h) = total (fine_times (prod_xs W)) (hi_ev h') - total (fine_times (prod_xs W)) (hi_ev h);
  tu_pow : total power (hi_ev h') - total power (hi_ev h) = total (fine_times (fiss_xs W)) (hi_ev h') - total (fine_times (fiss_xs W)) (hi_ev h);
  tu_col : total collide_k (hi_ev h') - total collide_k (hi_ev h) = total (fine_col_times (prod_xs W)) (hi_ev h') - total (fine_col_times (prod_xs W)) (hi_ev h);
  tu_w : pweight (hi_p h') = pweight (hi_p h);
  tu_id : pid (hi_p h') = pid (hi_p h);
  tu_site : forall q, In q (hi_sites h') -> In q (hi_sites h) \/ (pweight q = 1 /\ pid q = pid (hi_p h));
  tu_alive : palive (hi_p h') = true -> hi_sites h' = hi_sites h }.
Lemma turn_turned : forall ltr W h h', matched W h -> turn ltr W h = HNext h' -> turned W h h'.
Proof.
  intros ltr W h h' M H. unfold turn in H. unfold matched in M. destruct (nth_error (wo_xs W) (hi_xs h)) as [x|] eqn:Ex; [|discriminate]. destruct (hi_us h) as [|u us1]; [discriminate|].
  set (p := hi_p h) in *. destruct (nth_error (xr_tr x) (pgroup p)) as [tr|] eqn:Et; [|discriminate]. destruct (nth_error (xr_nf x) (pgroup p)) as [nf|] eqn:En; [|discriminate]. destruct (nth_error (xr_f x) (pgroup p)) as [f|] eqn:Ef; [|discriminate].
  destruct (lo_dist (hi_loc h) (ploc p) (pdir p) (pcoinc p)) as [[d0 flag0] c]. destruct (lo_low (hi_loc h)) as [[lx ly] lz]. destruct (lo_high (hi_loc h)) as [[hx hy] hz].
  destruct (to_surface (d0, flag0) (distance_to_pin lx ly lz hx hy hz p)) as [ds box]. destruct (omin (to_collision tr u) ds) as [tl|]; [|discriminate].
  assert (PN : prod_xs W (hi_reg h) (pgroup p) = nf) by (unfold prod_xs; rewrite <- M; apply nth_error_nth; exact En).
  assert (PF : fiss_xs W (hi_reg h) (pgroup p) = f) by (unfold fiss_xs; rewrite <- M; apply nth_error_nth; exact Ef).
  set (ev := Fine (pgroup p) (hi_reg h) (tl * pweight p) :: Coarse (pgroup p) (lo_pin (hi_loc h)) (tl * pweight p) :: Power (lo_pin (hi_loc h)) (tl * pweight p * f) :: TrackK (tl * pweight p * nf) :: hi_ev h) in *.
  assert (E1 : forall g, total (fine_in g) ev - total (fine_in g) (hi_ev h) = total (coarse_in g) ev - total (coarse_in g) (hi_ev h)) by (intro g; unfold ev; cbn [total fine_in coarse_in]; destruct (Nat.eqb g (pgroup p)); ring).
  assert (E2 : total track_k ev - total track_k (hi_ev h) = total (fine_times (prod_xs W)) ev - total (fine_times (prod_xs W)) (hi_ev h)) by (unfold ev; cbn [total track_k fine_times]; rewrite PN; ring).
  assert (E3 : total power ev - total power (hi_ev h) = total (fine_times (fiss_xs W)) ev - total (fine_times (fiss_xs W)) (hi_ev h)) by (unfold ev; cbn [total power fine_times]; rewrite PF; ring).
  assert (E4 : total collide_k ev - total collide_k (hi_ev h) = total (fine_col_times (prod_xs W)) ev - total (fine_col_times (prod_xs W)) (hi_ev h)) by (unfold ev; cbn [total collide_k fine_col_times]; ring).
  match type of H with (if ?b then _ else _) = _ => destruct b end.
  - destruct (collide ltr x (set_coinc (move (set_coinc p c) tl) (-1)) us1) as [cl|] eqn:C; [|discriminate]. injection H as <-. destruct (collide_facts _ _ _ _ _ C) as (W1 & I1 & A1 & S1 & tr' & nf' & T' & N' & K' & F').
    change (pgroup (set_coinc (move (set_coinc p c) tl) (-1))) with (pgroup p) in *. change (pweight (set_coinc (move (set_coinc p c) tl) (-1))) with (pweight p) in *. change (pid (set_coinc (move (set_coinc p c) tl) (-1))) with (pid p) in *.
    rewrite En in N'. injection N' as <-.
    constructor; cbn [hi_p hi_loc hi_reg hi_xs hi_ev hi_sites].
    + unfold matched. cbn [hi_xs hi_reg]. rewrite Ex. exact M.
    + intro g. cbn [total fine_in coarse_in]. specialize (E1 g). lra.
    + cbn [total track_k fine_times]. lra.
    + cbn [total power fine_times]. lra.
    + cbn [total collide_k fine_col_times]. rewrite PN, K', F'. unfold Rdiv. lra.
    + exact W1.
    + exact I1.
    + intros q I. apply in_app_or in I. destruct I as [I|I]; [left; exact I|right]. destruct (S1 q I) as (Q1 & Q2 & _). auto.
    + intro A. destruct (A1 A) as [_ ->]. apply app_nil_r.
  - destruct (negb box).
    + destruct (regions W (hi_loc h) _ _) as [[ireg ixs]|] eqn:R; [|discriminate]. injection H as <-. constructor; cbn [hi_p hi_loc hi_reg hi_xs hi_ev hi_sites]; auto. exact (regions_match _ _ _ _ _ _ R).
    + destruct (at_boundary W _) as [q|] eqn:B; [|discriminate]. destruct (at_boundary_facts _ _ _ B) as (W1 & I1 & A1).
      destruct (palive q).
      * destruct (relocate W q) as [[[[q' L] ireg] ixs]|] eqn:R; [|discriminate]. injection H as <-. destruct (relocate_match _ _ _ _ _ _ R) as [MM EQ]. constructor; cbn [hi_p hi_loc hi_reg hi_xs hi_ev hi_sites]; auto; rewrite EQ; cbn [at_loc pweight pid]; assumption.
      * injection H as <-. constructor; cbn [hi_p hi_loc hi_reg hi_xs hi_ev hi_sites]; auto. unfold matched. cbn [hi_xs hi_reg]. rewrite Ex. exact M.
Qed.
(** In every history, at every turn: in each group the coarse-mesh and region fluxes have the same total; the track-length
    estimate of k is the production, and the pin power the fission, that the region fluxes make in the regions' materials; the
    collision estimate of k is the production of the collision fluxes. *)
Theorem C105_scores : forall ltr W p us h0 h, start W p us = HNext h0 -> runs ltr W h0 h ->
  (forall g, total (fine_in g) (hi_ev h) = total (coarse_in g) (hi_ev h)) /\
  total track_k (hi_ev h) = total (fine_times (prod_xs W)) (hi_ev h) /\
  total power (hi_ev h) = total (fine_times (fiss_xs W)) (hi_ev h) /\
  total collide_k (hi_ev h) = total (fine_col_times (prod_xs W)) (hi_ev h).
Proof.
  intros ltr W p us h0 h S RU. unfold start in S. destruct (relocate W p) as [[[[q L] ireg] ixs]|] eqn:R; [|discriminate]. injection S as <-. destruct (relocate_match _ _ _ _ _ _ R) as [MM _].
  assert (K : matched W h /\ ((forall g, total (fine_in g) (hi_ev h) = total (coarse_in g) (hi_ev h)) /\ total track_k (hi_ev h) = total (fine_times (prod_xs W)) (hi_ev h) /\ total power (hi_ev h) = total (fine_times (fiss_xs W)) (hi_ev h) /\ total collide_k (hi_ev h) = total (fine_col_times (prod_xs W)) (hi_ev h))); [|exact (proj2 K)].
  remember (mkHist (set_alive q true) L ireg ixs [] [] us) as h0 eqn:E0. induction RU as [h|h h1 h2 RU IH A T].
  - subst h. split; [exact MM|]. cbn. auto.
  - destruct (IH E0) as (M & I1 & I2 & I3 & I4). destruct (turn_turned _ _ _ _ M T) as [T1 T2 T3 T4 T5 _ _ _ _]. split; [exact T1|]. split; [intro g; specialize (T2 g); specialize (I1 g); lra|]. split; [lra|]. split; lra.
Qed.
Print Assumptions C105_scores.
(** A history never changes the particle's weight or number, and banks no site before it ends; its sites have unit weight and its
    number. *)
Theorem C105_particle : forall ltr W p us h0 h, start W p us = HNext h0 -> runs ltr W h0 h ->
  pweight (hi_p h) = pweight p /\ pid (hi_p h) = pid p /\ (palive (hi_p h) = true -> hi_sites h = []) /\ (forall q, In q (hi_sites h) -> pweight q = 1 /\ pid q = pid p).
Proof.
  intros ltr W p us h0 h S RU. unfold start in S. destruct (relocate W p) as [[[[q L] ireg] ixs]|] eqn:R; [|discriminate]. injection S as <-. destruct (relocate_match _ _ _ _ _ _ R) as [MM EQ].
  assert (K : matched W h /\ (pweight (hi_p h) = pweight p /\ pid (hi_p h) = pid p /\ (palive (hi_p h) = true -> hi_sites h = []) /\ (forall q, In q (hi_sites h) -> pweight q = 1 /\ pid q = pid p))); [|exact (proj2 K)].
  remember (mkHist (set_alive q true) L ireg ixs [] [] us) as h0 eqn:E0. induction RU as [h|h h1 h2 RU IH A T].
  - subst h. split; [exact MM|]. rewrite EQ. cbn. repeat split; try reflexivity; intros; contradiction.
  - destruct (IH E0) as (M & I1 & I2 & I3 & I4). destruct (turn_turned _ _ _ _ M T) as [T1 _ _ _ _ T6 T7 T8 T9]. split; [exact T1|]. split; [congruence|]. split; [congruence|]. split; [intro A2; rewrite (T9 A2); exact (I3 A)|].
    intros s I. destruct (T8 s I) as [J|[J1 J2]]; [exact (I4 s J)|]. split; [exact J1|congruence].
Qed.
Print Assumptions C105_particle.
(** The distance to the next collision: a number [u] uniform in (0, 1] gives more than [d] just when it is below the chance
    exp (- xstr d) of flying that far without a collision. *)
Theorem C105_free_path : forall xstr u d, 0 < u <= 1 -> 0 < xstr -> exists t, to_collision xstr u = Some t /\ 0 <= t /\ (d < t <-> u < exp (- (xstr * d))).
Proof.
  intros xstr u d Hu Hx. unfold to_collision. destruct (Reqb_spec u 0); [lra|]. destruct (Reqb_spec xstr 0); [lra|]. cbn [orb]. exists (- ln u / xstr). split; [reflexivity|].
  assert (Q : xstr * (- ln u / xstr) = - ln u) by (field; lra). set (t := - ln u / xstr) in *.
  assert (Ln : ln u <= 0) by (rewrite <- ln_1; destruct (Req_dec u 1) as [->|N]; [lra|left; apply ln_increasing; lra]).
  split; [nra|]. rewrite <- (exp_ln u) at 1 by lra. split; intros H.
  - apply exp_increasing. nra.
  - apply exp_lt_inv in H. nra.
Qed.
Print Assumptions C105_free_path.
Example C105_free_path_instance : 0 < 1/2 <= 1 /\ 0 < 2 /\ to_collision 2 (1/2) = Some (- ln (1/2) / 2) /\ 0 < - ln (1/2) / 2.
Proof.
  split; [lra|]. split; [lra|]. split; [unfold to_collision; destruct (Reqb_spec (1/2) 0); [lra|]; destruct (Reqb_spec 2 0); [lra|]; reflexivity|].
  assert (ln (1/2) < 0) by (rewrite <- ln_1; apply ln_increasing; lra). lra.
Qed.
(** [t] is the least of the distances present. *)
Definition least (l : list (option R)) (t : R) : Prop := In (Some t) l /\ forall x, In (Some x) l -> t <= x.
Lemma omin_least : forall a b t, omin a b = Some t -> least [a; b] t.
Proof.
  intros [x|] [y|] t H; cbn [omin] in H; try discriminate; injection H as <-.
  - split; [unfold Rmin; destruct (Rle_dec x y); [left|right; left]; reflexivity|]. intros z [E|[E|[]]]; injection E as <-; [apply Rmin_l|apply Rmin_r].
  - split; [left; reflexivity|]. intros z [E|[E|[]]]; [injection E as <-; lra|discriminate].
  - split; [right; left; reflexivity|]. intros z [E|[E|[]]]; [discriminate|injection E as <-; lra].
Qed.
Lemma to_surface_min : forall d f pin, fst (to_surface (d, f) pin) = omin pin d.
Proof.
  intros [a|] f [b|]; cbn [to_surface fst omin]; try reflexivity. unfold Rmin. destruct (Rltb_spec b a) as [H|H], (Rle_dec b a) as [H'|H']; cbn [fst]; try reflexivity; try lra. f_equal. lra.
Qed.
Lemma at_boundary_close : forall W p q, at_boundary W p = Some q -> Rabs (ox (pdir p)) <= 1 -> Rabs (oy (pdir p)) <= 1 -> Rabs (oz (pdir p)) <= 1 ->
  Rabs (pgx q - pgx p) <= 3 * BUMP /\ Rabs (pgy q - pgy p) <= 3 * BUMP /\ Rabs (pgz q - pgz p) <= 3 * BUMP.
Proof.
  intros W p q H X Y Z. unfold at_boundary in H. destruct (cross_bounds W _ p false) as [[q' b]|] eqn:E; [|discriminate]. injection H as <-. destruct (cross_bounds_facts _ _ _ _ _ _ E) as (_ & _ & _ & P1 & P2 & P3). pose proof BUMP_pos as B.
  assert (D : Rabs (ox (pdir q')) <= 1 /\ Rabs (oy (pdir q')) <= 1 /\ Rabs (oz (pdir q')) <= 1).
  { clear P1 P2 P3. revert E. generalize (wo_bound W (pgx p) (pgy p) (pgz p) (pdir p)) false. intro l. revert p X Y Z. induction l as [|[s|] l IH]; intros p X Y Z r E; cbn [cross_bounds] in E.
    - injection E as <- <-. auto.
    - destruct (palive p); [|apply (IH p X Y Z _ E)]. destruct (wo_bc W s); try discriminate; [|apply (IH (set_alive p false) X Y Z _ E)].
      eapply (IH (set_dir p (dir_reflect (pdir p) s))); [| | |exact E]; cbn [set_dir pdir]; destruct s; cbn; rewrite ?Rabs_Ropp; assumption.
    - apply (IH p X Y Z _ E). }
  destruct D as (D1 & D2 & D3). destruct b.
  - destruct (C103_move q' BUMP) as (_ & _ & _ & _ & _ & _ & _ & K). rewrite <- P1, <- P2, <- P3.
    assert (G : forall o v w, Rabs (w - (v + BUMP * o)) <= BUMP * (1 + Rabs o) -> Rabs o <= 1 -> Rabs (w - v) <= 3 * BUMP).
    { intros o v w H1 H2. replace (w - v) with ((w - (v + BUMP * o)) + BUMP * o) by ring. eapply Rle_trans; [apply Rabs_triang|]. rewrite Rabs_mult, (Rabs_right BUMP) by lra. pose proof (Rabs_pos o). nra. }
    split; [|split]; (eapply G; [apply K; auto|assumption]).
  - rewrite P1, P2, P3. unfold Rminus. rewrite !Rplus_opp_r, Rabs_R0. lra.
Qed.
(** Every turn scores the weight times the length flown, in the group and region the particle is in: that length is the least of
    the distances to the collision, to the pin's surfaces and to its box, and the particle ends within five bumps of its end. *)
Theorem C105_track : forall ltr W h h' x u us tr, turn ltr W h = HNext h' -> hi_us h = u :: us -> nth_error (wo_xs W) (hi_xs h) = Some x -> nth_error (xr_tr x) (pgroup (hi_p h)) = Some tr ->
  let p := hi_p h in Rabs (ox (pdir p)) <= 1 -> Rabs (oy (pdir p)) <= 1 -> Rabs (oz (pdir p)) <= 1 -> let L := hi_loc h in
  exists tl, least [to_collision tr u; distance_to_pin (fst (fst (lo_low L))) (snd (fst (lo_low L))) (snd (lo_low L)) (fst (fst (lo_high L))) (snd (fst (lo_high L))) (snd (lo_high L)) p; fst (fst (lo_dist L (ploc p) (pdir p) (pcoinc p)))] tl /\
    (forall g, total (fine_in g) (hi_ev h') = total (fine_in g) (hi_ev h) + (if Nat.eqb g (pgroup p) then tl * pweight p else 0)) /\
    (exists l, hi_ev h' = l ++ hi_ev h /\ forall e, In e l -> match e with Fine g r _ | FineCol g r _ => g = pgroup p /\ r = hi_reg h | Coarse g c _ => g = pgroup p /\ c = lo_pin L | Power c _ => c = lo_pin L | _ => True end) /\
    Rabs (pgx (hi_p h') - (pgx p + tl * ox (pdir p))) <= 5 * BUMP /\ Rabs (pgy (hi_p h') - (pgy p + tl * oy (pdir p))) <= 5 * BUMP /\ Rabs (pgz (hi_p h') - (pgz p + tl * oz (pdir p))) <= 5 * BUMP.
Proof.
  intros ltr W h h' x u us tr H Hu Hx Ht p OX OY OZ L. unfold turn in H. rewrite Hx, Hu in H. fold p in H, Ht. rewrite Ht in H. destruct (nth_error (xr_nf x) (pgroup p)) as [nf|] eqn:En; [|discriminate]. destruct (nth_error (xr_f x) (pgroup p)) as [f|] eqn:Ef; [|discriminate].
  fold L in H. destruct (lo_dist L (ploc p) (pdir p) (pcoinc p)) as [[d0 flag0] c]. destruct (lo_low L) as [[lx ly] lz]. destruct (lo_high L) as [[hx hy] hz]. cbn [fst snd].
  pose proof (to_surface_min d0 flag0 (distance_to_pin lx ly lz hx hy hz p)) as TS. set (dp := distance_to_pin lx ly lz hx hy hz p) in *. destruct (to_surface (d0, flag0) dp) as [ds box]. cbn [fst] in TS.
  destruct (omin (to_collision tr u) ds) as [tl|] eqn:O; [|discriminate]. exists tl.
  assert (LE : least [to_collision tr u; dp; d0] tl).
  { destruct (omin_least _ _ _ O) as [A B]. destruct ds as [s|].
    - symmetry in TS. destruct (omin_least _ _ _ TS) as [A' B']. split.
      + destruct A as [A|[A|[]]]; [left; exact A|]. injection A as <-. destruct A' as [A'|[A'|[]]]; [right; left; exact A'|right; right; left; exact A'].
      + intros y [E|I]; [apply B; left; exact E|]. apply Rle_trans with s; [apply B; right; left; reflexivity|apply B'; exact I].
    - assert (dp = None /\ d0 = None) as [-> ->] by (destruct dp, d0; cbn in TS; try discriminate; auto). split; [destruct A as [A|[A|[]]]; [left; exact A|discriminate]|]. intros y [E|[E|[E|[]]]]; [apply B; left; exact E|discriminate|discriminate]. }
  split; [exact LE|]. pose proof BUMP_pos as BP.
  set (ev := [Fine (pgroup p) (hi_reg h) (tl * pweight p); Coarse (pgroup p) (lo_pin L) (tl * pweight p); Power (lo_pin L) (tl * pweight p * f); TrackK (tl * pweight p * nf)]) in *.
  change (Fine (pgroup p) (hi_reg h) (tl * pweight p) :: Coarse (pgroup p) (lo_pin L) (tl * pweight p) :: Power (lo_pin L) (tl * pweight p * f) :: TrackK (tl * pweight p * nf) :: hi_ev h) with (ev ++ hi_ev h) in H.
  assert (EV : forall e, In e ev -> match e with Fine g r _ | FineCol g r _ => g = pgroup p /\ r = hi_reg h | Coarse g c _ => g = pgroup p /\ c = lo_pin L | Power c _ => c = lo_pin L | _ => True end) by (unfold ev; intros e [<-|[<-|[<-|[<-|[]]]]]; auto).
  assert (EF : forall g, total (fine_in g) (ev ++ hi_ev h) = total (fine_in g) (hi_ev h) + (if Nat.eqb g (pgroup p) then tl * pweight p else 0)) by (intro g; unfold ev; cbn [app total fine_in]; destruct (Nat.eqb g (pgroup p)); ring).
  clearbody ev.
  assert (MV : forall q, pdir q = pdir p -> pgx q = pgx p -> pgy q = pgy p -> pgz q = pgz p -> forall r, Rabs (pgx r - pgx (move q tl)) <= 3 * BUMP /\ Rabs (pgy r - pgy (move q tl)) <= 3 * BUMP /\ Rabs (pgz r - pgz (move q tl)) <= 3 * BUMP ->
    Rabs (pgx r - (pgx p + tl * ox (pdir p))) <= 5 * BUMP /\ Rabs (pgy r - (pgy p + tl * oy (pdir p))) <= 5 * BUMP /\ Rabs (pgz r - (pgz p + tl * oz (pdir p))) <= 5 * BUMP).
  { intros q Q1 Q2 Q3 Q4 r (R1 & R2 & R3). destruct (C103_move q tl) as (_ & _ & _ & _ & _ & _ & _ & K). rewrite Q1, Q2, Q3, Q4 in K.
    assert (G : forall o v w y, Rabs (w - (v + tl * o)) <= BUMP * (1 + Rabs o) -> Rabs o <= 1 -> Rabs (y - w) <= 3 * BUMP -> Rabs (y - (v + tl * o)) <= 5 * BUMP).
    { intros o v w y H1 H2 H3. replace (y - (v + tl * o)) with ((y - w) + (w - (v + tl * o))) by ring. eapply Rle_trans; [apply Rabs_triang|]. nra. }
    split; [eapply G; [apply K; left; reflexivity|assumption|assumption]|]. split; [eapply G; [apply K; right; left; reflexivity|assumption|assumption]|eapply G; [apply K; right; right; reflexivity|assumption|assumption]]. }
  assert (ZZ : forall a, Rabs (a - a) <= 3 * BUMP) by (intro a; rewrite Rminus_diag_eq, Rabs_R0 by reflexivity; lra).
  match type of H with (if ?b then _ else _) = _ => destruct b end.
  - destruct (collide ltr x (set_coinc (move (set_coinc p c) tl) (-1)) us) as [cl|] eqn:C; [|discriminate]. injection H as <-. cbn [hi_ev hi_p].
    split; [intro g; cbn [total fine_in]; rewrite EF; ring|]. split; [eexists (_ :: _ :: ev); split; [reflexivity|]; intros e [<-|[<-|I]]; auto; apply EV; exact I|].
    apply (MV (set_coinc p c)); try reflexivity.
    assert (PP : pgx (c_part cl) = pgx (move (set_coinc p c) tl) /\ pgy (c_part cl) = pgy (move (set_coinc p c) tl) /\ pgz (c_part cl) = pgz (move (set_coinc p c) tl)).
    { unfold collide in C. destruct us as [|u1 us1]; [discriminate|]. set (pp := set_coinc (move (set_coinc p c) tl) (-1)) in *. destruct (reaction_cdf x (pgroup pp)); [|discriminate]. destruct (nth_error (xr_tr x) (pgroup pp)); [|discriminate]. destruct (nth_error (xr_nf x) (pgroup pp)); [|discriminate]. destruct (nth_error (xr_f x) (pgroup pp)); [|discriminate].
      destruct (sample _ u1) as [[|[|k]]|]; [| | |discriminate].
      - destruct (out_cdf _ _); [|discriminate]. destruct us1; [discriminate|]. destruct (sample _ _); [|discriminate]. destruct (draw_direction _ _) as [[? ?]|]; [|discriminate]. injection C as <-. auto.
      - destruct (chi_cdf x); [|discriminate]. destruct us1; [discriminate|]. destruct (Reqb _ _); [discriminate|]. destruct (fission_sites _ _ _ _ _) as [[? ?]|]; [|discriminate]. injection C as <-. auto.
      - injection C as <-. auto. }
    destruct PP as (-> & -> & ->). repeat split; apply ZZ.
  - destruct (negb box).
    + destruct (regions W L _ _) as [[ireg ixs]|] eqn:RG; [|discriminate]. injection H as <-. cbn [hi_ev hi_p]. split; [exact EF|]. split; [exists ev; split; [reflexivity|exact EV]|]. apply (MV (set_coinc p c)); try reflexivity. repeat split; apply ZZ.
    + destruct (at_boundary W _) as [q|] eqn:B; [|discriminate]. pose proof (at_boundary_close _ _ _ B OX OY OZ) as CL.
      assert (QQ : forall r, pgx r = pgx q -> pgy r = pgy q -> pgz r = pgz q -> Rabs (pgx r - (pgx p + tl * ox (pdir p))) <= 5 * BUMP /\ Rabs (pgy r - (pgy p + tl * oy (pdir p))) <= 5 * BUMP /\ Rabs (pgz r - (pgz p + tl * oz (pdir p))) <= 5 * BUMP).
      { intros r -> -> ->. apply (MV (set_coinc (set_coinc p c) (-1))); try reflexivity. exact CL. }
      destruct (palive q).
      * destruct (relocate W q) as [[[[q' L'] ireg] ixs]|] eqn:RG; [|discriminate]. injection H as <-. destruct (relocate_match _ _ _ _ _ _ RG) as [_ ->]. cbn [hi_ev hi_p]. split; [exact EF|]. split; [exists ev; split; [reflexivity|exact EV]|]. apply QQ; reflexivity.
      * injection H as <-. cbn [hi_ev hi_p]. split; [exact EF|]. split; [exists ev; split; [reflexivity|exact EV]|]. apply QQ; reflexivity.
Qed.
Print Assumptions C105_track.
(** A particle at the middle of a unit cube of one material, heading east, meets no collision and leaves. *)
Definition cube_xs : XReg := mkXR [0%nat] true [2] [3] [1] [1] [2] (mkSM 1 [0] [0] []).
Definition cube : World := mkWorld
  (fun _ _ _ _ => Some (mkLoc 4 0 {| ptx := 0; pty := 0 |} (fun _ _ c => (None, false, c)) (fun _ _ => Some 0%Z) (0, 0, 0) (1, 1, 1)))
  (boundary_surface 1 1 1) (fun _ => VACUUM) [cube_xs] [0%Z].
Definition eastward : Particle := new_particle (1/2) (1/2) (1/2) (dir_cosines 1 0 0) 0 7 {| ptx := 0; pty := 0 |}.
Example C105_instance : exists h0 h, start cube eastward [0; 1/3] = HNext h0 /\ runs true cube h0 h /\ palive (hi_p h) = false /\ 1 < pgx (hi_p h) /\
  hi_ev h = [Fine 0 0 (1/2); Coarse 0 4 (1/2); Power 4 (1/2); TrackK (3/2)] /\ hi_sites h = [].
Proof.
  pose proof FUZZ_pos as F. pose proof BUMP_pos as B. exists (mkHist eastward (mkLoc 4 0 {| ptx := 0; pty := 0 |} (fun _ _ c => (None, false, c)) (fun _ _ => Some 0%Z) (0, 0, 0) (1, 1, 1)) 0 0 [] [] [0; 1/3]).
  assert (X : pgx (move eastward (1/2)) = 1 + nudge 1) by (unfold move; cbn [pgx]; rewrite advance_nudge; unfold eastward; cbn [pgx pdir new_particle dir_cosines ox]; lra).
  assert (Y : pgy (move eastward (1/2)) = 1/2 /\ pgz (move eastward (1/2)) = 1/2).
  { unfold move; cbn [pgy pgz]. rewrite !advance_nudge. unfold eastward; cbn [pgy pgz pdir new_particle dir_cosines oy oz]. unfold nudge. destruct (Rlt_dec 0 0); [lra|]. lra. }
  assert (N : 0 < nudge 1) by (unfold nudge; destruct (Rlt_dec 1 0); [lra|]; destruct (Rlt_dec 0 1); lra). destruct Y as [Y Z].
  assert (D : distance_to_pin 0 0 0 1 1 1 eastward = Some (1/2)).
  { unfold distance_to_pin, axis_dist, eastward. cbn [pgx pgy pgz pdir new_particle dir_cosines ox oy oz]. destruct (Reqb_spec 0 0); [|lra]. destruct (Reqb_spec 1 0); [lra|]. destruct (Rltb_spec 0 1); [|lra]. replace ((1 - 1/2) / 1) with (1/2) by lra. destruct (Rltb_spec 0 (1/2)); [|lra]. reflexivity. }
  assert (BS : at_boundary cube (move eastward (1/2)) = Some (set_alive (move eastward (1/2)) false)).
  { unfold at_boundary, cube. cbn [wo_bound]. rewrite X, Y, Z. unfold boundary_surface. cbn [move pdir eastward new_particle dir_cosines ox oy oz].
    destruct (Rltb_spec (1 + nudge 1) REAL_FUZZ); [lra|]. destruct (Rltb_spec (1/2) REAL_FUZZ); [lra|]. cbn [andb]. destruct (Rltb_spec (1 - REAL_FUZZ) ((1 + nudge 1) / 1)); [|unfold Rdiv in *; rewrite Rinv_1 in *; lra]. destruct (Rltb_spec 0 1); [|lra]. cbn [andb].
    destruct (Rltb_spec (1 - REAL_FUZZ) (1/2/1)); [lra|]. cbn [andb cross_bounds move palive new_particle wo_bc]. reflexivity. }
  eexists. split; [reflexivity|]. split; [eapply runs_turn; [apply runs_here|reflexivity|]|].
  - unfold turn. cbn [hi_xs hi_us hi_p hi_loc cube wo_xs nth_error eastward new_particle pgroup cube_xs xr_tr xr_nf xr_f lo_dist lo_low lo_high]. fold (new_particle (1/2) (1/2) (1/2) (dir_cosines 1 0 0) 0 7 {| ptx := 0; pty := 0 |}). fold eastward.
    rewrite D. unfold to_collision. destruct (Reqb_spec 0 0); [|lra]. cbn [orb to_surface fst omin negb]. change (set_coinc (set_coinc eastward (pcoinc eastward)) (-1)) with eastward. fold cube_xs. fold cube. rewrite BS. cbn [set_alive palive]. reflexivity.
  - cbn [hi_p set_alive palive pgx hi_ev]. split; [reflexivity|]. split; [change (1 < pgx (move eastward (1/2))); rewrite X; lra|]. change (pweight eastward) with 1. cbn [hi_ev hi_reg hi_loc lo_pin hi_sites]. rewrite !Rmult_1_r. replace (1/2 * 3) with (3/2) by lra. split; reflexivity.
Qed.

(** ** C106: boundaries *)
Definition coord (p : Particle) (n : Normal) : R := match n with X_NORM => pgx p | Y_NORM => pgy p | Z_NORM => pgz p end.
Definition extent (hx hy hz : R) (n : Normal) : R := match n with X_NORM => hx | Y_NORM => hy | Z_NORM => hz end.
(** The coordinate of a face of the core along its normal, and whether it is the lower one. *)
Definition lower (s : Surface) : bool := match s with WEST | SOUTH | BOTTOM => true | _ => false end.
Definition face (hx hy hz : R) (s : Surface) : R := if lower s then 0 else extent hx hy hz (surface_to_normal s).
(** The particle is at or beyond the face, to the tolerance, and heads out of it. *)
Definition exits (hx hy hz : R) (p : Particle) (s : Surface) : Prop :=
  let n := surface_to_normal s in
  if lower s then coord p n < REAL_FUZZ /\ cosine (pdir p) n < 0 else extent hx hy hz n * (1 - REAL_FUZZ) < coord p n /\ 0 < cosine (pdir p) n.
Lemma upper_iff : forall h x o, 0 < h -> (Rltb (1 - REAL_FUZZ) (x / h) && Rltb 0 o = true <-> (h * (1 - REAL_FUZZ) < x /\ 0 < o)).
Proof.
  intros h x o H. rewrite andb_true_iff. assert (E : 1 - REAL_FUZZ < x / h <-> h * (1 - REAL_FUZZ) < x).
  { split; intro A; [apply Rmult_lt_reg_r with (/ h); [apply Rinv_0_lt_compat; exact H|]; replace (h * (1 - REAL_FUZZ) * / h) with (1 - REAL_FUZZ) by (field; lra); exact A|].
    apply Rmult_lt_reg_r with h; [exact H|]. unfold Rdiv. rewrite Rmult_assoc, Rinv_l by lra. lra. }
  destruct (Rltb_spec (1 - REAL_FUZZ) (x / h)), (Rltb_spec 0 o); split; intros [A B]; try discriminate; try tauto; try lra; split; auto; tauto.
Qed.
Lemma lower_iff : forall x o, (Rltb x REAL_FUZZ && Rltb o 0 = true <-> (x < REAL_FUZZ /\ o < 0)).
Proof. intros. rewrite andb_true_iff. destruct (Rltb_spec x REAL_FUZZ), (Rltb_spec o 0); split; intros [A B]; try discriminate; try lra; auto. Qed.
Definition exits_b (hx hy hz : R) (p : Particle) (s : Surface) : bool :=
  match s with
  | WEST => Rltb (pgx p) REAL_FUZZ && Rltb (ox (pdir p)) 0 | SOUTH => Rltb (pgy p) REAL_FUZZ && Rltb (oy (pdir p)) 0 | BOTTOM => Rltb (pgz p) REAL_FUZZ && Rltb (oz (pdir p)) 0
  | EAST => Rltb (1 - REAL_FUZZ) (pgx p / hx) && Rltb 0 (ox (pdir p)) | NORTH => Rltb (1 - REAL_FUZZ) (pgy p / hy) && Rltb 0 (oy (pdir p)) | TOP => Rltb (1 - REAL_FUZZ) (pgz p / hz) && Rltb 0 (oz (pdir p))
  end.
Lemma exits_iff : forall hx hy hz p s, 0 < hx -> 0 < hy -> 0 < hz -> (exits_b hx hy hz p s = true <-> exits hx hy hz p s).
Proof. intros hx hy hz p [] X Y Z; unfold exits, exits_b; cbn [lower surface_to_normal coord extent cosine]; first [apply upper_iff; assumption|apply lower_iff]. Qed.
Lemma surface_slots : forall hx hy hz p, boundary_surface hx hy hz (pgx p) (pgy p) (pgz p) (pdir p) =
  let e := exits_b hx hy hz p in [ if e WEST then Some WEST else if e SOUTH then Some SOUTH else None; if e BOTTOM then Some BOTTOM else if e EAST then Some EAST else None; if e NORTH then Some NORTH else if e TOP then Some TOP else None ].
Proof. reflexivity. Qed.
(** The surfaces reported: those left, except the south face beside the west, the east beside the bottom and the top beside the north. *)
Theorem C106_reported : forall hx hy hz p s, 0 < hx -> 0 < hy -> 0 < hz ->
  (In (Some s) (boundary_surface hx hy hz (pgx p) (pgy p) (pgz p) (pdir p)) <->
   exits hx hy hz p s /\ (s = SOUTH -> ~ exits hx hy hz p WEST) /\ (s = EAST -> ~ exits hx hy hz p BOTTOM) /\ (s = TOP -> ~ exits hx hy hz p NORTH)).
Proof.
  intros hx hy hz p s X Y Z. rewrite surface_slots. cbn zeta. rewrite <- !exits_iff by assumption.
  destruct (exits_b hx hy hz p WEST) eqn:E1, (exits_b hx hy hz p SOUTH) eqn:E2, (exits_b hx hy hz p BOTTOM) eqn:E3, (exits_b hx hy hz p EAST) eqn:E4, (exits_b hx hy hz p NORTH) eqn:E5, (exits_b hx hy hz p TOP) eqn:E6;
    destruct s; rewrite ?E1, ?E2, ?E3, ?E4, ?E5, ?E6; cbn [In]; split; intro H;
    repeat match goal with H : _ \/ _ |- _ => destruct H as [H|H] end; try discriminate; try contradiction; try (repeat split; intros; try discriminate; congruence);
    try (destruct H as (A & B & C & D); first [discriminate A | exfalso; first [apply (B eq_refl); reflexivity|apply (C eq_refl); reflexivity|apply (D eq_refl); reflexivity] | idtac]); auto.
Qed.
Print Assumptions C106_reported.
Definition same_surface (a b : Surface) : {a = b} + {a <> b}. Proof. decide equality. Defined.
Lemma one_surface : forall W hx hy hz p s b, 0 < hx -> 0 < hy -> 0 < hz -> exits hx hy hz p s -> (forall s', s' <> s -> ~ exits hx hy hz p s') ->
  cross_bounds W (boundary_surface hx hy hz (pgx p) (pgy p) (pgz p) (pdir p)) p b = cross_bounds W [Some s] p b.
Proof.
  intros W hx hy hz p s b X Y Z E N. rewrite surface_slots. cbn zeta.
  assert (K : forall s', exits_b hx hy hz p s' = if same_surface s' s then true else false).
  { intro s'. destruct (same_surface s' s) as [->|D]; [apply exits_iff; assumption|]. destruct (exits_b hx hy hz p s') eqn:F; [|reflexivity]. exfalso. apply (N s' D). apply exits_iff; assumption. }
  rewrite !K. destruct s; reflexivity.
Qed.
(** A particle that leaves through one face only: at a reflecting face its direction cosine along the normal changes sign and no
    other does; at a vacuum face it is dead where it stands; any other condition stops the program. *)
Theorem C106_face : forall W hx hy hz p s, wo_bound W = boundary_surface hx hy hz -> 0 < hx -> 0 < hy -> 0 < hz -> palive p = true ->
  exits hx hy hz p s -> (forall s', s' <> s -> ~ exits hx hy hz p s') ->
  match wo_bc W s with
  | REFLECT => exists q, at_boundary W p = Some q /\ palive q = true /\ pgroup q = pgroup p /\
      forall n, cosine (pdir q) n = (if match n, surface_to_normal s with X_NORM, X_NORM | Y_NORM, Y_NORM | Z_NORM, Z_NORM => true | _, _ => false end then - cosine (pdir p) n else cosine (pdir p) n)
  | VACUUM => at_boundary W p = Some (set_alive p false)
  | _ => at_boundary W p = None
  end.
Proof.
  intros W hx hy hz p s HW X Y Z A E N. unfold at_boundary. rewrite HW, (one_surface W hx hy hz p s false X Y Z E N). cbn [cross_bounds]. rewrite A. destruct (wo_bc W s); try reflexivity.
  eexists. split; [reflexivity|]. split; [exact A|]. split; [reflexivity|]. intro n. cbn [move set_dir pdir]. apply C72_direction_reflect.
Qed.
Print Assumptions C106_face.
(** Inside, heading in, or on no face: nothing happens. *)
Theorem C106_inside : forall W hx hy hz p, wo_bound W = boundary_surface hx hy hz -> 0 < hx -> 0 < hy -> 0 < hz -> (forall s, ~ exits hx hy hz p s) -> at_boundary W p = Some p.
Proof.
  intros W hx hy hz p HW X Y Z N. unfold at_boundary. rewrite HW, surface_slots. cbn zeta.
  assert (K : forall s', exits_b hx hy hz p s' = false) by (intro s'; destruct (exits_b hx hy hz p s') eqn:F; [exfalso; apply (N s'); apply exits_iff; assumption|reflexivity]).
  rewrite !K. reflexivity.
Qed.
Print Assumptions C106_inside.
Lemma coord_move : forall p t n, coord (move p t) n = advance (coord p n) (cosine (pdir p) n) t.
Proof. intros p t []; reflexivity. Qed.
(** A flight that ends on a reflecting face alone: the particle is found beyond the face, and returned inside by a bump times
    its cosine. *)
Theorem C106_returned : forall W hx hy hz p t s, wo_bound W = boundary_surface hx hy hz -> 0 < hx -> 0 < hy -> 0 < hz -> palive p = true -> wo_bc W s = REFLECT ->
  let n := surface_to_normal s in let o := cosine (pdir p) n in
  (if lower s then o < 0 else 0 < o) -> coord p n + t * o = face hx hy hz s -> (forall s', s' <> s -> ~ exits hx hy hz (move p t) s') ->
  exists q, at_boundary W (move p t) = Some q /\ coord q n = face hx hy hz s - BUMP * o /\ (if lower s then 0 < coord q n else coord q n < extent hx hy hz n).
Proof.
  intros W hx hy hz p t s HW X Y Z A BC n o O F N. pose proof BUMP_pos as B. pose proof FUZZ_pos as FZ. destruct (C103_reflect _ _ _ _ F) as [R1 R2].
  assert (E : exits hx hy hz (move p t) s).
  { unfold exits. fold n. rewrite coord_move. change (pdir (move p t)) with (pdir p). fold o. unfold face in *. fold n in R1, R2. destruct (lower s); split; try exact O.
    - destruct (R2 O) as [R _]. lra.
    - destruct (R1 O) as [R _]. assert (0 < extent hx hy hz n) by (destruct n; assumption). nra. }
  unfold at_boundary. rewrite HW, (one_surface W hx hy hz (move p t) s false X Y Z E N). cbn [cross_bounds]. change (palive (move p t)) with (palive p). rewrite A, BC. eexists. split; [reflexivity|].
  assert (Q : coord (move (set_dir (move p t) (dir_reflect (pdir (move p t)) s)) BUMP) n = face hx hy hz s - BUMP * o).
  { rewrite coord_move. change (pdir (set_dir (move p t) (dir_reflect (pdir (move p t)) s))) with (dir_reflect (pdir p) s).
    replace (coord (set_dir (move p t) (dir_reflect (pdir (move p t)) s)) n) with (advance (coord p n) o t) by (unfold o; rewrite <- coord_move; destruct n; reflexivity).
    replace (cosine (dir_reflect (pdir p) s) n) with (- o) by (unfold o, n; destruct s; reflexivity). destruct (lower s); [destruct (R2 O) as [_ R]|destruct (R1 O) as [_ R]]; exact R. }
  rewrite Q. split; [reflexivity|]. unfold face. destruct (lower s); [nra|]. fold n. nra.
Qed.
Print Assumptions C106_returned.
(** Leaving through the edge between the west and south faces, both reflecting, only the first is seen: the particle ends outside
    the core, heading further out, and looking for its pin reads before the start of the pin boundaries. *)
Theorem C106_refuted : exists W p q, wo_bound W = boundary_surface 1 1 1 /\ (forall s, wo_bc W s = REFLECT) /\ palive p = true /\ exits 1 1 1 p WEST /\ exits 1 1 1 p SOUTH /\
  at_boundary W p = Some q /\ palive q = true /\ pgy q < 0 /\ oy (pdir q) < 0 /\
  (forall ulp M, (forall v, In v (cm_yv M) -> 0 <= v) -> get_location_info ulp M (pgx q) (pgy q) (pgz q) (pdir q) = None).
Proof.
  pose proof BUMP_pos as B. pose proof FUZZ_pos as FZ.
  set (W := mkWorld (fun _ _ _ _ => None) (boundary_surface 1 1 1) (fun _ => REFLECT) [] []).
  set (p := move (new_particle (3/10) (4/10) (1/2) (dir_cosines (- (3/5)) (- (4/5)) 0) 0 0 {| ptx := 0; pty := 0 |}) (1/2)).
  assert (PX : pgx p = - (BUMP * (8/5))) by (unfold p, move; cbn [pgx]; rewrite advance_nudge; cbn [new_particle pgx pdir dir_cosines ox]; unfold nudge; destruct (Rlt_dec (- (3/5)) 0); lra).
  assert (PY : pgy p = - (BUMP * (9/5))) by (unfold p, move; cbn [pgy]; rewrite advance_nudge; cbn [new_particle pgy pdir dir_cosines oy]; unfold nudge; destruct (Rlt_dec (- (4/5)) 0); lra).
  assert (PZ : pgz p = 1/2) by (unfold p, move; cbn [pgz]; rewrite advance_nudge; cbn [new_particle pgz pdir dir_cosines oz]; unfold nudge; destruct (Rlt_dec 0 0); lra).
  assert (DX : ox (pdir p) = - (3/5)) by reflexivity. assert (DY : oy (pdir p) = - (4/5)) by reflexivity. assert (DZ : oz (pdir p) = 0) by reflexivity. assert (AL : palive p = true) by reflexivity.
  clearbody p. set (q := move (set_dir p (dir_reflect (pdir p) WEST)) BUMP).
  assert (QY : pgy q < 0).
  { unfold q, move. clear q W. cbn [pgy]. rewrite advance_nudge. cbn [set_dir pgy pdir dir_reflect dir_cosines oy]. rewrite PY. rewrite DY. unfold nudge. destruct (Rlt_dec (- (4/5)) 0) as [H1|H1]; lra. }
  assert (EW : exits 1 1 1 p WEST) by (unfold exits; cbn; rewrite PX, DX; lra). assert (ES : exits 1 1 1 p SOUTH) by (unfold exits; cbn; rewrite PY, DY; lra).
  exists W, p, q. split; [reflexivity|]. split; [reflexivity|]. split; [exact AL|]. split; [exact EW|]. split; [exact ES|]. split.
  { unfold at_boundary. cbn [W wo_bound]. rewrite surface_slots. cbn zeta. assert (K : forall s, s <> WEST -> s <> SOUTH -> exits_b 1 1 1 p s = false).
    { intros s N1 N2. destruct (exits_b 1 1 1 p s) eqn:E; [|reflexivity]. apply exits_iff in E; try lra. exfalso. unfold exits in E. destruct s; try congruence; cbn in E; rewrite ?DX, ?DY, ?DZ in E; lra. }
    replace (exits_b 1 1 1 p WEST) with true by (symmetry; apply exits_iff; try lra; exact EW). rewrite !K by discriminate. cbn [cross_bounds]. rewrite AL. reflexivity. }
  split; [exact AL|]. split; [exact QY|]. split; [unfold q; cbn [move pdir set_dir dir_reflect dir_cosines oy]; rewrite DY; lra|].
  intros ulp M HM. unfold get_location_info. destruct (lower_bound Rltb (cm_xv M) (pgx q)); [|reflexivity].
  assert (L : lower_bound Rltb (cm_yv M) (pgy q) = Some 0%nat).
  { assert (LP : lb_partitioned R Rltb (cm_yv M) (pgy q)) by (intros i j a b _ _ Hb Hc; apply nth_error_In, HM in Hb; destruct (Rltb_spec b (pgy q)); [lra|discriminate]).
    destruct (lower_bound_spec R Rltb _ _ LP) as (i & Hi & Li & Lo & _). destruct i as [|i]; [exact Hi|]. destruct (cm_yv M) as [|v l]; [cbn in Li; lia|]. specialize (Lo O v (Nat.lt_0_succ i) eq_refl). destruct (Rltb_spec v (pgy q)); [|discriminate]. specialize (HM v (or_introl eq_refl)). lra. }
  rewrite L. cbn [Z.of_nat]. destruct (plane_index _ _ _ _ _); try reflexivity. destruct (zat (sc_freg (cm_scan M)) i); [|reflexivity]. destruct (zat (sc_uid (cm_scan M)) i); [|reflexivity]. destruct (nth_error _ _); [|reflexivity]. destruct (pl_get_pinmesh _ _ _ _ _ _ _) as [[[[pm mx] my] first]|]; [|reflexivity].
  destruct (zat (cm_xv M) _); reflexivity.
Qed.
Print Assumptions C106_refuted.
(** A particle at the middle of a reflecting unit cube reaches the east face and no other. *)
Example C106_instance : let W := mkWorld (fun _ _ _ _ => None) (boundary_surface 1 1 1) (fun _ => REFLECT) [] [] in
  coord eastward X_NORM + 1/2 * cosine (pdir eastward) X_NORM = face 1 1 1 EAST /\ (forall s, s <> EAST -> ~ exits 1 1 1 (move eastward (1/2)) s) /\
  exists q, at_boundary W (move eastward (1/2)) = Some q /\ pgx q = 1 - BUMP /\ ox (pdir q) = - (1).
Proof.
  intro W. assert (F : coord eastward X_NORM + 1/2 * cosine (pdir eastward) X_NORM = face 1 1 1 EAST) by (unfold face, eastward; cbn; lra). split; [exact F|].
  assert (N : forall s, s <> EAST -> ~ exits 1 1 1 (move eastward (1/2)) s) by (intros s D E; unfold exits in E; destruct s; try congruence; cbn [lower surface_to_normal cosine move pdir eastward new_particle dir_cosines ox oy oz] in E; lra).
  split; [exact N|]. assert (O : 0 < cosine (pdir eastward) X_NORM) by (cbn; lra).
  destruct (C106_returned W 1 1 1 eastward (1/2) EAST eq_refl Rlt_0_1 Rlt_0_1 Rlt_0_1 eq_refl eq_refl O F N) as (q & Q1 & Q2 & _). exists q. split; [exact Q1|]. cbn [coord surface_to_normal] in Q2.
  assert (E : exits 1 1 1 (move eastward (1/2)) EAST).
  { unfold exits. cbn [lower]. rewrite coord_move. destruct (C103_reflect _ _ _ _ F) as [R1 _]. destruct (R1 O) as [R _]. pose proof FUZZ_pos as FZ. unfold face in R. cbn [lower surface_to_normal extent] in *. split; [lra|exact O]. }
  pose proof (C106_face W 1 1 1 (move eastward (1/2)) EAST eq_refl Rlt_0_1 Rlt_0_1 Rlt_0_1 eq_refl E N) as C. cbn [W wo_bc] in C. destruct C as (q' & Q1' & _ & _ & D). rewrite Q1 in Q1'. injection Q1' as <-. specialize (D X_NORM). cbn in D. rewrite Q2. split; [|exact D].
  unfold face. cbn. ring.
Qed.
