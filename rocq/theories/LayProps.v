(** C201: the results file is complete, in debug and release builds, and no name is used twice. *)
From Coq Require Import String Ascii List Bool Arith Lia.
From Verif Require Import StrModel H5Model H5Props LayModel LayProofs LayPaths LayShape.
Import ListNotations.
Open Scope nat_scope.

Section WithValues.
Context {V : Type} (zero : V).
Notation Call := (@Call V).
Notation Node := (@HNode V).

(** ** What the values that are written must satisfy: as many as the dimensions say *)
Definition whole (a : @Arr V) : Prop := a_contig a = true /\ prod (a_shape a) = length (a_vals a).
Definition filling (dims : list nat) (a : @Arr V) : Prop := a_contig a = true /\ prod dims = length (a_vals a).
Definition moc_sizes (ng : nat) (fsr : bool) (d : @SwData V) : Prop :=
  (forall ig, ig < ng -> prod (sw_dims d) = length (sw_flux d ig)) /\ (fsr = true -> forall ig, ig < ng -> sw_nreg d = length (sw_fsr d ig)) /\ whole (sw_pow d).
Definition xs_sizes (ng : nat) (x : @XsData V) : Prop :=
  length (xd_bounds x) = ng /\ length (xd_sc x) = xd_nreg x * ng * ng /\
  forall ig, ig < ng -> length (xd_tr x ig) = prod (xd_dims x) /\ length (xd_nf x ig) = prod (xd_dims x) /\ length (xd_ch x ig) = prod (xd_dims x) /\ length (xd_f x ig) = prod (xd_dims x).
Definition sn_sizes (ng : nat) (d : @SwData V) (x : @XsData V) : Prop := moc_sizes ng false d /\ whole (sw_pow2 d) /\ xs_sizes ng x.
Definition co_sizes (ng : nat) (c : @CoData V) : Prop :=
  forall g a, g < ng -> a < co_nang c -> filling (co_dims c) (co_beta c g a) /\ filling (co_dims c) (co_ax c g a) /\ filling (co_dims c) (co_ay c g a).
Definition opt_sizes {A} (P : A -> Prop) (o : option A) : Prop := match o with Some x => P x | None => True end.
Definition in_sizes (ng : nat) (o : option (@CoData V * @XsData V)) : Prop := opt_sizes (fun y => co_sizes ng (fst y) /\ xs_sizes ng (snd y)) o.
Definition plane_sizes (ng : nat) (d : @PlData V) : Prop :=
  sn_sizes ng (pl_sn d) (pl_xs d) /\ opt_sizes (co_sizes ng) (pl_sndump d) /\ moc_sizes ng (pl_fsr d) (pl_moc d) /\ in_sizes ng (pl_inner d) /\
  (forall ig, ig < ng -> filling (pl_dims d) (pl_flux d ig) /\ prod (pl_dims d) = length (pl_tl d ig)) /\ opt_sizes (co_sizes ng) (pl_dump d).
Definition sweeper_sizes (ng : nat) (s : @Sweeper V) : Prop :=
  match s with
  | SwMoC fsr d => moc_sizes ng fsr d | SwSn d x => sn_sizes ng d x | SwCdd d x o => sn_sizes ng d x /\ opt_sizes (co_sizes ng) o
  | SwMoC2D3D fsr d o _ => moc_sizes ng fsr d /\ in_sizes ng o | SwPlane d => plane_sizes ng d
  end.
Definition cu_sizes (ng : nat) (c : @CuData V) : Prop := forall ig s, ig < ng -> In s surfaces -> filling (cu_dims c) (cu_cur c ig s).
Definition solver_sizes (ng : nat) (s : @Solver V) : Prop :=
  match s with
  | SoEigen e sw => length (ei_ek e) = length (ei_k e) /\ length (ei_ep e) = length (ei_k e) /\ opt_sizes (cu_sizes ng) (ei_cm e) /\ sweeper_sizes ng sw
  | SoFixed sw => sweeper_sizes ng sw
  | SoMC _ _ d => length (mc_pp d) = prod (mc_dims d) /\ length (mc_pps d) = prod (mc_dims d) /\
      forall ig, ig < ng -> filling (mc_dims d) (mc_fl d ig) /\ filling (mc_dims d) (mc_fls d ig) /\ whole (mc_fs d ig) /\ whole (mc_fss d ig)
  end.

(** ** The names in the file *)
Definition sweeper_rel (lk : list (list str)) (ng : nat) (s : @Sweeper V) : list (list str) :=
  match s with
  | SwMoC fsr _ => moc_rel ng fsr | SwSn _ _ => sn_rel ng | SwCdd _ _ o => cdd_rel ng o | SwMoC2D3D fsr _ o _ => moc2_rel ng fsr o | SwPlane d => plane_a ng d ++ lk ++ plane_b ng d
  end.
Definition solver_rel (lk : list (list str)) (ng : nat) (s : @Solver V) : list (list str) :=
  match s with
  | SoEigen e sw => within_group (nm "convergence") co4 ++ ([[nm "ng"]; [nm "eubounds"]] ++ sweeper_rel lk ng sw) ++ match ei_cm e with Some _ => cu_rel ng | None => [] end
  | SoFixed sw => [[nm "ng"]; [nm "eubounds"]] ++ sweeper_rel lk ng sw
  | SoMC _ _ _ => mc_rel ng
  end.
Definition driver_rel : list (list str) := [[nm "input_file"]; [nm "git_sha1"]].
(** All names: those of the 2D3D sweeper include what is in the linked groups. *)
Definition file_names (ng : nat) (s : @Solver V) : list (list str) := solver_rel (xs_rel ng ++ aq_rel) ng s ++ driver_rel.
Definition two_links : list (list str) := [[nm "xsmesh"]; [nm "ang_quad"]].

(** ** All paths differ *)
Definition sweeper_heads : list str := [nm "Sn"; nm "xsmesh"; nm "ang_quad"; nm "flux"; nm "fsr_flux"; nm "pin_powers"; nm "pin_powers_2d"; nm "alpha_x"; nm "alpha_y"; nm "beta"; nm "correction_residual"; nm "MoC"; nm "SnResid"; nm "moc_flux"; nm "transverse_leakage"].
Ltac sub := eapply headed_incl; [|intros ? ?HI; cbv [moc_heads sn_heads co_heads sweeper_heads In] in *; tauto].
Lemma opt_co_headed : forall ng o, headed (@opt_co V ng o) co_heads.
Proof. intros ng [c|]; [apply co_headed|intros p []]. Qed.
Lemma opt_co_nodup : forall ng o, NoDup (@opt_co V ng o).
Proof. intros ng [c|]; [apply co_nodup|constructor]. Qed.
Lemma cdd_headed : forall ng o, headed (@cdd_rel V ng o) (sn_heads ++ co_heads).
Proof. intros ng o. apply headed_app; [eapply headed_incl; [apply sn_headed|intros; apply in_or_app; now left]|eapply headed_incl; [apply opt_co_headed|intros; apply in_or_app; now right]]. Qed.
Lemma cdd_nodup : forall ng o, NoDup (@cdd_rel V ng o).
Proof. intros ng o. apply nodup_app; [apply sn_nodup|apply opt_co_nodup|]. eapply apart_headed; [apply sn_headed|apply opt_co_headed|reflexivity]. Qed.
Lemma opt_in_headed : forall ng o, headed (@opt_in V ng o) (co_heads ++ [nm "xsmesh"]).
Proof. intros ng [[c x]|]; [|intros p []]. apply headed_app; [eapply headed_incl; [apply co_headed|intros; apply in_or_app; now left]|eapply headed_incl; [apply xs_headed|intros; apply in_or_app; now right]]. Qed.
Lemma opt_in_nodup : forall ng o, NoDup (@opt_in V ng o).
Proof. intros ng [[c x]|]; [|constructor]. apply nodup_app; [apply co_nodup|apply xs_nodup|]. eapply apart_headed; [apply co_headed|apply xs_headed|reflexivity]. Qed.
Lemma moc2_headed : forall ng fsr o, headed (@moc2_rel V ng fsr o) (moc_heads ++ co_heads ++ [nm "xsmesh"] ++ [nm "correction_residual"]).
Proof.
  intros ng fsr o. apply headed_app; [eapply headed_incl; [apply moc_headed|intros; apply in_or_app; now left]|]. apply headed_app; [eapply headed_incl; [apply opt_in_headed|intros s H; apply in_or_app; right; rewrite app_assoc; apply in_or_app; now left]|].
  eapply headed_incl; [apply headed_group|intros s H; do 3 (apply in_or_app; right); exact H].
Qed.
Lemma moc2_nodup : forall ng fsr o, NoDup (@moc2_rel V ng fsr o).
Proof.
  intros ng fsr o. destruct (re_nodup ng) as [R1 R2]. apply nodup_app; [apply moc_nodup| |].
  - apply nodup_app; [apply opt_in_nodup|now apply nodup_group|]. eapply apart_headed; [apply opt_in_headed|apply headed_group|reflexivity].
  - eapply (apart_headed _ _ _ ((co_heads ++ [nm "xsmesh"]) ++ [nm "correction_residual"])); [apply moc_headed| |reflexivity].
    apply headed_app; [eapply headed_incl; [apply opt_in_headed|intros; apply in_or_app; now left]|eapply headed_incl; [apply headed_group|intros; apply in_or_app; now right]].
Qed.
Lemma plane_b_headed : forall ng d, headed (@plane_b V ng d) ([nm "MoC"; nm "SnResid"; nm "moc_flux"; nm "transverse_leakage"] ++ co_heads).
Proof. intros ng d. unfold plane_b. repeat apply headed_app; (eapply headed_incl; [first [apply headed_group|apply opt_co_headed]|cbv [co_heads In app]; tauto]). Qed.
Lemma nums_nodup : forall (F : nat -> nat) ng, (forall a b, F a = F b -> a = b) -> NoDup (map (fun g => [num3 (F g)]) (seq 0 ng)) /\ ~ In [] (map (fun g => [num3 (F g)]) (seq 0 ng)).
Proof. intros F ng H. split; [apply nodup_fam; intros a b E; injection E as E; apply num3_inj in E; auto|]. intros I. apply in_map_iff in I. destruct I as (y & E & _). discriminate. Qed.
Lemma plane_b_nodup : forall ng d, NoDup (@plane_b V ng d).
Proof.
  intros ng d. unfold plane_b. destruct (nums_nodup (fun g => g) ng ltac:(auto)) as [N1 N2]. destruct (nums_nodup (fun g => g + 1) ng ltac:(cbv beta; intros; lia)) as [M1 M2].
  assert (Q1 : headed (opt_co ng (pl_dump d)) co_heads) by apply opt_co_headed.
  assert (Q2 : headed (within_group (nm "transverse_leakage") (map (fun g => [num3 g]) (seq 0 ng)) ++ opt_co ng (pl_dump d)) (nm "transverse_leakage" :: co_heads)).
  { apply headed_app; (eapply headed_incl; [first [apply headed_group|apply opt_co_headed]|cbv [co_heads In app]; tauto]). }
  assert (Q3 : headed (within_group (nm "moc_flux") (map (fun ig => [num3 (ig + 1)]) (seq 0 ng)) ++ within_group (nm "transverse_leakage") (map (fun g => [num3 g]) (seq 0 ng)) ++ opt_co ng (pl_dump d)) (nm "moc_flux" :: nm "transverse_leakage" :: co_heads)).
  { repeat apply headed_app; (eapply headed_incl; [first [apply headed_group|apply opt_co_headed]|cbv [co_heads In app]; tauto]). }
  assert (Q4 : headed (within_group (nm "SnResid") (map (fun g => [num3 g]) (seq 0 ng)) ++ within_group (nm "moc_flux") (map (fun ig => [num3 (ig + 1)]) (seq 0 ng)) ++ within_group (nm "transverse_leakage") (map (fun g => [num3 g]) (seq 0 ng)) ++ opt_co ng (pl_dump d)) (nm "SnResid" :: nm "moc_flux" :: nm "transverse_leakage" :: co_heads)).
  { repeat apply headed_app; (eapply headed_incl; [first [apply headed_group|apply opt_co_headed]|cbv [co_heads In app]; tauto]). }
  apply nodup_app; [apply nodup_group; [apply moc2_nodup|eapply headed_nonempty, moc2_headed]| |eapply apart_headed; [apply headed_group|exact Q4|reflexivity]].
  apply nodup_app; [now apply nodup_group| |eapply apart_headed; [apply headed_group|exact Q3|reflexivity]].
  apply nodup_app; [now apply nodup_group| |eapply apart_headed; [apply headed_group|exact Q2|reflexivity]].
  apply nodup_app; [now apply nodup_group|apply opt_co_nodup|eapply apart_headed; [apply headed_group|exact Q1|reflexivity]].
Qed.
Definition two_heads : list str := [nm "xsmesh"; nm "ang_quad"].
Lemma plane_a_headed : forall ng d, headed (@plane_a V ng d) [nm "Sn"]. Proof. intros. apply headed_group. Qed.
Lemma sweeper_headed : forall lk ng s, headed lk two_heads -> headed (sweeper_rel lk ng s) sweeper_heads.
Proof.
  intros lk ng s Hl. destruct s as [fsr d|d x|d x o|fsr d o re|d]; cbn [sweeper_rel].
  - eapply headed_incl; [apply moc_headed|cbv [moc_heads sweeper_heads In]; tauto].
  - eapply headed_incl; [apply sn_headed|cbv [sn_heads sweeper_heads In]; tauto].
  - eapply headed_incl; [apply cdd_headed|cbv [sn_heads co_heads sweeper_heads In app]; tauto].
  - eapply headed_incl; [apply moc2_headed|cbv [moc_heads co_heads sweeper_heads In app]; tauto].
  - apply headed_app; [eapply headed_incl; [apply plane_a_headed|cbv [sweeper_heads In]; tauto]|]. apply headed_app; [eapply headed_incl; [exact Hl|cbv [two_heads sweeper_heads In]; tauto]|]. eapply headed_incl; [apply plane_b_headed|cbv [co_heads sweeper_heads In app]; tauto].
Qed.
Lemma sweeper_nodup : forall lk ng s, headed lk two_heads -> NoDup lk -> NoDup (sweeper_rel lk ng s).
Proof.
  intros lk ng s Hl Nl. destruct s as [fsr d|d x|d x o|fsr d o re|d]; cbn [sweeper_rel]; [apply moc_nodup|apply sn_nodup|apply cdd_nodup|apply moc2_nodup|].
  assert (Hb : headed (lk ++ plane_b ng d) (two_heads ++ [nm "MoC"; nm "SnResid"; nm "moc_flux"; nm "transverse_leakage"] ++ co_heads)).
  { apply headed_app; [eapply headed_incl; [exact Hl|intros; apply in_or_app; now left]|eapply headed_incl; [apply plane_b_headed|intros; apply in_or_app; now right]]. }
  apply nodup_app; [apply nodup_group; [apply cdd_nodup|eapply headed_nonempty, cdd_headed]| |eapply apart_headed; [apply plane_a_headed|exact Hb|reflexivity]].
  apply nodup_app; [exact Nl|apply plane_b_nodup|eapply apart_headed; [exact Hl|apply plane_b_headed|reflexivity]].
Qed.
Lemma fss_headed : forall lk ng s, headed lk two_heads -> headed ([[nm "ng"]; [nm "eubounds"]] ++ sweeper_rel lk ng s) (nm "ng" :: nm "eubounds" :: sweeper_heads).
Proof. intros lk ng s Hl. apply headed_app; [intros p [<-|[<-|[]]]; eexists _, _; (split; [reflexivity|cbn [In]; tauto])|]. eapply headed_incl; [now apply sweeper_headed|cbn [In]; tauto]. Qed.
Lemma fss_nodup : forall lk ng s, headed lk two_heads -> NoDup lk -> NoDup ([[nm "ng"]; [nm "eubounds"]] ++ sweeper_rel lk ng s).
Proof.
  intros lk ng s Hl Nl. apply nodup_app; [apply (nodup_singles [nm "ng"; nm "eubounds"]); reflexivity|now apply sweeper_nodup|]. eapply (apart_headed _ _ [nm "ng"; nm "eubounds"]); [apply (headed_singles [nm "ng"; nm "eubounds"])|now apply sweeper_headed|reflexivity].
Qed.
Lemma tal_nodup : forall ng, NoDup (tal_in ng) /\ ~ In [] (tal_in ng).
Proof. intros ng. unfold tal_in. split; [|clash]. apply nodup_flat; [apply seq_NoDup| |intros x y _ _ N p P Q; clash]. intros a _. repeat constructor; clash. Qed.
Definition mc_heads : list str := histories ++ [nm "seed"; nm "ng"; nm "eubounds"; nm "flux"; nm "fsr_flux"; nm "fsr_flux_col"; nm "pin_power"; nm "pin_power_stdev"].
Lemma mc_headed : forall ng, headed (mc_rel ng) mc_heads.
Proof.
  intros ng. unfold mc_rel, mc_heads. apply headed_app; [eapply headed_incl; [apply headed_singles|intros; apply in_or_app; now left]|]. intros p [<-|I]; [exists (nm "seed"), []; split; [reflexivity|apply in_or_app; right; now left]|].
  assert (H : headed (pusher_rel ng) [nm "ng"; nm "eubounds"; nm "flux"; nm "fsr_flux"; nm "fsr_flux_col"; nm "pin_power"; nm "pin_power_stdev"]).
  { unfold pusher_rel. apply headed_app; [hd|]. do 3 (apply headed_app; [eapply headed_incl; [apply headed_group|cbn [In]; tauto]|]). hd. }
  destruct (H p I) as (s & r & E & S). exists s, r. split; [exact E|]. apply in_or_app. right. right. exact S.
Qed.
Lemma mc_nodup : forall ng, NoDup (mc_rel ng).
Proof.
  intros ng. destruct (tal_nodup ng) as [T1 T2]. unfold mc_rel, pusher_rel.
  set (l5 := [[nm "pin_power"]; [nm "pin_power_stdev"]]). assert (H5 : headed l5 [nm "pin_power"; nm "pin_power_stdev"]) by (unfold l5; hd). assert (N5 : NoDup l5) by (apply (nodup_singles [nm "pin_power"; nm "pin_power_stdev"]); reflexivity). clearbody l5.
  set (l4 := within_group (nm "fsr_flux_col") (tal_in ng) ++ l5). assert (H4 : headed l4 [nm "fsr_flux_col"; nm "pin_power"; nm "pin_power_stdev"]) by (unfold l4; apply headed_app; (eapply headed_incl; [first [exact H5|apply headed_group]|cbn [In]; tauto])).
  assert (N4 : NoDup l4) by (unfold l4; apply nodup_app; [now apply nodup_group|exact N5|eapply apart_headed; [apply headed_group|exact H5|reflexivity]]). clearbody l4.
  set (l3 := within_group (nm "fsr_flux") (tal_in ng) ++ l4). assert (H3 : headed l3 [nm "fsr_flux"; nm "fsr_flux_col"; nm "pin_power"; nm "pin_power_stdev"]) by (unfold l3; apply headed_app; (eapply headed_incl; [first [exact H4|apply headed_group]|cbn [In]; tauto])).
  assert (N3 : NoDup l3) by (unfold l3; apply nodup_app; [now apply nodup_group|exact N4|eapply apart_headed; [apply headed_group|exact H4|reflexivity]]). clearbody l3.
  set (l2 := within_group (nm "flux") (tal_in ng) ++ l3). assert (H2 : headed l2 [nm "flux"; nm "fsr_flux"; nm "fsr_flux_col"; nm "pin_power"; nm "pin_power_stdev"]) by (unfold l2; apply headed_app; (eapply headed_incl; [first [exact H3|apply headed_group]|cbn [In]; tauto])).
  assert (N2 : NoDup l2) by (unfold l2; apply nodup_app; [now apply nodup_group|exact N3|eapply apart_headed; [apply headed_group|exact H3|reflexivity]]). clearbody l2.
  change (map (fun s => [s]) histories ++ [nm "seed"] :: [[nm "ng"]; [nm "eubounds"]] ++ l2) with (map (fun s => [s]) (histories ++ [nm "seed"; nm "ng"; nm "eubounds"]) ++ l2).
  apply nodup_app; [apply nodup_singles; reflexivity|exact N2|eapply apart_headed; [apply headed_singles|exact H2|reflexivity]].
Qed.
Lemma file_nodup : forall lk ng s, headed lk two_heads -> NoDup lk -> NoDup (solver_rel lk ng s ++ driver_rel).
Proof.
  intros lk ng s Hl Nl. assert (Nd : NoDup driver_rel) by (apply (nodup_singles [nm "input_file"; nm "git_sha1"]); reflexivity). assert (Hd : headed driver_rel [nm "input_file"; nm "git_sha1"]) by apply (headed_singles [nm "input_file"; nm "git_sha1"]).
  destruct s as [e sw|sw|h sd d]; cbn [solver_rel].
  - destruct (cu_nodup ng) as [C1 C2]. set (cu := match ei_cm e with Some _ => cu_rel ng | None => [] end). assert (Nc : NoDup cu) by (unfold cu; destruct (ei_cm e); [now apply nodup_group|constructor]).
    assert (Hc : headed cu [nm "current"]) by (unfold cu; destruct (ei_cm e); [apply headed_group|intros p []]). clearbody cu.
    assert (N4 : NoDup co4) by (apply nodup_singles; reflexivity).
    assert (Hf : headed (([[nm "ng"]; [nm "eubounds"]] ++ sweeper_rel lk ng sw) ++ cu) ((nm "ng" :: nm "eubounds" :: sweeper_heads) ++ [nm "current"])).
    { apply headed_app; [eapply headed_incl; [now apply fss_headed|intros; apply in_or_app; now left]|eapply headed_incl; [exact Hc|intros; apply in_or_app; now right]]. }
    apply nodup_app; [|exact Nd|].
    + apply nodup_app; [apply nodup_group; [exact N4|eapply headed_nonempty, headed_singles]| |eapply apart_headed; [apply headed_group|exact Hf|reflexivity]]. apply nodup_app; [now apply fss_nodup|exact Nc|eapply apart_headed; [now apply fss_headed|exact Hc|reflexivity]].
    + eapply (apart_headed _ _ (nm "convergence" :: (nm "ng" :: nm "eubounds" :: sweeper_heads) ++ [nm "current"])); [|exact Hd|reflexivity]. apply headed_app; [eapply headed_incl; [apply headed_group|intros s [<-|[]]; now left]|eapply headed_incl; [exact Hf|intros; now right]].
  - apply nodup_app; [now apply fss_nodup|exact Nd|eapply apart_headed; [now apply fss_headed|exact Hd|reflexivity]].
  - apply nodup_app; [apply mc_nodup|exact Nd|eapply apart_headed; [apply mc_headed|exact Hd|reflexivity]].
Qed.

(** ** The calls *)
Definition driver_out (input sha : V) : list Call := [dat [] [nm "input_file"] (WStr input); dat [] [nm "git_sha1"] (WStr sha)].
Definition file_calls ng ngv b input sha s : list Call := solver_out [] ng ngv b s ++ driver_out input sha.
Lemma results_calls : forall debug ng ngv b input sha s, results_file zero debug ng ngv b input sha s = calls zero debug (file_calls ng ngv b input sha s) (HGroup []).
Proof. reflexivity. Qed.
Lemma sweeper_paths : forall ng s, rel [] (sweeper_out [] ng s) (sweeper_rel two_links ng s).
Proof.
  intros ng [fsr d|d x|d x o|fsr d o re|d]; cbn [sweeper_out sweeper_rel]; [apply moc_paths|apply sn_paths|apply cdd_paths|apply moc2_paths|]. rewrite plane_split. apply rel_app; [apply plane_a_paths|]. apply rel_app; [reflexivity|apply plane_b_paths].
Qed.
Lemma file_paths : forall ng ngv b input sha s, map cpath (file_calls ng ngv b input sha s) = solver_rel two_links ng s ++ driver_rel.
Proof.
  intros ng ngv b input sha s. enough (H : rel [] (file_calls ng ngv b input sha s) (solver_rel two_links ng s ++ driver_rel)) by (unfold rel in H; rewrite H; apply map_id).
  apply rel_app; [|reflexivity]. destruct s as [e sw|sw|h sd d]; cbn [solver_out solver_rel].
  - apply (rel_app [] (_ :: _ :: _ :: _ :: _ :: _ :: [])); [reflexivity|]. apply rel_app; [apply rel_cons; [reflexivity|]; apply rel_cons; [reflexivity|]; apply sweeper_paths|]. destruct (ei_cm e); [apply cu_paths|apply rel_nil].
  - apply rel_cons; [reflexivity|]. apply rel_cons; [reflexivity|]. apply sweeper_paths.
  - apply mc_paths.
Qed.
Lemma file_parents : forall ng ngv b input sha s, parents [] (file_calls ng ngv b input sha s).
Proof.
  intros ng ngv b input sha s. apply parents_app; [destruct s; [apply eigen_parents|apply fss_parents|apply mc_parents]|]. split; [apply (par_path _ _ [] (nm "input_file")); [reflexivity|now left]|]. split; [apply (par_path _ _ [] (nm "git_sha1")); [reflexivity|now left]|exact I].
Qed.
(** Links: only those of the 2D3D sweeper. *)
Definition plain (l : list Call) : Prop := forall a b, ~ In (CLink a b) l.
Lemma plain_app : forall a b, plain a -> plain b -> plain (a ++ b).
Proof. intros a b A B x y I. apply in_app_iff in I. destruct I as [I|I]; [exact (A _ _ I)|exact (B _ _ I)]. Qed.
Ltac pl := intros ? ? I; cbv zeta in I; ins; discriminate.
Lemma aq_plain : forall n q, plain (aq_out n q). Proof. intros n q. unfold aq_out. pl. Qed.
Lemma moc_plain : forall n ng fsr d, plain (moc_out n ng fsr d).
Proof. intros n ng fsr d. unfold moc_out. apply (plain_app [_]); [pl|]. apply plain_app; [destruct fsr; pl|]. apply plain_app; [pl|]. apply (plain_app [_]); [pl|apply aq_plain]. Qed.
Lemma xs_plain : forall n ng x, plain (xs_out n ng x). Proof. intros n ng x. unfold xs_out. apply plain_app; [pl|]. apply plain_app; pl. Qed.
Lemma sn_plain : forall n ng d x, plain (sn_out n ng d x).
Proof. intros n ng d x. unfold sn_out. apply (plain_app [_]); [pl|]. apply plain_app; [pl|]. apply plain_app; [pl|]. apply plain_app; [apply aq_plain|apply xs_plain]. Qed.
Lemma co_plain : forall n ng c, plain (co_out n ng c).
Proof. intros n ng c. unfold co_out. apply plain_app; [pl|]. intros a b I. apply in_flat_map in I. destruct I as (g & _ & I). apply in_app_iff in I. destruct I as [I|I]; ins; discriminate. Qed.
Lemma cdd_plain : forall n ng d x o, plain (cdd_out n ng d x o).
Proof. intros n ng d x o. apply plain_app; [apply sn_plain|]. destruct o; [apply co_plain|intros ? ? []]. Qed.
Lemma moc2_plain : forall n ng fsr d o re, plain (moc2d3d_out n ng fsr d o re).
Proof. intros n ng fsr d o re. apply plain_app; [apply moc_plain|]. apply plain_app; [destruct o as [[c x]|]; [apply plain_app; [apply co_plain|apply xs_plain]|intros ? ? []]|]. apply (plain_app [_]); pl. Qed.
Lemma plane_a_plain : forall ng d, plain (plane_ca ng d). Proof. intros ng d. apply (plain_app [_]); [pl|apply cdd_plain]. Qed.
Lemma plane_b_plain : forall ng d, plain (plane_cb ng d).
Proof.
  intros ng d. unfold plane_cb. apply plain_app; [apply (plain_app [_]); [pl|apply moc2_plain]|]. do 3 (apply plain_app; [apply (plain_app [_]); pl|]). destruct (pl_dump d); [apply co_plain|intros ? ? []].
Qed.
Lemma cu_plain : forall n ng c, plain (cu_out n ng c).
Proof. intros n ng c. unfold cu_out. apply (plain_app [_]); [pl|]. apply (plain_app [_]); [pl|]. intros a b I. apply in_flat_map in I. destruct I as (g & _ & [I|I]); ins; discriminate. Qed.
Lemma mc_plain : forall n ng ngv b h sd d, plain (mc_out n ng ngv b h sd d).
Proof.
  intros n ng ngv b h sd d. unfold mc_out. apply plain_app; [intros x y I; apply in_map_iff in I; destruct I as (z & E & _); discriminate|]. apply (plain_app [_]); [pl|]. rewrite pusher_same. unfold pusher_c. apply plain_app; [pl|]. do 3 (apply plain_app; [apply (plain_app [_]); pl|]). pl.
Qed.
Lemma plain_clears : forall l s, plain l -> plain s -> clears s l.
Proof. intros l s L H. apply clears_none; [exact L|]. intros c a b _ I. destruct (H a b I). Qed.
Lemma links_clear : forall s l hs, plain s -> plain l -> In [nm "Sn"; nm "xsmesh"] (map cpath s) -> In [nm "Sn"; nm "ang_quad"] (map cpath s) ->
  headed (map cpath l) hs -> unlike hs [nm "Sn"; nm "xsmesh"; nm "ang_quad"] = true -> clears s (plane_links ++ l).
Proof.
  intros s l hs Ps Pl X A H U. apply clears_app.
  - split; [split; [intros a b I; destruct (Ps a b I)|intros a b E; injection E as <- <-; split; [exact X|intros [r E]; discriminate]]|]. split; [|exact I].
    split; [intros a b I; apply in_app_iff in I; destruct I as [I|[I|[]]]; [destruct (Ps a b I)|injection I as <- <-; split; intros [r E]; discriminate]|]. intros a b E. injection E as <- <-. split; [rewrite map_app; apply in_or_app; now left|intros [r E]; discriminate].
  - apply clears_none; [exact Pl|]. intros c a b C I. apply in_app_iff in I. destruct I as [I|I]; [destruct (Ps a b I)|]. destruct (H (cpath c) (in_map cpath _ _ C)) as (u & r & E & Iu). unfold unlike in U. rewrite forallb_forall in U. specialize (U u Iu). rewrite negb_true_iff in U.
    assert (D : forall v, In v [nm "Sn"; nm "xsmesh"; nm "ang_quad"] -> u <> v) by (intros v Iv ->; assert (T : existsb (hsame v) [nm "Sn"; nm "xsmesh"; nm "ang_quad"] = true) by (apply existsb_exists; exists v; split; [exact Iv|apply hsame_refl]); congruence).
    rewrite E. destruct I as [I|[I|[]]]; injection I as <- <-; split; intros [t Et]; injection Et as Et _; revert Et; apply D; cbn [In]; tauto.
Qed.
Lemma sn_linked : forall ng, In [nm "xsmesh"] (sn_rel ng) /\ In [nm "ang_quad"] (sn_rel ng).
Proof. intros ng. unfold sn_rel. split; right; apply in_or_app; right; apply in_or_app; right; apply in_or_app; [right; now left|left; now left]. Qed.
Lemma plane_linked : forall ng d, In [nm "Sn"; nm "xsmesh"] (@plane_a V ng d) /\ In [nm "Sn"; nm "ang_quad"] (@plane_a V ng d).
Proof. intros ng d. destruct (sn_linked ng) as [A B]. split; right; apply in_map; apply in_or_app; left; assumption. Qed.
Lemma sweeper_clears : forall ng sw pre post hs, plain pre -> plain post -> headed (map cpath post) hs -> unlike hs [nm "Sn"; nm "xsmesh"; nm "ang_quad"] = true -> clears [] (pre ++ sweeper_out [] ng sw ++ post).
Proof.
  intros ng sw pre post hs P Q H U. assert (E : plain []) by (intros ? ? []). destruct sw as [fsr d|d x|d x o|fsr d o re|d]; cbn [sweeper_out];
    [apply plain_clears; [apply plain_app; [exact P|apply plain_app; [|exact Q]]|exact E]; auto using moc_plain, sn_plain, cdd_plain, moc2_plain..|].
  rewrite plane_split, <- !app_assoc. rewrite app_assoc. assert (Ps : plain (pre ++ plane_ca ng d)) by (apply plain_app; [exact P|apply plane_a_plain]). apply clears_app; [now apply plain_clears|]. cbn [app].
  assert (Ep : map cpath (plane_ca ng d) = plane_a ng d) by (pose proof (plane_a_paths ng d) as R; unfold rel in R; rewrite R; apply map_id). destruct (plane_linked ng d) as [A B].
  apply (links_clear _ _ (([nm "MoC"; nm "SnResid"; nm "moc_flux"; nm "transverse_leakage"] ++ co_heads) ++ hs)); auto.
  - apply plain_app; [apply plane_b_plain|exact Q].
  - rewrite map_app, Ep. apply in_or_app. now right.
  - rewrite map_app, Ep. apply in_or_app. now right.
  - rewrite map_app. apply headed_app; [|eapply headed_incl; [exact H|intros; apply in_or_app; now right]]. eapply headed_incl; [|intros; apply in_or_app; left; eassumption]. pose proof (plane_b_paths ng d) as R. unfold rel in R. rewrite R. replace (map (app []) (plane_b ng d)) with (plane_b ng d) by (symmetry; apply map_id). apply plane_b_headed.
Qed.
Lemma file_clears : forall ng ngv b input sha s, clears [] (file_calls ng ngv b input sha s).
Proof.
  intros ng ngv b input sha s. unfold file_calls. assert (Pd : plain (driver_out input sha)) by (unfold driver_out; pl). assert (Hd : headed (map cpath (driver_out input sha)) [nm "input_file"; nm "git_sha1"]) by apply (headed_singles [nm "input_file"; nm "git_sha1"]).
  destruct s as [e sw|sw|h sd d]; cbn [solver_out].
  - unfold eigen_out, fss_out. set (cv := [_; _; _; _; _; _]). set (cu := match ei_cm e with Some _ => _ | None => _ end). replace ((cv ++ (dat [] [nm "ng"] (WInt ngv) :: dat [] [nm "eubounds"] (WDims b [ng]) :: sweeper_out [] ng sw) ++ cu) ++ driver_out input sha) with ((cv ++ [dat [] [nm "ng"] (WInt ngv); dat [] [nm "eubounds"] (WDims b [ng])]) ++ sweeper_out [] ng sw ++ (cu ++ driver_out input sha)) by (rewrite <- !app_assoc; cbn [app]; rewrite <- ?app_assoc; reflexivity).
    apply (sweeper_clears _ _ _ _ (nm "current" :: [nm "input_file"; nm "git_sha1"])); [unfold cv; apply plain_app; pl| | |reflexivity].
    + apply plain_app; [|exact Pd]. unfold cu. destruct (ei_cm e); [apply cu_plain|intros ? ? []].
    + rewrite map_app. apply headed_app; [|eapply headed_incl; [exact Hd|intros; now right]]. unfold cu. destruct (ei_cm e) as [c|]; [|intros p []]. pose proof (cu_paths [] ng c) as R. unfold rel in R. rewrite R. replace (map (app []) (cu_rel ng)) with (cu_rel ng) by (symmetry; apply map_id). eapply headed_incl; [apply headed_group|intros u [<-|[]]; now left].
  - unfold fss_out. change ((dat [] [nm "ng"] (WInt ngv) :: dat [] [nm "eubounds"] (WDims b [ng]) :: sweeper_out [] ng sw) ++ driver_out input sha) with ([dat [] [nm "ng"] (WInt ngv); dat [] [nm "eubounds"] (WDims b [ng])] ++ sweeper_out [] ng sw ++ driver_out input sha).
    apply (sweeper_clears _ _ _ _ [nm "input_file"; nm "git_sha1"]); [pl|exact Pd|exact Hd|reflexivity].
  - apply plain_clears; [|intros ? ? []]. apply plain_app; [apply mc_plain|exact Pd].
Qed.
(** ** Sizes *)
Lemma fit_app : forall a b : list Call, Forall call_fits a -> Forall call_fits b -> Forall call_fits (a ++ b).
Proof. intros. apply Forall_app. auto. Qed.
Lemma fit_map : forall (F : nat -> Call) ng, (forall ig, ig < ng -> call_fits (F ig)) -> Forall call_fits (map F (seq 0 ng)).
Proof. intros F ng H. apply Forall_forall. intros c C. apply in_map_iff in C. destruct C as (ig & <- & I). apply in_seq in I. apply H. lia. Qed.
Lemma fit_flat : forall (F : nat -> list Call) ng, (forall ig, ig < ng -> Forall call_fits (F ig)) -> Forall call_fits (flat_map F (seq 0 ng)).
Proof. intros F ng H. apply Forall_forall. intros c C. apply in_flat_map in C. destruct C as (ig & I & C). apply in_seq in I. specialize (H ig ltac:(lia)). rewrite Forall_forall in H. auto. Qed.
Ltac fits := repeat (apply Forall_cons; [cbn [call_fits dat grp dat_abs grp_abs pay_fits]; try exact I|]); try apply Forall_nil.
Lemma aq_fit : forall n q, Forall call_fits (@aq_out V n q). Proof. intros n q. unfold aq_out. fits. Qed.
Lemma moc_fit : forall n ng fsr d, moc_sizes ng fsr d -> Forall call_fits (moc_out n ng fsr d).
Proof.
  intros n ng fsr d (A & B & C). unfold moc_out. constructor; [exact I|]. apply fit_app; [destruct fsr; [constructor; [exact I|apply fit_map; intros ig L; cbn; rewrite <- (B eq_refl ig L); lia]|constructor]|].
  apply fit_app; [apply fit_map; intros ig L; exact (A ig L)|]. constructor; [exact C|apply aq_fit].
Qed.
Lemma xs_fit : forall n ng x, xs_sizes ng x -> Forall call_fits (xs_out n ng x).
Proof.
  intros n ng x (A & B & C). unfold xs_out. apply fit_app; [fits; rewrite A; unfold prod; cbn [fold_right]; lia|]. apply fit_app; [apply fit_flat; intros ig L; destruct (C ig L) as (C1 & C2 & C3 & C4); fits; auto|]. fits. rewrite B. unfold prod. cbn [fold_right]. lia.
Qed.
Lemma sn_fit : forall n ng d x, sn_sizes ng d x -> Forall call_fits (sn_out n ng d x).
Proof.
  intros n ng d x ((A & _ & P) & P2 & X). unfold sn_out. constructor; [exact I|]. apply fit_app; [apply fit_map; intros ig L; exact (A ig L)|]. apply fit_app; [constructor; [exact P|]; constructor; [exact P2|constructor]|]. apply fit_app; [apply aq_fit|now apply xs_fit].
Qed.
Lemma co_fit : forall n ng c, co_sizes ng c -> Forall call_fits (co_out n ng c).
Proof.
  intros n ng c H. unfold co_out. apply fit_app; [fits|]. apply fit_flat. intros g G. apply fit_app; [fits|]. apply fit_flat. intros a A. destruct (H g a G A) as (H1 & H2 & H3). constructor; [exact H1|]. constructor; [exact H2|]. constructor; [exact H3|]. constructor.
Qed.
Lemma cdd_fit : forall n ng d x o, sn_sizes ng d x -> opt_sizes (co_sizes ng) o -> Forall call_fits (cdd_out n ng d x o).
Proof. intros n ng d x o A B. apply fit_app; [now apply sn_fit|]. destruct o; [now apply co_fit|constructor]. Qed.
Lemma moc2_fit : forall n ng fsr d o re, moc_sizes ng fsr d -> in_sizes ng o -> Forall call_fits (moc2d3d_out n ng fsr d o re).
Proof.
  intros n ng fsr d o re A B. apply fit_app; [now apply moc_fit|]. apply fit_app; [destruct o as [[c x]|]; [destruct B; apply fit_app; [now apply co_fit|now apply xs_fit]|constructor]|]. constructor; [exact I|]. apply fit_flat. intros ig _. fits.
Qed.
Lemma plane_fit : forall ng d, plane_sizes ng d -> Forall call_fits (plane_out [] ng d).
Proof.
  intros ng d (A & B & C & D & E & F). rewrite plane_split. apply fit_app; [constructor; [exact I|now apply cdd_fit]|]. apply fit_app; [fits|]. unfold plane_cb. apply fit_app; [constructor; [exact I|now apply moc2_fit]|].
  apply fit_app; [constructor; [exact I|apply fit_map; intros ig _; cbn; lia]|]. apply fit_app; [constructor; [exact I|apply fit_map; intros ig L; exact (proj1 (E ig L))]|]. apply fit_app; [constructor; [exact I|apply fit_map; intros ig L; exact (proj2 (E ig L))]|]. destruct (pl_dump d); [now apply co_fit|constructor].
Qed.
Lemma sweeper_fit : forall ng s, sweeper_sizes ng s -> Forall call_fits (sweeper_out [] ng s).
Proof. intros ng [fsr d|d x|d x o|fsr d o re|d] H; cbn [sweeper_out sweeper_sizes] in *; [now apply moc_fit|now apply sn_fit|now apply cdd_fit|now apply moc2_fit|now apply plane_fit]. Qed.
Lemma fss_fit : forall ng ngv b s, length b = ng -> sweeper_sizes ng s -> Forall call_fits (fss_out [] ng ngv b s).
Proof. intros ng ngv b s B H. unfold fss_out. constructor; [exact I|]. constructor; [cbn; lia|now apply sweeper_fit]. Qed.
Lemma file_fit : forall ng ngv b input sha s, length b = ng -> solver_sizes ng s -> Forall call_fits (file_calls ng ngv b input sha s).
Proof.
  intros ng ngv b input sha s B H. apply fit_app; [|unfold driver_out; fits]. destruct s as [e sw|sw|h sd d]; cbn [solver_out solver_sizes] in *; [|now apply fss_fit|].
  - destruct H as (H1 & H2 & H3 & H4). unfold eigen_out. apply fit_app; [fits; unfold prod; cbn [fold_right]; lia|]. apply fit_app; [now apply fss_fit|]. destruct (ei_cm e) as [c|]; [|constructor]. unfold cu_out. constructor; [exact I|]. constructor; [exact I|]. apply fit_flat. intros ig L. constructor; [exact I|].
    apply Forall_forall. intros x X. apply in_map_iff in X. destruct X as (s & <- & Is). exact (H3 ig s L Is).
  - destruct H as (H1 & H2 & H3). unfold mc_out. apply fit_app; [unfold histories; cbn [map]; fits|]. constructor; [exact I|]. rewrite pusher_same. unfold pusher_c. apply fit_app; [fits; unfold prod; cbn [fold_right]; lia|].
    do 3 (apply fit_app; [constructor; [exact I|apply fit_flat; intros ig L; destruct (H3 ig L) as (F1 & F2 & F3 & F4); fits; auto]|]). fits; auto.
Qed.

(** ** The file *)
Lemma file_made : forall debug ng ngv b input sha s, length b = ng -> solver_sizes ng s ->
  exists f, results_file zero debug ng ngv b input sha s = HOk f /\ Inv (file_calls ng ngv b input sha s) f.
Proof.
  intros debug ng ngv b input sha s B H. rewrite results_calls. destruct (calls_ok zero debug (file_calls ng ngv b input sha s) [] (HGroup []) inv_empty (file_fit _ _ _ _ _ _ B H)) as (f & E & I); [|apply file_parents|apply file_clears|exists f; split; [exact E|exact I]].
  cbn [app]. rewrite file_paths. apply file_nodup; [apply (headed_singles two_heads)|]. apply (nodup_singles two_heads). reflexivity.
Qed.
(** Every configuration of solver and sweeper gets its results written, with and without debug checks. *)
Theorem C201_complete : forall debug ng ngv bounds input sha s, length bounds = ng -> solver_sizes ng s -> exists f, results_file zero debug ng ngv bounds input sha s = HOk f.
Proof. intros debug ng ngv b input sha s B H. destruct (file_made debug ng ngv b input sha s B H) as (f & E & _). eauto. Qed.

Lemma linked_xs : forall ng d q, In (nm "Sn" :: nm "xsmesh" :: q) (@plane_a V ng d) <-> In (nm "xsmesh" :: q) (xs_rel ng).
Proof.
  intros ng d q. unfold plane_a. split.
  - intros [E|H]; [discriminate|]. apply in_map_iff in H. destruct H as (p & E & H). injection E as ->. apply in_app_iff in H. destruct H as [H|H].
    + unfold sn_rel in H. destruct H as [H|H]; [discriminate|]. apply in_app_iff in H. destruct H as [H|H]; [clash|]. apply in_app_iff in H. destruct H as [H|H]; [clash|]. apply in_app_iff in H. destruct H as [H|H]; [|exact H]. destruct (aq_headed _ H) as (s & r & E & [<-|[]]). discriminate.
    + destruct (opt_co_headed _ _ _ H) as (s & r & E & S). injection E as <- <-. cbv [co_heads In] in S. exfalso. destruct S as [S|[S|[S|[]]]]; discriminate.
  - intros H. right. apply in_map. apply in_or_app. left. right. apply in_or_app. right. apply in_or_app. right. apply in_or_app. now right.
Qed.
Lemma linked_aq : forall ng d q, In (nm "Sn" :: nm "ang_quad" :: q) (@plane_a V ng d) <-> In (nm "ang_quad" :: q) aq_rel.
Proof.
  intros ng d q. unfold plane_a. split.
  - intros [E|H]; [discriminate|]. apply in_map_iff in H. destruct H as (p & E & H). injection E as ->. apply in_app_iff in H. destruct H as [H|H].
    + unfold sn_rel in H. destruct H as [H|H]; [discriminate|]. apply in_app_iff in H. destruct H as [H|H]; [clash|]. apply in_app_iff in H. destruct H as [H|H]; [clash|]. apply in_app_iff in H. destruct H as [H|H]; [exact H|]. destruct (xs_headed _ _ H) as (s & r & E & [<-|[]]). discriminate.
    + destruct (opt_co_headed _ _ _ H) as (s & r & E & S). injection E as <- <-. cbv [co_heads In] in S. exfalso. destruct S as [S|[S|[S|[]]]]; discriminate.
  - intros H. right. apply in_map. apply in_or_app. left. right. apply in_or_app. right. apply in_or_app. right. apply in_or_app. now left.
Qed.
Definition of_plane (s : @Solver V) : option (@PlData V) := match s with SoEigen _ (SwPlane d) => Some d | SoFixed (SwPlane d) => Some d | _ => None end.
Lemma no_plane : forall lk lk' ng s, of_plane s = None -> solver_rel lk ng s = solver_rel lk' ng s.
Proof. intros lk lk' ng [e [| | | |]|[| | | |]|] H; try reflexivity; discriminate. Qed.
Lemma with_plane : forall lk ng s d p, of_plane s = Some d -> (In p (solver_rel lk ng s ++ driver_rel) <-> In p lk \/ In p (solver_rel [] ng s ++ driver_rel)).
Proof. intros lk ng [e [| | | |]|[| | | |]|] pd p H; try discriminate; injection H as <-; cbn [solver_rel sweeper_rel]; rewrite !in_app_iff; assert (Z : In p [] <-> False) by (cbn [In]; tauto); tauto. Qed.
Lemma plane_rest : forall lk ng s d p, of_plane s = Some d -> In p (plane_a ng d) -> In p (solver_rel lk ng s ++ driver_rel).
Proof. intros lk ng [e [| | | |]|[| | | |]|] pd p H I; try discriminate; injection H as <-; cbn [solver_rel sweeper_rel]; rewrite !in_app_iff; tauto. Qed.
Lemma rest_headed : forall ng s d, of_plane s = Some d -> forall p, In (nm "Sn" :: p) (solver_rel two_links ng s ++ driver_rel) -> In (nm "Sn" :: p) (plane_a ng d).
Proof.
  intros ng s d H p I. assert (X : forall e : list (list str), headed e [nm "convergence"] \/ headed e [nm "current"] -> ~ In (nm "Sn" :: p) e) by (intros e [He|He] Ie; destruct (He _ Ie) as (u & r & E & [<-|[]]); discriminate).
  assert (Y : ~ In (nm "Sn" :: p) (plane_b ng d)). { intros B. destruct (plane_b_headed _ _ _ B) as (u & r & E & S). injection E as <- <-. revert S. cbv [co_heads In app]. intros S. repeat destruct S as [S|S]; try discriminate; exact S. }
  destruct s as [e [| | | |]|[| | | |]|]; try discriminate; injection H as <-; cbn [solver_rel sweeper_rel] in I; apply in_app_iff in I; (destruct I as [I|I]; [|cbv [driver_rel In] in I; destruct I as [I|[I|[]]]; discriminate]).
  - apply in_app_iff in I. destruct I as [I|I]; [destruct (X _ (or_introl (headed_group _ _)) I)|]. apply in_app_iff in I. destruct I as [I|I]; [|exfalso; revert I; apply X; right; destruct (ei_cm e); [apply headed_group|intros q []]].
    apply in_app_iff in I. destruct I as [[I|[I|[]]]|I]; try discriminate. apply in_app_iff in I. destruct I as [I|I]; [exact I|]. apply in_app_iff in I. destruct I as [[I|[I|[]]]|I]; try discriminate. destruct (Y I).
  - apply in_app_iff in I. destruct I as [[I|[I|[]]]|I]; try discriminate. apply in_app_iff in I. destruct I as [I|I]; [exact I|]. apply in_app_iff in I. destruct I as [[I|[I|[]]]|I]; try discriminate. destruct (Y I).
Qed.
Lemma in_links : forall ng ngv b input sha s x y, In (CLink x y) (file_calls ng ngv b input sha s) -> (exists d, of_plane s = Some d) /\ (x = [nm "Sn"; nm "xsmesh"] /\ y = [nm "xsmesh"] \/ x = [nm "Sn"; nm "ang_quad"] /\ y = [nm "ang_quad"]).
Proof.
  intros ng ngv b input sha s x y I. unfold file_calls in I. apply in_app_iff in I. destruct I as [I|I]; [|unfold driver_out in I; ins; discriminate].
  assert (W : forall sw : @Sweeper V, In (CLink x y) (sweeper_out [] ng sw) -> (exists d, sw = SwPlane d) /\ (x = [nm "Sn"; nm "xsmesh"] /\ y = [nm "xsmesh"] \/ x = [nm "Sn"; nm "ang_quad"] /\ y = [nm "ang_quad"])).
  { intros [fsr d|d z|d z o|fsr d o re|d] J; cbn [sweeper_out] in J; [destruct (moc_plain _ _ _ _ _ _ J)|destruct (sn_plain _ _ _ _ _ _ J)|destruct (cdd_plain _ _ _ _ _ _ _ J)|destruct (moc2_plain _ _ _ _ _ _ _ _ J)|]. rewrite plane_split in J. split; [eauto|]. apply in_app_iff in J. destruct J as [J|J]; [destruct (plane_a_plain _ _ _ _ J)|]. apply in_app_iff in J. destruct J as [[J|[J|[]]]|J]; [injection J as <- <-; auto..|destruct (plane_b_plain _ _ _ _ J)]. }
  destruct s as [e sw|sw|h sd d]; cbn [solver_out] in I.
  - unfold eigen_out in I. apply in_app_iff in I. destruct I as [I|I]; [ins; discriminate|]. apply in_app_iff in I. destruct I as [I|I]; [|destruct (ei_cm e); [destruct (cu_plain _ _ _ _ _ I)|destruct I]]. unfold fss_out in I. destruct I as [I|[I|I]]; try discriminate. destruct (W sw I) as [[d ->] H]. split; [exists d; reflexivity|exact H].
  - unfold fss_out in I. destruct I as [I|[I|I]]; try discriminate. destruct (W sw I) as [[d ->] H]. split; [exists d; reflexivity|exact H].
  - destruct (mc_plain _ _ _ _ _ _ _ _ _ I).
Qed.
Lemma made_links : forall ng ngv b input sha s d, of_plane s = Some d -> In (CLink [nm "Sn"; nm "xsmesh"] [nm "xsmesh"]) (file_calls ng ngv b input sha s) /\ In (CLink [nm "Sn"; nm "ang_quad"] [nm "ang_quad"]) (file_calls ng ngv b input sha s).
Proof.
  intros ng ngv b input sha s d H. assert (W : In (CLink [nm "Sn"; nm "xsmesh"] [nm "xsmesh"]) (plane_out [] ng d) /\ In (CLink [nm "Sn"; nm "ang_quad"] [nm "ang_quad"]) (plane_out [] ng d)) by (rewrite plane_split; split; apply in_or_app; right; apply in_or_app; left; [now left|right; now left]).
  unfold file_calls. destruct s as [e [| | | |]|[| | | |]|]; try discriminate; injection H as <-; destruct W as [W1 W2]; split; apply in_or_app; left; cbn [solver_out].
  1, 2: unfold eigen_out; apply in_or_app; right; apply in_or_app; left; right; right; assumption.
  all: right; right; assumption.
Qed.
(** The names in the file are exactly those listed, each once. *)
Theorem C201_names : forall debug ng ngv bounds input sha s f, length bounds = ng -> solver_sizes ng s -> results_file zero debug ng ngv bounds input sha s = HOk f ->
  NoDup (file_names ng s) /\ forall p, look f p <> None <-> p = [] \/ In p (file_names ng s).
Proof.
  intros debug ng ngv b input sha s f B H E. destruct (file_made debug ng ngv b input sha s B H) as (f' & E' & I). rewrite E in E'. injection E' as <-. split.
  { apply file_nodup; [apply headed_app; (eapply headed_incl; [first [apply xs_headed|apply aq_headed]|cbv [two_heads In]; tauto])|]. apply nodup_app; [apply xs_nodup|apply aq_nodup|eapply apart_headed; [apply xs_headed|apply aq_headed|reflexivity]]. }
  intros p. pose proof (file_paths ng ngv b input sha s) as Ep. pose proof (i_there _ _ I) as T. pose proof (i_only _ _ I) as O. rewrite Ep in T. unfold file_names. destruct (of_plane s) as [d|] eqn:Ed.
  - destruct (made_links ng ngv b input sha s d Ed) as [L1 L2]. pose proof (i_link _ _ I _ _ L1) as K1. pose proof (i_link _ _ I _ _ L2) as K2. cbn [app] in K1, K2. rewrite (with_plane _ _ _ _ p Ed). split.
    + intros Hp. destruct (O p Hp) as [->|[Q|(x & y & Q & [r ->])]]; [now left| |].
      * rewrite Ep, (with_plane _ _ _ _ p Ed) in Q. right. destruct Q as [[<-|[<-|[]]]|Q]; [left; apply in_or_app; left; now left|left; apply in_or_app; right; now left|now right].
      * destruct (in_links _ _ _ _ _ _ _ _ Q) as [_ [[-> ->]|[-> ->]]]; cbn [app] in *; right; left; apply in_or_app; [left|right].
        -- apply (linked_xs ng d). apply (rest_headed ng s d Ed). rewrite K1 in Hp. destruct (O _ Hp) as [Z|[Z|(x & y & Z & [t Et])]]; [discriminate|now rewrite Ep in Z|]. destruct (in_links _ _ _ _ _ _ _ _ Z) as [_ [[-> ->]|[-> ->]]]; discriminate.
        -- apply (linked_aq ng d). apply (rest_headed ng s d Ed). rewrite K2 in Hp. destruct (O _ Hp) as [Z|[Z|(x & y & Z & [t Et])]]; [discriminate|now rewrite Ep in Z|]. destruct (in_links _ _ _ _ _ _ _ _ Z) as [_ [[-> ->]|[-> ->]]]; discriminate.
    + intros [->|[Q|Q]]; [destruct (i_root _ _ I) as [k ->]; discriminate| |apply T; apply (with_plane _ _ _ _ p Ed); now right]. apply in_app_iff in Q. destruct Q as [Q|Q].
      * destruct (xs_headed _ _ Q) as (u & r & -> & [<-|[]]). rewrite K1. apply T. apply (plane_rest _ _ _ d); [exact Ed|]. now apply linked_xs.
      * destruct (aq_headed _ Q) as (u & r & -> & [<-|[]]). rewrite K2. apply T. apply (plane_rest _ _ _ d); [exact Ed|]. now apply linked_aq.
  - rewrite (no_plane _ two_links _ _ Ed). split.
    + intros Hp. destruct (O p Hp) as [->|[Q|(x & y & Q & _)]]; [now left|right; now rewrite Ep in Q|]. destruct (in_links _ _ _ _ _ _ _ _ Q) as [[d Hd] _]. congruence.
    + intros [->|Q]; [destruct (i_root _ _ I) as [k ->]; discriminate|now apply T].
Qed.

(** ** What is found under the names *)
Definition stored (f : Node) (p : list str) (dims : list nat) (v : list V) : Prop := data_at f p = Some (dims, v).
Definition quadrature_there (f : Node) (n : list str) (q : @AqData V) : Prop :=
  let at_ s := n ++ [nm "ang_quad"; nm s] in
  stored f (at_ "n_polar"%string) [1] [aq_polar q] /\ stored f (at_ "n_azimuthal"%string) [1] [aq_azi q] /\
  stored f (at_ "alpha"%string) [length (aq_alpha q)] (aq_alpha q) /\ stored f (at_ "theta"%string) [length (aq_theta q)] (aq_theta q) /\
  stored f (at_ "omega_x"%string) [length (aq_ox q)] (aq_ox q) /\ stored f (at_ "omega_y"%string) [length (aq_oy q)] (aq_oy q) /\ stored f (at_ "omega_z"%string) [length (aq_oz q)] (aq_oz q) /\
  stored f (at_ "weight"%string) [length (aq_w q)] (aq_w q).
Definition moc_there (f : Node) (n : list str) (ng : nat) (fsr : bool) (d : @SwData V) : Prop :=
  (forall ig, ig < ng -> stored f (n ++ [nm "flux"; num3 (ig + 1)]) (sw_dims d) (sw_flux d ig)) /\
  (fsr = true -> forall ig, ig < ng -> stored f (n ++ [nm "fsr_flux"; num3 (ig + 1)]) [sw_nreg d; 1] (sw_fsr d ig)) /\
  stored f (n ++ [nm "pin_powers"]) (a_shape (sw_pow d)) (a_vals (sw_pow d)) /\ quadrature_there f n (sw_aq d).
Definition xs_there (f : Node) (n : list str) (ng : nat) (x : @XsData V) : Prop :=
  stored f (n ++ [nm "xsmesh"; nm "eubounds"]) [ng] (xd_bounds x) /\ stored f (n ++ [nm "xsmesh"; nm "xssc"]) [xd_nreg x; ng; ng] (xd_sc x) /\
  forall ig, ig < ng -> stored f (n ++ [nm "xsmesh"; nm "xstr"; dec ig]) (xd_dims x) (xd_tr x ig) /\ stored f (n ++ [nm "xsmesh"; nm "xsnf"; dec ig]) (xd_dims x) (xd_nf x ig) /\
    stored f (n ++ [nm "xsmesh"; nm "xsch"; dec ig]) (xd_dims x) (xd_ch x ig) /\ stored f (n ++ [nm "xsmesh"; nm "xsf"; dec ig]) (xd_dims x) (xd_f x ig).
Definition sn_there (f : Node) (n : list str) (ng : nat) (d : @SwData V) (x : @XsData V) : Prop :=
  (forall ig, ig < ng -> stored f (n ++ [nm "flux"; num3 (ig + 1)]) (sw_dims d) (sw_flux d ig)) /\
  stored f (n ++ [nm "pin_powers"]) (a_shape (sw_pow d)) (a_vals (sw_pow d)) /\ stored f (n ++ [nm "pin_powers_2d"]) (a_shape (sw_pow2 d)) (a_vals (sw_pow2 d)) /\
  quadrature_there f n (sw_aq d) /\ xs_there f n ng x.
(** Groups and angles of the correction factors are counted from nought, those of fluxes from one. *)
Definition corrections_there (f : Node) (n : list str) (ng : nat) (c : @CoData V) : Prop :=
  forall g a, g < ng -> a < co_nang c -> stored f (n ++ [nm "beta"; num3 g; num3 a]) (co_dims c) (a_vals (co_beta c g a)) /\
    stored f (n ++ [nm "alpha_x"; num3 g; num3 a]) (co_dims c) (a_vals (co_ax c g a)) /\ stored f (n ++ [nm "alpha_y"; num3 g; num3 a]) (co_dims c) (a_vals (co_ay c g a)).
Definition opt_there {A} (P : A -> Prop) (o : option A) : Prop := match o with Some x => P x | None => True end.
Definition residuals_there (f : Node) (n : list str) (ng : nat) (re : nat -> nat -> list V) : Prop :=
  forall ig, ig < ng -> forall j s, In (j, s) [(0, "alpha_x"%string); (1, "alpha_y"%string); (2, "beta"%string)] -> stored f (n ++ [nm "correction_residual"; dec (ig + 1); nm s]) [length (re ig j)] (re ig j).
Definition moc2_there (f : Node) (n : list str) (ng : nat) (fsr : bool) (d : @SwData V) (o : option (@CoData V * @XsData V)) (re : nat -> nat -> list V) : Prop :=
  moc_there f n ng fsr d /\ opt_there (fun y => corrections_there f n ng (fst y) /\ xs_there f n ng (snd y)) o /\ residuals_there f n ng re.
(** The 2D3D sweeper: its two sweepers in groups of their own, cross sections and quadrature of the Sn sweeper also at the top. *)
Definition plane_there (f : Node) (ng : nat) (d : @PlData V) : Prop :=
  sn_there f [nm "Sn"] ng (pl_sn d) (pl_xs d) /\ opt_there (corrections_there f [nm "Sn"] ng) (pl_sndump d) /\ moc2_there f [nm "MoC"] ng (pl_fsr d) (pl_moc d) (pl_inner d) (pl_re d) /\
  xs_there f [] ng (pl_xs d) /\ quadrature_there f [] (sw_aq (pl_sn d)) /\
  (forall g, g < ng -> stored f [nm "SnResid"; num3 g] [length (pl_resid d g)] (pl_resid d g) /\ stored f [nm "moc_flux"; num3 (g + 1)] (pl_dims d) (a_vals (pl_flux d g)) /\ stored f [nm "transverse_leakage"; num3 g] (pl_dims d) (pl_tl d g)) /\
  opt_there (corrections_there f [] ng) (pl_dump d).
Definition sweeper_there (f : Node) (ng : nat) (s : @Sweeper V) : Prop :=
  match s with
  | SwMoC fsr d => moc_there f [] ng fsr d | SwSn d x => sn_there f [] ng d x | SwCdd d x o => sn_there f [] ng d x /\ opt_there (corrections_there f [] ng) o
  | SwMoC2D3D fsr d o re => moc2_there f [] ng fsr d o re | SwPlane d => plane_there f ng d
  end.
Definition groups_there (f : Node) (ng : nat) (ngv : V) (b : list V) : Prop := stored f [nm "ng"] [1] [ngv] /\ stored f [nm "eubounds"] [ng] b.
Definition currents_there (f : Node) (ng : nat) (c : @CuData V) : Prop :=
  stored f [nm "current"; nm "source"] [] [cu_src c] /\ forall ig s, ig < ng -> In s surfaces -> stored f [nm "current"; dec (ig + 1); s] (cu_dims c) (a_vals (cu_cur c ig s)).
(** The abscissae of the convergence record are the times of the iterations once more. *)
Definition solver_there (f : Node) (ng : nat) (ngv : V) (b : list V) (s : @Solver V) : Prop :=
  groups_there f ng ngv b /\
  match s with
  | SoFixed sw => sweeper_there f ng sw
  | SoEigen e sw => sweeper_there f ng sw /\ opt_there (currents_there f ng) (ei_cm e) /\
      let at_ s := [nm "convergence"; nm s] in let dims := [length (ei_k e)] in
      stored f (at_ "k"%string) dims (ei_k e) /\ stored f (at_ "error_k"%string) dims (ei_ek e) /\ stored f (at_ "error_psi"%string) dims (ei_ep e) /\
      stored f (at_ "iteration_time"%string) [length (ei_times e)] (ei_times e) /\ stored f (at_ "abscissae"%string) [length (ei_times e)] (ei_times e)
  | SoMC h seed d =>
      (forall s, In s histories -> stored f [s] [length (h s)] (h s)) /\ stored f [nm "seed"] [1] [seed] /\
      stored f [nm "pin_power"] (mc_dims d) (mc_pp d) /\ stored f [nm "pin_power_stdev"] (mc_dims d) (mc_pps d) /\
      forall ig, ig < ng -> let g := num3 (ig + 1) in let gs := num3 (ig + 1) ++ nm "_stdev" in
        stored f [nm "flux"; g] (mc_dims d) (a_vals (mc_fl d ig)) /\ stored f [nm "flux"; gs] (mc_dims d) (a_vals (mc_fls d ig)) /\
        stored f [nm "fsr_flux"; g] (a_shape (mc_fs d ig)) (a_vals (mc_fs d ig)) /\ stored f [nm "fsr_flux"; gs] (a_shape (mc_fss d ig)) (a_vals (mc_fss d ig)) /\
        stored f [nm "fsr_flux_col"; g] [length (mc_co d ig)] (mc_co d ig) /\ stored f [nm "fsr_flux_col"; gs] [length (mc_cos d ig)] (mc_cos d ig)
  end.

Lemma found_in : forall (l : list Call) f m p w q dims v, Inv l f -> In (CData m p w) l -> resolve (mkHN m H_WRITE) p = q -> pay_dims w = dims -> pay_vals w = v -> stored f q dims v.
Proof. intros l f m p w q dims v I A <- <- <-. exact (i_data _ _ I _ _ _ A). Qed.
Ltac fin g a := lazymatch goal with
  | |- In _ (_ ++ _) => apply in_or_app; ((left; fin g a) + (right; fin g a))
  | |- In _ (_ :: _) => (left; reflexivity) + (right; fin g a)
  | |- In _ (map _ _) => apply in_map_iff; exists g; split; [reflexivity|apply in_seq; lia]
  | |- In _ (flat_map _ _) => apply in_flat_map; ((exists g; split; [apply in_seq; lia|cbv zeta; fin g a]) + (exists a; split; [apply in_seq; lia|cbv zeta; fin g a]))
  end.
Ltac got Inc g a := eapply found_in; [eassumption|apply Inc; fin g a|solve [cbn [resolve hp_abs hp_names hn_at]; rewrite <- ?app_assoc; reflexivity]|reflexivity|reflexivity].
Section Parts.
Variables (l : list Call) (f : Node) (II : Inv l f).
Lemma aq_got : forall n q, incl (aq_out n q) l -> quadrature_there f n q.
Proof. intros n q Inc. unfold aq_out in Inc. unfold quadrature_there. cbv zeta in *. repeat split; got Inc 0 0. Qed.
Lemma moc_got : forall n ng fsr d, incl (moc_out n ng fsr d) l -> moc_there f n ng fsr d.
Proof.
  intros n ng fsr d Inc. unfold moc_out in Inc. split; [|split; [|split]].
  - intros ig L. eapply found_in; [eassumption|apply Inc; right; apply in_or_app; right; apply in_or_app; left; apply in_map_iff; exists ig; split; [reflexivity|apply in_seq; lia]|reflexivity..].
  - intros -> ig L. got Inc ig ig.
  - eapply found_in; [eassumption|apply Inc; right; apply in_or_app; right; apply in_or_app; right; left; reflexivity|reflexivity..].
  - apply aq_got. intros c C. apply Inc. right. apply in_or_app. right. apply in_or_app. right. now right.
Qed.
Lemma xs_got : forall n ng x, incl (xs_out n ng x) l -> xs_there f n ng x.
Proof.
  intros n ng x Inc. unfold xs_out in Inc. cbv zeta in Inc. split; [|split].
  - eapply found_in; [eassumption|apply Inc; apply in_or_app; left; do 5 right; left; reflexivity|cbn [resolve hp_abs hp_names hn_at]; rewrite <- ?app_assoc; reflexivity|reflexivity..].
  - eapply found_in; [eassumption|apply Inc; apply in_or_app; right; apply in_or_app; right; left; reflexivity|cbn [resolve hp_abs hp_names hn_at]; rewrite <- ?app_assoc; reflexivity|reflexivity..].
  - intros ig L. repeat split; got Inc ig ig.
Qed.
Lemma sn_got : forall n ng d x, incl (sn_out n ng d x) l -> sn_there f n ng d x.
Proof.
  intros n ng d x Inc. unfold sn_out in Inc. split; [|split; [|split; [|split]]].
  - intros ig L. eapply found_in; [eassumption|apply Inc; right; apply in_or_app; left; apply in_map_iff; exists ig; split; [reflexivity|apply in_seq; lia]|reflexivity..].
  - eapply found_in; [eassumption|apply Inc; right; apply in_or_app; right; left; reflexivity|reflexivity..].
  - eapply found_in; [eassumption|apply Inc; right; apply in_or_app; right; right; left; reflexivity|reflexivity..].
  - apply aq_got. intros c C. apply Inc. right. apply in_or_app. right. apply in_or_app. right. apply in_or_app. now left.
  - apply xs_got. intros c C. apply Inc. right. apply in_or_app. right. apply in_or_app. right. apply in_or_app. now right.
Qed.
Lemma co_got : forall n ng c, incl (co_out n ng c) l -> corrections_there f n ng c.
Proof.
  intros n ng c Inc g a G A. unfold co_out in Inc.
  assert (X : forall m p w, In (CData m p w) [dat (n ++ [nm "beta"; num3 g]) [num3 a] (WArrD (co_beta c g a) (co_dims c)); dat (n ++ [nm "alpha_x"; num3 g]) [num3 a] (WArrD (co_ax c g a) (co_dims c)); dat (n ++ [nm "alpha_y"; num3 g]) [num3 a] (WArrD (co_ay c g a) (co_dims c))] -> In (CData m p w) l).
  { intros m p w H. apply Inc. apply in_or_app. right. apply in_flat_map. exists g. split; [apply in_seq; lia|]. apply in_or_app. right. apply in_flat_map. exists a. split; [apply in_seq; lia|exact H]. }
  repeat split; (eapply found_in; [eassumption|apply X; fin g a|solve [cbn [resolve hp_abs hp_names hn_at]; rewrite <- ?app_assoc; reflexivity]|reflexivity|reflexivity]).
Qed.
Lemma cdd_got : forall n ng d x o, incl (cdd_out n ng d x o) l -> sn_there f n ng d x /\ opt_there (corrections_there f n ng) o.
Proof.
  intros n ng d x o Inc. unfold cdd_out in Inc. split; [apply sn_got; intros c C; apply Inc, in_or_app; now left|]. destruct o as [c|]; [|exact I]. apply co_got. intros y Y. apply Inc, in_or_app. now right.
Qed.
Lemma moc2_got : forall n ng fsr d o re, incl (moc2d3d_out n ng fsr d o re) l -> moc2_there f n ng fsr d o re.
Proof.
  intros n ng fsr d o re Inc. unfold moc2d3d_out in Inc. split; [apply moc_got; intros c C; apply Inc, in_or_app; now left|]. split.
  - destruct o as [[c x]|]; [|exact I]. split; [apply co_got|apply xs_got]; intros y Y; apply Inc, in_or_app; right; apply in_or_app; left; apply in_or_app; [now left|now right].
  - intros ig L j s Js. assert (X : In (dat (n ++ [nm "correction_residual"; dec (ig + 1)]) [nm s] (WVec (re ig j))) l).
    { apply Inc. apply in_or_app. right. apply in_or_app. right. right. apply in_flat_map. exists ig. split; [apply in_seq; lia|]. cbv zeta. destruct Js as [E|[E|[E|[]]]]; injection E as <- <-; cbn [In]; tauto. }
    eapply found_in; [eassumption|exact X|cbn [resolve hp_abs hp_names hn_at]; rewrite <- ?app_assoc; reflexivity|reflexivity..].
Qed.
Lemma plane_got : forall ng d, incl (plane_out [] ng d) l -> plane_there f ng d.
Proof.
  intros ng d Inc. rewrite plane_split in Inc. assert (Sn : sn_there f [nm "Sn"] ng (pl_sn d) (pl_xs d) /\ opt_there (corrections_there f [nm "Sn"] ng) (pl_sndump d)) by (apply cdd_got; intros c C; apply Inc, in_or_app; left; now right).
  assert (L1 : In (CLink [nm "Sn"; nm "xsmesh"] [nm "xsmesh"]) l) by (apply Inc, in_or_app; right; now left). assert (L2 : In (CLink [nm "Sn"; nm "ang_quad"] [nm "ang_quad"]) l) by (apply Inc, in_or_app; right; right; now left).
  pose proof (i_link _ _ II _ _ L1) as K1. pose proof (i_link _ _ II _ _ L2) as K2. destruct Sn as [Sn1 Sn2]. split; [exact Sn1|]. split; [exact Sn2|]. assert (Ib : incl (plane_cb ng d) l) by (intros c C; apply Inc, in_or_app; right; apply in_or_app; now right). clear Inc.
  unfold plane_cb in Ib. split; [apply moc2_got; intros c C; apply Ib, in_or_app; left; now right|]. destruct Sn1 as (_ & _ & _ & Q & X). split; [|split; [|split]].
  - destruct X as (X1 & X2 & X3). unfold xs_there, stored, data_at in *. cbn [app] in *. split; [|split; [|intros ig L; destruct (X3 ig L) as (Y1 & Y2 & Y3 & Y4); repeat split]].
    + now rewrite (K1 [_]). + now rewrite (K1 [_]). + now rewrite (K1 [_; _]). + now rewrite (K1 [_; _]). + now rewrite (K1 [_; _]). + now rewrite (K1 [_; _]).
  - unfold quadrature_there, stored, data_at in *. cbn [app] in *. repeat split; rewrite (K2 [_]); tauto.
  - intros g G. split; [|split].
    + eapply found_in; [eassumption|apply Ib, in_or_app; right; apply in_or_app; left; right; apply in_map_iff; exists g; split; [reflexivity|apply in_seq; lia]|reflexivity..].
    + eapply found_in; [eassumption|apply Ib, in_or_app; right; apply in_or_app; right; apply in_or_app; left; right; apply in_map_iff; exists g; split; [reflexivity|apply in_seq; lia]|reflexivity..].
    + eapply found_in; [eassumption|apply Ib, in_or_app; right; apply in_or_app; right; apply in_or_app; right; apply in_or_app; left; right; apply in_map_iff; exists g; split; [reflexivity|apply in_seq; lia]|reflexivity..].
  - destruct (pl_dump d) as [c|]; [|exact I]. apply co_got. intros y Y. apply Ib. do 4 (apply in_or_app; right). exact Y.
Qed.
Lemma sweeper_got : forall ng s, incl (sweeper_out [] ng s) l -> sweeper_there f ng s.
Proof. intros ng [fsr d|d x|d x o|fsr d o re|d] Inc; cbn [sweeper_out sweeper_there] in *; [now apply moc_got|now apply sn_got|now apply cdd_got|now apply moc2_got|now apply plane_got]. Qed.
Lemma fss_got : forall ng ngv b s, incl (fss_out [] ng ngv b s) l -> groups_there f ng ngv b /\ sweeper_there f ng s.
Proof.
  intros ng ngv b s Inc. unfold fss_out in Inc. split; [split|].
  - eapply found_in; [eassumption|apply Inc; left; reflexivity|reflexivity..].
  - eapply found_in; [eassumption|apply Inc; right; left; reflexivity|reflexivity..].
  - apply sweeper_got. intros c C. apply Inc. right. now right.
Qed.
Lemma solver_got : forall ng ngv b s, incl (solver_out [] ng ngv b s) l -> solver_there f ng ngv b s.
Proof.
  intros ng ngv b [e sw|sw|h sd d] Inc; cbn [solver_out] in Inc.
  - unfold eigen_out in Inc. destruct (fss_got ng ngv b sw) as [G S]; [intros c C; apply Inc, in_or_app; right; apply in_or_app; now left|]. split; [exact G|]. split; [exact S|]. split.
    + destruct (ei_cm e) as [c|]; [|exact I]. assert (Ic : incl (cu_out [] ng c) l) by (intros y Y; apply Inc, in_or_app; right; apply in_or_app; now right). split; [eapply found_in; [eassumption|apply Ic; right; left; reflexivity|reflexivity..]|].
      intros ig s L Is. eapply found_in; [eassumption|apply Ic; right; right; apply in_flat_map; exists ig; split; [apply in_seq; lia|]; right; apply in_map_iff; exists s; split; [reflexivity|exact Is]|reflexivity..].
    + cbv zeta in *. repeat split; (eapply found_in; [eassumption|apply Inc, in_or_app; left; fin 0 0|solve [reflexivity]|reflexivity|reflexivity]).
  - destruct (fss_got ng ngv b sw Inc) as [G S]. split; [exact G|exact S].
  - unfold mc_out in Inc. rewrite pusher_same in Inc. unfold pusher_c in Inc. cbv zeta in Inc. split; [split|split; [|split; [|split; [|split]]]].
    + eapply found_in; [eassumption|apply Inc, in_or_app; right; right; apply in_or_app; left; left; reflexivity|reflexivity..].
    + eapply found_in; [eassumption|apply Inc, in_or_app; right; right; apply in_or_app; left; right; left; reflexivity|reflexivity..].
    + intros s Hs. eapply found_in; [eassumption|apply Inc, in_or_app; left; apply in_map_iff; exists s; split; [reflexivity|exact Hs]|reflexivity..].
    + eapply found_in; [eassumption|apply Inc, in_or_app; right; left; reflexivity|reflexivity..].
    + eapply found_in; [eassumption|apply Inc, in_or_app; right; right; do 4 (apply in_or_app; right); left; reflexivity|reflexivity..].
    + eapply found_in; [eassumption|apply Inc, in_or_app; right; right; do 4 (apply in_or_app; right); right; left; reflexivity|reflexivity..].
    + intros ig L. cbv zeta. repeat split.
      * eapply found_in; [eassumption|apply Inc, in_or_app; right; right; apply in_or_app; right; apply in_or_app; left; right; apply in_flat_map; exists ig; split; [apply in_seq; lia|left; reflexivity]|reflexivity..].
      * eapply found_in; [eassumption|apply Inc, in_or_app; right; right; apply in_or_app; right; apply in_or_app; left; right; apply in_flat_map; exists ig; split; [apply in_seq; lia|right; left; reflexivity]|reflexivity..].
      * eapply found_in; [eassumption|apply Inc, in_or_app; right; right; do 2 (apply in_or_app; right); apply in_or_app; left; right; apply in_flat_map; exists ig; split; [apply in_seq; lia|left; reflexivity]|reflexivity..].
      * eapply found_in; [eassumption|apply Inc, in_or_app; right; right; do 2 (apply in_or_app; right); apply in_or_app; left; right; apply in_flat_map; exists ig; split; [apply in_seq; lia|right; left; reflexivity]|reflexivity..].
      * eapply found_in; [eassumption|apply Inc, in_or_app; right; right; do 3 (apply in_or_app; right); apply in_or_app; left; right; apply in_flat_map; exists ig; split; [apply in_seq; lia|left; reflexivity]|reflexivity..].
      * eapply found_in; [eassumption|apply Inc, in_or_app; right; right; do 3 (apply in_or_app; right); apply in_or_app; left; right; apply in_flat_map; exists ig; split; [apply in_seq; lia|right; left; reflexivity]|reflexivity..].
Qed.
End Parts.
(** Every quantity is found under its name, with its dimensions. *)
Theorem C201_values : forall debug ng ngv bounds input sha s f, length bounds = ng -> solver_sizes ng s -> results_file zero debug ng ngv bounds input sha s = HOk f ->
  solver_there f ng ngv bounds s /\ stored f [nm "input_file"] [] [input] /\ stored f [nm "git_sha1"] [] [sha].
Proof.
  intros debug ng ngv b input sha s f B H E. destruct (file_made debug ng ngv b input sha s B H) as (f' & E' & I). rewrite E in E'. injection E' as <-. split; [|split].
  - apply (solver_got _ _ I). intros c C. apply in_or_app. now left.
  - eapply found_in; [exact I|apply in_or_app; right; left; reflexivity|reflexivity..].
  - eapply found_in; [exact I|apply in_or_app; right; right; left; reflexivity|reflexivity..].
Qed.
(** The build (with or without debug checks) makes no difference to the file. *)
Theorem C201_same : forall ng ngv bounds input sha s, length bounds = ng -> solver_sizes ng s -> results_file zero true ng ngv bounds input sha s = results_file zero false ng ngv bounds input sha s.
Proof.
  intros ng ngv b input sha s B H. rewrite !results_calls. pose proof (file_fit ng ngv b input sha s B H) as F. revert F. generalize (file_calls ng ngv b input sha s) (HGroup [] : Node). induction l as [|c l IH]; intros f F; [reflexivity|]. inversion F as [|? ? F1 F2]; subst. cbn [calls].
  assert (X : call zero true f c = call zero false f c). { destruct c as [n p|n p w|a d]; try reflexivity. destruct w; try reflexivity. cbn [call_fits pay_fits] in F1. cbn [call]. unfold write_vec_dims. rewrite F1, Nat.eqb_refl. reflexivity. }
  rewrite X. destruct (call zero false f c); auto.
Qed.
End WithValues.

(** A 2D3D calculation in two groups on two pins with all that can be dumped, for the eigenvalue: the sizes are right, and transport cross
    sections of the second group are found both with the Sn sweeper and at the top. *)
Definition la_arr (a b : nat) : @Arr nat := mkArr [1; 1; 2] [a; b] true.
Definition la_aq : @AqData nat := mkAQ 1 2 [5; 6] [7; 8] [1; 2] [3; 4] [5; 6] [1; 1].
Definition la_sw (k : nat) : @SwData nat := mkSW [1; 1; 2] (fun g => [k + g; k]) 3 (fun g => [g; k; 9]) (la_arr k 1) (mkArr [1; 2] [k; 2] true) la_aq.
Definition la_xs (k : nat) : @XsData nat := mkXD [20; 10] [1; 1; 2] (fun g => [k + g; 1]) (fun g => [k + g; 2]) (fun g => [k + g; 3]) (fun g => [k + g; 4]) 2 [1; 2; 3; 4; 5; 6; 7; 8].
Definition la_co (k : nat) : @CoData nat := mkCoD [1; 1; 2] 3 (fun g a => la_arr k (g + a)) (fun g a => la_arr (g * a) k) (fun g a => la_arr g a).
Definition la_pl : @PlData nat := mkPL (la_sw 40) (la_xs 70) (Some (la_co 1)) (la_sw 50) true (Some (la_co 2, la_xs 80)) (fun g j => [g; j]) [1; 1; 2] (fun g => [g; 1; 2]) (fun g => la_arr g 6) (fun g => [g; 3]) (Some (la_co 3)).
Definition la_so : @Solver nat := SoEigen (mkEi [11; 12; 13] [1; 1; 1] [2; 2; 2] [100; 200; 300] (Some (mkCuD 77 [1; 1; 2] (fun g s => la_arr g (length s))))) (SwPlane la_pl).
Example C201_instance : length [20; 10] = 2 /\ solver_sizes 2 la_so /\
  exists f, results_file 0 true 2 2 [20; 10] 5 6 la_so = HOk f /\ stored f [nm "xsmesh"; nm "xstr"; dec 1] [1; 1; 2] [71; 1] /\ stored f [nm "Sn"; nm "xsmesh"; nm "xstr"; dec 1] [1; 1; 2] [71; 1] /\
    stored f [nm "MoC"; nm "flux"; num3 2] [1; 1; 2] [51; 50] /\ stored f [nm "current"; dec 2; nm "south"] [1; 1; 2] [1; 5] /\ stored f [nm "convergence"; nm "abscissae"] [3] [100; 200; 300] /\
    look f [nm "pin_powers"] = None /\ length (file_names 2 la_so) = 211.
Proof.
  split; [reflexivity|]. split.
  - cbn [solver_sizes la_so sweeper_sizes ei_k ei_ek ei_ep ei_cm opt_sizes]. split; [reflexivity|]. split; [reflexivity|]. split; [intros ig s _ _; split; reflexivity|].
    assert (C : forall k, co_sizes 2 (la_co k)) by (intros k g a _ _; repeat split). assert (X : forall k, xs_sizes 2 (la_xs k)) by (intros k; split; [reflexivity|]; split; [reflexivity|]; intros ig _; repeat split).
    assert (M : forall k b, moc_sizes 2 b (la_sw k)) by (intros k b; split; [reflexivity|]; split; [reflexivity|split; reflexivity]).
    split; [split; [apply M|split; [split; reflexivity|apply X]]|]. split; [apply C|]. split; [apply M|]. split; [split; [apply C|apply X]|]. split; [intros ig _; repeat split|apply C].
  - eexists. split; [vm_compute; reflexivity|]. repeat split; vm_compute; reflexivity.
Qed.
(** Monte Carlo and fixed source have cases, too. *)
Definition la_mc : @Solver nat := SoMC (fun s => [length s; 1]) 3 (mkMC [1; 1; 2] (fun g => la_arr g 1) (fun g => la_arr g 2) (fun g => mkArr [3] [g; 1; 2] true) (fun g => mkArr [3] [g; 3; 4] true) (fun g => [g; 5; 6]) (fun g => [g; 7; 8]) [9; 8] [7; 6]).
Example C201_instance_mc : solver_sizes 2 la_mc /\ exists f, results_file 0 false 2 2 [20; 10] 5 6 la_mc = HOk f /\ stored f [nm "flux"; nm "002_stdev"] [1; 1; 2] [1; 2] /\ stored f [nm "k_history_tl"] [2] [12; 1].
Proof. split; [split; [reflexivity|split; [reflexivity|intros ig _; repeat split]]|]. eexists. split; [vm_compute; reflexivity|]. split; vm_compute; reflexivity. Qed.
Definition la_fx : @Solver nat := SoFixed (SwMoC true (la_sw 4)).
Example C201_instance_fixed : solver_sizes 2 la_fx /\ exists f, results_file 0 true 2 2 [20; 10] 5 6 la_fx = HOk f /\ stored f [nm "fsr_flux"; nm "001"] [3; 1] [0; 4; 9] /\ length (file_names 2 la_fx) = 20.
Proof. split; [split; [reflexivity|]; split; [reflexivity|split; reflexivity]|]. eexists. split; [vm_compute; reflexivity|]. split; vm_compute; reflexivity. Qed.

Print Assumptions C201_complete.
Print Assumptions C201_names.
Print Assumptions C201_values.
Print Assumptions C201_same.
