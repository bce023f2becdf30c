(** Each output function of the results file: its paths, groups first, sizes (for C201). *)
From Coq Require Import String Ascii List Bool Arith Lia.
From Verif Require Import StrModel H5Model H5Props LayModel LayProofs LayPaths.
Import ListNotations.
Open Scope nat_scope.

Section WithValues.
Context {V : Type} (zero : V).
Notation Call := (@Call V).

(** ** Paths *)
Definition rel (n : list str) (l : list Call) (r : list (list str)) : Prop := map cpath l = map (app n) r.
Lemma rel_nil : forall n, rel n [] []. Proof. reflexivity. Qed.
Lemma rel_cons : forall n c l p r, cpath c = n ++ p -> rel n l r -> rel n (c :: l) (p :: r).
Proof. intros n c l p r A B. unfold rel in *. cbn [map]. congruence. Qed.
Lemma rel_app : forall n a b p q, rel n a p -> rel n b q -> rel n (a ++ b) (p ++ q).
Proof. intros n a b p q A B. unfold rel in *. rewrite !map_app. congruence. Qed.
Lemma rel_map : forall {A} n (F : A -> Call) (G : A -> list str) xs, (forall x, cpath (F x) = n ++ G x) -> rel n (map F xs) (map G xs).
Proof. intros A n F G xs H. unfold rel. rewrite !map_map. apply map_ext. exact H. Qed.
Lemma rel_flat : forall {A} n (F : A -> list Call) G xs, (forall x, rel n (F x) (G x)) -> rel n (flat_map F xs) (flat_map G xs).
Proof. intros A n F G xs H. induction xs as [|x xs IH]; [reflexivity|]. cbn [flat_map]. now apply rel_app. Qed.
Lemma rel_group : forall n s c l r, cpath c = n ++ [s] -> rel (n ++ [s]) l r -> rel n (c :: l) (within_group s r).
Proof. intros n s c l r A B. unfold within_group. apply rel_cons; [exact A|]. unfold rel in *. rewrite B, map_map. apply map_ext. intros p. now rewrite <- app_assoc. Qed.
Ltac pth := intros; cbn [cpath dat grp dat_abs grp_abs resolve hp_abs hp_names hn_at]; rewrite <- ?app_assoc; reflexivity.
Lemma aq_paths : forall n q, rel n (aq_out n q) aq_rel.
Proof. intros n q. unfold aq_out, aq_rel. apply rel_group; [pth|]. repeat (apply rel_cons; [pth|]). apply rel_nil. Qed.
Lemma moc_paths : forall n ng fsr d, rel n (moc_out n ng fsr d) (moc_rel ng fsr).
Proof.
  intros n ng fsr d. unfold moc_out, moc_rel. apply rel_cons; [pth|]. apply rel_app; [destruct fsr; [apply rel_cons; [pth|apply rel_map; pth]|apply rel_nil]|]. apply rel_app; [apply rel_map; pth|]. apply rel_cons; [pth|apply aq_paths].
Qed.
Lemma xs_paths : forall n ng x, rel n (xs_out n ng x) (xs_rel ng).
Proof.
  intros n ng x. unfold xs_out, xs_rel, xs_in. apply rel_group; [pth|]. do 5 (apply rel_cons; [pth|]). cbn [app]. apply rel_app; [|apply rel_cons; [pth|apply rel_nil]]. apply rel_flat. intros ig. repeat (apply rel_cons; [pth|]). apply rel_nil.
Qed.
Lemma sn_paths : forall n ng d x, rel n (sn_out n ng d x) (sn_rel ng).
Proof.
  intros n ng d x. unfold sn_out, sn_rel. apply rel_cons; [pth|]. apply rel_app; [apply rel_map; pth|]. apply rel_app; [repeat (apply rel_cons; [pth|]); apply rel_nil|]. apply rel_app; [apply aq_paths|apply xs_paths].
Qed.
Lemma co_paths : forall n ng c, rel n (co_out n ng c) (co_rel ng (co_nang c)).
Proof.
  intros n ng c. unfold co_out, co_rel. apply rel_app; [repeat (apply rel_cons; [pth|]); apply rel_nil|]. apply rel_flat. intros g. apply rel_app; [repeat (apply rel_cons; [pth|]); apply rel_nil|]. apply rel_flat. intros a. repeat (apply rel_cons; [pth|]). apply rel_nil.
Qed.
Definition opt_co (ng : nat) (o : option (@CoData V)) : list (list str) := match o with Some c => co_rel ng (co_nang c) | None => [] end.
Definition cdd_rel ng o := sn_rel ng ++ opt_co ng o.
Lemma cdd_paths : forall n ng d x o, rel n (cdd_out n ng d x o) (cdd_rel ng o).
Proof. intros n ng d x o. apply rel_app; [apply sn_paths|]. destruct o; [apply co_paths|apply rel_nil]. Qed.
Definition opt_in (ng : nat) (o : option (@CoData V * @XsData V)) : list (list str) := match o with Some (c, x) => co_rel ng (co_nang c) ++ xs_rel ng | None => [] end.
Definition moc2_rel ng fsr o := moc_rel ng fsr ++ opt_in ng o ++ within_group (nm "correction_residual") (re_in ng).
Lemma moc2_paths : forall n ng fsr d o re, rel n (moc2d3d_out n ng fsr d o re) (moc2_rel ng fsr o).
Proof.
  intros n ng fsr d o re. apply rel_app; [apply moc_paths|]. apply rel_app; [destruct o as [[c x]|]; [apply rel_app; [apply co_paths|apply xs_paths]|apply rel_nil]|]. apply rel_group; [pth|]. apply rel_flat. intros ig. repeat (apply rel_cons; [pth|]). apply rel_nil.
Qed.
Definition plane_a ng (d : @PlData V) := within_group (nm "Sn") (cdd_rel ng (pl_sndump d)).
Definition plane_b ng (d : @PlData V) := within_group (nm "MoC") (moc2_rel ng (pl_fsr d) (pl_inner d)) ++ within_group (nm "SnResid") (map (fun g => [num3 g]) (seq 0 ng)) ++
  within_group (nm "moc_flux") (map (fun ig => [num3 (ig + 1)]) (seq 0 ng)) ++ within_group (nm "transverse_leakage") (map (fun g => [num3 g]) (seq 0 ng)) ++ opt_co ng (pl_dump d).
Definition plane_ca ng (d : @PlData V) : list Call := grp_abs [] [nm "Sn"] :: cdd_out [nm "Sn"] ng (pl_sn d) (pl_xs d) (pl_sndump d).
Definition plane_cb ng (d : @PlData V) : list Call := (grp_abs [] [nm "MoC"] :: moc2d3d_out [nm "MoC"] ng (pl_fsr d) (pl_moc d) (pl_inner d) (pl_re d)) ++
  (grp_abs [] [nm "SnResid"] :: map (fun g => dat_abs [] [nm "SnResid"; num3 g] (WDims (pl_resid d g) [List.length (pl_resid d g)])) (seq 0 ng)) ++
  (grp [] [nm "moc_flux"] :: map (fun ig => dat ([] ++ [nm "moc_flux"]) [num3 (ig + 1)] (WArrD (pl_flux d ig) (pl_dims d))) (seq 0 ng)) ++
  (grp_abs [] [nm "transverse_leakage"] :: map (fun g => dat [nm "transverse_leakage"] [num3 g] (WRange (pl_tl d g) (pl_dims d))) (seq 0 ng)) ++
  match pl_dump d with Some c => co_out [] ng c | None => [] end.
Definition plane_links : list Call := [CLink [nm "Sn"; nm "xsmesh"] [nm "xsmesh"]; CLink [nm "Sn"; nm "ang_quad"] [nm "ang_quad"]].
Lemma plane_split : forall ng d, plane_out [] ng d = plane_ca ng d ++ plane_links ++ plane_cb ng d.
Proof. intros ng d. unfold plane_out, plane_ca, plane_cb, plane_links. reflexivity. Qed.
Lemma plane_a_paths : forall ng d, rel [] (plane_ca ng d) (plane_a ng d).
Proof. intros ng d. apply (rel_group [] (nm "Sn")); [reflexivity|apply cdd_paths]. Qed.
Lemma plane_b_paths : forall ng d, rel [] (plane_cb ng d) (plane_b ng d).
Proof.
  intros ng d. apply rel_app; [apply (rel_group [] (nm "MoC")); [reflexivity|apply moc2_paths]|]. do 3 (apply rel_app; [apply rel_group; [reflexivity|apply rel_map; reflexivity]|]). destruct (pl_dump d); [apply co_paths|apply rel_nil].
Qed.
Definition cu_rel ng := within_group (nm "current") (cu_in ng).
Lemma cu_paths : forall n ng c, rel n (cu_out n ng c) (cu_rel ng).
Proof.
  intros n ng c. apply rel_group; [pth|]. apply rel_cons; [pth|]. apply rel_flat. intros ig. apply rel_cons; [pth|]. apply rel_map. pth.
Qed.
Definition co4 := map (fun s => [s]) [nm "k"; nm "error_k"; nm "error_psi"; nm "iteration_time"; nm "abscissae"].
Definition tal_in ng : list (list str) := flat_map (fun ig => [[num3 (ig + 1)]; [num3 (ig + 1) ++ nm "_stdev"]]) (seq 0 ng).
Definition pusher_rel ng : list (list str) := [[nm "ng"]; [nm "eubounds"]] ++ within_group (nm "flux") (tal_in ng) ++ within_group (nm "fsr_flux") (tal_in ng) ++ within_group (nm "fsr_flux_col") (tal_in ng) ++ [[nm "pin_power"]; [nm "pin_power_stdev"]].
Definition pusher_c (n : list str) (ng : nat) (ngv : V) (bounds : list V) (d : @McData V) : list Call :=
  let fl := n ++ [nm "flux"] in let fs := n ++ [nm "fsr_flux"] in let fc := n ++ [nm "fsr_flux_col"] in
  [dat n [nm "ng"] (WInt ngv); dat n [nm "eubounds"] (WDims bounds [ng])] ++
  (grp n [nm "flux"] :: flat_map (fun ig => [dat fl [num3 (ig + 1)] (WArrD (mc_fl d ig) (mc_dims d)); dat fl [num3 (ig + 1) ++ nm "_stdev"] (WArrD (mc_fls d ig) (mc_dims d))]) (seq 0 ng)) ++
  (grp n [nm "fsr_flux"] :: flat_map (fun ig => [dat fs [num3 (ig + 1)] (WArr (mc_fs d ig)); dat fs [num3 (ig + 1) ++ nm "_stdev"] (WArr (mc_fss d ig))]) (seq 0 ng)) ++
  (grp n [nm "fsr_flux_col"] :: flat_map (fun ig => [dat fc [num3 (ig + 1)] (WVec (mc_co d ig)); dat fc [num3 (ig + 1) ++ nm "_stdev"] (WVec (mc_cos d ig))]) (seq 0 ng)) ++
  [dat n [nm "pin_power"] (WDims (mc_pp d) (mc_dims d)); dat n [nm "pin_power_stdev"] (WDims (mc_pps d) (mc_dims d))].
Lemma pusher_same : forall n ng ngv b d, pusher_out n ng ngv b d = pusher_c n ng ngv b d.
Proof. reflexivity. Qed.
Lemma pusher_paths : forall n ng ngv b d, rel n (pusher_out n ng ngv b d) (pusher_rel ng).
Proof.
  intros n ng ngv b d. rewrite pusher_same. unfold pusher_c, pusher_rel. apply rel_app; [repeat (apply rel_cons; [pth|]); apply rel_nil|]. do 3 (apply rel_app; [apply rel_group; [pth|]; apply rel_flat; intros ig; repeat (apply rel_cons; [pth|]); apply rel_nil|]). repeat (apply rel_cons; [pth|]). apply rel_nil.
Qed.
Definition mc_rel ng := map (fun s => [s]) histories ++ [nm "seed"] :: pusher_rel ng.
Lemma mc_paths : forall n ng ngv b h s d, rel n (mc_out n ng ngv b h s d) (mc_rel ng).
Proof. intros n ng ngv b h s d. apply rel_app; [apply rel_map; pth|]. apply rel_cons; [pth|apply pusher_paths]. Qed.

(** ** Groups first *)
Lemma made_l : forall (s t : list Call) x, made_group s x -> made_group (s ++ t) x.
Proof. intros s t x. apply made_mono. intros y Y. apply in_app_iff. now left. Qed.
Ltac among := solve [left; reflexivity] + solve [right; left; reflexivity] + solve [right; right; left; reflexivity] + solve [right; right; right; left; reflexivity] + solve [right; right; right; right; left; reflexivity].
Ltac mk := match goal with
  | |- made_group _ [] => now left
  | |- made_group _ _ => assumption
  | |- made_group (?a ++ ?b) _ => solve [right; eexists _, _; split; [apply in_or_app; right; cbn [In app]; among|cbn [resolve hp_abs hp_names hn_at app]; rewrite <- ?app_assoc; cbn [app]; reflexivity]]
  | |- made_group (?a ++ ?b) _ => apply made_l; mk
  end.
Lemma par_path : forall (s : list Call) c r x, cpath c = r ++ [x] -> made_group s r -> parented s c.
Proof. intros s c r x E G. exists r, x. auto. Qed.
Ltac par r x := apply (par_path _ _ r x); [cbn [cpath dat grp dat_abs grp_abs resolve hp_abs hp_names hn_at app]; rewrite <- ?app_assoc; reflexivity|mk].
Lemma aq_parents : forall (s : list Call) n q, made_group s n -> parents s (aq_out n q).
Proof.
  intros s n q G. unfold aq_out. split; [eapply (par_path _ _ n); [reflexivity|exact G]|]. repeat (split; [eapply (par_path _ _ (n ++ [nm "ang_quad"])); [reflexivity|mk]|]). exact I.
Qed.
Lemma moc_parents : forall (s : list Call) n ng fsr d, made_group s n -> parents s (moc_out n ng fsr d).
Proof.
  intros s n ng fsr d G. unfold moc_out. split; [eapply (par_path _ _ n); [reflexivity|exact G]|]. apply parents_app.
  - destruct fsr; [|exact I]. split; [eapply (par_path _ _ n); [reflexivity|mk]|]. apply parents_map. intros ig _. par (n ++ [nm "fsr_flux"]) (num3 (ig + 1)).
  - apply parents_app; [apply parents_map; intros ig _; par (n ++ [nm "flux"]) (num3 (ig + 1))|]. split; [eapply (par_path _ _ n); [reflexivity|mk]|]. apply aq_parents. mk.
Qed.
Lemma xs_parents : forall (s : list Call) n ng x, made_group s n -> parents s (xs_out n ng x).
Proof.
  intros s n ng x G. unfold xs_out. apply parents_app.
  - split; [eapply (par_path _ _ n); [reflexivity|exact G]|]. repeat (split; [eapply (par_path _ _ (n ++ [nm "xsmesh"])); [reflexivity|mk]|]). exact I.
  - apply parents_app; [|split; [par (n ++ [nm "xsmesh"]) (nm "xssc")|exact I]]. apply parents_flat. intros ig _.
    split; [par (n ++ [nm "xsmesh"; nm "xstr"]) (dec ig)|]. split; [par (n ++ [nm "xsmesh"; nm "xsnf"]) (dec ig)|]. split; [par (n ++ [nm "xsmesh"; nm "xsch"]) (dec ig)|]. split; [par (n ++ [nm "xsmesh"; nm "xsf"]) (dec ig)|]. exact I.
Qed.
Lemma sn_parents : forall (s : list Call) n ng d x, made_group s n -> parents s (sn_out n ng d x).
Proof.
  intros s n ng d x G. unfold sn_out. split; [eapply (par_path _ _ n); [reflexivity|exact G]|]. apply parents_app; [apply parents_map; intros ig _; par (n ++ [nm "flux"]) (num3 (ig + 1))|].
  apply parents_app; [repeat (split; [eapply (par_path _ _ n); [reflexivity|mk]|]); exact I|]. apply parents_app; [apply aq_parents; mk|apply xs_parents; mk].
Qed.
Lemma co_parents : forall (s : list Call) n ng c, made_group s n -> parents s (co_out n ng c).
Proof.
  intros s n ng c G. unfold co_out. apply parents_app; [repeat (split; [eapply (par_path _ _ n); [reflexivity|mk]|]); exact I|]. apply parents_flat. intros g _. apply parents_app.
  - split; [par (n ++ [nm "alpha_x"]) (num3 g)|]. split; [par (n ++ [nm "alpha_y"]) (num3 g)|]. split; [par (n ++ [nm "beta"]) (num3 g)|]. exact I.
  - apply parents_flat. intros a _. split; [par (n ++ [nm "beta"; num3 g]) (num3 a)|]. split; [par (n ++ [nm "alpha_x"; num3 g]) (num3 a)|]. split; [par (n ++ [nm "alpha_y"; num3 g]) (num3 a)|]. exact I.
Qed.
Lemma cdd_parents : forall (s : list Call) n ng d x o, made_group s n -> parents s (cdd_out n ng d x o).
Proof. intros s n ng d x o G. apply parents_app; [now apply sn_parents|]. destruct o; [|exact I]. apply co_parents. mk. Qed.
Lemma moc2_parents : forall (s : list Call) n ng fsr d o re, made_group s n -> parents s (moc2d3d_out n ng fsr d o re).
Proof.
  intros s n ng fsr d o re G. apply parents_app; [now apply moc_parents|]. apply parents_app; [destruct o as [[c x]|]; [apply parents_app; [apply co_parents; mk|apply xs_parents; mk]|exact I]|].
  split; [eapply (par_path _ _ n); [reflexivity|mk]|]. apply parents_flat. intros ig _. split; [par (n ++ [nm "correction_residual"]) (dec (ig + 1))|].
  repeat (split; [eapply (par_path _ _ (n ++ [nm "correction_residual"; dec (ig + 1)])); [reflexivity|mk]|]). exact I.
Qed.
Lemma plane_parents : forall (s : list Call) ng d, parents s (plane_out [] ng d).
Proof.
  intros s ng d. rewrite plane_split. apply parents_app.
  - split; [par (@nil str) (nm "Sn")|]. apply cdd_parents. mk.
  - apply parents_app; [split; [apply (par_path _ _ [] (nm "xsmesh")); [reflexivity|mk]|]; split; [apply (par_path _ _ [] (nm "ang_quad")); [reflexivity|mk]|exact I]|]. unfold plane_cb. apply parents_app.
    + split; [par (@nil str) (nm "MoC")|]. apply moc2_parents. mk.
    + apply parents_app; [split; [par (@nil str) (nm "SnResid")|]; apply parents_map; intros g _; par [nm "SnResid"] (num3 g)|].
      apply parents_app; [split; [par (@nil str) (nm "moc_flux")|]; apply parents_map; intros g _; par [nm "moc_flux"] (num3 (g + 1))|].
      apply parents_app; [split; [par (@nil str) (nm "transverse_leakage")|]; apply parents_map; intros g _; par [nm "transverse_leakage"] (num3 g)|].
      destruct (pl_dump d); [|exact I]. apply co_parents. mk.
Qed.
Lemma sweeper_parents : forall (s : list Call) ng sw, parents s (sweeper_out [] ng sw).
Proof. intros s ng [fsr d|d x|d x o|fsr d o re|d]; cbn [sweeper_out]; [apply moc_parents|apply sn_parents|apply cdd_parents|apply moc2_parents|apply plane_parents]; mk. Qed.
Lemma cu_parents : forall (s : list Call) n ng c, made_group s n -> parents s (cu_out n ng c).
Proof.
  intros s n ng c G. unfold cu_out. split; [eapply (par_path _ _ n); [reflexivity|exact G]|]. split; [eapply (par_path _ _ (n ++ [nm "current"])); [reflexivity|mk]|]. apply parents_flat. intros ig _.
  split; [eapply (par_path _ _ (n ++ [nm "current"])); [reflexivity|mk]|]. apply parents_map. intros x _. apply (par_path _ _ ((n ++ [nm "current"]) ++ [dec (ig + 1)]) x); [reflexivity|]. mk.
Qed.
Lemma fss_parents : forall (s : list Call) ng ngv b sw, parents s (fss_out [] ng ngv b sw).
Proof. intros s ng ngv b sw. unfold fss_out. split; [par (@nil str) (nm "ng")|]. split; [par (@nil str) (nm "eubounds")|]. apply sweeper_parents. Qed.
Lemma eigen_parents : forall (s : list Call) ng ngv b e sw, parents s (eigen_out [] ng ngv b e sw).
Proof.
  intros s ng ngv b e sw. unfold eigen_out. apply parents_app; [split; [par (@nil str) (nm "convergence")|]; repeat (split; [eapply (par_path _ _ [nm "convergence"]); [reflexivity|mk]|]); exact I|]. apply parents_app; [apply fss_parents|]. destruct (ei_cm e); [|exact I]. apply cu_parents. mk.
Qed.
Lemma mc_parents : forall (s : list Call) ng ngv b h sd d, parents s (mc_out [] ng ngv b h sd d).
Proof.
  intros s ng ngv b h sd d. unfold mc_out. apply parents_app; [apply parents_map; intros x _; apply (par_path _ _ [] x); [reflexivity|mk]|]. split; [par (@nil str) (nm "seed")|]. rewrite pusher_same. unfold pusher_c.
  apply parents_app; [repeat (split; [eapply (par_path _ _ []); [reflexivity|mk]|]); exact I|].
  do 3 (apply parents_app; [split; [eapply (par_path _ _ []); [reflexivity|mk]|]; apply parents_flat; intros ig _; repeat (split; [eapply par_path; [reflexivity|mk]|]); exact I|]). repeat (split; [eapply (par_path _ _ []); [reflexivity|mk]|]). exact I.
Qed.
End WithValues.
