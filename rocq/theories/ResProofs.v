(** Proofs about what the sweepers write: everything but the regions' own fluxes is the same if all fluxes are multiplied by a positive number,
    and where pin fluxes come from. *)
From Coq Require Import List Bool Reals ZArith Arith Lia Lra.
From Verif Require Import RUtil ListUtil McModel ScatModel ScatProofs MatModel MeshModel CoreModel CoreProofs MocProofs XsModel XsProps HomProps SrcModel SrcProps SolModel SolProps MocModel PflModel PflProps SnOutModel ResModel.
Import ListNotations.
Open Scope nat_scope.

Section Scale.
Context (c : R).
Definition sc1 (v : R) : R := (v * c)%R.
Definition sc (l : list R) : list R := map sc1 l.
Definition sc2 (l : list (list R)) : list (list R) := map sc l.
Lemma col_sc : forall g fl, group_col g (sc2 fl) = option_map sc (group_col g fl).
Proof.
  intros g fl. induction fl as [|row fl IH]; [reflexivity|]. unfold group_col in *. unfold sc2 in *. cbn [map fold_right]. rewrite IH. unfold sc at 1. rewrite nth_error_map.
  destruct (nth_error row g); cbn [option_map]; [|reflexivity]. destruct (fold_right _ _ fl); reflexivity.
Qed.
Lemma groups_sc : forall f f' fl n g, (forall l, f' (sc l) = option_map sc (f l)) -> groups_from f' (sc2 fl) g n = option_map sc2 (groups_from f fl g n).
Proof.
  intros f f' fl n. induction n as [|n IH]; intros g H; cbn [groups_from]; [reflexivity|]. rewrite col_sc. destruct (group_col g fl) as [l|]; cbn [option_map]; [|reflexivity]. rewrite H, (IH (S g) H).
  destruct (f l); cbn [option_map]; [|reflexivity]. destruct (groups_from f fl (S g) n); reflexivity.
Qed.
Lemma wsum_sc : forall fl w, wsum (sc fl) w = (wsum fl w * c)%R.
Proof.
  intros fl w. rewrite !wsum_lsum. revert w. induction fl as [|v fl IH]; intros [|a w]; unfold sc; cbn [map combine lsum fst snd]; try ring. fold (sc fl). rewrite IH. unfold sc1. ring.
Qed.
Lemma mean_sc : forall n fl vol, pin_mean n (sc fl) vol = option_map sc1 (pin_mean n fl vol).
Proof.
  intros n fl vol. unfold pin_mean. unfold sc at 1. rewrite map_length. destruct (_ || _); [reflexivity|]. destruct (Reqb_spec (vsum (firstn n vol)) 0) as [|N]; [reflexivity|]. cbn [option_map]. f_equal.
  unfold sc. rewrite firstn_map. fold (sc (firstn n fl)). rewrite wsum_sc. unfold sc1. field. exact N.
Qed.
Lemma plane_sc : forall pins fl vol, plane_means pins (sc fl) vol = option_map (fun q => (sc (fst q), (sc (fst (snd q)), snd (snd q)))) (plane_means pins fl vol).
Proof.
  induction pins as [|p pins IH]; intros fl vol; cbn [plane_means]; [reflexivity|]. rewrite mean_sc. assert (Sk : forall n l, skipn n (sc l) = sc (skipn n l)) by (intros; unfold sc; apply skipn_map). rewrite Sk, IH.
  destruct (pin_mean _ fl vol); cbn [option_map]; [|reflexivity]. destruct (plane_means pins _ _) as [[vs [a b]]|]; reflexivity.
Qed.
Lemma macro_sc : forall ms fl vol, macro_means ms (sc fl) vol = option_map sc2 (macro_means ms fl vol).
Proof.
  induction ms as [|m ms IH]; intros fl vol; cbn [macro_means]; [reflexivity|]. rewrite plane_sc. destruct (plane_means (ml_pins m) fl vol) as [[vs [a b]]|]; cbn [option_map fst snd]; [|reflexivity]. rewrite IH. destruct (macro_means ms a b); reflexivity.
Qed.
Definition scd (d : nat * R) : nat * R := (fst d, sc1 (snd d)).
Lemma pwrites_sc : forall cell nxy zs vs a, flat_map (fun iv => map (fun z => (cell (fst iv) + nxy * z, snd iv)) zs) (combine (seq a (length vs)) (sc vs)) = map scd (flat_map (fun iv => map (fun z => (cell (fst iv) + nxy * z, snd iv)) zs) (combine (seq a (length vs)) vs)).
Proof.
  intros cell nxy zs vs. induction vs as [|v vs IH]; intros a; [reflexivity|]. unfold sc. cbn [length seq map combine flat_map]. fold (sc vs). rewrite (IH (S a)), map_app, map_map. reflexivity.
Qed.
Lemma writes_sc : forall cell nxy zs ms vs, macro_writes cell nxy zs ms (sc2 vs) = map scd (macro_writes cell nxy zs ms vs).
Proof.
  intros cell nxy zs ms vs. unfold macro_writes. generalize 0 as a. revert vs. induction ms as [|m ms IH]; intros [|v vs] a; try reflexivity; unfold sc2; cbn [length seq map combine flat_map fst snd]. fold (sc2 vs). rewrite (IH vs (S a)), map_app. f_equal. unfold plane_writes. unfold sc at 1. rewrite map_length. apply pwrites_sc.
Qed.
Lemma add_sc : forall t i v, add_at (sc t) i (sc1 v) = option_map sc (add_at t i v).
Proof.
  induction t as [|x t IH]; intros [|i] v; try reflexivity; unfold sc; cbn [map add_at option_map]; [f_equal; f_equal; unfold sc1; ring|]. fold (sc t). rewrite IH. destruct (add_at t i v); reflexivity.
Qed.
Lemma deposit_sc : forall ds t, deposit 1 (map scd ds) (sc t) = option_map sc (deposit 1 ds t).
Proof.
  induction ds as [|[i d] ds IH]; intros t; cbn [map deposit scd fst snd]; [reflexivity|]. replace (sc1 d * 1)%R with (sc1 (d * 1)) by (unfold sc1; ring). rewrite add_sc. destruct (add_at t i (d * 1)%R); cbn [option_map]; [apply IH|reflexivity].
Qed.
Lemma zero_sc : forall n, sc (repeat 0%R n) = repeat 0%R n.
Proof. intros n. unfold sc. induction n as [|n IH]; cbn [repeat map]; [reflexivity|]. rewrite IH. unfold sc1. now rewrite Rmult_0_l. Qed.
Lemma pins_sc : forall cell nxy n zs ms fl vol, get_pin_flux cell nxy n zs ms (sc fl) vol = option_map sc (get_pin_flux cell nxy n zs ms fl vol).
Proof. intros. unfold get_pin_flux. rewrite macro_sc. destruct (macro_means ms fl vol); cbn [option_map]; [|reflexivity]. rewrite writes_sc, <- (zero_sc n) at 1. apply deposit_sc. Qed.
Lemma concat_sc : forall l, concat (sc2 l) = sc (concat l).
Proof. intros l. unfold sc2, sc. symmetry. apply concat_map. Qed.
Context (P : (0 < c)%R).
Lemma factor_sc : forall l, option_map snd (normalize (sc l)) = option_map (fun q => (snd q / c)%R) (normalize l).
Proof.
  intros l. unfold normalize. change (sc l) with (map (fun v => v * c)%R l). rewrite (total_scaled l c). rewrite (count_scaled l c P). destruct (Reqb_spec (total l) 0) as [E|N].
  - rewrite E, Rmult_0_l. destruct (Reqb_spec 0 0); [reflexivity|congruence].
  - destruct (Reqb_spec (total l * c) 0) as [E|N']; [apply Rmult_integral in E; lra|]. cbn [option_map snd]. f_equal. field. split; lra.
Qed.
Lemma normalize_sc : forall l, option_map fst (normalize (sc l)) = option_map fst (normalize l).
Proof.
  intros l. pose proof (factor_sc l) as F. unfold normalize in *. destruct (Reqb (total (sc l)) 0), (Reqb (total l) 0); cbn [option_map fst snd] in *; try discriminate; [reflexivity|]. injection F as F. f_equal. rewrite F. unfold sc. rewrite map_map. apply map_ext. intros v. unfold sc1. generalize (INR (count_pos l) / total l)%R. intros q. field. lra.
Qed.
Lemma normalized_sc : forall pfs, normalized (sc2 pfs) = normalized pfs.
Proof.
  intros pfs. unfold normalized. rewrite concat_sc. pose proof (factor_sc (concat pfs)) as F. destruct (normalize (sc (concat pfs))) as [[a f]|], (normalize (concat pfs)) as [[b g]|]; cbn [option_map snd] in F; try discriminate; [|reflexivity]. injection F as ->. f_equal.
  unfold sc2. rewrite map_map. apply map_ext. intros l. unfold sc. rewrite map_map. apply map_ext. intros v. unfold sc1. field. lra.
Qed.
(** Powers. *)
Lemma set_sc : forall l i v, set_nth (sc l) i (sc1 v) = option_map sc (set_nth l i v).
Proof. induction l as [|x l IH]; intros [|i] v; try reflexivity; unfold sc; cbn [map set_nth option_map]. fold (sc l). rewrite IH. destruct (set_nth l i v); reflexivity. Qed.
Lemma nth_sc : forall l i, nth_error (sc l) i = option_map sc1 (nth_error l i).
Proof. intros. unfold sc. apply nth_error_map. Qed.
Lemma at2_sc : forall fl i g, at2 (sc2 fl) i g = option_map sc1 (at2 fl i g).
Proof. intros. unfold at2, sc2. rewrite nth_error_map. destruct (nth_error fl i); cbn [option_map]; [apply nth_sc|reflexivity]. Qed.
Lemma regs_sc : forall f f' regs v, (forall r, f' r = option_map sc1 (f r)) -> add_regs regs f' (sc v) = option_map sc (add_regs regs f v).
Proof.
  intros f f' regs. induction regs as [|r regs IH]; intros v H; cbn [add_regs]; [reflexivity|]. rewrite H, nth_sc. destruct (f r) as [x|]; cbn [option_map]; [|reflexivity]. destruct (nth_error v r) as [y|]; cbn [option_map]; [|reflexivity].
  replace (sc1 y + sc1 x)%R with (sc1 (y + x)) by (unfold sc1; ring). rewrite set_sc. destruct (set_nth v r (y + x)%R); cbn [option_map]; [now apply IH|reflexivity].
Qed.
Lemma pgroups_sc : forall x fl vol cnt ig p, pow_groups x (sc2 fl) vol ig cnt (sc p) = option_map sc (pow_groups x fl vol ig cnt p).
Proof.
  intros x fl vol. induction cnt as [|n IH]; intros ig p; cbn [pow_groups]; [reflexivity|]. destruct (nth_error (xr_f x) ig) as [f|]; [|reflexivity].
  rewrite (regs_sc (fun i => match at2 fl i ig, nth_error vol i with Some ph, Some v => Some (ph * f * v)%R | _, _ => None end)).
  - destruct (add_regs _ _ p); cbn [option_map]; [apply IH|reflexivity].
  - intros r. rewrite at2_sc. destruct (at2 fl r ig) as [ph|]; cbn [option_map]; [|reflexivity]. destruct (nth_error vol r); cbn [option_map]; [|reflexivity]. f_equal. unfold sc1. ring.
Qed.
Lemma pmesh_sc : forall xs ng fl vol p, pow_mesh xs ng (sc2 fl) vol (sc p) = option_map sc (pow_mesh xs ng fl vol p).
Proof. intros xs ng fl vol. induction xs as [|x xs IH]; intros p; cbn [pow_mesh]; [reflexivity|]. rewrite pgroups_sc. destruct (pow_groups x fl vol 0 ng p); cbn [option_map]; [apply IH|reflexivity]. Qed.
Lemma psum_sc : forall n fp s, pin_sum n (sc fp) (sc1 s) = option_map (fun q => (sc1 (fst q), sc (snd q))) (pin_sum n fp s).
Proof. induction n as [|n IH]; intros [|x fp] s; cbn [pin_sum sc map option_map fst snd]; try reflexivity. replace (sc1 s + sc1 x)%R with (sc1 (s + x)) by (unfold sc1; ring). apply IH. Qed.
Lemma ppl_sc : forall cell base pins ipin fp pw, plane_powers cell base ipin pins (sc fp) (sc pw) = option_map (fun q => (sc (fst q), sc (snd q))) (plane_powers cell base ipin pins fp pw).
Proof.
  intros cell base. induction pins as [|n pins IH]; intros ipin fp pw; cbn [plane_powers]; [reflexivity|]. rewrite nth_sc. destruct (nth_error pw (base + cell ipin)) as [y|]; cbn [option_map]; [|reflexivity]. rewrite psum_sc.
  destruct (pin_sum n fp y) as [[s fp']|]; cbn [option_map fst snd]; [|reflexivity]. rewrite set_sc. destruct (set_nth pw _ s); cbn [option_map]; [apply IH|reflexivity].
Qed.
Lemma all_sc : forall cell nxy planes i fp pw, all_powers cell nxy i planes (sc fp) (sc pw) = option_map sc (all_powers cell nxy i planes fp pw).
Proof. intros cell nxy. induction planes as [|p planes IH]; intros i fp pw; cbn [all_powers]; [reflexivity|]. rewrite ppl_sc. destruct (plane_powers cell (nxy * i) 0 p fp pw) as [[a b]|]; cbn [option_map fst snd]; [apply IH|reflexivity]. Qed.
Lemma zeros_sc : forall (vol : list R), sc (map (fun _ => 0%R) vol) = map (fun _ => 0%R) vol.
Proof. intros vol. unfold sc. rewrite map_map. apply map_ext. intros _. unfold sc1. ring. Qed.
Lemma powers_sc : forall cell nxy planes nf xs ng fl vol, pin_powers cell nxy planes nf xs ng (sc2 fl) vol = pin_powers cell nxy planes nf xs ng fl vol.
Proof.
  intros cell nxy planes nf xs ng fl vol. unfold pin_powers. rewrite <- (zeros_sc vol) at 1. rewrite pmesh_sc. destruct (pow_mesh xs ng fl vol _) as [fp|]; cbn [option_map]; [|reflexivity].
  rewrite <- (zero_sc (nxy * length planes)) at 1. rewrite all_sc. destruct (all_powers cell nxy 0 planes fp _) as [pw|]; cbn [option_map]; [|reflexivity]. unfold sc at 1 2. rewrite firstn_map. fold (total (map sc1 (firstn (list_sum (map list_sum planes)) fp))). fold (total (firstn (list_sum (map list_sum planes)) fp)). set (t := firstn _ fp).
  change (map sc1 t) with (map (fun v => v * c)%R t). rewrite total_scaled. destruct (Reqb_spec (total t) 0) as [E|N].
  - rewrite E, Rmult_0_l. destruct (Reqb_spec 0 0); [reflexivity|congruence].
  - destruct (Reqb_spec (total t * c) 0) as [E|N']; [apply Rmult_integral in E; lra|]. f_equal. unfold sc. rewrite map_map. apply map_ext. intros v. unfold sc1. field. split; lra.
Qed.
Lemma spg_sc : forall x fl vol i t cnt ig pw, sp_groups x (sc2 fl) vol i t ig cnt (sc pw) = option_map sc (sp_groups x fl vol i t ig cnt pw).
Proof.
  intros x fl vol i t. induction cnt as [|n IH]; intros ig pw; cbn [sp_groups]; [reflexivity|]. rewrite at2_sc, nth_sc. destruct (nth_error vol i) as [v|]; [|reflexivity]. destruct (at2 fl i ig) as [ph|]; cbn [option_map]; [|reflexivity]. destruct (nth_error (xr_f x) ig) as [f|]; [|reflexivity].
  destruct (nth_error pw t) as [p|]; cbn [option_map]; [|reflexivity]. replace (sc1 p + v * sc1 ph * f)%R with (sc1 (p + v * ph * f)) by (unfold sc1; ring). rewrite set_sc. destruct (set_nth pw t _); cbn [option_map]; [apply IH|reflexivity].
Qed.
Lemma spr_sc : forall tgt x ng fl vol regs pw, sp_regs tgt x ng (sc2 fl) vol regs (sc pw) = option_map sc (sp_regs tgt x ng fl vol regs pw).
Proof. intros tgt x ng fl vol. induction regs as [|i regs IH]; intros pw; cbn [sp_regs]; [reflexivity|]. rewrite spg_sc. destruct (sp_groups x fl vol i (tgt i) 0 ng pw); cbn [option_map]; [apply IH|reflexivity]. Qed.
Lemma spm_sc : forall tgt xs ng fl vol pw, sp_mesh tgt xs ng (sc2 fl) vol (sc pw) = option_map sc (sp_mesh tgt xs ng fl vol pw).
Proof. intros tgt xs ng fl vol. induction xs as [|x xs IH]; intros pw; cbn [sp_mesh]; [reflexivity|]. rewrite spr_sc. destruct (sp_regs tgt x ng fl vol (xr_reg x) pw); cbn [option_map]; [apply IH|reflexivity]. Qed.
Lemma snp_sc : forall m xs ng fl vol, sn_pin_powers m xs ng (sc2 fl) vol = sn_pin_powers m xs ng fl vol.
Proof. intros. unfold sn_pin_powers. rewrite <- (zero_sc (Z.to_nat _)) at 1. rewrite spm_sc. destruct (sp_mesh _ xs ng fl vol _); cbn [option_map]; [apply normalize_sc|reflexivity]. Qed.
Lemma snp2_sc : forall m xs ng fl vol, sn_pin_powers_2d m xs ng (sc2 fl) vol = sn_pin_powers_2d m xs ng fl vol.
Proof. intros. unfold sn_pin_powers_2d. rewrite <- (zero_sc (Z.to_nat _)) at 1. rewrite spm_sc. destruct (sp_mesh _ xs ng fl vol _); cbn [option_map]; [apply normalize_sc|reflexivity]. Qed.
End Scale.

(** ** Pin means *)
(** The mean over [n] regions from [o] on, by volume. *)
Definition mean_over (fl vol : list R) (o n : nat) : R := (rsum (fun r => at0 fl (o + r) * at0 vol (o + r)) n / rsum (fun r => at0 vol (o + r)) n)%R.
Lemma cut_wsum : forall n o fl vol, o + n <= length fl -> o + n <= length vol -> wsum (firstn n (skipn o fl)) (firstn n (skipn o vol)) = rsum (fun r => at0 fl (o + r) * at0 vol (o + r))%R n.
Proof.
  intros n o fl vol A B. rewrite wsum_lsum. revert o A B. induction n as [|n IH]; intros o A B; [reflexivity|].
  assert (K : forall (l : list R) o, o < length l -> skipn o l = at0 l o :: skipn (S o) l). { induction l as [|x l IHl]; intros [|q] Q; cbn [length] in Q; try lia; [reflexivity|]. cbn [skipn]. rewrite (IHl q) by lia. reflexivity. }
  rewrite (K fl o), (K vol o) by lia. cbn [firstn combine lsum fst snd]. rewrite (IH (S o)) by lia. change (S n) with (1 + n). rewrite rsum_app. cbn [rsum]. rewrite Nat.add_0_r.
  rewrite (rsum_ext (fun i => at0 fl (o + (1 + i)) * at0 vol (o + (1 + i)))%R (fun r => at0 fl (S o + r) * at0 vol (S o + r))%R) by (intros i _; replace (o + (1 + i)) with (S o + i) by lia; reflexivity). ring.
Qed.
Lemma cut_vsum : forall n o vol, o + n <= length vol -> vsum (firstn n (skipn o vol)) = rsum (fun r => at0 vol (o + r)) n.
Proof.
  intros n o vol A. rewrite vsum_lsum. revert o A. induction n as [|n IH]; intros o A; [reflexivity|].
  assert (K : forall (l : list R) o, o < length l -> skipn o l = at0 l o :: skipn (S o) l). { induction l as [|x l IHl]; intros [|q] Q; cbn [length] in Q; try lia; [reflexivity|]. cbn [skipn]. rewrite (IHl q) by lia. reflexivity. }
  rewrite (K vol o) by lia. cbn [firstn lsum]. rewrite (IH (S o)) by lia. change (S n) with (1 + n). rewrite rsum_app. cbn [rsum]. rewrite Nat.add_0_r.
  rewrite (rsum_ext (fun i => at0 vol (o + (1 + i))) (fun r => at0 vol (S o + r))) by (intros i _; f_equal; lia). ring.
Qed.
Lemma skipn_add : forall {A} a b (l : list A), skipn a (skipn b l) = skipn (b + a) l.
Proof. intros A a b. induction b as [|b IH]; intros [|x l]; cbn [skipn Nat.add]; try reflexivity; [apply skipn_nil|apply IH]. Qed.
Definition psizes (pins : list PinG) : list nat := map (fun p => length (pg_areas p)) pins.
Lemma plane_vals : forall pins o fl vol, o + list_sum (psizes pins) <= length fl -> o + list_sum (psizes pins) <= length vol -> (forall r, r < length vol -> (0 < at0 vol r)%R) -> (forall p, In p pins -> pg_areas p <> []) ->
  exists vs, plane_means pins (skipn o fl) (skipn o vol) = Some (vs, (skipn (o + list_sum (psizes pins)) fl, skipn (o + list_sum (psizes pins)) vol)) /\ length vs = length pins /\
    forall i, i < length pins -> at0 vs i = mean_over fl vol (o + list_sum (firstn i (psizes pins))) (nth i (psizes pins) 0).
Proof.
  induction pins as [|p pins IH]; intros o fl vol A B V N; cbn [plane_means psizes map list_sum] in *.
  - exists []. cbn [length]. rewrite Nat.add_0_r. split; [reflexivity|]. split; [reflexivity|]. intros i Hi. lia.
  - change (list_sum (length (pg_areas p) :: map (fun p => length (pg_areas p)) pins)) with (length (pg_areas p) + list_sum (psizes pins)) in *. set (n := length (pg_areas p)) in *.
    assert (Hn : 0 < n) by (unfold n; destruct (pg_areas p) eqn:E; [exfalso; apply (N p (or_introl eq_refl)); exact E|cbn; lia]).
    destruct (IH (o + n) fl vol) as (vs & E & L & H); [lia|lia|exact V|intros q I; apply N; right; exact I|]. fold n. rewrite !skipn_add. rewrite E.
    assert (Vs : vsum (firstn n (skipn o vol)) <> 0%R).
    { rewrite cut_vsum by lia. clear - Hn V B. assert (Q : forall k, k <= n -> (0 <= rsum (fun r => at0 vol (o + r)) k)%R /\ (0 < k -> (0 < rsum (fun r => at0 vol (o + r)) k)%R)). { induction k as [|k IH]; intros K; cbn [rsum]; [split; [lra|lia]|]. destruct (IH ltac:(lia)) as [I1 _]. pose proof (V (o + k) ltac:(lia)). split; [|intros _]; lra. }
      destruct (Q n (le_n _)) as [_ Q2]. specialize (Q2 Hn). lra. }
    unfold pin_mean. rewrite !skipn_length. destruct (Nat.ltb_spec (length fl - o) n); [lia|]. destruct (Nat.ltb_spec (length vol - o) n); [lia|]. cbn [orb]. destruct (Reqb_spec (vsum (firstn n (skipn o vol))) 0) as [|_]; [contradiction|].
    eexists. split; [rewrite Nat.add_assoc; reflexivity|]. split; [cbn [length]; now rewrite L|]. intros [|i] Hi; cbn [firstn nth].
    + unfold at0. cbn [nth]. cbn [list_sum]. rewrite Nat.add_0_r. rewrite cut_wsum, cut_vsum by lia. reflexivity.
    + change (list_sum (n :: firstn i (map (fun p => length (pg_areas p)) pins))) with (n + list_sum (firstn i (psizes pins))). rewrite Nat.add_assoc. unfold at0 at 1. cbn [nth]. apply H. cbn [length] in Hi. lia.
Qed.
(** All macroplanes; [starts_at] is the first region of a macroplane. *)
Definition starts_at (ms : list MPl) (k : nat) : nat := list_sum (map (fun m => list_sum (psizes (ml_pins m))) (firstn k ms)).
Definition pins_of (ms : list MPl) (k : nat) : list nat := psizes (ml_pins (nth k ms (mkMPl 0 0 []))).
Definition mp_mean (fl vol : list R) (ms : list MPl) (k i : nat) : R := mean_over fl vol (starts_at ms k + list_sum (firstn i (pins_of ms k))) (nth i (pins_of ms k) 0).
Lemma macro_vals : forall ms o fl vol, o + starts_at ms (length ms) <= length fl -> o + starts_at ms (length ms) <= length vol -> (forall r, r < length vol -> (0 < at0 vol r)%R) -> (forall m p, In m ms -> In p (ml_pins m) -> pg_areas p <> []) ->
  exists vs, macro_means ms (skipn o fl) (skipn o vol) = Some vs /\ length vs = length ms /\ forall k, k < length ms -> length (nth k vs []) = length (pins_of ms k) /\
    forall i, i < length (pins_of ms k) -> at0 (nth k vs []) i = mean_over fl vol (o + starts_at ms k + list_sum (firstn i (pins_of ms k))) (nth i (pins_of ms k) 0).
Proof.
  induction ms as [|m ms IH]; intros o fl vol A B V N; cbn [macro_means].
  - exists []. split; [reflexivity|]. split; [reflexivity|]. intros k Hk. cbn in Hk. lia.
  - unfold starts_at in A, B. cbn [length firstn map] in A, B. set (n := list_sum (psizes (ml_pins m))) in *. change (list_sum (n :: map (fun m => list_sum (psizes (ml_pins m))) (firstn (length ms) ms))) with (n + starts_at ms (length ms)) in *.
    destruct (plane_vals (ml_pins m) o fl vol) as (v & E & L & H); [fold n; lia|fold n; lia|exact V|intros p I; apply (N m p (or_introl eq_refl) I)|]. rewrite E. fold n.
    destruct (IH (o + n) fl vol) as (vs & E2 & L2 & H2); [lia|lia|exact V|intros q p I; apply N; right; exact I|]. rewrite E2. exists (v :: vs). split; [reflexivity|]. split; [cbn [length]; now rewrite L2|]. intros [|k] Hk.
    + unfold pins_of. cbn [nth]. split; [rewrite L; unfold psizes; now rewrite map_length|]. intros i Hi. unfold psizes in Hi. rewrite map_length in Hi. unfold starts_at. cbn [firstn map list_sum]. rewrite Nat.add_0_r. apply H, Hi.
    + cbn [length] in Hk. destruct (H2 k ltac:(lia)) as [H3 H4]. unfold pins_of in *. cbn [nth]. split; [exact H3|]. intros i Hi. rewrite (H4 i Hi). f_equal. unfold starts_at. cbn [firstn map]. change (list_sum (list_sum (psizes (ml_pins m)) :: map (fun m => list_sum (psizes (ml_pins m))) (firstn k ms))) with (n + list_sum (map (fun m => list_sum (psizes (ml_pins m))) (firstn k ms))). lia.
Qed.

(** ** Where the means go *)
(** The macroplanes share out the planes: each plane is in exactly one of them. *)
Definition shares_out (ms : list MPl) (nz : nat) : Prop := (forall m, In m ms -> ml_min m <= ml_max m < nz) /\
  forall z, z < nz -> exists k, k < length ms /\ forall j, j < length ms -> (ml_min (nth j ms (mkMPl 0 0 [])) <= z <= ml_max (nth j ms (mkMPl 0 0 []))) <-> j = k.
Lemma seq_hits : forall (cell : nat -> nat) nxy i c v n a, 0 < nxy -> cell i < nxy -> lsum (fun d => if c =? fst d then (snd d * 1)%R else 0%R) (map (fun z => (cell i + nxy * z, v)) (seq a n)) = if (c mod nxy =? cell i) && ((a <=? c / nxy) && (c / nxy <? a + n)) then v else 0%R.
Proof.
  intros cell nxy i c v n a N Hc. revert a. induction n as [|n IH]; intros a; cbn [seq map lsum fst snd].
  - destruct (Nat.leb_spec a (c / nxy)), (Nat.ltb_spec (c / nxy) (a + 0)); try lia; cbn; rewrite ?andb_false_r; reflexivity.
  - rewrite IH. assert (Q : c = cell i + nxy * a <-> c mod nxy = cell i /\ c / nxy = a).
    { split.
      - intros ->. split; [rewrite Nat.add_comm, Nat.mul_comm, Nat.add_comm, Nat.mod_add, Nat.mod_small by lia; reflexivity|rewrite Nat.add_comm, Nat.mul_comm, Nat.div_add_l, Nat.div_small by lia; lia].
      - intros [E1 E2]. pose proof (Nat.div_mod c nxy ltac:(lia)). rewrite E1, E2 in H. lia. }
    destruct (Nat.eqb_spec c (cell i + nxy * a)) as [E|E].
    + apply Q in E. destruct E as [E1 E2]. rewrite E1, E2, Nat.eqb_refl. destruct (Nat.leb_spec (S a) a); [lia|]. destruct (Nat.leb_spec a a); [|lia]. destruct (Nat.ltb_spec a (a + S n)); [|lia]. cbn. ring.
    + rewrite Rplus_0_l. destruct (Nat.eqb_spec (c mod nxy) (cell i)) as [E1|]; [|reflexivity]. cbn [andb]. assert (D : c / nxy <> a) by (intros D; apply E, Q; split; assumption).
      destruct (Nat.leb_spec (S a) (c / nxy)), (Nat.leb_spec a (c / nxy)), (Nat.ltb_spec (c / nxy) (S a + n)), (Nat.ltb_spec (c / nxy) (a + S n)); try lia; reflexivity.
Qed.
Lemma pins_where : forall cell nxy nz ms fl vol, fills cell nxy -> shares_out ms nz -> (forall m, In m ms -> length (ml_pins m) = nxy) -> (forall m p, In m ms -> In p (ml_pins m) -> pg_areas p <> []) ->
  length fl = starts_at ms (length ms) -> length vol = starts_at ms (length ms) -> (forall r, r < length vol -> (0 < at0 vol r)%R) ->
  exists pf, get_pin_flux cell nxy (nxy * nz) zs_pin ms fl vol = Some pf /\ length pf = nxy * nz /\
    forall i k z, i < nxy -> k < length ms -> z < nz -> ml_min (nth k ms (mkMPl 0 0 [])) <= z <= ml_max (nth k ms (mkMPl 0 0 [])) -> at0 pf (cell i + nxy * z) = mp_mean fl vol ms k i.
Proof.
  intros cell nxy nz ms fl vol (F1 & F2 & F3) [B Sh] Lp Ne Lf Lv V. unfold get_pin_flux. destruct (macro_vals ms 0 fl vol) as (vs & E & L & H); [cbn; lia|cbn; lia|exact V|exact Ne|]. cbn [skipn] in E. rewrite E.
  assert (Ln : forall k, k < length ms -> length (pins_of ms k) = nxy) by (intros k Hk; unfold pins_of, psizes; rewrite map_length; apply Lp, nth_In, Hk).
  assert (Lc : length (combine ms vs) = length ms) by (rewrite combine_length; lia).
  destruct (deposit_spec 1 (macro_writes cell nxy zs_pin ms vs) (repeat 0%R (nxy * nz))) as (out & Eo & Lo & Po).
  { intros [c v] I. rewrite repeat_length. unfold macro_writes in I. apply in_flat_map in I. destruct I as ((j & m & v1) & I1 & I2). cbn [fst snd] in I2. apply in_flat_map in I2. destruct I2 as ((i & v2) & J1 & J2). cbn [fst snd] in J2. apply in_map_iff in J2. destruct J2 as (z & Ez & Iz). injection Ez as <- <-. cbn [fst].
    pose proof (in_combine_r _ _ _ _ I1) as Hr. pose proof (in_combine_l _ _ _ _ Hr) as Hm. pose proof (in_combine_r _ _ _ _ Hr) as Hv. destruct (In_nth _ _ [] Hv) as (k & Hk & Ek). rewrite L in Hk. destruct (H k Hk) as [H1 _]. rewrite Ek in H1. rewrite (Ln k Hk) in H1. apply in_combine_l, in_seq in J1. assert (Ci : cell i < nxy) by (apply F1; lia).
    unfold zs_pin in Iz. apply in_seq in Iz. pose proof (B m Hm). assert (z < nz) by lia. assert (nxy * z + nxy <= nxy * nz) by nia. lia. }
  exists out. split; [exact Eo|]. split; [now rewrite Lo, repeat_length|]. intros i k z Hi Hk Hz R0. rewrite Po. unfold at0 at 1. rewrite nth_repeat, Rplus_0_l. set (c := cell i + nxy * z).
  pose proof (F1 i Hi) as Ci. assert (Nx : 0 < nxy) by lia. assert (Cm : c mod nxy = cell i) by (unfold c; rewrite Nat.mul_comm, Nat.mod_add, Nat.mod_small by lia; reflexivity). assert (Cd : c / nxy = z) by (unfold c; rewrite Nat.add_comm, Nat.mul_comm, Nat.div_add_l, Nat.div_small by lia; lia).
  unfold pay, macro_writes. rewrite lsum_flat_map. rewrite <- Lc. set (m0 := mkMPl 0 0 []) in *.
  rewrite (lsum_index (m0, []) (fun j (mv : MPl * list R) => lsum (fun d => if c =? fst d then (snd d * 1)%R else 0%R) (plane_writes cell nxy (zs_pin j (fst mv)) (snd mv))) (combine ms vs) 0). rewrite Lc. cbn [Nat.add].
  assert (Inner : forall j, j < length ms -> lsum (fun d => if c =? fst d then (snd d * 1)%R else 0%R) (plane_writes cell nxy (zs_pin j (fst (nth j (combine ms vs) (m0, [])))) (snd (nth j (combine ms vs) (m0, [])))) = if j =? k then mp_mean fl vol ms k i else 0%R).
  { intros j Hj. rewrite combine_nth by (symmetry; exact L). cbn [fst snd]. destruct (H j Hj) as [H1 H2]. set (row := nth j vs []) in *. unfold plane_writes. rewrite lsum_flat_map.
    rewrite (lsum_index 0%R (fun q v => lsum (fun d => if c =? fst d then (snd d * 1)%R else 0%R) (map (fun z => (cell q + nxy * z, v)) (zs_pin j (nth j ms m0)))) row 0). cbn [Nat.add]. rewrite H1, (Ln j Hj).
    assert (Bj : ml_min (nth j ms m0) <= ml_max (nth j ms m0)) by (apply B, nth_In, Hj).
    rewrite (rsum_ext _ (fun q => if (cell i =? cell q) && ((ml_min (nth j ms m0) <=? z) && (z <? ml_min (nth j ms m0) + (ml_max (nth j ms m0) + 1 - ml_min (nth j ms m0)))) then at0 row q else 0%R)).
    2:{ intros q Hq. unfold zs_pin. rewrite seq_hits by (try apply F1; assumption). rewrite Cm, Cd. reflexivity. }
    rewrite (rsum_single _ nxy i Hi).
    - rewrite Nat.eqb_refl. cbn [andb]. destruct (Sh z Hz) as (k0 & Hk0 & U). assert (K : k = k0) by (apply (U k Hk); exact R0). subst k0. pose proof (U j Hj) as Uj. fold m0 in Uj.
      destruct (Nat.eqb_spec j k) as [->|D].
      + destruct (Nat.leb_spec (ml_min (nth k ms m0)) z); [|lia]. destruct (Nat.ltb_spec z (ml_min (nth k ms m0) + (ml_max (nth k ms m0) + 1 - ml_min (nth k ms m0)))); [|lia]. cbn [andb]. rewrite (H2 i) by (rewrite (Ln k Hk); exact Hi). reflexivity.
      + destruct (Nat.leb_spec (ml_min (nth j ms m0)) z), (Nat.ltb_spec z (ml_min (nth j ms m0) + (ml_max (nth j ms m0) + 1 - ml_min (nth j ms m0)))); cbn [andb]; try reflexivity. exfalso. apply D, Uj. lia.
    - intros q Hq D. destruct (Nat.eqb_spec (cell i) (cell q)) as [Ec|]; [|reflexivity]. exfalso. apply D. symmetry. apply F2; auto. }
  rewrite (rsum_ext _ (fun j => if j =? k then mp_mean fl vol ms k i else 0%R)) by (intros j Hj; apply Inner; lia).
  rewrite (rsum_single _ _ k); [now rewrite Nat.eqb_refl|exact Hk|]. intros j _ D. destruct (Nat.eqb_spec j k); [contradiction|reflexivity].
Qed.
