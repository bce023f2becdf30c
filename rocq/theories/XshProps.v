(** Shared homogenised cross sections: C124, C125. *)
From Coq Require Import List Lia Bool Reals ZArith Arith Permutation Lra Psatz.
From Verif Require Import RUtil ListUtil McModel ScatModel ScatProps MatModel PflProps XsModel XsProps HomProps XshModel.
Import ListNotations.
Open Scope nat_scope.

(** ** Specification *)
(** Removal is transport less self-scattering, in every group. *)
Definition consistent (n : nat) (rows : list XRow) (v : View) : Prop :=
  length rows = length (vw_sc v) /\ forall i r s, nth_error rows i = Some r -> nth_error (vw_sc v) i = Some s -> forall g, g < n -> exists t x y, nth_error (rw_tr r) g = Some t /\ nth_error (rw_rm r) g = Some x /\ self_scat s g = Some y /\ x = (t - y)%R.
(** The data are those of one homogenisation of these pins. *)
Definition made_of (n : nat) (pins : list (list HReg)) (rows : list XRow) (v : View) : Prop :=
  length rows = length pins /\ length (vw_sc v) = length pins /\
  forall i l, nth_error pins i = Some l -> exists h r s, homogenize_flux n l = Some h /\ nth_error rows i = Some r /\ nth_error (vw_sc v) i = Some s /\
    (forall g, g < n -> nth_error (rw_tr r) g = Some (x_tr h g) /\ nth_error (rw_nf r) g = Some (x_nf h g) /\ nth_error (rw_f r) g = Some (x_f h g) /\ nth_error (rw_ch r) g = Some (x_ch h g) /\
      nth_error (rw_rm r) g = Some (x_tr h g - x_sc h g g)%R /\ self_scat s g = Some (x_sc h g g)).

Lemma removal_nth : forall tr s cnt ig l, removal tr s ig cnt = Some l -> forall j, j < cnt -> exists t x, nth_error tr (ig + j) = Some t /\ self_scat s (ig + j) = Some x /\ nth_error l j = Some (t - x)%R.
Proof.
  intros tr s. induction cnt as [|c IH]; intros ig l H j Hj; [lia|]. cbn [removal] in H. destruct (nth_error tr ig) as [t|] eqn:Et; [|discriminate]. destruct (self_scat s ig) as [x|] eqn:Ex; [|discriminate]. destruct (removal tr s (S ig) c) as [r|] eqn:Er; [|discriminate]. injection H as <-.
  destruct j as [|j]; [exists t, x; rewrite Nat.add_0_r; auto|]. destruct (IH _ _ Er j ltac:(lia)) as (t' & x' & A & B & C). exists t', x'. replace (ig + S j) with (S ig + j) by lia. auto.
Qed.
Lemma removal_some : forall tr s cnt ig, (forall j, j < cnt -> exists t x, nth_error tr (ig + j) = Some t /\ self_scat s (ig + j) = Some x) -> exists l, removal tr s ig cnt = Some l.
Proof.
  intros tr s. induction cnt as [|c IH]; intros ig H; cbn [removal]; [eauto|]. destruct (H 0 ltac:(lia)) as (t & x & A & B). rewrite Nat.add_0_r in A, B. rewrite A, B. destruct (IH (S ig)) as (l & E); [|rewrite E; eauto]. intros j Hj. replace (S ig + j) with (ig + S j) by lia. apply H. lia.
Qed.
Lemma nth_row : forall (f : nat -> R) n g, g < n -> nth_error (map f (seq 0 n)) g = Some (f g).
Proof. intros f n g H. rewrite nth_error_map, (nth_error_nth' _ 0) by (rewrite seq_length; lia). now rewrite seq_nth. Qed.

Lemma new_row_some : forall n h, exists r s, new_row n h = Some (r, s) /\ forall g, g < n -> nth_error (rw_tr r) g = Some (x_tr h g) /\ nth_error (rw_nf r) g = Some (x_nf h g) /\ nth_error (rw_f r) g = Some (x_f h g) /\ nth_error (rw_ch r) g = Some (x_ch h g) /\
      nth_error (rw_rm r) g = Some (x_tr h g - x_sc h g g)%R /\ self_scat s g = Some (x_sc h g g).
Proof.
  intros n h. unfold new_row. destruct (C19_self_scatter n (x_sc h)) as (s & Es & Ss). rewrite Es. destruct (removal_some (map (x_tr h) (seq 0 n)) s n 0) as (l & El); [intros j Hj; exists (x_tr h j), (x_sc h j j); cbn [plus]; split; [now apply nth_row|now apply Ss]|]. rewrite El.
  do 2 eexists. split; [reflexivity|]. intros g Hg. cbn [rw_tr rw_nf rw_f rw_ch rw_rm]. rewrite !nth_row by lia. repeat (split; [reflexivity|]). split; [|now apply Ss].
  destruct (removal_nth _ _ _ _ _ El g Hg) as (t & x & A & B & C). cbn [plus] in A, B. rewrite nth_row in A by lia. rewrite Ss in B by lia. congruence.
Qed.
Lemma new_rows_made : forall n pins xs, new_rows n pins = Some xs -> length xs = length pins /\ forall i l, nth_error pins i = Some l -> exists h r s, homogenize_flux n l = Some h /\ nth_error xs i = Some (r, s) /\ new_row n h = Some (r, s).
Proof.
  intros n. induction pins as [|p pins IH]; intros xs H; cbn [new_rows] in H; [injection H as <-; split; [reflexivity|intros [|]; discriminate]|].
  destruct (homogenize_flux n p) as [h|] eqn:Eh; [|discriminate]. destruct (new_row n h) as [[r s]|] eqn:Er; [|discriminate]. destruct (new_rows n pins) as [ys|] eqn:Ey; [|discriminate]. injection H as <-. destruct (IH _ eq_refl) as (L & A). split; [cbn; lia|].
  intros [|i] l E; cbn [nth_error] in *; [injection E as <-; exists h, r, s; auto|auto].
Qed.
Lemma made_consistent : forall n pins rows v, made_of n pins rows v -> consistent n rows v.
Proof.
  intros n pins rows v (L1 & L2 & A). split; [lia|]. intros i r s Er Es g Hg. destruct (nth_error pins i) as [l|] eqn:El; [|apply nth_error_None in El; assert (i < length rows) by (apply nth_error_Some; congruence); lia].
  destruct (A i l El) as (h & r' & s' & _ & Er' & Es' & B). rewrite Er in Er'. injection Er' as <-. rewrite Es in Es'. injection Es' as <-. destruct (B g Hg) as (B1 & _ & _ & _ & B5 & B6). eauto 10.
Qed.
Lemma update_made : forall n pins rows v rows' v', update_mesh n pins (rows, v) = Some (rows', v') -> vw_flux v = true -> made_of n pins rows' v' /\ (vw_state v' = vw_state v + 1)%Z /\ vw_regs v' = vw_regs v /\ vw_flux v' = true.
Proof.
  intros n pins rows v rows' v' H F. unfold update_mesh in H. rewrite F in H. destruct (new_rows n pins) as [xs|] eqn:E; [|discriminate]. injection H as <- <-. destruct (new_rows_made _ _ _ E) as (L & A).
  split; [|split; [reflexivity|split; reflexivity]]. cbn [vw_sc]. split; [now rewrite map_length|]. split; [cbn; now rewrite map_length|]. intros i l El. destruct (A i l El) as (h & r & s & Eh & Ex & Er). exists h, r, s. split; [exact Eh|]. cbn [vw_sc]. rewrite !nth_error_map, Ex. split; [reflexivity|]. split; [reflexivity|].
  destruct (new_row_some n h) as (r' & s' & Er' & B). rewrite Er in Er'. injection Er' as <- <-. exact B.
Qed.

(** ** C124 *)
(** The mesh that was updated last has the cross sections of one homogenisation, that of the flux of the moment; the rows are the
    other mesh's as well. *)
Theorem C124_last : forall n os first pins w w' w'', steps n os w = Some w' -> step n (first, pins) w' = Some w'' -> vw_flux (if first then w_a w' else w_b w') = true ->
  let v := if first then w_a w'' else w_b w'' in
  made_of n pins (w_rows w'') v /\ consistent n (w_rows w'') v /\ vw_state v = (vw_state (if first then w_a w' else w_b w') + 1)%Z /\ (if first then w_b w'' = w_b w' else w_a w'' = w_a w').
Proof.
  intros n os first pins w w' w'' _ H F v. subst v. unfold step in H. destruct first.
  - destruct (update_mesh _ _ _) as [[r v]|] eqn:E; [|discriminate]. injection H as <-. cbn [w_rows w_a w_b]. destruct (update_made _ _ _ _ _ _ E F) as (A & B & _). split; [exact A|]. split; [exact (made_consistent _ _ _ _ A)|]. auto.
  - destruct (update_mesh _ _ _) as [[r v]|] eqn:E; [|discriminate]. injection H as <-. cbn [w_rows w_a w_b]. destruct (update_made _ _ _ _ _ _ E F) as (A & B & _). split; [exact A|]. split; [exact (made_consistent _ _ _ _ A)|]. auto.
Qed.
Print Assumptions C124_last.
(** As long as only one of them is updated it stays consistent. *)
Theorem C124_alone : forall n os w w', consistent n (w_rows w) (w_a w) -> vw_flux (w_a w) = true -> Forall (fun o => fst o = true) os -> steps n os w = Some w' -> consistent n (w_rows w') (w_a w') /\ vw_flux (w_a w') = true.
Proof.
  intros n. induction os as [|[f pins] os IH]; intros w w' C F A H; cbn [steps] in H; [injection H as <-; auto|]. destruct (step n (f, pins) w) as [w1|] eqn:E; [|discriminate]. inversion A as [|? ? A1 A2]; subst. cbn [fst] in A1. subst f.
  apply (IH w1 w'); auto; unfold step in E; destruct (update_mesh _ _ _) as [[r v]|] eqn:Eu; try discriminate; injection E as <-; cbn [w_rows w_a]; destruct (update_made _ _ _ _ _ _ Eu F) as (B1 & _ & _ & B4); [exact (made_consistent _ _ _ _ B1)|exact B4].
Qed.
Print Assumptions C124_alone.

(** Two regions of area one: transport 1 without scattering, and transport 2 with scattering 1; fluxes [a] and [b]. *)
Definition xm_abs : XMat := mkXM (fun _ => 1%R) (fun _ => 0%R) (fun _ => 0%R) (fun _ => 0%R) (fun g => g) (fun g => g) (fun _ _ => 0%R).
Definition xm_sca : XMat := mkXM (fun _ => 2%R) (fun _ => 0%R) (fun _ => 0%R) (fun _ => 0%R) (fun g => g) (fun g => g) (fun _ _ => 1%R).
Definition pin2 (a b : R) : list HReg := [mkHR 1 (fun _ => a) xm_abs; mkHR 1 (fun _ => b) xm_sca].
Definition v0 : View := mkVw [[0]] [mkSM 0 [] [] []] 0 true.
Definition two0 : Two := mkTwo [] v0 v0.

Lemma pin2_hom : forall a b, (0 < a)%R -> (0 < b)%R -> exists h, homogenize_flux 1 (pin2 a b) = Some h /\ x_tr h 0 = ((a + 2 * b) / (a + b))%R /\ x_sc h 0 0 = (b / (a + b))%R.
Proof.
  intros a b A B. assert (Eq : existsb (fun g => Reqb (acc (fun r => (h_v r * h_fl r g)%R) (pin2 a b)) 0) (seq 0 1) = false). { cbn [existsb seq]. unfold acc, pin2. cbn [fold_left h_v h_fl]. destruct (Reqb_spec (0 + 1 * a + 1 * b) 0)%R; [lra|reflexivity]. }
  eexists. split; [unfold homogenize_flux; rewrite Eq; reflexivity|]. cbn [x_tr x_sc]. unfold acc, pin2, in_band. cbn [fold_left h_v h_fl h_m m_tr m_min m_max m_sc xm_abs xm_sca Nat.leb andb]. split; [field; lra|].
  rewrite Rltb_true by nra. field. lra.
Qed.
Lemma pin2_rows : forall a b, (0 < a)%R -> (0 < b)%R -> exists r s, new_rows 1 [pin2 a b] = Some [(r, s)] /\ nth_error (rw_tr r) 0 = Some ((a + 2 * b) / (a + b))%R /\ nth_error (rw_rm r) 0 = Some 1%R /\ self_scat s 0 = Some (b / (a + b))%R.
Proof.
  intros a b A B. destruct (pin2_hom a b A B) as (h & E & T & Sx). destruct (new_row_some 1 h) as (r & s & Er & P). destruct (P 0 ltac:(lia)) as (P1 & _ & _ & _ & P5 & P6). exists r, s. cbn [new_rows]. rewrite E, Er. split; [reflexivity|]. rewrite P1, P5, P6, T, Sx. split; [reflexivity|]. split; [f_equal; field; lra|reflexivity].
Qed.

(** A mesh without a flux is not changed, and neither is anything else. *)
Theorem C124_idle : forall n (first : bool) pins w, vw_flux (if first then w_a w else w_b w) = false -> step n (first, pins) w = Some w.
Proof. intros n first pins [rows a b] F. unfold step, update_mesh. destruct first; cbn [w_rows w_a w_b] in *; rewrite F; reflexivity. Qed.
Print Assumptions C124_idle.
Example C124_idle_instance : step 1 (true, [pin2 1 1]) (mkTwo [] (mkVw [[0]] [] 0 false) v0) = Some (mkTwo [] (mkVw [[0]] [] 0 false) v0).
Proof. apply C124_idle. reflexivity. Qed.

(** Once both have been updated the first one is left with scattering of an older flux: its removal is not transport less
    self-scattering. *)
Theorem C124_shared_refuted : exists os w t x y s r, steps 1 os two0 = Some w /\ Forall (fun o => exists a b, (0 < a /\ 0 < b)%R /\ snd o = [pin2 a b]) os /\ nth_error (w_rows w) 0 = Some r /\ nth_error (vw_sc (w_a w)) 0 = Some s /\
  nth_error (rw_tr r) 0 = Some t /\ nth_error (rw_rm r) 0 = Some x /\ self_scat s 0 = Some y /\ (x < t - y)%R /\ ~ consistent 1 (w_rows w) (w_a w).
Proof.
  destruct (pin2_rows 1 1 ltac:(lra) ltac:(lra)) as (r1 & s1 & E1 & T1 & M1 & S1). destruct (pin2_rows 1 3 ltac:(lra) ltac:(lra)) as (r2 & s2 & E2 & T2 & M2 & S2).
  exists [(true, [pin2 1 1]); (false, [pin2 1 3])]. eexists. exists ((1 + 2 * 3) / (1 + 3))%R, 1%R, (1 / (1 + 1))%R, s1, r2.
  split; [unfold steps, step, update_mesh, two0; cbn [w_rows w_a w_b v0 vw_flux]; rewrite E1; cbn [w_rows w_a w_b v0 vw_flux]; rewrite E2; reflexivity|].
  split; [constructor; [exists 1%R, 1%R; split; [lra|reflexivity]|constructor; [exists 1%R, 3%R; split; [lra|reflexivity]|constructor]]|]. cbn [w_rows w_a vw_sc map fst snd nth_error]. do 2 (split; [reflexivity|]). do 3 (split; [assumption|]). split; [lra|].
  intros (_ & C). destruct (C 0 r2 s1 eq_refl eq_refl 0 ltac:(lia)) as (t & x & y & Ct & Cx & Cy & Q). rewrite T2 in Ct. rewrite M2 in Cx. rewrite S1 in Cy. injection Ct as <-. injection Cx as <-. injection Cy as <-. lra.
Qed.
Print Assumptions C124_shared_refuted.

(** With one group, cross sections expanded for the first mesh are not refreshed either: its state does not change. *)
Theorem C124_stale_refuted : exists w1 w2 X X', step 1 (true, [pin2 1 1]) two0 = Some w1 /\ expand 0 (as_expanded (w_rows w1) (w_a w1) [0%R] (-1) (-1)) = Some X /\ step 1 (false, [pin2 1 3]) w1 = Some w2 /\
  expand 0 (as_expanded (w_rows w2) (w_a w2) (xe_arr X) (xe_group X) (xe_seen X)) = Some X' /\ xe_arr X' = [((1 + 2 * 1) / (1 + 1))%R] /\ map (fun r => nth 0 (rw_tr r) 0%R) (w_rows w2) = [((1 + 2 * 3) / (1 + 3))%R].
Proof.
  destruct (pin2_rows 1 1 ltac:(lra) ltac:(lra)) as (r1 & s1 & E1 & T1 & M1 & S1). destruct (pin2_rows 1 3 ltac:(lra) ltac:(lra)) as (r2 & s2 & E2 & T2 & M2 & S2).
  do 4 eexists. split; [unfold step, update_mesh, two0; cbn [w_rows w_a w_b v0 vw_flux]; rewrite E1; reflexivity|]. split; [unfold expand, as_expanded; cbn -[IZR Rplus]; reflexivity|]. split; [unfold step, update_mesh; cbn [w_rows w_a w_b v0 vw_flux]; rewrite E2; reflexivity|].
  split; [unfold expand, as_expanded; cbn -[IZR Rplus]; reflexivity|]. apply nth_error_nth with (d := 0%R) in T1, T2. cbn [map fst w_rows xe_arr]. rewrite T2. split; [|reflexivity]. cbn [xe_arr]. f_equal. rewrite T1. lra.
Qed.
Print Assumptions C124_stale_refuted.

Example C124_instance : exists w w', steps 1 [(true, [pin2 1 1]); (true, [pin2 1 3])] two0 = Some w /\ step 1 (false, [pin2 2 5]) w = Some w' /\ vw_flux (w_b w) = true /\ consistent 1 (w_rows w) (w_a w) /\ vw_state (w_a w') = 2%Z.
Proof.
  destruct (pin2_rows 1 1 ltac:(lra) ltac:(lra)) as (r1 & s1 & E1 & T1 & M1 & S1). destruct (pin2_rows 1 3 ltac:(lra) ltac:(lra)) as (r2 & s2 & E2 & T2 & M2 & S2). destruct (pin2_rows 2 5 ltac:(lra) ltac:(lra)) as (r3 & s3 & E3 & _).
  do 2 eexists. split; [unfold steps, step, update_mesh, two0; cbn [w_rows w_a w_b v0 vw_flux]; rewrite E1; cbn [w_rows w_a w_b v0 vw_flux]; rewrite E2; reflexivity|]. split; [unfold step, update_mesh; cbn [w_rows w_a w_b v0 vw_flux]; rewrite E3; reflexivity|]. split; [reflexivity|]. split; [|reflexivity].
  split; [reflexivity|]. cbn [w_rows w_a vw_sc map fst snd]. intros [|i] r s Er Es g Hg; [|destruct i; discriminate]. injection Er as <-. injection Es as <-. assert (g = 0) by lia. subst g. do 3 eexists. split; [exact T2|]. split; [exact M2|]. split; [exact S2|]. field.
Qed.

(** ** C125 *)
Lemma copy_regs : forall cell nxy np v, vw_regs (copy_mesh cell nxy np v) = hom_regions cell nxy (map (fun iz => (iz, iz)) (seq 0 np)).
Proof.
  intros cell nxy np v. unfold copy_mesh, hom_regions. cbn [vw_regs]. generalize (seq 0 np) as l. induction l as [|iz l IH]; [reflexivity|]. cbn [map flat_map fst snd]. rewrite IH. f_equal. apply map_ext. intros ip. unfold hom_region. replace (iz + 1 - iz) with 1 by lia. reflexivity.
Qed.
Lemma single_stacked : forall np z, stacked z (map (fun iz => (iz, iz)) (seq z np)) /\ top z (map (fun iz => (iz, iz)) (seq z np)) = z + np.
Proof. induction np as [|n IH]; intros z; cbn [seq map stacked top]; [split; [exact I|lia]|]. destruct (IH (S z)) as [A B]. split; [split; [reflexivity|split; [lia|exact A]]|]. rewrite B. lia. Qed.
(** The copy's regions are the cells of the macroplane mesh, each one once, and cell [ipin] of macroplane [iz] has the data of pin [ipin]
    of macroplane [iz]; matrices and state are the original's. *)
Theorem C125_copy : forall cell nxy np v, fills cell nxy -> Forall (fun s => exists n m, compress n m = Some s) (vw_sc v) -> let c := copy_mesh cell nxy np v in
  length (vw_regs c) = nxy * np /\ Permutation (concat (vw_regs c)) (seq 0 (nxy * np)) /\ (forall iz ipin, iz < np -> ipin < nxy -> nth_error (vw_regs c) (nxy * iz + ipin) = Some [cell ipin + nxy * iz]) /\
  vw_sc c = vw_sc v /\ vw_state c = vw_state v /\ vw_flux c = vw_flux v /\ forall n rows, consistent n rows v -> consistent n rows c.
Proof.
  intros cell nxy np v F M c. destruct (single_stacked np 0) as [St Tp]. destruct (C86_partition cell nxy _ F St) as (A & B & C). rewrite <- (copy_regs cell nxy np v) in A, B, C. fold c in A, B, C. rewrite map_length, seq_length in A. rewrite Tp in B. cbn [plus] in B.
  assert (E : vw_sc c = vw_sc v). { unfold c, copy_mesh. cbn [vw_sc]. induction M as [|s l (n & m & Es) M IH]; [reflexivity|]. cbn [map]. rewrite IH, (C19_copy _ _ _ Es). reflexivity. }
  split; [exact A|]. split; [exact B|]. split.
  - intros iz ipin Hz Hp. unfold c. rewrite copy_regs. rewrite (nth_hom cell nxy _ iz iz iz ipin); [unfold hom_region; replace (iz + 1 - iz) with 1 by lia; reflexivity| |exact Hp]. rewrite nth_error_map, (nth_error_nth' _ 0) by (rewrite seq_length; lia). now rewrite seq_nth by lia.
  - split; [exact E|]. split; [reflexivity|]. split; [reflexivity|]. intros n rows (L & K). unfold consistent. rewrite E. auto.
Qed.
Print Assumptions C125_copy.
Example C125_instance : exists s, compress 1 (fun _ _ => 1%R) = Some s /\ fills (fun i => 1 - i) 2 /\ vw_regs (copy_mesh (fun i => 1 - i) 2 2 (mkVw [] [s] 3 true)) = [[1]; [0]; [3]; [2]].
Proof. destruct (C19_self_scatter 1 (fun _ _ => 1%R)) as (s & E & _). exists s. split; [exact E|]. split; [|reflexivity]. split; [intros; lia|]. split; [intros; lia|]. intros c Hc. exists (1 - c). lia. Qed.
