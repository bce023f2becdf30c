(** C46: the Sn cell equations satisfy the balance equation. *)
From Coq Require Import List Lia Bool Reals ZArith Arith Lra Psatz.
From Verif Require Import RUtil ListUtil SnModel.
Import ListNotations.
Open Scope R_scope.

(** The balance of a cell for one direction: net outflow through the faces plus collisions equals the source. *)
Definition balanced (tx ty tz fx fy fz q xstr : R) (o : CellOut) : Prop :=
  let '(psi, gx, gy, gz) := o in tx * (gx - fx) + ty * (gy - fy) + tz * (gz - fz) + xstr * psi = q.
Definition balanced_2d (tx ty fx fy q xstr : R) (o : CellOut) : Prop :=
  let '(psi, gx, gy, gz) := o in tx * (gx - fx) + ty * (gy - fy) + xstr * psi = q.

Lemma rdiv_some : forall a b r, rdiv a b = Some r -> b <> 0 /\ r = a / b.
Proof. intros a b r. unfold rdiv. destruct (Reqb_spec b 0); [discriminate|]. intros H; injection H as <-. auto. Qed.
Lemma rdiv_ok : forall a b, b <> 0 -> rdiv a b = Some (a / b).
Proof. intros a b H. unfold rdiv. destruct (Reqb_spec b 0); [contradiction|reflexivity]. Qed.
Lemma rdiv_eq : forall a b r, rdiv a b = Some r -> b <> 0 /\ r * b = a.
Proof. intros a b r E. apply rdiv_some in E. destruct E as [N ->]. split; [auto|field; auto]. Qed.
Lemma out1 : forall t p g f, g <> 0 -> t * ((p - g * f) / g - f) = t / g * p - 2 * t * f.
Proof. intros. field. auto. Qed.
Lemma out2 : forall t p g f, g <> 0 -> t * (p / g - f - f) = t / g * p - 2 * t * f.
Proof. intros. field. auto. Qed.
Lemma outz : forall t p r f, 1 - r <> 0 -> t * ((p - r * f) / (1 - r) - f) = t / (1 - r) * p - t / (1 - r) * f.
Proof. intros. field. auto. Qed.
Lemma inz : forall t r f, 1 - r <> 0 -> t * (r / (1 - r) + 1) * f = t / (1 - r) * f.
Proof. intros. field. auto. Qed.
Ltac rd := repeat match goal with H : match rdiv ?a ?b with _ => _ end = Some _ |- _ => let E := fresh "D" in destruct (rdiv a b) eqn:E; [apply rdiv_some in E; destruct E|discriminate] end.

(** C46 for plain diamond difference. *)
Theorem C46_dd : forall tx ty tz fx fy fz q xstr o, eval_dd tx ty tz fx fy fz q xstr = Some o -> balanced tx ty tz fx fy fz q xstr o.
Proof. intros tx ty tz fx fy fz q xstr o E. unfold eval_dd in E. destruct (rdiv _ _) as [psi|] eqn:D in E; [|discriminate]. destruct (rdiv_eq _ _ _ D). injection E as <-. unfold balanced. lra. Qed.
Print Assumptions C46_dd.
(** C46 for the two-dimensional equations, plain and corrected. *)
Theorem C46_2d : (forall tx ty tz fx fy fz q xstr o, eval_dd_2d tx ty tz fx fy fz q xstr = Some o -> balanced_2d tx ty fx fy q xstr o) /\
  (forall ax ay b tx ty tz fx fy fz q xstr o, eval_cdd_2d ax ay b tx ty tz fx fy fz q xstr = Some o -> balanced_2d tx ty fx fy q xstr o).
Proof.
  split.
  - intros tx ty tz fx fy fz q xstr o E. unfold eval_dd_2d in E. destruct (rdiv (2 * (tx * fx + ty * fy) + q) (2 * (tx + ty) + xstr)) as [psi|] eqn:D; [|discriminate]. destruct (rdiv_eq _ _ _ D). injection E as <-. unfold balanced_2d. lra.
  - intros ax ay b tx ty tz fx fy fz q xstr o E. unfold eval_cdd_2d in E. set (gx := ax * b) in *. set (gy := ay * b) in *. destruct (rdiv tx gx) as [dx|] eqn:D1; [|discriminate]. destruct (rdiv ty gy) as [dy|] eqn:D2; [|discriminate]. apply rdiv_some in D1. apply rdiv_some in D2. destruct D1 as [N1 ->]. destruct D2 as [N2 ->].
    destruct (rdiv _ _) as [psi|] eqn:D in E; [|discriminate]. destruct (rdiv_eq _ _ _ D). injection E as <-. unfold balanced_2d. rewrite !out1 by auto. lra.
Qed.
Print Assumptions C46_2d.

Lemma exp_gt : forall t, 0 < t -> 1 + t < exp t.
Proof. intros t H. apply exp_ineq1. exact (Rgt_not_eq _ _ H). Qed.
Lemma rho_some : forall tz xstr rho, sc_rho tz xstr = Some rho -> tz <> 0 /\ xstr <> 0 /\ exp (xstr / tz) - 1 <> 0 /\ rho = tz / xstr - 1 / (exp (xstr / tz) - 1).
Proof.
  intros tz xstr rho E. unfold sc_rho in E. rd. injection E as <-. subst. assert (xstr <> 0) by (intros ->; apply H1; field; auto). repeat split; auto. f_equal. field. auto.
Qed.
(** C46 for step characteristics in the axial direction. *)
Theorem C46_dd_sc : forall tx ty tz fx fy fz q xstr o, eval_dd_sc tx ty tz fx fy fz q xstr = Some o -> balanced tx ty tz fx fy fz q xstr o.
Proof.
  intros tx ty tz fx fy fz q xstr o E. unfold eval_dd_sc in E. destruct (sc_rho tz xstr) as [rho|]; [|discriminate]. destruct (rdiv rho (1 - rho)) as [rf|] eqn:D1; [|discriminate]. destruct (rdiv tz (1 - rho)) as [tr|] eqn:D2; [|discriminate]. apply rdiv_some in D1. apply rdiv_some in D2. destruct D1 as [N1 ->]. destruct D2 as [_ ->].
  destruct (rdiv _ _) as [psi|] eqn:D in E; [|discriminate]. destruct (rdiv_eq _ _ _ D) as [_ K]. injection E as <-. unfold balanced. rewrite outz by auto. rewrite inz in K by auto. lra.
Qed.
Print Assumptions C46_dd_sc.
Ltac gs E := match type of E with match rdiv ?a ?g with _ => _ end = _ => let D := fresh "D" in let d := fresh "d" in destruct (rdiv a g) as [d|] eqn:D; [|discriminate]; apply rdiv_some in D; destruct D as [? ->] end;
  match type of E with match rdiv ?a ?g with _ => _ end = _ => let D := fresh "D" in let d := fresh "d" in destruct (rdiv a g) as [d|] eqn:D; [|discriminate]; apply rdiv_some in D; destruct D as [? ->] end.
(** C46 for the corrected equations, with any correction factors. *)
Theorem C46_cdd : forall ax ay b tx ty tz fx fy fz q xstr o,
  eval_cdd_dd ax ay b tx ty tz fx fy fz q xstr = Some o \/ eval_cdd_fw ax ay b tx ty tz fx fy fz q xstr = Some o \/ eval_cdd_sc ax ay b tx ty tz fx fy fz q xstr = Some o -> balanced tx ty tz fx fy fz q xstr o.
Proof.
  intros ax ay b tx ty tz fx fy fz q xstr o [E|[E|E]].
  - unfold eval_cdd_dd in E. cbv zeta in E. gs E. destruct (rdiv _ _) as [psi|] eqn:D in E; [|discriminate]. destruct (rdiv_eq _ _ _ D) as [_ K]. injection E as <-. unfold balanced. rewrite !out2 by auto. lra.
  - unfold eval_cdd_fw in E. cbv zeta in E. gs E. destruct (rdiv _ _) as [psi|] eqn:D in E; [|discriminate]. destruct (rdiv_eq _ _ _ D) as [_ K]. injection E as <-. unfold balanced. rewrite !out1 by auto. lra.
  - unfold eval_cdd_sc in E. cbv zeta in E. destruct (sc_rho tz xstr) as [rho|]; [|discriminate]. destruct (rdiv rho (1 - rho)) as [rf|] eqn:D1; [|discriminate]. destruct (rdiv tz (1 - rho)) as [tr|] eqn:D2; [|discriminate]. apply rdiv_some in D1. apply rdiv_some in D2. destruct D1 as [N1 ->]. destruct D2 as [_ ->].
    gs E. destruct (rdiv _ _) as [psi|] eqn:D in E; [|discriminate]. destruct (rdiv_eq _ _ _ D) as [_ K]. injection E as <-. unfold balanced. rewrite !out1, outz by auto. rewrite inz in K by auto. lra.
Qed.
Print Assumptions C46_cdd.
(** C46 for the corrected equation with flux fix-up: balance holds on both branches, and the axial outflow is never
    negative. *)
Theorem C46_fixup : forall ax ay b tx ty tz fx fy fz q xstr o, eval_cdd_ff ax ay b tx ty tz fx fy fz q xstr = Some o -> balanced tx ty tz fx fy fz q xstr o /\ 0 <= snd o.
Proof.
  intros ax ay b tx ty tz fx fy fz q xstr o E. unfold eval_cdd_ff in E. cbv zeta in E. gs E. destruct (rdiv _ _) as [psi|] eqn:D1 in E; [|discriminate]. destruct (rdiv_eq _ _ _ D1) as [_ K1]. destruct (Rltb_spec (2 * psi - fz) 0) as [L|L].
  - destruct (rdiv _ _) as [psi'|] eqn:D2 in E; [|discriminate]. destruct (rdiv_eq _ _ _ D2) as [_ K]. injection E as <-. unfold balanced. cbn [snd]. split; [|lra]. rewrite !out2 by auto. lra.
  - injection E as <-. unfold balanced. cbn [snd]. split; [|lra]. rewrite !out2 by auto. lra.
Qed.
Print Assumptions C46_fixup.

(** The equations are defined for positive transport factors, cross sections and corrections. *)
Lemma rho_bounds : forall tz xstr, 0 < tz -> 0 < xstr -> exists rho, sc_rho tz xstr = Some rho /\ 0 < rho < 1.
Proof.
  intros tz xstr Ht Hx. assert (T : 0 < xstr / tz) by (apply Rdiv_lt_0_compat; auto). pose proof (exp_gt _ T) as G. unfold sc_rho. rewrite rdiv_ok by lra. set (t := xstr / tz) in *. rewrite !rdiv_ok by lra. eexists. split; [reflexivity|].
  assert (M : 1 - t < exp (- t)) by (replace (1 - t) with (1 + - t) by ring; apply exp_ineq1; lra). rewrite exp_Ropp in M. assert (P : 0 < exp t) by apply exp_pos.
  assert (K : (1 - t) * exp t < 1). { apply Rmult_lt_reg_r with (/ exp t); [apply Rinv_0_lt_compat; lra|]. field_simplify; [|lra..]. unfold Rdiv. rewrite Rmult_1_l. lra. }
  replace (1 / t - 1 / (exp t - 1)) with ((exp t - 1 - t) / (t * (exp t - 1))) by (field; lra). assert (D : 0 < t * (exp t - 1)) by nra. split.
  - apply Rdiv_lt_0_compat; lra.
  - apply Rmult_lt_reg_r with (t * (exp t - 1)); [auto|]. unfold Rdiv. rewrite Rmult_assoc, Rinv_l by lra. nra.
Qed.
Theorem C46_defined : forall tx ty tz fx fy fz q xstr ax ay b, 0 < tx -> 0 < ty -> 0 < tz -> 0 < xstr -> 0 < ax -> 0 < ay -> 0 < b ->
  (exists o, eval_dd tx ty tz fx fy fz q xstr = Some o) /\ (exists o, eval_dd_2d tx ty tz fx fy fz q xstr = Some o) /\ (exists o, eval_dd_sc tx ty tz fx fy fz q xstr = Some o) /\
  (exists o, eval_cdd_2d ax ay b tx ty tz fx fy fz q xstr = Some o) /\ (exists o, eval_cdd_dd ax ay b tx ty tz fx fy fz q xstr = Some o) /\ (exists o, eval_cdd_ff ax ay b tx ty tz fx fy fz q xstr = Some o) /\
  (exists o, eval_cdd_fw ax ay b tx ty tz fx fy fz q xstr = Some o) /\ (exists o, eval_cdd_sc ax ay b tx ty tz fx fy fz q xstr = Some o).
Proof.
  intros tx ty tz fx fy fz q xstr ax ay b Hx Hy Hz Hs Ha Hb Hc. destruct (rho_bounds tz xstr Hz Hs) as (rho & R & B). assert (Gx : 0 < ax * b) by nra. assert (Gy : 0 < ay * b) by nra.
  assert (Dx : 0 < tx / (ax * b)) by (apply Rdiv_lt_0_compat; auto). assert (Dy : 0 < ty / (ay * b)) by (apply Rdiv_lt_0_compat; auto). assert (Dz : 0 < tz / (1 - rho)) by (apply Rdiv_lt_0_compat; lra).
  unfold eval_dd, eval_dd_2d, eval_dd_sc, eval_cdd_2d, eval_cdd_dd, eval_cdd_ff, eval_cdd_fw, eval_cdd_sc. rewrite R. cbv zeta. rewrite !(rdiv_ok _ (ax * b)), !(rdiv_ok _ (ay * b)), !(rdiv_ok _ (1 - rho)) by lra. cbv iota.
  repeat split; try (rewrite rdiv_ok by lra; cbv iota; eexists; reflexivity).
  rewrite rdiv_ok by lra. cbv iota. destruct (Rltb _ 0); [rewrite rdiv_ok by lra|]; eexists; reflexivity.
Qed.
Print Assumptions C46_defined.

(** Step characteristics is exact along z: the outflow is the analytic attenuation of the inflow plus the response to the
    source left after the radial leakage. *)
Theorem C46_sc_exact : forall ax ay b tx ty tz fx fy fz q xstr psi gx gy gz,
  eval_dd_sc tx ty tz fx fy fz q xstr = Some (psi, gx, gy, gz) \/ eval_cdd_sc ax ay b tx ty tz fx fy fz q xstr = Some (psi, gx, gy, gz) ->
  gz = fz * exp (- (xstr / tz)) + (q - tx * (gx - fx) - ty * (gy - fy)) / xstr * (1 - exp (- (xstr / tz))).
Proof.
  intros ax ay b tx ty tz fx fy fz q xstr psi gx gy gz E.
  assert (K : balanced tx ty tz fx fy fz q xstr (psi, gx, gy, gz)) by (destruct E as [E|E]; [eapply C46_dd_sc; eauto|eapply C46_cdd; eauto]).
  assert (X : exists rho, sc_rho tz xstr = Some rho /\ 1 - rho <> 0 /\ gz = (psi - rho * fz) / (1 - rho)).
  { destruct E as [E|E]; [unfold eval_dd_sc in E|unfold eval_cdd_sc in E; set (g1 := ax * b) in *; set (g2 := ay * b) in *]; destruct (sc_rho tz xstr) as [rho|]; try discriminate; exists rho; rd; injection E as <- <- <- <-; auto. }
  destruct X as (rho & R & N & ->). destruct (rho_some _ _ _ R) as (Z & Xs & Ex & Rv). unfold balanced in K. rewrite exp_Ropp. set (g := (psi - rho * fz) / (1 - rho)) in *. assert (P : psi = (1 - rho) * g + rho * fz) by (unfold g; field; auto).
  assert (Pe : 0 < exp (xstr / tz)) by apply exp_pos. set (t := xstr / tz) in *. assert (Xt : xstr = t * tz) by (unfold t; field; auto). assert (Tn : t <> 0) by (intros Y; apply Xs; rewrite Xt, Y; ring).
  replace (q - tx * (gx - fx) - ty * (gy - fy)) with (tz * (g - fz) + xstr * psi) by lra. rewrite P. rewrite Rv. replace (tz / xstr) with (1 / t) by (rewrite Xt; field; auto). rewrite Xt. field. repeat split; auto. lra.
Qed.
Print Assumptions C46_sc_exact.

(** A uniform field in equilibrium with its source is left alone by every equation (for the corrected ones, with correction
    factors whose product is one half), in which case the corrected equations are the plain ones. *)
Theorem C46_uniform : forall tx ty tz xstr f, 0 < tx -> 0 < ty -> 0 < tz -> 0 < xstr ->
  eval_dd tx ty tz f f f (xstr * f) xstr = Some (f, f, f, f) /\ eval_dd_2d tx ty tz f f f (xstr * f) xstr = Some (f, f, f, f) /\ eval_dd_sc tx ty tz f f f (xstr * f) xstr = Some (f, f, f, f).
Proof.
  intros tx ty tz xstr f Hx Hy Hz Hs. destruct (rho_bounds tz xstr Hz Hs) as (rho & R & B). unfold eval_dd, eval_dd_2d, eval_dd_sc. rewrite R. assert (Dz : 0 < tz / (1 - rho)) by (apply Rdiv_lt_0_compat; lra). rewrite !(rdiv_ok _ (1 - rho)) by lra. cbv iota. rewrite !rdiv_ok by lra. cbv iota.
  assert (M : 0 < 2 * (tx + ty) * (1 - rho) + tz + xstr * (1 - rho)) by nra.
  assert (A : (2 * (tx * f + ty * f + tz * f) + xstr * f) / (2 * (tx + ty + tz) + xstr) = f) by (field; lra).
  assert (B2 : (2 * (tx * f + ty * f) + xstr * f) / (2 * (tx + ty) + xstr) = f) by (field; lra).
  assert (C : (2 * (tx * f + ty * f) + tz * (rho / (1 - rho) + 1) * f + xstr * f) / (2 * (tx + ty) + tz / (1 - rho) + xstr) = f) by (field; lra).
  rewrite A, B2, C. replace (2 * f - f) with f by ring. replace ((f - rho * f) / (1 - rho)) with f by (field; lra). auto.
Qed.
Print Assumptions C46_uniform.
Theorem C46_reduces : forall ax ay b tx ty tz fx fy fz q xstr, ax * b = 1 / 2 -> ay * b = 1 / 2 ->
  eval_cdd_dd ax ay b tx ty tz fx fy fz q xstr = eval_dd tx ty tz fx fy fz q xstr /\ eval_cdd_2d ax ay b tx ty tz fx fy fz q xstr = eval_dd_2d tx ty tz fx fy fz q xstr /\ eval_cdd_sc ax ay b tx ty tz fx fy fz q xstr = eval_dd_sc tx ty tz fx fy fz q xstr.
Proof.
  intros ax ay b tx ty tz fx fy fz q xstr A B. unfold eval_cdd_dd, eval_dd, eval_cdd_2d, eval_dd_2d, eval_cdd_sc, eval_dd_sc. rewrite A, B. cbv zeta. rewrite !(rdiv_ok _ (1 / 2)) by lra. cbv iota.
  assert (P : forall p f, p / (1 / 2) - f = 2 * p - f) by (intros; field). assert (P2 : forall p f, (p - 1 / 2 * f) / (1 / 2) = 2 * p - f) by (intros; field). split; [|split].
  - replace (q + 2 * (tx * fx + ty * fy + tz * fz)) with (2 * (tx * fx + ty * fy + tz * fz) + q) by ring. replace (tx / (1 / 2) + ty / (1 / 2) + 2 * tz + xstr) with (2 * (tx + ty + tz) + xstr) by field. destruct (rdiv _ _); [|reflexivity]. now rewrite !P.
  - replace (q + 2 * (tx * fx + ty * fy)) with (2 * (tx * fx + ty * fy) + q) by ring. replace (tx / (1 / 2) + ty / (1 / 2) + xstr) with (2 * (tx + ty) + xstr) by field. destruct (rdiv _ _); [|reflexivity]. now rewrite !P2.
  - destruct (sc_rho tz xstr) as [rho|]; [|reflexivity]. destruct (rdiv rho (1 - rho)) as [rf|]; [|reflexivity]. destruct (rdiv tz (1 - rho)) as [tr|]; [|reflexivity]. replace (q + 2 * (tx * fx + ty * fy) + tz * (rf + 1) * fz) with (2 * (tx * fx + ty * fy) + tz * (rf + 1) * fz + q) by ring. replace (tx / (1 / 2) + ty / (1 / 2) + tr + xstr) with (2 * (tx + ty) + tr + xstr) by field. destruct (rdiv _ _); [|reflexivity]. now rewrite !P2.
Qed.
Print Assumptions C46_reduces.

(** The multiple-balance equation does not satisfy the balance, even when the right plane height is read ... *)
Theorem C46_pmb_refuted : exists oz dz tx ty fx fy fz q xstr o, 0 < oz /\ 0 < dz /\ 0 < tx /\ 0 < ty /\ 0 < xstr /\ eval_cdd_pmb oz dz tx ty (oz / dz) fx fy fz q xstr = Some o /\ ~ balanced tx ty (oz / dz) fx fy fz q xstr o.
Proof.
  exists 1, 2, 1, 1, 0, 0, 0, 1, 1. eexists. repeat (split; [lra|]). split.
  - unfold eval_cdd_pmb. repeat (rewrite rdiv_ok by lra; cbv iota). reflexivity.
  - cbn [balanced]. intros H. field_simplify in H. lra.
Qed.
Print Assumptions C46_pmb_refuted.
(** ... and the height is read at an index that need not be a plane, let alone the cell's. *)
Theorem C46_pmb_plane_refuted : exists nx ny nz i, (0 < nx)%nat /\ (0 < ny)%nat /\ (i < nx * ny * nz)%nat /\ pmb_plane nx ny i <> (i / (nx * ny))%nat /\ (nz <= pmb_plane nx ny i)%nat.
Proof. exists 2%nat, 2%nat, 1%nat, 1%nat. cbn. lia. Qed.
Print Assumptions C46_pmb_plane_refuted.
(** It holds when the cell height is one. *)
Theorem C46_pmb_partial : forall oz tx ty fx fy fz q xstr o, eval_cdd_pmb oz 1 tx ty oz fx fy fz q xstr = Some o -> balanced tx ty oz fx fy fz q xstr o.
Proof.
  intros oz tx ty fx fy fz q xstr o E. unfold eval_cdd_pmb in E. cbv zeta in E. rd. injection E as <-. unfold balanced. subst.
  assert (N : 2 * oz + xstr <> 0) by (intros Z; apply H; lra). replace (oz + 1 / 2 * xstr) with ((2 * oz + xstr) / 2) in * by lra. field. split; [auto|].
  intros Z. apply H3. rewrite <- (Rmult_0_r (/ (2 * oz + xstr))), <- Z. field. auto.
Qed.
Print Assumptions C46_pmb_partial.
Lemma some4 : forall a b c d a' b' c' d' : R, a = a' -> b = b' -> c = c' -> d = d' -> Some (a, b, c, d) = Some (a', b', c', d').
Proof. intros; subst; reflexivity. Qed.
Example C46_instance : eval_dd 1 1 1 1 1 3 2 1 = Some (12 / 7, 2 * (12 / 7) - 1, 2 * (12 / 7) - 1, 2 * (12 / 7) - 3) /\
  eval_cdd_ff 1 1 (1 / 2) 1 1 1 0 0 3 0 1 = Some (3 / 5, 6 / 5, 6 / 5, 0) /\ eval_cdd_pmb 1 1 1 1 1 1 1 1 3 3 = Some (1, 1, 1, 1).
Proof.
  split; [|split].
  - unfold eval_dd. rewrite rdiv_ok by lra. replace ((2 * (1 * 1 + 1 * 1 + 1 * 3) + 2) / (2 * (1 + 1 + 1) + 1)) with (12 / 7) by field. reflexivity.
  - unfold eval_cdd_ff. cbv zeta. rewrite !(rdiv_ok 1) by lra. cbv iota. rewrite rdiv_ok by lra. replace ((0 + 2 * (1 * 0 + 1 * 0 + 1 * 3)) / (1 / (1 * (1 / 2)) + 1 / (1 * (1 / 2)) + 2 * 1 + 1)) with (6 / 7) by field. rewrite (Rltb_true (2 * (6 / 7) - 3) 0) by lra. rewrite rdiv_ok by lra. cbv iota; apply some4; field.
  - unfold eval_cdd_pmb. cbv zeta. repeat (rewrite rdiv_ok by lra; cbv iota). cbv iota; apply some4; field.
Qed.
