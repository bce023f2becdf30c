(** Properties of homogenized cross sections (C36), their regions (C86) and their output and input (C85). *)
From Coq Require Import List Lia Bool Reals ZArith Arith Permutation Lra.
From Verif Require Import RUtil ListUtil McModel ScatModel MatModel CoreProofs MocProofs PflProps XsModel XsProps.
Import ListNotations.
Open Scope nat_scope.

(** ** C36 *)
Lemma acc_from : forall (f : HReg -> R) l s, fold_left (fun s r => (s + f r)%R) l s = (s + lsum f l)%R.
Proof. induction l as [|r l IH]; intros s; cbn [fold_left lsum]; [lra|]. rewrite IH. lra. Qed.
Lemma acc_lsum : forall f l, acc f l = lsum f l.
Proof. intros. unfold acc. rewrite acc_from. lra. Qed.
Lemma gsum_rsum : forall f n, gsum f n = rsum f n.
Proof.
  intros f n. unfold gsum. assert (H : forall n a s, fold_left (fun s g => (s + f g)%R) (seq a n) s = (s + rsum (fun i => f (a + i)%nat) n)%R).
  { clear n. induction n as [|n IH]; intros a s; [cbn; lra|]. cbn [seq fold_left]. rewrite IH. change (S n) with (1 + n). rewrite rsum_app. rewrite (rsum_ext (fun i => f (S a + i)) (fun i => f (a + (1 + i)))) by (intros; f_equal; lia).
    set (X := rsum _ n). cbn [rsum]. rewrite Nat.add_0_r. lra. }
  rewrite H. rewrite Rplus_0_l. reflexivity.
Qed.
Lemma lsum_nonneg : forall {A} (f : A -> R) l, (forall a, In a l -> (0 <= f a)%R) -> (0 <= lsum f l)%R.
Proof. induction l as [|a l IH]; intros H; cbn [lsum]; [lra|]. specialize (IH (fun b I => H b (or_intror I))). specialize (H a (or_introl eq_refl)). lra. Qed.
Lemma lsum_le : forall {A} (f g : A -> R) l, (forall a, In a l -> (f a <= g a)%R) -> (lsum f l <= lsum g l)%R.
Proof. induction l as [|a l IH]; intros H; cbn [lsum]; [lra|]. specialize (IH (fun b I => H b (or_intror I))). specialize (H a (or_introl eq_refl)). lra. Qed.

(** Specification: flux integrated over the pin; rate of a reaction with cross section [sig] in one group. *)
Definition flux_int (l : list HReg) (g : nat) : R := lsum (fun r => (h_v r * h_fl r g)%R) l.
Definition rate (sig : HReg -> R) (l : list HReg) (g : nat) : R := lsum (fun r => (sig r * (h_v r * h_fl r g))%R) l.
(** Specification: scattering cross section from [gg] to [g]; zero outside the stored band. *)
Definition sigs (r : HReg) (g gg : nat) : R := if (m_min (h_m r) g <=? gg) && (gg <=? m_max (h_m r) g) then m_sc (h_m r) g gg else 0%R.
(** Specification: fission neutrons produced in a region. *)
Definition production (ng : nat) (r : HReg) : R := rsum (fun g => (m_nf (h_m r) g * (h_v r * h_fl r g))%R) ng.

Lemma flux_div : forall ng l h, homogenize_flux ng l = Some h -> forall g, g < ng -> flux_int l g <> 0%R.
Proof.
  intros ng l h E g Hg. unfold homogenize_flux in E. destruct (existsb _ _) eqn:X; [discriminate|]. intros Z. apply not_true_iff_false in X. apply X, existsb_exists. exists g. split; [apply in_seq; lia|].
  rewrite acc_lsum. fold (flux_int l g). destruct (Reqb_spec (flux_int l g) 0); [reflexivity|contradiction].
Qed.
Lemma hom_flux_vals : forall ng l h, homogenize_flux ng l = Some h ->
  x_tr h = (fun g => lsum (fun r => (h_v r * h_fl r g * m_tr (h_m r) g)%R) l / flux_int l g)%R /\
  x_nf h = (fun g => lsum (fun r => (h_v r * h_fl r g * m_nf (h_m r) g)%R) l / flux_int l g)%R /\
  x_f h = (fun g => lsum (fun r => (h_v r * h_fl r g * m_f (h_m r) g)%R) l / flux_int l g)%R /\
  (forall g, x_ch h g = let c := lsum (fun r => (production ng r * m_ch (h_m r) g)%R) l in if Rltb 0 (lsum (production ng) l) then (c / lsum (production ng) l)%R else c) /\
  (forall g gg, x_sc h g gg = let s := rate (fun r => sigs r g gg) l gg in if Rltb 0 s then (s / flux_int l gg)%R else s).
Proof.
  intros ng l h E. unfold homogenize_flux in E. destruct (existsb _ _); [discriminate|]. injection E as <-. cbn.
  assert (Q : forall (f g : HReg -> R) l, (forall r, f r = g r) -> acc f l = lsum g l) by (intros; rewrite acc_lsum; apply lsum_ext; auto).
  assert (Qf : forall r, fis ng r = production ng r). { intros r. unfold fis, production. rewrite gsum_rsum. apply rsum_ext. intros. lra. }
  repeat split; try (apply FunctionalExtensionality.functional_extensionality; intros g; rewrite !acc_lsum; reflexivity).
  - intros g. rewrite (Q (fis ng) (production ng)) by exact Qf. rewrite (Q _ (fun r => production ng r * m_ch (h_m r) g)%R) by (intros; now rewrite Qf). reflexivity.
  - intros g gg. rewrite (Q _ (fun r => sigs r g gg * (h_v r * h_fl r gg))%R) by (intros r; unfold sigs, in_band; destruct (_ && _); lra).
    fold (rate (fun r => sigs r g gg) l gg). rewrite (Q (fun r => h_fl r gg * h_v r)%R (fun r => h_v r * h_fl r gg)%R) by (intros; lra). reflexivity.
Qed.

(** C36: pin cross section times pin-integrated flux is the sum of the regions' reaction rates. *)
Theorem C36_rates : forall ng l h, homogenize_flux ng l = Some h -> forall g, g < ng ->
  (x_tr h g * flux_int l g = rate (fun r => m_tr (h_m r) g) l g)%R /\ (x_nf h g * flux_int l g = rate (fun r => m_nf (h_m r) g) l g)%R /\ (x_f h g * flux_int l g = rate (fun r => m_f (h_m r) g) l g)%R.
Proof.
  intros ng l h E g Hg. pose proof (flux_div _ _ _ E g Hg) as N. destruct (hom_flux_vals _ _ _ E) as (-> & -> & -> & _ & _).
  assert (Q : forall f, (lsum (fun r => (h_v r * h_fl r g * f r)%R) l / flux_int l g * flux_int l g = rate f l g)%R).
  { intros f. unfold rate. rewrite (lsum_ext (fun r => f r * (h_v r * h_fl r g))%R (fun r => h_v r * h_fl r g * f r)%R) by (intros; lra). field. exact N. }
  repeat split; apply Q.
Qed.
Print Assumptions C36_rates.
(** C36: likewise for scattering out of each group into each group, as long as the pin's rate is not negative. *)
Theorem C36_scatter_partial : forall ng l h, homogenize_flux ng l = Some h -> forall g gg, gg < ng -> (0 <= rate (fun r => sigs r g gg) l gg)%R ->
  (x_sc h g gg * flux_int l gg = rate (fun r => sigs r g gg) l gg)%R.
Proof.
  intros ng l h E g gg Hg P. pose proof (flux_div _ _ _ E gg Hg) as N. destruct (hom_flux_vals _ _ _ E) as (_ & _ & _ & _ & S). rewrite S. cbn zeta.
  destruct (Rltb_spec 0 (rate (fun r => sigs r g gg) l gg)) as [L|L]; [field; exact N|]. assert (Z : rate (fun r => sigs r g gg) l gg = 0%R) by lra. rewrite Z. lra.
Qed.
Print Assumptions C36_scatter_partial.
(** C36: total production of the pin is kept, and in each group the emission is the sum of the regions' emissions. *)
Theorem C36_emission : forall ng l h, homogenize_flux ng l = Some h -> rsum (fun g => (x_nf h g * flux_int l g)%R) ng = lsum (production ng) l /\
  ((0 < lsum (production ng) l)%R -> forall g, (x_ch h g * rsum (fun g' => x_nf h g' * flux_int l g') ng = lsum (fun r => m_ch (h_m r) g * production ng r) l)%R).
Proof.
  intros ng l h E. assert (T : rsum (fun g => (x_nf h g * flux_int l g)%R) ng = lsum (production ng) l).
  { rewrite (rsum_ext _ (fun g => rate (fun r => m_nf (h_m r) g) l g)) by (intros g Hg; apply (C36_rates ng l h E g Hg)). unfold rate, production. apply lsum_swap_rsum. }
  split; [exact T|]. intros P g. rewrite T. destruct (hom_flux_vals _ _ _ E) as (_ & _ & _ & C & _). rewrite C. cbn zeta. destruct (Rltb_spec 0 (lsum (production ng) l)); [|contradiction].
  rewrite (lsum_ext (fun r => m_ch (h_m r) g * production ng r)%R (fun r => production ng r * m_ch (h_m r) g)%R) by (intros; lra). field. lra.
Qed.
Print Assumptions C36_emission.
(** C36: if every region that produces neutrons has a spectrum summing to one, so does the pin. *)
Theorem C36_spectrum : forall ng l h, homogenize_flux ng l = Some h -> (0 < lsum (production ng) l)%R ->
  (forall r, In r l -> production ng r <> 0%R -> rsum (m_ch (h_m r)) ng = 1%R) -> rsum (x_ch h) ng = 1%R.
Proof.
  intros ng l h E P H. destruct (hom_flux_vals _ _ _ E) as (_ & _ & _ & C & _).
  rewrite (rsum_ext _ (fun g => lsum (fun r => production ng r * m_ch (h_m r) g)%R l * / lsum (production ng) l)%R).
  - rewrite rsum_scal_r, lsum_swap_rsum. rewrite (lsum_ext _ (production ng)); [field; lra|]. intros r I. rewrite rsum_scal. destruct (Req_dec (production ng r) 0) as [->|D]; [lra|]. rewrite (H r I D). lra.
  - intros g _. rewrite C. cbn zeta. destruct (Rltb_spec 0 (lsum (production ng) l)); [reflexivity|contradiction].
Qed.
Print Assumptions C36_spectrum.
(** C36: with non-negative flux and areas the pin's transport cross section lies between the regions' extremes. *)
Theorem C36_bounds : forall ng l h, homogenize_flux ng l = Some h -> (forall r g, In r l -> g < ng -> (0 <= h_v r * h_fl r g)%R) -> forall g lo hi, g < ng ->
  ((forall r, In r l -> (lo <= m_tr (h_m r) g <= hi)%R) -> (lo <= x_tr h g <= hi)%R) /\ ((forall r, In r l -> (lo <= m_nf (h_m r) g <= hi)%R) -> (lo <= x_nf h g <= hi)%R) /\
  ((forall r, In r l -> (lo <= m_f (h_m r) g <= hi)%R) -> (lo <= x_f h g <= hi)%R).
Proof.
  intros ng l h E P g lo hi Hg. pose proof (flux_div _ _ _ E g Hg) as N. assert (F : (0 < flux_int l g)%R). { assert (0 <= flux_int l g)%R by (apply lsum_nonneg; auto). lra. }
  destruct (hom_flux_vals _ _ _ E) as (-> & -> & -> & _ & _).
  assert (Q : forall f, (forall r, In r l -> (lo <= f r <= hi)%R) -> (lo <= lsum (fun r => (h_v r * h_fl r g * f r)%R) l / flux_int l g <= hi)%R).
  { intros f B. assert (L1 : (lo * flux_int l g <= lsum (fun r => (h_v r * h_fl r g * f r)%R) l)%R).
    { unfold flux_int. rewrite Rmult_comm, <- lsum_scal. apply lsum_le. intros r I. apply Rmult_le_compat_l; [auto|]. now apply B. }
    assert (L2 : (lsum (fun r => (h_v r * h_fl r g * f r)%R) l <= hi * flux_int l g)%R).
    { unfold flux_int. rewrite Rmult_comm, <- lsum_scal. apply lsum_le. intros r I. apply Rmult_le_compat_l; [auto|]. now apply B. }
    split; apply Rmult_le_reg_r with (flux_int l g); auto; unfold Rdiv; rewrite Rmult_assoc, Rinv_l by lra; lra. }
  split; [|split]; intros B; apply (Q _ B).
Qed.
Print Assumptions C36_bounds.

Lemma wavg_bounds : forall {A} (w f : A -> R) lo hi l, (forall a, In a l -> (0 <= w a)%R) -> (forall a, In a l -> w a <> 0%R -> (lo <= f a <= hi)%R) -> (0 < lsum w l)%R ->
  (lo <= lsum (fun a => (w a * f a)%R) l / lsum w l <= hi)%R.
Proof.
  intros A w f lo hi l W B P.
  assert (T : forall a, In a l -> (w a * lo <= w a * f a <= w a * hi)%R).
  { intros a I. destruct (Req_dec (w a) 0) as [->|N]; [lra|]. specialize (B a I N). specialize (W a I). split; apply Rmult_le_compat_l; lra. }
  assert (L1 : (lsum w l * lo <= lsum (fun a => (w a * f a)%R) l)%R).
  { rewrite <- lsum_scal. apply lsum_le. intros a I. destruct (T a I). lra. }
  assert (L2 : (lsum (fun a => (w a * f a)%R) l <= lsum w l * hi)%R).
  { rewrite <- lsum_scal. apply lsum_le. intros a I. destruct (T a I). lra. }
  split; apply Rmult_le_reg_r with (lsum w l); auto; unfold Rdiv; rewrite Rmult_assoc, Rinv_l by lra; lra.
Qed.
(** C36: each group's entry of the pin's spectrum lies between the extremes over the regions that produce neutrons; other
    regions do not count. *)
Theorem C36_spectrum_bounds : forall ng l h, homogenize_flux ng l = Some h -> (forall r, In r l -> (0 <= production ng r)%R) -> (0 < lsum (production ng) l)%R -> forall g lo hi,
  (forall r, In r l -> production ng r <> 0%R -> (lo <= m_ch (h_m r) g <= hi)%R) -> (lo <= x_ch h g <= hi)%R.
Proof.
  intros ng l h E W P g lo hi B. destruct (hom_flux_vals _ _ _ E) as (_ & _ & _ & C & _). rewrite C. cbn zeta. destruct (Rltb_spec 0 (lsum (production ng) l)); [|contradiction].
  now apply wavg_bounds.
Qed.
Print Assumptions C36_spectrum_bounds.
(** C36: with non-negative flux and areas, scattering between two groups lies between the regions' extremes as long as the
    pin's rate is not negative (with a negative rate it need not: below). *)
Theorem C36_scatter_bounds : forall ng l h, homogenize_flux ng l = Some h -> (forall r g, In r l -> g < ng -> (0 <= h_v r * h_fl r g)%R) -> forall g gg lo hi, gg < ng ->
  (0 <= rate (fun r => sigs r g gg) l gg)%R -> (forall r, In r l -> (h_v r * h_fl r gg)%R <> 0%R -> (lo <= sigs r g gg <= hi)%R) -> (lo <= x_sc h g gg <= hi)%R.
Proof.
  intros ng l h E W g gg lo hi Hg P B. pose proof (flux_div _ _ _ E gg Hg) as N. assert (F : (0 < flux_int l gg)%R). { assert (0 <= flux_int l gg)%R by (apply lsum_nonneg; auto). lra. }
  assert (Q : x_sc h g gg = (lsum (fun r => (h_v r * h_fl r gg * sigs r g gg)%R) l / flux_int l gg)%R).
  { apply Rmult_eq_reg_r with (flux_int l gg); [|exact N]. rewrite (C36_scatter_partial ng l h E g gg Hg P). unfold Rdiv. rewrite Rmult_assoc, Rinv_l by exact N. rewrite Rmult_1_r. unfold rate. apply lsum_ext. intros; lra. }
  rewrite Q. apply (wavg_bounds (fun r => (h_v r * h_fl r gg)%R) (fun r => sigs r g gg)); auto.
Qed.
Print Assumptions C36_scatter_bounds.
(** C36: the total scattered out of a group is kept: summing over the groups scattered into. *)
Theorem C36_scatter_total : forall ng l h, homogenize_flux ng l = Some h -> forall gg, gg < ng -> (forall g, g < ng -> (0 <= rate (fun r => sigs r g gg) l gg)%R) ->
  (rsum (fun g => x_sc h g gg) ng * flux_int l gg = rate (fun r => rsum (fun g => sigs r g gg) ng) l gg)%R.
Proof.
  intros ng l h E gg Hg P. rewrite <- rsum_scal_r. rewrite (rsum_ext _ (fun g => rate (fun r => sigs r g gg) l gg)) by (intros g Hgg; apply (C36_scatter_partial ng l h E g gg Hg (P g Hgg))).
  unfold rate. rewrite lsum_swap_rsum. apply lsum_ext. intros r _. now rewrite rsum_scal_r.
Qed.
Print Assumptions C36_scatter_total.

(** The same regions with a flat flux of one. *)
Definition flat (l : list HReg) : list HReg := map (fun r => mkHR (h_v r) (fun _ => 1%R) (h_m r)) l.
(** C36: volume weighting with the pin area equal to the sum of the region areas is flux weighting with a flat flux. *)
Theorem C36_volume : forall ng parea l h, 0 < ng -> homogenize ng parea l = Some h -> parea = lsum h_v l -> exists h', homogenize_flux ng (flat l) = Some h' /\
  (forall g, x_tr h g = x_tr h' g /\ x_nf h g = x_nf h' g /\ x_f h g = x_f h' g /\ x_ch h g = x_ch h' g) /\
  forall g gg, (0 <= rate (fun r => sigs r g gg) (flat l) gg)%R -> x_sc h g gg = x_sc h' g gg.
Proof.
  intros ng parea l h N E A. unfold homogenize in E. destruct (Reqb_spec parea 0) as [|Np]; [discriminate|]. injection E as <-.
  assert (Fi : forall g, flux_int (flat l) g = parea). { intros g. unfold flux_int, flat. rewrite lsum_map. cbn. rewrite A. apply lsum_ext. intros; lra. }
  assert (E : exists h', homogenize_flux ng (flat l) = Some h').
  { unfold homogenize_flux. destruct (existsb _ _) eqn:X; [|eauto]. exfalso. apply existsb_exists in X. destruct X as (g & _ & X). rewrite acc_lsum in X. fold (flux_int (flat l) g) in X. rewrite Fi in X. destruct (Reqb_spec parea 0); [contradiction|discriminate]. }
  destruct E as [h' E]. exists h'. split; [exact E|]. destruct (hom_flux_vals _ _ _ E) as (-> & -> & -> & C & S).
  assert (Pr : forall r, production ng (mkHR (h_v r) (fun _ => 1%R) (h_m r)) = (h_v r * gsum (m_nf (h_m r)) ng)%R). { intros r. unfold production. cbn. rewrite gsum_rsum, <- rsum_scal. apply rsum_ext. intros; lra. }
  assert (Tot : lsum (production ng) (flat l) = lsum (fun r => (h_v r * gsum (m_nf (h_m r)) ng)%R) l). { unfold flat. rewrite lsum_map. apply lsum_ext. intros; apply Pr. }
  split.
  - intros g. rewrite Fi. cbn. unfold flat. rewrite !lsum_map. cbn. rewrite !acc_lsum. repeat split; try (f_equal; apply lsum_ext; intros; lra).
    rewrite C. cbn zeta. rewrite Tot. unfold flat. rewrite lsum_map. cbn. rewrite (lsum_ext (fun a => production ng (mkHR (h_v a) (fun _ => 1%R) (h_m a)) * m_ch (h_m a) g)%R (fun r => h_v r * gsum (m_nf (h_m r)) ng * m_ch (h_m r) g)%R) by (intros; now rewrite Pr). reflexivity.
  - intros g gg P. rewrite S. cbn zeta. cbn [x_sc]. rewrite Fi.
    assert (Q : acc (fun r => if in_band (h_m r) g gg then (m_sc (h_m r) g gg * h_v r)%R else 0%R) l = rate (fun r => sigs r g gg) (flat l) gg).
    { rewrite acc_lsum. unfold rate, flat. rewrite lsum_map. apply lsum_ext. intros r _. unfold sigs, in_band. cbn. destruct (_ && _); lra. }
    rewrite Q. destruct (Rltb_spec 0 (rate (fun r => sigs r g gg) (flat l) gg)); [reflexivity|]. assert (Z : rate (fun r => sigs r g gg) (flat l) gg = 0%R) by lra. rewrite Z. unfold Rdiv. lra.
Qed.
Print Assumptions C36_volume.

Definition hm_a : XMat := mkXM (fun _ => 2%R) (fun _ => 1%R) (fun _ => 1%R) (fun g => if g =? 0 then 1%R else 0%R) (fun _ => 0) (fun _ => 0) (fun _ _ => 1%R).
Definition hm_b : XMat := mkXM (fun _ => 3%R) (fun _ => 0%R) (fun _ => 0%R) (fun _ => 0%R) (fun _ => 0) (fun _ => 0) (fun _ _ => (-2)%R).
Definition pin_ab : list HReg := [mkHR 1 (fun _ => 2%R) hm_a; mkHR 3 (fun _ => 1%R) hm_b].
Lemma pin_ab_ok : exists h, homogenize_flux 2 pin_ab = Some h.
Proof. unfold homogenize_flux. cbn. destruct (Reqb_spec (0 + 1 * 2 + 3 * 1) 0); [lra|]. cbn. eauto. Qed.
(** Two regions, one fissile. *)
Example C36_instance : exists h, homogenize_flux 2 pin_ab = Some h /\ (0 < lsum (production 2) pin_ab)%R /\ (forall r g, In r pin_ab -> g < 2 -> (0 <= h_v r * h_fl r g)%R) /\
  (forall r, In r pin_ab -> production 2 r <> 0%R -> rsum (m_ch (h_m r)) 2 = 1%R) /\ (0 <= rate (fun r => sigs r 0 1) pin_ab 1)%R /\
  (forall r, In r pin_ab -> (0 <= production 2 r)%R) /\ (forall r g, In r pin_ab -> production 2 r <> 0%R -> (0 <= m_ch (h_m r) g <= 1)%R) /\
  (forall r, In r pin_ab -> (0 <= sigs r 0 1 <= 0)%R).
Proof.
  destruct pin_ab_ok as [h E]. exists h. split; [exact E|]. unfold pin_ab, production, rate, sigs. cbn. split; [lra|]. split; [|split; [|split; [|split; [|split]]]].
  - intros r g [<-|[<-|[]]] _; cbn; lra.
  - intros r [<-|[<-|[]]] H; cbn in *; lra.
  - lra.
  - intros r [<-|[<-|[]]]; cbn; lra.
  - intros r g [<-|[<-|[]]] H; cbn in *; [destruct (g =? 0); lra|lra].
  - intros r [<-|[<-|[]]]; cbn; lra.
Qed.
(** C36 refuted for negative scattering (transport-corrected data): the pin's entry is left as an unnormalised sum. *)
Theorem C36_negative_scatter_refuted : exists ng l h g gg, homogenize_flux ng l = Some h /\ g < ng /\ gg < ng /\ (forall r, In r l -> (0 < h_v r)%R /\ (0 < h_fl r gg)%R) /\
  (x_sc h g gg * flux_int l gg <> rate (fun r => sigs r g gg) l gg)%R.
Proof.
  destruct pin_ab_ok as [h E]. exists 2, pin_ab, h, 0, 0. split; [exact E|]. split; [lia|]. split; [lia|]. split; [intros r [<-|[<-|[]]]; cbn; lra|].
  destruct (hom_flux_vals _ _ _ E) as (_ & _ & _ & _ & S). rewrite S. cbn zeta. unfold rate, sigs, flux_int, pin_ab. cbn. match goal with |- context [Rltb 0 ?e] => destruct (Rltb_spec 0 e) end; lra.
Qed.
Print Assumptions C36_negative_scatter_refuted.

(** ** C86 *)
(** Specification: macroplanes (lowest, highest plane) stacked from plane [z]. *)
Fixpoint stacked (z : nat) (ps : list (nat * nat)) : Prop := match ps with [] => True | (lo, hi) :: r => lo = z /\ lo <= hi /\ stacked (S hi) r end.
(** Specification: plane after the last macroplane. *)
Fixpoint top (z : nat) (ps : list (nat * nat)) : nat := match ps with [] => z | (_, hi) :: r => top (S hi) r end.

Lemma stacked_top : forall ps z, stacked z ps -> z <= top z ps.
Proof. induction ps as [|[lo hi] ps IH]; intros z H; cbn in *; [lia|]. destruct H as (-> & H1 & H2). apply IH in H2. lia. Qed.
Lemma nth_hom : forall cell nxy ps k lo hi ipin, nth_error ps k = Some (lo, hi) -> ipin < nxy -> nth_error (hom_regions cell nxy ps) (nxy * k + ipin) = Some (hom_region cell nxy lo hi ipin).
Proof.
  intros cell nxy. unfold hom_regions. induction ps as [|p ps IH]; intros k lo hi ipin E Hi; [now destruct k|]. cbn [flat_map]. destruct k as [|k].
  - injection E as ->. cbn [fst snd]. rewrite nth_error_app1 by (rewrite map_length, seq_length; lia). replace (nxy * 0 + ipin) with ipin by lia. now rewrite ScatProofs.nth_error_map_seq.
  - rewrite nth_error_app2 by (rewrite map_length, seq_length; nia). rewrite map_length, seq_length. replace (nxy * S k + ipin - nxy) with (nxy * k + ipin) by nia. now apply IH.
Qed.
Lemma hom_length : forall cell nxy ps, length (hom_regions cell nxy ps) = nxy * length ps.
Proof. intros cell nxy. unfold hom_regions. induction ps as [|p ps IH]; cbn [flat_map length]; [lia|]. rewrite app_length, map_length, seq_length, IH. lia. Qed.
Lemma NoDup_map_in : forall {A B} (f : A -> B) l, (forall a b, In a l -> In b l -> f a = f b -> a = b) -> NoDup l -> NoDup (map f l).
Proof.
  intros A B f l H N. induction N as [|x l Nx N IH]; cbn [map]; [constructor|]. constructor; [|apply IH; intros; apply H; auto; now right].
  intros I. apply in_map_iff in I. destruct I as (y & E & I). apply Nx. rewrite (H x y); auto; [now left|now right].
Qed.
Lemma plane_perm : forall cell nxy z, fills cell nxy -> Permutation (map (fun i => cell i + nxy * z) (seq 0 nxy)) (seq (nxy * z) nxy).
Proof.
  intros cell nxy z (F1 & F2 & F3). apply NoDup_Permutation.
  - apply NoDup_map_in; [|apply seq_NoDup]. intros a b Ia Ib E. apply in_seq in Ia. apply in_seq in Ib. apply F2; lia.
  - apply seq_NoDup.
  - intros x. rewrite in_map_iff, in_seq. split.
    + intros (i & <- & I). apply in_seq in I. assert (cell i < nxy) by (apply F1; lia). lia.
    + intros H. destruct (F3 (x - nxy * z)) as (i & Hi & Ei); [lia|]. exists i. split; [lia|]. apply in_seq. lia.
Qed.
Lemma swap_perm : forall (f : nat -> nat -> nat) l m, Permutation (concat (map (fun i => map (fun j => f i j) m) l)) (concat (map (fun j => map (fun i => f i j) l) m)).
Proof.
  intros f l m. induction l as [|a l IH]; cbn [map concat].
  - assert (E : concat (map (fun _ : nat => @nil nat) m) = []) by (induction m; cbn; auto). now rewrite E.
  - rewrite IH. clear IH. induction m as [|b m IH]; [reflexivity|]. cbn [map concat app]. constructor. rewrite <- IH. rewrite !app_assoc. apply Permutation_app_tail. rewrite Permutation_app_comm. reflexivity.
Qed.
Lemma planes_concat : forall nxy n z, concat (map (fun iz => seq (nxy * iz) nxy) (seq z n)) = seq (nxy * z) (nxy * n).
Proof.
  intros nxy. induction n as [|n IH]; intros z; [now rewrite Nat.mul_0_r|]. cbn [seq map concat]. rewrite IH. replace (nxy * S n) with (nxy + nxy * n) by nia. rewrite seq_app. f_equal. f_equal. nia.
Qed.
Lemma region_perm : forall cell nxy lo hi, fills cell nxy -> lo <= S hi -> Permutation (concat (map (hom_region cell nxy lo hi) (seq 0 nxy))) (seq (nxy * lo) (nxy * (S hi - lo))).
Proof.
  intros cell nxy lo hi F H. unfold hom_region. rewrite (swap_perm (fun i z => cell i + nxy * z)). replace (hi + 1 - lo) with (S hi - lo) by lia. rewrite <- planes_concat.
  generalize (seq lo (S hi - lo)). intros zs. induction zs as [|z zs IH]; [reflexivity|]. cbn [map concat]. apply Permutation_app; [now apply plane_perm|exact IH].
Qed.
Lemma regions_perm : forall cell nxy ps z, fills cell nxy -> stacked z ps -> Permutation (concat (hom_regions cell nxy ps)) (seq (nxy * z) (nxy * (top z ps - z))).
Proof.
  intros cell nxy. unfold hom_regions. induction ps as [|[lo hi] ps IH]; intros z F H; cbn [flat_map top].
  - rewrite Nat.sub_diag, Nat.mul_0_r. reflexivity.
  - cbn in H. destruct H as (-> & H1 & H2). pose proof (stacked_top _ _ H2) as T. rewrite concat_app. cbn [fst snd]. rewrite region_perm by (auto; lia). rewrite (IH (S hi) F H2).
    replace (nxy * (top (S hi) ps - z)) with (nxy * (S hi - z) + nxy * (top (S hi) ps - S hi)) by nia. rewrite seq_app. replace (nxy * z + nxy * (S hi - z)) with (nxy * S hi) by nia. reflexivity.
Qed.
(** C86: with macroplanes stacked from the bottom and pins filling the plane, the homogenized regions partition the pin
    cells of the core; region [nxy k + i] holds the cells of pin [i] on the planes of macroplane [k]. *)
Theorem C86_partition : forall cell nxy ps, fills cell nxy -> stacked 0 ps ->
  length (hom_regions cell nxy ps) = nxy * length ps /\ Permutation (concat (hom_regions cell nxy ps)) (seq 0 (nxy * top 0 ps)) /\
  forall k lo hi ipin, nth_error ps k = Some (lo, hi) -> ipin < nxy -> exists reg, nth_error (hom_regions cell nxy ps) (nxy * k + ipin) = Some reg /\
    forall c, In c reg <-> exists z, lo <= z /\ z <= hi /\ c = cell ipin + nxy * z.
Proof.
  intros cell nxy ps F H. split; [apply hom_length|]. split.
  - pose proof (regions_perm cell nxy ps 0 F H) as P. now rewrite Nat.mul_0_r, Nat.sub_0_r in P.
  - intros k lo hi ipin E Hi. eexists. split; [exact (nth_hom cell nxy ps k lo hi ipin E Hi)|]. intros c. unfold hom_region. rewrite in_map_iff. split.
    + intros (z & <- & I). apply in_seq in I. exists z. lia.
    + intros (z & L1 & L2 & ->). exists z. split; [reflexivity|]. apply in_seq. lia.
Qed.
Print Assumptions C86_partition.
Example C86_instance : fills (fun i => 1 - i) 2 /\ stacked 0 [(0, 1); (2, 2)] /\ hom_regions (fun i => 1 - i) 2 [(0, 1); (2, 2)] = [[1; 3]; [0; 2]; [5]; [4]].
Proof. split; [|split; [cbn; lia|reflexivity]]. split; [intros; lia|]. split; [intros; lia|]. intros c Hc. exists (1 - c). lia. Qed.

(** ** C85 *)
Lemma data_cell_lt : forall cell nxy i n, fills cell nxy -> i < nxy * n -> data_cell cell nxy i < nxy * n.
Proof.
  intros cell nxy i n (F1 & _ & _) H. unfold data_cell. assert (N : 0 < nxy) by (destruct nxy; cbn in H; lia). pose proof (F1 (i mod nxy) (Nat.mod_upper_bound i nxy ltac:(lia))).
  assert (i / nxy < n) by (apply Nat.div_lt_upper_bound; lia). nia.
Qed.
Lemma data_cell_inj : forall cell nxy i j, fills cell nxy -> 0 < nxy -> data_cell cell nxy i = data_cell cell nxy j -> i = j.
Proof.
  intros cell nxy i j (F1 & F2 & _) N E. unfold data_cell in E. pose proof (Nat.mod_upper_bound i nxy ltac:(lia)) as Mi. pose proof (Nat.mod_upper_bound j nxy ltac:(lia)) as Mj.
  pose proof (F1 _ Mi). pose proof (F1 _ Mj). assert (Q : i / nxy = j / nxy) by nia. rewrite Q in E. assert (R : i mod nxy = j mod nxy) by (apply F2; lia).
  rewrite (Nat.div_mod i nxy), (Nat.div_mod j nxy) by lia. congruence.
Qed.
Lemma write_data_ok : forall cell nxy n vals i buf, fills cell nxy -> length buf = nxy * n -> i + length vals <= nxy * n -> exists b, write_data cell nxy i vals buf = Some b /\ length b = nxy * n /\
  (forall k v, nth_error vals k = Some v -> nth_error b (data_cell cell nxy (i + k)) = Some v) /\ forall c, (forall k, k < length vals -> c <> data_cell cell nxy (i + k)) -> nth_error b c = nth_error buf c.
Proof.
  intros cell nxy n. induction vals as [|v vals IH]; intros i buf F L B; cbn [write_data].
  - exists buf. repeat split; auto. intros k v E. now destruct k.
  - cbn [length] in B. destruct (set_nth_lt buf (data_cell cell nxy i) v) as [b0 E0]; [rewrite L; apply data_cell_lt; [exact F|lia]|]. rewrite E0. destruct (set_nth_spec _ _ _ _ E0) as (L0 & _ & O0).
    destruct (IH (S i) b0 F) as (b & E & Lb & P & Q); [congruence|lia|]. exists b. split; [exact E|]. split; [exact Lb|].
    assert (N : 0 < nxy) by (destruct nxy; cbn in B; lia). split.
    + intros k w Ek. destruct k as [|k].
      * injection Ek as <-. rewrite Nat.add_0_r. rewrite Q; [now rewrite O0, Nat.eqb_refl|]. intros k' _ Eq. apply data_cell_inj in Eq; auto. lia.
      * rewrite <- Nat.add_succ_comm. now apply P.
    + intros c Hc. rewrite Q; [|intros k Hk; rewrite Nat.add_succ_comm; apply Hc; cbn; lia]. rewrite O0. destruct (Nat.eqb_spec c (data_cell cell nxy i)) as [->|]; [|reflexivity]. exfalso. apply (Hc 0); [cbn; lia|]. now rewrite Nat.add_0_r.
Qed.
Lemma read_data_ok : forall cell nxy cnt i buf l, length l = cnt -> (forall k v, nth_error l k = Some v -> nth_error buf (data_cell cell nxy (i + k)) = Some v) -> read_data cell nxy i cnt buf = Some l.
Proof.
  intros cell nxy. induction cnt as [|c IH]; intros i buf l L H; destruct l as [|v l]; try discriminate; cbn [read_data]; [reflexivity|].
  rewrite <- (Nat.add_0_r i) at 1. rewrite (H 0 v eq_refl). rewrite (IH (S i) buf l); [reflexivity|now injection L|]. intros k w E. rewrite Nat.add_succ_comm. now apply (H (S k)).
Qed.
(** C85: the data set of a reaction and group holds each region's value at the region's position in the core, and reading
    it back into a mesh with the same layout gives every region its value. *)
Theorem C85_round_trip : forall cell nxy np vals, fills cell nxy -> length vals = nxy * np -> exists buf, output_data cell nxy vals = Some buf /\ length buf = length vals /\
  (forall z i v, i < nxy -> nth_error vals (nxy * z + i) = Some v -> nth_error buf (cell i + nxy * z) = Some v) /\ read_data cell nxy 0 (length vals) buf = Some vals.
Proof.
  intros cell nxy np vals F L. destruct (write_data_ok cell nxy np vals 0 (repeat 0%R (length vals)) F) as (b & E & Lb & P & _); [now rewrite repeat_length|lia|].
  exists b. split; [exact E|]. split; [lia|]. split.
  - intros z i v Hi Ev. apply P in Ev. cbn [Nat.add] in Ev. unfold data_cell in Ev. replace (nxy * z + i) with (i + z * nxy) in Ev by lia. rewrite Nat.mod_add, Nat.mod_small, Nat.div_add, Nat.div_small in Ev by lia. exact Ev.
  - apply read_data_ok; [reflexivity|]. intros k v Ek. now apply P.
Qed.
Print Assumptions C85_round_trip.
Example C85_instance : fills (fun i => 1 - i) 2 /\ length [1; 2; 3; 4]%R = 2 * 2 /\ output_data (fun i => 1 - i) 2 [1; 2; 3; 4]%R = Some [2; 1; 4; 3]%R.
Proof. split; [apply C86_instance|split; reflexivity]. Qed.

(** Several data files. *)
Lemma multi_plane_ok : forall cell nxy ip cnt ipin buf xs, length buf = nxy -> (forall i, i < nxy -> cell i < nxy) -> ipin + cnt = nxy -> nxy * ip + nxy <= length xs ->
  exists x, multi_plane cell nxy ip ipin cnt buf xs = Some x /\ length x = length xs /\ (forall i, ipin <= i -> i < nxy -> nth_error x (nxy * ip + i) = nth_error buf (cell i)) /\
    forall r, (forall i, ipin <= i -> i < nxy -> r <> nxy * ip + i) -> nth_error x r = nth_error xs r.
Proof.
  intros cell nxy ip. induction cnt as [|c IH]; intros ipin buf xs Lb F Hi Lx; cbn [multi_plane].
  - exists xs. repeat split; auto. intros; lia.
  - destruct (nth_error buf (cell ipin)) as [v|] eqn:Ev; [|apply nth_error_None in Ev; specialize (F ipin); lia]. destruct (set_nth_lt xs (nxy * ip + ipin) v) as [x0 E0]; [lia|]. rewrite E0.
    destruct (set_nth_spec _ _ _ _ E0) as (L0 & _ & O0). destruct (IH (S ipin) buf x0 Lb F) as (x & E & L & P & Q); [lia|lia|]. exists x. split; [exact E|]. split; [congruence|]. split.
    + intros i H1 H2. destruct (Nat.eq_dec i ipin) as [->|D]; [|apply P; lia]. rewrite Q by (intros; lia). now rewrite O0, Nat.eqb_refl, Ev.
    + intros r Hr. rewrite Q by (intros i H1 H2; apply Hr; lia). rewrite O0. destruct (Nat.eqb_spec r (nxy * ip + ipin)) as [->|]; [|reflexivity]. exfalso. apply (Hr ipin); lia.
Qed.
Lemma multi_planes_ok : forall cell nxy np buf ips xs, length buf = nxy -> (forall i, i < nxy -> cell i < nxy) -> (forall ip, In ip ips -> ip < np) -> length xs = nxy * np ->
  exists x, multi_planes cell nxy ips buf xs = Some x /\ length x = length xs /\ (forall ip i, In ip ips -> i < nxy -> nth_error x (nxy * ip + i) = nth_error buf (cell i)) /\
    forall ip i, i < nxy -> ~ In ip ips -> nth_error x (nxy * ip + i) = nth_error xs (nxy * ip + i).
Proof.
  intros cell nxy np buf. induction ips as [|ip ips IH]; intros xs Lb F B Lx; cbn [multi_planes].
  - exists xs. repeat split; auto. intros ip i [].
  - assert (ip < np) by (apply B; now left). destruct (multi_plane_ok cell nxy ip nxy 0 buf xs Lb F) as (x0 & E0 & L0 & P0 & Q0); [lia|nia|]. rewrite E0.
    destruct (IH x0 Lb F) as (x & E & L & P & Q); [intros; apply B; now right|congruence|]. exists x. split; [exact E|]. split; [congruence|]. split.
    + intros ip' i [<-|I] Hi; [|now apply P]. destruct (in_dec Nat.eq_dec ip ips) as [I|I]; [now apply P|]. rewrite Q by auto. apply P0; lia.
    + intros ip' i Hi I. rewrite Q by (auto; intros J; apply I; now right). apply Q0. intros j _ Hj Eq. apply I. left. nia.
Qed.
(** Specification: macroplanes a data specification applies to. *)
Definition covers (d : nat * nat) (ip : nat) : Prop := fst d <= ip /\ ip <= snd d.
Lemma mark_ok : forall np d seen s, length seen = np -> mark_planes np d seen = Some s -> fst d < np /\ snd d < np /\ length s = np /\
  (forall ip, covers d ip -> nth_error seen ip = Some false) /\ forall ip, nth_error s ip = Some true <-> nth_error seen ip = Some true \/ covers d ip.
Proof.
  intros np [bot tp] seen s L E. unfold mark_planes in E. cbn [fst snd] in *. destruct (Nat.leb_spec np bot); [discriminate|]. destruct (Nat.leb_spec np tp); [discriminate|]. cbn [orb] in E. split; [exact H|]. split; [exact H0|].
  assert (G : forall n lo seen s, length seen = np -> fold_left (fun o ip => match o with Some s => match nth_error s ip with Some false => set_nth s ip true | _ => None end | None => None end) (seq lo n) (Some seen) = Some s ->
    length s = np /\ (forall ip, lo <= ip -> ip < lo + n -> nth_error seen ip = Some false) /\ forall ip, nth_error s ip = Some true <-> nth_error seen ip = Some true \/ (lo <= ip /\ ip < lo + n)).
  { clear. assert (Nn : forall l, fold_left (fun o ip => match o with Some s => match nth_error s ip with Some false => set_nth s ip true | _ => None end | None => None end) l (@None (list bool)) = None) by (induction l; auto).
    induction n as [|n IH]; intros lo seen s L E; cbn [seq fold_left] in E.
    - injection E as <-. split; [exact L|]. split; [intros; lia|]. intros ip. intuition lia.
    - destruct (nth_error seen lo) as [[|]|] eqn:En; try (rewrite Nn in E; discriminate). destruct (set_nth seen lo true) as [s0|] eqn:E0; [|rewrite Nn in E; discriminate].
      destruct (set_nth_spec _ _ _ _ E0) as (L0 & _ & O0). destruct (IH (S lo) s0 s) as (Ls & A & B); [congruence|exact E|]. split; [exact Ls|]. split.
      + intros ip H1 H2. destruct (Nat.eq_dec ip lo) as [->|D]; [exact En|]. specialize (A ip). rewrite O0 in A. rewrite (proj2 (Nat.eqb_neq _ _) D) in A. apply A; lia.
      + intros ip. rewrite B, O0. destruct (Nat.eqb_spec ip lo) as [->|D]; [split; intros; [right; lia|now left]|]. intuition lia. }
  destruct (G _ _ _ _ L E) as (Ls & A & B). split; [exact Ls|]. unfold covers. cbn [fst snd]. split.
  - intros ip [H1 H2]. apply A; lia.
  - intros ip. rewrite B. intuition lia.
Qed.
Lemma check_ok : forall np ds seen s, length seen = np -> check_planes np ds seen = Some s -> Forall (fun d => fst d < np /\ snd d < np) ds /\
  (forall ip d, In d ds -> covers d ip -> nth_error seen ip = Some false) /\
  (forall i j di dj ip, nth_error ds i = Some di -> nth_error ds j = Some dj -> covers di ip -> covers dj ip -> i = j).
Proof.
  intros np. induction ds as [|d ds IH]; intros seen s L E; cbn [check_planes] in E.
  - split; [constructor|]. split; [intros ip d []|]. intros i j di dj ip E1. now destruct i.
  - destruct (mark_planes np d seen) as [s0|] eqn:E0; [|discriminate]. destruct (mark_ok _ _ _ _ L E0) as (B1 & B2 & L0 & A & M). destruct (IH s0 s L0 E) as (F & A' & D).
    assert (Ap : forall ip d', In d' ds -> covers d' ip -> nth_error seen ip = Some false /\ ~ covers d ip).
    { intros ip d' I C. pose proof (A' ip d' I C) as Q. assert (Nt : nth_error s0 ip <> Some true) by congruence. rewrite M in Nt. split; [|tauto].
      destruct (nth_error seen ip) as [[|]|] eqn:Es; [exfalso; apply Nt; now left|reflexivity|]. apply nth_error_None in Es. assert (nth_error s0 ip <> None) by congruence. apply nth_error_Some in H. lia. }
    split; [constructor; auto|]. split.
    + intros ip d' [<-|I] C; [now apply A|]. now apply (Ap ip d').
    + intros i j di dj ip Ei Ej Ci Cj. destruct i as [|i], j as [|j]; cbn in Ei, Ej; auto.
      * injection Ei as ->. exfalso. apply (proj2 (Ap ip dj (nth_error_In _ _ Ej) Cj) Ci).
      * injection Ej as ->. exfalso. apply (proj2 (Ap ip di (nth_error_In _ _ Ei) Ci) Cj).
      * f_equal. now apply (D i j di dj ip).
Qed.
Lemma apply_multi_ok : forall cell nxy np ds xs, (forall i, i < nxy -> cell i < nxy) -> Forall (fun d => fst (fst d) < np /\ snd (fst d) < np) ds -> (forall d, In d ds -> length (snd d) = nxy) -> length xs = nxy * np ->
  (forall i j di dj ip, nth_error ds i = Some di -> nth_error ds j = Some dj -> covers (fst di) ip -> covers (fst dj) ip -> i = j) ->
  exists x, apply_multi cell nxy ds xs = Some x /\ length x = length xs /\ (forall d ip i, In d ds -> covers (fst d) ip -> i < nxy -> nth_error x (nxy * ip + i) = nth_error (snd d) (cell i)) /\
    forall ip i, i < nxy -> (forall d, In d ds -> ~ covers (fst d) ip) -> nth_error x (nxy * ip + i) = nth_error xs (nxy * ip + i).
Proof.
  intros cell nxy np. induction ds as [|[d buf] ds IH]; intros xs F B Lb Lx D; cbn [apply_multi].
  - exists xs. repeat split; auto. intros d ip i [].
  - inversion B as [|? ? [B1 B2] B3]; subst. cbn [fst] in B1, B2. destruct (multi_planes_ok cell nxy np buf (seq (fst d) (snd d + 1 - fst d)) xs) as (x0 & E0 & L0 & P0 & Q0); auto.
    { apply (Lb (d, buf)). now left. } { intros ip I. apply in_seq in I. lia. }
    rewrite E0. destruct (IH x0 F B3) as (x & E & L & P & Q); [intros; apply Lb; now right|congruence|intros i j di dj ip E1 E2 C1 C2; apply Nat.succ_inj; now apply (D (S i) (S j) di dj ip)|].
    exists x. split; [exact E|]. split; [congruence|]. split.
    + intros d' ip i [<-|I] C Hi; [|now apply P]. cbn [fst snd] in *. rewrite Q.
      * apply P0; [|exact Hi]. apply in_seq. unfold covers in C. lia.
      * exact Hi.
      * intros d' I C'. apply In_nth_error in I. destruct I as [k Ek]. specialize (D 0 (S k) (d, buf) d' ip eq_refl Ek C C'). discriminate.
    + intros ip i Hi N. rewrite Q; [|exact Hi|intros d' I; apply N; now right]. apply Q0; [exact Hi|]. intros I. apply in_seq in I. apply (N (d, buf) (or_introl eq_refl)). unfold covers. cbn. lia.
Qed.
(** C85: several plane-wise data files: if accepted, no macroplane is specified twice, a macroplane that is covered takes
    the values of its file pin by pin, and any other keeps its volume-weighted values. *)
Theorem C85_multi : forall cell nxy np ds xs x, fills cell nxy -> length xs = nxy * np -> (forall d, In d ds -> length (snd d) = nxy) -> read_multi cell nxy np ds xs = Got x ->
  (forall i j di dj ip, nth_error ds i = Some di -> nth_error ds j = Some dj -> covers (fst di) ip -> covers (fst dj) ip -> i = j) /\
  (forall d ip i, In d ds -> covers (fst d) ip -> i < nxy -> ip < np /\ nth_error x (nxy * ip + i) = nth_error (snd d) (cell i)) /\
  forall ip i, i < nxy -> (forall d, In d ds -> ~ covers (fst d) ip) -> nth_error x (nxy * ip + i) = nth_error xs (nxy * ip + i).
Proof.
  intros cell nxy np ds xs x (F & _) Lx Lb E. unfold read_multi in E. destruct (check_planes np (map fst ds) (repeat false np)) as [s|] eqn:Ec; [|discriminate].
  destruct (check_ok _ _ _ _ (repeat_length _ _) Ec) as (B & _ & D).
  assert (D' : forall i j di dj ip, nth_error ds i = Some di -> nth_error ds j = Some dj -> covers (fst di) ip -> covers (fst dj) ip -> i = j).
  { intros i j di dj ip Ei Ej Ci Cj. apply (D i j (fst di) (fst dj) ip); auto; rewrite nth_error_map; [now rewrite Ei|now rewrite Ej]. }
  destruct (apply_multi_ok cell nxy np ds xs F) as (x' & E' & L & P & Q); auto.
  - apply Forall_forall. intros d I. rewrite Forall_forall in B. apply B. now apply in_map.
  - rewrite E' in E. injection E as ->. split; [exact D'|]. split; [|exact Q]. intros d ip i I C Hi. split; [|now apply P].
    rewrite Forall_forall in B. specialize (B (fst d) (in_map _ _ _ I)). unfold covers in C. lia.
Qed.
Print Assumptions C85_multi.
(** C85: whatever the specifications, nothing is read or written out of range. *)
Theorem C85_multi_total : forall cell nxy np ds xs, fills cell nxy -> length xs = nxy * np -> (forall d, In d ds -> length (snd d) = nxy) -> read_multi cell nxy np ds xs <> Undef.
Proof.
  intros cell nxy np ds xs (F & _) Lx Lb. unfold read_multi. destruct (check_planes np (map fst ds) (repeat false np)) as [s|] eqn:Ec; [|discriminate].
  destruct (check_ok _ _ _ _ (repeat_length _ _) Ec) as (B & _ & D). destruct (apply_multi_ok cell nxy np ds xs F) as (x' & E' & _); auto.
  - apply Forall_forall. intros d I. rewrite Forall_forall in B. apply B. now apply in_map.
  - intros i j di dj ip Ei Ej Ci Cj. apply (D i j (fst di) (fst dj) ip); auto; rewrite nth_error_map; [now rewrite Ei|now rewrite Ej].
  - rewrite E'. discriminate.
Qed.
Print Assumptions C85_multi_total.
Example C85_multi_instance : read_multi (fun i => 1 - i) 2 3 [((0, 1), [1; 2]%R)] [0; 0; 0; 0; 9; 9]%R = Got [2; 1; 2; 1; 9; 9]%R /\
  read_multi (fun i => 1 - i) 2 3 [((0, 1), [1; 2]%R); ((1, 1), [1; 2]%R)] [0; 0; 0; 0; 9; 9]%R = Threw.
Proof. split; reflexivity. Qed.
(** C85: macroplanes left out are not reported. *)
Theorem C85_missing_refuted : exists cell nxy np ds xs x ip, fills cell nxy /\ ip < np /\ (forall d, In d ds -> ~ covers (fst d) ip) /\ read_multi cell nxy np ds xs = Got x.
Proof.
  exists (fun i => 1 - i), 2, 3, [((0, 1), [1; 2]%R)], [0; 0; 0; 0; 9; 9]%R, [2; 1; 2; 1; 9; 9]%R, 2. split; [apply C86_instance|]. split; [lia|]. split; [|reflexivity]. intros d [<-|[]] [H1 H2]. cbn in *. lia.
Qed.
Print Assumptions C85_missing_refuted.

(** C85: a homogenized region with fission is still marked as not fissile. *)
Theorem C85_fissile_refuted : exists regs tr nf ch f s x, homogenized_region regs tr nf ch f s = Some x /\ (exists v, In v (xr_nf x) /\ (0 < v)%R) /\ xr_fissile x = false.
Proof.
  exists [0], [2%R], [3%R], [1%R], [1%R], one_group. eexists. split; [cbn; reflexivity|]. split; [exists 3%R; cbn; split; [now left|lra]|reflexivity].
Qed.
Print Assumptions C85_fissile_refuted.
(** C85: the group constants of a homogenized region are those given; removal follows. *)
Theorem C85_update : forall regs tr nf ch f s x, homogenized_region regs tr nf ch f s = Some x -> xr_reg x = regs /\ xr_tr x = tr /\ xr_nf x = nf /\ xr_ch x = ch /\ xr_f x = f /\ xr_sc x = s /\
  forall g, g < ng s -> exists t y, nth_error tr g = Some t /\ self_scat s g = Some y /\ nth_error (xr_rm x) g = Some (t - y)%R.
Proof.
  intros regs tr nf ch f s x E. unfold homogenized_region in E. cbn in E. unfold update_region in E. cbn [xr_reg xr_fissile] in E. destruct (removal tr s 0 (ng s)) as [rm|] eqn:Er; [|discriminate]. injection E as <-.
  repeat (split; [reflexivity|]). exact (proj2 (removal_spec _ _ _ _ _ Er)).
Qed.
Print Assumptions C85_update.
Example C85_update_instance : exists x, homogenized_region [0] [2%R] [3%R] [1%R] [1%R] one_group = Some x.
Proof. eexists. cbn. reflexivity. Qed.
