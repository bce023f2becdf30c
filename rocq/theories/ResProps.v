(** What the MoC and Sn sweepers write to the results file (C192). *)
From Coq Require Import List Bool Reals ZArith Arith Lia Lra.
From Verif Require Import RUtil ListUtil McModel MeshModel AngModel BcModel BcProofs StdAlg CoreModel CoreProofs ScatModel ScatProofs MatModel ExpModel MocModel MocProofs MocProps XsModel SrcModel HomProps SrcProps SolModel SolProps MgModel MgProps MgInnerProps SnGroupProps EigProps MocMaxProps MocEigProps MocLinProofs MocConvProps FixModel FixProofs FixProps PflModel PflProps SnOutModel ResModel ResProofs SolModel.
Import ListNotations.
Open Scope nat_scope.

(** ** Specification *)
(** The flux of a pin: the volume-weighted mean over the pin's regions, [n] of them from [o] on. *)
Definition pin_flux_of (fl : list (list R)) (vol : list R) (g o n : nat) : R := (rsum (fun r => phi fl (o + r) g * at0 vol (o + r)) n / rsum (fun r => at0 vol (o + r)) n)%R.
(** The flux data and powers of two files are the same (fluxes of the regions left aside). *)
Definition same_file (a b : FluxFile) : Prop := ff_flux a = ff_flux b /\ ff_pow a = ff_pow b /\ ff_pow2 a = ff_pow2 b.
(** A mesh for the calculation: pins fill the planes, planes are shared out among the macroplanes, regions have volumes. *)
Record out_mesh (cell : nat -> nat) (nxy nz : nat) (ms : list MPl) (vol : list R) : Prop := {
  om_fills : fills cell nxy;
  om_shared : shares_out ms nz;
  om_pins : forall m, In m ms -> length (ml_pins m) = nxy;
  om_regs : forall m p, In m ms -> In p (ml_pins m) -> pg_areas p <> [];
  om_vol : length vol = starts_at ms (length ms) /\ forall r, r < length vol -> (0 < at0 vol r)%R
}.
(** No material has a fission cross section. *)
Definition no_fission (xs : list XReg) : Prop := forall x v, In x xs -> In v (xr_f x) -> v = 0%R.

(** ** Proofs *)
Lemma col_is : forall ng fl g, (forall row, In row fl -> length row = ng) -> g < ng -> group_col g fl = Some (map (fun row => nth g row 0%R) fl).
Proof.
  intros ng fl g H Hg. induction fl as [|row fl IH]; [reflexivity|]. unfold group_col in *. cbn [fold_right map]. rewrite IH by (intros r I; apply H; right; exact I).
  rewrite (nth_error_nth' row 0%R) by (rewrite (H row (or_introl eq_refl)); exact Hg). reflexivity.
Qed.
Lemma col_at : forall fl g i, i < length fl -> at0 (map (fun row => nth g row 0%R) fl) i = phi fl i g.
Proof. intros fl g i Hi. unfold at0, phi. rewrite (nth_indep _ 0%R ((fun row => nth g row 0%R) [])) by (rewrite map_length; exact Hi). apply (map_nth (fun row => nth g row 0%R)). Qed.
Lemma groups_spec : forall f fl n a r, groups_from f fl a n = Some r -> length r = n /\ forall g, g < n -> exists c, group_col (a + g) fl = Some c /\ f c = Some (nth g r []).
Proof.
  intros f fl n. induction n as [|n IH]; intros a r H; cbn [groups_from] in H; [injection H as <-; split; [reflexivity|lia]|].
  destruct (group_col a fl) as [c|] eqn:E; [|discriminate]. destruct (f c) as [v|] eqn:Ev; [|discriminate]. destruct (groups_from f fl (S a) n) as [r'|] eqn:Er; [|discriminate]. injection H as <-. destruct (IH (S a) r' Er) as [L H]. split; [cbn; now rewrite L|].
  intros [|g] Hg; [exists c; rewrite Nat.add_0_r; auto|]. destruct (H g ltac:(lia)) as (d & D1 & D2). exists d. rewrite Nat.add_succ_r. auto.
Qed.
Lemma total_pos_scaled : forall l q, (0 < q)%R -> count_pos (map (fun v => v * q)%R l) = count_pos l.
Proof. intros l q H. apply count_scaled. exact H. Qed.
Lemma total_is : forall l, total l = lsum (fun v => v) l.
Proof. intros l. unfold total. apply vsum_lsum. Qed.
Lemma total_nonneg : forall l, (forall v, In v l -> 0 <= v)%R -> (0 <= total l)%R.
Proof.
  intros l H. rewrite total_is. induction l as [|v l IH]; cbn [lsum]; [lra|]. assert (0 <= v)%R by (apply H; left; reflexivity). assert (0 <= lsum (fun v => v) l)%R by (apply IH; intros w I; apply H; right; exact I). lra.
Qed.
Lemma norm_spec : forall pfs a, normalized pfs = Some a -> exists q, a = map (map (fun v => v * q)%R) pfs /\ ((forall v, In v (concat pfs) -> 0 <= v)%R -> (0 <= q)%R /\ total (concat a) = INR (count_pos (concat pfs)) /\ ((0 < q)%R -> total (concat a) = INR (count_pos (concat a)))).
Proof.
  intros pfs a H. unfold normalized in H. destruct (normalize (concat pfs)) as [[l q]|] eqn:E; [|discriminate]. injection H as <-. exists q. split; [reflexivity|]. intros N.
  unfold normalize in E. destruct (Reqb_spec (total (concat pfs)) 0) as [|Z]; [discriminate|]. injection E as <- <-. pose proof (total_nonneg _ N) as T. assert (Tp : (0 < total (concat pfs))%R) by lra.
  assert (Q : (0 <= INR (count_pos (concat pfs)) / total (concat pfs))%R) by (apply Rmult_le_pos; [apply pos_INR|left; now apply Rinv_0_lt_compat]). split; [exact Q|]. rewrite <- concat_map.
  assert (S0 : total (map (fun v => v * (INR (count_pos (concat pfs)) / total (concat pfs)))%R (concat pfs)) = INR (count_pos (concat pfs))) by (rewrite total_scaled; field; exact Z). split; [exact S0|]. intros Qp. rewrite S0. now rewrite total_pos_scaled.
Qed.
Lemma zero_regs : forall f regs v v', (forall r x, f r = Some x -> x = 0%R) -> add_regs regs f v = Some v' -> v' = v.
Proof.
  intros f. induction regs as [|r regs IH]; intros v v' Z H; cbn [add_regs] in H; [now injection H|]. destruct (f r) as [x|] eqn:E; [|discriminate]. destruct (nth_error v r) as [y|] eqn:Ey; [|discriminate]. rewrite (Z r x E), Rplus_0_r in H.
  destruct (set_nth v r y) as [w|] eqn:Ew; [|discriminate]. rewrite (IH w v' Z H). clear - Ey Ew. revert r w Ey Ew. induction v as [|a v IH]; intros [|r] w Ey Ew; cbn in Ey, Ew; try discriminate; [injection Ey as ->; now injection Ew as <-|]. destruct (set_nth v r y) as [u|] eqn:Eu; [|discriminate]. injection Ew as <-. f_equal. now apply (IH r).
Qed.
Lemma zero_groups : forall x fl vol cnt ig p p', (forall v, In v (xr_f x) -> v = 0%R) -> pow_groups x fl vol ig cnt p = Some p' -> p' = p.
Proof.
  intros x fl vol. induction cnt as [|n IH]; intros ig p p' Z H; cbn [pow_groups] in H; [now injection H|]. destruct (nth_error (xr_f x) ig) as [f|] eqn:E; [|discriminate]. pose proof (Z f (nth_error_In _ _ E)) as ->.
  destruct (add_regs _ _ p) as [q|] eqn:Ea; [|discriminate]. rewrite (IH (S ig) q p' Z H). eapply zero_regs; [|exact Ea]. intros r y Hy. cbn beta in Hy. destruct (at2 fl r ig) as [ph|]; [|discriminate]. destruct (nth_error vol r); [|discriminate]. injection Hy as <-. ring.
Qed.
Lemma zero_mesh : forall xs ng fl vol p p', no_fission xs -> pow_mesh xs ng fl vol p = Some p' -> p' = p.
Proof.
  induction xs as [|x xs IH]; intros ng fl vol p p' Z H; cbn [pow_mesh] in H; [now injection H|]. destruct (pow_groups x fl vol 0 ng p) as [q|] eqn:E; [|discriminate]. rewrite (IH ng fl vol q p' (fun y v I => Z y v (or_intror I)) H). apply (zero_groups x fl vol ng 0 p q (fun v => Z x v (or_introl eq_refl)) E).
Qed.
Lemma zero_total : forall (vol : list R) n, total (firstn n (map (fun _ => 0%R) vol)) = 0%R.
Proof. intros vol n. rewrite total_is. revert vol. induction n as [|n IH]; intros [|a vol]; cbn [firstn map lsum]; try reflexivity. rewrite IH. ring. Qed.
Lemma solve_shape : forall m ng sct ext, moc_problem m ng sct -> physical (ms_nreg m) ng sct (ms_xs m) -> ext_fits (ms_nreg m) ng ext -> forall mx tol s n t n', fx_shape m ng s -> fixed_loop FxState (fx_step m ng ext) (fx_small tol) mx n s = Got (t, n') -> fx_shape m ng t.
Proof.
  intros m ng sct ext P Ph X. induction mx as [|mx IH]; intros tol s n t n' F H; cbn [fixed_loop] in H; [injection H as <- <-; exact F|]. destruct (step_total m ng sct ext P Ph X s F) as (s' & E & F' & _). rewrite E in H. destruct (fx_small tol s'); [injection H as <- <-; exact F'|exact (IH tol s' _ t n' F' H)].
Qed.

(** C192: the file of a MoC calculation has, in the data set of each group and at the place of each pin's cell, the volume-weighted mean flux of
    the pin in the macroplane that the plane belongs to, times one factor that is the same for all pins, planes and groups; with fluxes that are
    not negative the numbers written average to one over the positive ones.  On request, and only then, the fluxes of the regions are written as they are. *)
Theorem C192_moc : forall fsr cell nxy nz ms nf xs ng vol fl f, out_mesh cell nxy nz ms vol -> flux_fits (length vol) ng fl -> moc_output fsr cell nxy nz ms nf xs ng vol fl = Some f ->
  (exists q, (forall g i k z, g < ng -> i < nxy -> k < length ms -> z < nz -> ml_min (nth k ms (mkMPl 0 0 [])) <= z <= ml_max (nth k ms (mkMPl 0 0 [])) ->
      at0 (nth g (ff_flux f) []) (cell i + nxy * z) = (pin_flux_of fl vol g (starts_at ms k + list_sum (firstn i (pins_of ms k)))%nat (nth i (pins_of ms k) 0%nat) * q)%R) /\
    ((forall r g, r < length vol -> g < ng -> (0 < phi fl r g)%R) -> 0 < ng -> (0 < q)%R /\ total (concat (ff_flux f)) = INR (count_pos (concat (ff_flux f))))) /\
  length (ff_flux f) = ng /\ (forall g, g < ng -> length (nth g (ff_flux f) []) = nxy * nz) /\ ff_pow2 f = None /\
  (if fsr then exists l, ff_fsr f = Some l /\ length l = ng /\ forall g r, g < ng -> r < length vol -> at0 (nth g l []) r = phi fl r g else ff_fsr f = None).
Proof.
  intros fsr cell nxy nz ms nf xs ng vol fl f [Fi Sh Pi Re [Lv Pv]] [Lf Rf] H. unfold moc_output in H. destruct (groups_from _ fl 0 ng) as [pfs|] eqn:E; [|discriminate]. destruct (normalized pfs) as [a|] eqn:Ea; [|discriminate]. destruct (if fsr then _ else _) as [b|] eqn:Eb; [|discriminate]. destruct (pin_powers _ _ _ _ _ _ _ _) as [c|]; [|discriminate]. injection H as <-. cbn [ff_flux ff_fsr ff_pow2].
  destruct (groups_spec _ _ _ _ _ E) as [Lp Hp]. destruct (norm_spec pfs a Ea) as (q & -> & Q).
  assert (W : forall g, g < ng -> length (nth g pfs []) = nxy * nz /\ forall i k z, i < nxy -> k < length ms -> z < nz -> ml_min (nth k ms (mkMPl 0 0 [])) <= z <= ml_max (nth k ms (mkMPl 0 0 [])) -> at0 (nth g pfs []) (cell i + nxy * z) = mp_mean (map (fun row => nth g row 0%R) fl) vol ms k i).
  { intros g Hg. destruct (Hp g Hg) as (col & C1 & C2). cbn [Nat.add] in C1. rewrite (col_is ng fl g Rf Hg) in C1. injection C1 as <-. destruct (pins_where cell nxy nz ms (map (fun row => nth g row 0%R) fl) vol Fi Sh Pi Re) as (pf & P1 & P2 & P3); [rewrite map_length; lia|lia|exact Pv|]. rewrite P1 in C2. injection C2 as <-. split; assumption. }
  assert (Mm : forall g i k, i < nxy -> k < length ms -> g < ng -> mp_mean (map (fun row => nth g row 0%R) fl) vol ms k i = pin_flux_of fl vol g (starts_at ms k + list_sum (firstn i (pins_of ms k))) (nth i (pins_of ms k) 0)).
  { intros g i k Hi Hk Hg. unfold mp_mean, mean_over, pin_flux_of. f_equal. apply rsum_ext. intros r Hr. f_equal. apply col_at. rewrite Lf, Lv.
    assert (Hl : length (pins_of ms k) = nxy) by (unfold pins_of, psizes; rewrite map_length; apply Pi, nth_In, Hk).
    assert (B1 : forall (l : list nat) i, i < length l -> list_sum (firstn i l) + nth i l 0 <= list_sum l). { induction l as [|x l IHl]; intros [|j] Hj; cbn [length] in Hj; try lia; cbn [firstn nth]; change (list_sum (x :: l)) with (x + list_sum l); [cbn; lia|]. change (list_sum (x :: firstn j l)) with (x + list_sum (firstn j l)). specialize (IHl j ltac:(lia)). lia. }
    pose proof (B1 (pins_of ms k) i ltac:(lia)) as B2. assert (B3 : starts_at ms k + list_sum (pins_of ms k) <= starts_at ms (length ms)).
    { clear - Hk B1. unfold starts_at, pins_of. rewrite firstn_all. rewrite <- firstn_map. pose proof (B1 (map (fun m => list_sum (psizes (ml_pins m))) ms) k ltac:(rewrite map_length; exact Hk)) as B. rewrite (nth_indep _ 0 ((fun m => list_sum (psizes (ml_pins m))) (mkMPl 0 0 []))) in B by (rewrite map_length; exact Hk). rewrite (map_nth (fun m => list_sum (psizes (ml_pins m)))) in B. exact B. }
    lia. }
  assert (Nt : forall g, nth g (map (map (fun v => v * q)%R) pfs) [] = map (fun v => v * q)%R (nth g pfs [])) by (intros g; apply (map_nth (map (fun v => v * q)%R) pfs [] g)).
  split; [exists q; split|split; [|split; [|split; [reflexivity|]]]].
  - intros g i k z Hg Hi Hk Hz Hr. rewrite Nt. destruct (W g Hg) as [W1 W2]. unfold at0. assert (B : cell i + nxy * z < nxy * nz) by (pose proof (proj1 Fi i Hi); assert (nxy * z + nxy <= nxy * nz) by nia; lia). rewrite (nth_indep _ 0%R ((fun v => v * q)%R 0%R)) by (rewrite map_length, W1; exact B). rewrite (map_nth (fun v => v * q)%R). fold (at0 (nth g pfs []) (cell i + nxy * z)). rewrite (W2 i k z Hi Hk Hz Hr), (Mm g i k Hi Hk Hg). reflexivity.
  - intros Pp Hn. assert (Po : forall v, In v (concat pfs) -> (0 < v)%R).
    { intros v I. apply in_concat in I. destruct I as (l & I1 & I2). destruct (In_nth _ _ [] I1) as (g & Hg & <-). rewrite Lp in Hg. destruct (W g Hg) as [W1 W2]. destruct (In_nth _ _ 0%R I2) as (j & Hj & <-). rewrite W1 in Hj. assert (Nx : 0 < nxy) by nia.
      destruct (proj2 (proj2 Fi) (j mod nxy)) as (i & Hi & Ei); [apply Nat.mod_upper_bound; lia|]. pose proof (Nat.div_mod j nxy ltac:(lia)) as Dj. assert (Hz : j / nxy < nz) by (apply Nat.div_lt_upper_bound; lia). destruct (proj2 Sh (j / nxy) Hz) as (k & Hk & U). pose proof (proj2 (U k Hk) eq_refl) as Uk.
      change (nth j (nth g pfs []) 0%R) with (at0 (nth g pfs []) j). replace j with (cell i + nxy * (j / nxy)) by lia. rewrite (W2 i k (j / nxy) Hi Hk Hz Uk), (Mm g i k Hi Hk Hg). unfold pin_flux_of.
      set (o := starts_at ms k + list_sum (firstn i (pins_of ms k))). set (n := nth i (pins_of ms k) 0).
      assert (Hl : length (pins_of ms k) = nxy) by (unfold pins_of, psizes; rewrite map_length; apply Pi, nth_In, Hk).
      assert (Hn0 : 0 < n). { unfold n, pins_of, psizes. rewrite (nth_indep _ 0 (length (pg_areas (mkPG 0 [])))) by (unfold pins_of, psizes in Hl; rewrite Hl; exact Hi). rewrite (map_nth (fun p => length (pg_areas p))). assert (Ip : In (nth i (ml_pins (nth k ms (mkMPl 0 0 []))) (mkPG 0 [])) (ml_pins (nth k ms (mkMPl 0 0 [])))) by (apply nth_In; unfold pins_of, psizes in Hl; rewrite map_length in Hl; lia). pose proof (Re _ _ (nth_In ms (mkMPl 0 0 []) Hk) Ip) as Z. destruct (pg_areas _); [congruence|cbn; lia]. }
      assert (B0 : o + n <= length vol).
      { rewrite Lv. assert (B1 : forall (l : list nat) i, i < length l -> list_sum (firstn i l) + nth i l 0 <= list_sum l). { clear. induction l as [|x l IHl]; intros [|j] Hj; cbn [length] in Hj; try lia; cbn [firstn nth]; change (list_sum (x :: l)) with (x + list_sum l); [cbn; lia|]. change (list_sum (x :: firstn j l)) with (x + list_sum (firstn j l)). specialize (IHl j ltac:(lia)). lia. }
        pose proof (B1 (pins_of ms k) i ltac:(lia)) as B2. assert (B3 : starts_at ms k + list_sum (pins_of ms k) <= starts_at ms (length ms)).
        { clear - Hk B1. unfold starts_at, pins_of. rewrite firstn_all. rewrite <- firstn_map. pose proof (B1 (map (fun m => list_sum (psizes (ml_pins m))) ms) k ltac:(rewrite map_length; exact Hk)) as B. rewrite (nth_indep _ 0 ((fun m => list_sum (psizes (ml_pins m))) (mkMPl 0 0 []))) in B by (rewrite map_length; exact Hk). rewrite (map_nth (fun m => list_sum (psizes (ml_pins m)))) in B. exact B. }
        unfold o, n. lia. }
      clearbody o n. assert (Q2 : forall F : nat -> R, (forall r, r < n -> (0 < F r)%R) -> (0 < rsum F n)%R).
      { intros F HF. assert (G : forall k, k <= n -> (0 <= rsum F k)%R /\ (0 < k -> (0 < rsum F k)%R)). { induction k0 as [|k0 IHk]; intros Hk0; cbn [rsum]; [split; [lra|lia]|]. destruct (IHk ltac:(lia)) as [I1' _]. pose proof (HF k0 ltac:(lia)). split; [|intros _]; lra. } apply (G n (le_n _)), Hn0. }
      apply Rdiv_lt_0_compat; apply Q2; intros r Hr; [apply Rmult_lt_0_compat; [apply Pp; lia|apply Pv; lia]|apply Pv; lia]. }
    destruct (Q (fun v I => Rlt_le _ _ (Po v I))) as (Q0 & Q1 & Q2). assert (Qp : (0 < q)%R); [|split; [exact Qp|exact (Q2 Qp)]].
    destruct (Req_dec q 0) as [Z|Z]; [|lra]. exfalso. unfold normalized in Ea. destruct (normalize (concat pfs)) as [[l u]|] eqn:Eu; [|discriminate]. injection Ea as Ea. unfold normalize in Eu. destruct (Reqb_spec (total (concat pfs)) 0) as [|Zt]; [discriminate|].
    rewrite <- concat_map in Q1. rewrite total_scaled, Z, Rmult_0_r in Q1. assert (C : count_pos (concat pfs) = length (concat pfs)). { clear - Po. unfold count_pos. induction (concat pfs) as [|v l IH]; [reflexivity|]. cbn [filter]. rewrite Rltb_true by (apply Po; left; reflexivity). cbn [length]. f_equal. apply IH. intros w I. apply Po. right. exact I. }
    rewrite C in Q1. apply (INR_eq 0) in Q1. apply Zt. destruct (concat pfs); [reflexivity|discriminate].
  - now rewrite map_length.
  - intros g Hg. rewrite Nt, map_length. apply W, Hg.
  - destruct fsr; [|now injection Eb as <-]. destruct (groups_from Some fl 0 ng) as [l|] eqn:El; [|discriminate]. cbn [option_map] in Eb. injection Eb as <-. exists l. split; [reflexivity|]. destruct (groups_spec _ _ _ _ _ El) as [Ll Hl]. split; [exact Ll|]. intros g r Hg Hr. destruct (Hl g Hg) as (col & C1 & C2). cbn [Nat.add] in C1. rewrite (col_is ng fl g Rf Hg) in C1. injection C1 as <-. injection C2 as <-. apply col_at. lia.
Qed.
Print Assumptions C192_moc.

(** C192: the files of MoC and Sn calculations whose fluxes differ by a positive factor have the same pin fluxes and powers: how large the flux
    is cannot be told from them.  The regions' fluxes, if written, do tell. *)
Theorem C192_scale : forall c, (0 < c)%R -> let big := map (map (Rmult c)) in
  (forall fsr cell nxy nz ms nf xs ng vol fl, match moc_output fsr cell nxy nz ms nf xs ng vol fl, moc_output fsr cell nxy nz ms nf xs ng vol (big fl) with
     | Some a, Some b => same_file a b /\ ff_fsr b = option_map big (ff_fsr a) | None, None => True | _, _ => False end) /\
  (forall m xs ng vol fl, sn_output m xs ng vol (big fl) = sn_output m xs ng vol fl).
Proof.
  intros c P big. assert (B : forall fl, big fl = sc2 c fl). { intros fl. apply map_ext. intros r. apply map_ext. intros v. apply Rmult_comm. }
  assert (GS : forall fl ng, groups_from Some (sc2 c fl) 0 ng = option_map (sc2 c) (groups_from Some fl 0 ng)) by (intros; apply groups_sc; intros; reflexivity).
  split; intros; rewrite !B.
  - unfold moc_output. rewrite (groups_sc c (fun l => get_pin_flux cell nxy (nxy * nz) zs_pin ms l vol) (fun l => get_pin_flux cell nxy (nxy * nz) zs_pin ms l vol)) by (intros l; apply pins_sc). destruct (groups_from _ fl 0 ng) as [pfs|]; cbn [option_map]; [|exact I].
    rewrite (normalized_sc c P), (powers_sc c P), GS. destruct (normalized pfs) as [a|]; [|exact I]. destruct fsr.
    + destruct (groups_from Some fl 0 ng) as [b|]; cbn [option_map]; [|exact I]. destruct (pin_powers _ _ _ _ _ _ _ _); [|exact I]. split; [repeat split|]. cbn [ff_fsr option_map]. now rewrite B.
    + destruct (pin_powers _ _ _ _ _ _ _ _); [|exact I]. split; [repeat split|reflexivity].
  - unfold sn_output. rewrite GS. destruct (groups_from Some fl 0 ng) as [pfs|]; cbn [option_map]; [|reflexivity]. now rewrite (normalized_sc c P), (snp_sc c P), (snp2_sc c P).
Qed.
Print Assumptions C192_scale.

(** C192: so a fixed-source MoC calculation with all of the source multiplied by a positive number (as are the tolerance and the starting point)
    writes the same pin fluxes and powers, although the flux is multiplied by that number. *)
Theorem C192_fixed : forall m ng sct k ext ext' tol mx s s', moc_problem m ng sct -> physical (ms_nreg m) ng sct (ms_xs m) -> ext_fits (ms_nreg m) ng ext -> ext_fits (ms_nreg m) ng ext' -> (0 < k)%R -> (forall i g, i < ms_nreg m -> g < ng -> ext_at ext' i g = (k * ext_at ext i g)%R) ->
  fx_shape m ng s -> fx_shape m ng s' -> fx_lin m ng (k - 1) s s s' ->
  exists t t' n, fx_solve m ng ext tol mx s = Got (t, n) /\ fx_solve m ng ext' (k * tol) mx s' = Got (t', n) /\ fx_flux t' = map (map (Rmult k)) (fx_flux t) /\
    forall fsr cell nxy nz ms nf xs vol f, moc_output fsr cell nxy nz ms nf xs ng vol (fx_flux t) = Some f -> exists f', moc_output fsr cell nxy nz ms nf xs ng vol (fx_flux t') = Some f' /\ same_file f f'.
Proof.
  intros m ng sct k ext ext' tol mx s s' P Ph X X' K Xl F F' Hl. destruct (C182_scale m ng sct k ext ext' tol mx s s' P Ph X X' K Xl F F' Hl) as (t & t' & n & E & E' & Hk). exists t, t', n. do 2 (split; [assumption|]).
  assert (Ft : fx_shape m ng t) by (apply (solve_shape m ng sct ext P Ph X mx tol s 0 t n F E)). assert (Ft' : fx_shape m ng t') by (apply (solve_shape m ng sct ext' P Ph X' mx (k * tol)%R s' 0 t' n F' E')).
  assert (Ef : fx_flux t' = map (map (Rmult k)) (fx_flux t)) by (apply (flux_scaled (ms_nreg m) ng); [apply (proj2 Ft)|apply (proj2 Ft')|exact Hk]). split; [exact Ef|]. intros. pose proof (proj1 (C192_scale k K) fsr cell nxy nz ms nf xs ng vol (fx_flux t)) as Q. cbv zeta in Q. rewrite <- Ef, H in Q.
  destruct (moc_output _ _ _ _ _ _ _ _ _ (fx_flux t')) as [f'|]; [|contradiction]. exists f'. split; [reflexivity|apply Q].
Qed.
Print Assumptions C192_fixed.

(** C192: without fission cross sections - shielding calculations with fixed sources, say - the powers to be written are zero divided by zero:
    the file has no numbers that mean anything there, whatever the flux; nor has it for the flux if the fluxes add up to zero. *)
Theorem C192_undefined : (forall fsr cell nxy nz ms nf xs ng vol fl, no_fission xs -> moc_output fsr cell nxy nz ms nf xs ng vol fl = None) /\
  (forall m xs ng vol fl l, groups_from Some fl 0 ng = Some l -> total (concat l) = 0%R -> sn_output m xs ng vol fl = None).
Proof.
  split.
  - intros. unfold moc_output. destruct (groups_from _ fl 0 ng); [|reflexivity]. destruct (normalized l); [|reflexivity]. destruct (if fsr then _ else _); [|reflexivity]. unfold pin_powers. destruct (pow_mesh xs ng fl vol _) as [fp|] eqn:E; [|reflexivity]. apply (zero_mesh _ _ _ _ _ _ H) in E. subst fp. destruct (all_powers _ _ _ _ _ _); [|reflexivity].
    cbv zeta. match goal with |- context [fold_left Rplus ?l 0%R] => change (fold_left Rplus l 0%R) with (total l) end. rewrite zero_total. destruct (Reqb_spec 0 0); [reflexivity|congruence].
  - intros m xs ng vol fl l E Z. unfold sn_output. rewrite E. unfold normalized, normalize. rewrite Z. destruct (Reqb_spec 0 0); [reflexivity|congruence].
Qed.
Print Assumptions C192_undefined.

(** Two pins in two planes merged into one macroplane and a third plane of its own; one pin has two regions, and there are two groups. *)
Definition ri_ms : list MPl := [mkMPl 0 1 [mkPG 3 [1; 2]; mkPG 1 [1]]; mkMPl 2 2 [mkPG 3 [1; 2]; mkPG 1 [1]]]%R.
Definition ri_vol : list R := [1; 2; 1; 1; 2; 1]%R.
Definition ri_fl : list (list R) := [[3; 1]; [6; 1]; [1; 1]; [1; 2]; [1; 2]; [1; 4]]%R.
Definition ri_x : XReg := mkXR [0; 1; 2; 3; 4; 5] true [1; 1]%R [1; 1]%R [1; 1]%R [1; 0]%R [1; 1]%R mf_sm.
Lemma ri_mesh : out_mesh (fun i => 1 - i) 2 3 ri_ms ri_vol.
Proof.
  constructor.
  - split; [intros i _; lia|]. split; [intros [|[|i]] [|[|j]] ? ? ?; lia|]. intros [|[|c]] Hc; [exists 1|exists 0|lia]; split; lia.
  - split; [intros m [<-|[<-|[]]]; cbn; lia|]. intros [|[|[|z]]] Hz; [exists 0|exists 0|exists 1|lia]; (split; [cbn; lia|]; intros [|[|j]] Hj; cbn in Hj |- *; lia).
  - intros m [<-|[<-|[]]]; reflexivity.
  - intros m p [<-|[<-|[]]] [<-|[<-|[]]]; discriminate.
  - split; [reflexivity|]. intros [|[|[|[|[|[|r]]]]]] Hr; unfold at0; cbn in *; try lra; lia.
Qed.
Ltac rcalc := repeat (lazy -[Rplus Rmult Rdiv Rinv Reqb Rltb IZR INR]; match goal with |- context [Reqb ?x ?y] => destruct (Reqb_spec x y) as [?|_]; [exfalso; lra|] end); lazy -[Rplus Rmult Rdiv Rinv Reqb Rltb IZR INR].
Ltac rlist := apply f_equal; repeat (apply f_equal2; [first [field|repeat (apply f_equal2; [field|]); reflexivity]|]); reflexivity.
Lemma ri_m0 : macro_means ri_ms [3; 6; 1; 1; 1; 1]%R ri_vol = Some [[5; 1]; [1; 1]]%R.
Proof. rcalc. rlist. Qed.
Lemma ri_m1 : macro_means ri_ms [1; 1; 1; 2; 2; 4]%R ri_vol = Some [[1; 1]; [2; 4]]%R.
Proof. rcalc. rlist. Qed.
Lemma ri_g0 : get_pin_flux (fun i => 1 - i) 2 6 zs_pin ri_ms [3; 6; 1; 1; 1; 1]%R ri_vol = Some [1; 5; 1; 5; 1; 1]%R.
Proof. unfold get_pin_flux. rewrite ri_m0. rcalc. rlist. Qed.
Lemma ri_g1 : get_pin_flux (fun i => 1 - i) 2 6 zs_pin ri_ms [1; 1; 1; 2; 2; 4]%R ri_vol = Some [1; 1; 1; 1; 4; 2]%R.
Proof. unfold get_pin_flux. rewrite ri_m1. rcalc. rlist. Qed.
Lemma ri_n : normalized [[1; 5; 1; 5; 1; 1]; [1; 1; 1; 1; 4; 2]]%R = Some (map (map (fun v => v * (12 / 24))%R) [[1; 5; 1; 5; 1; 1]; [1; 1; 1; 1; 4; 2]]%R).
Proof.
  unfold normalized, normalize. assert (T : total (concat [[1; 5; 1; 5; 1; 1]; [1; 1; 1; 1; 4; 2]]%R) = 24%R) by (rewrite total_is; cbn; lra). assert (C : count_pos (concat [[1; 5; 1; 5; 1; 1]; [1; 1; 1; 1; 4; 2]]%R) = 12) by (unfold count_pos; cbn [concat app filter]; rewrite !Rltb_true by lra; reflexivity).
  rewrite T, C. destruct (Reqb_spec 24 0); [lra|]. replace (INR 12) with 12%R by (cbn; lra). reflexivity.
Qed.
Lemma ri_p : exists p, pin_powers (fun i => 1 - i) 2 (map (fun m => map (fun p => length (pg_areas p)) (ml_pins m)) ri_ms) 4 [ri_x] 2 ri_fl ri_vol = Some p.
Proof. rcalc. eexists. reflexivity. Qed.
Example C192_instance : exists f, moc_output true (fun i => 1 - i) 2 3 ri_ms 4 [ri_x] 2 ri_vol ri_fl = Some f /\ out_mesh (fun i => 1 - i) 2 3 ri_ms ri_vol /\ flux_fits 6 2 ri_fl /\
  (* the first pin, at cell 1, in planes 0 and 1 that are merged: (3*1 + 6*2)/3 = 5 times the factor 12/24 *)
  at0 (nth 0 (ff_flux f) []) 1 = (5 * (12 / 24))%R /\ at0 (nth 0 (ff_flux f) []) 3 = (5 * (12 / 24))%R /\ at0 (nth 1 (ff_flux f) []) 4 = (4 * (12 / 24))%R /\ exists b, moc_output true (fun i => 1 - i) 2 3 ri_ms 4 [ri_x] 2 ri_vol (map (map (Rmult 7)) ri_fl) = Some b /\ same_file f b.
Proof.
  assert (E : exists f, moc_output true (fun i => 1 - i) 2 3 ri_ms 4 [ri_x] 2 ri_vol ri_fl = Some f /\ at0 (nth 0 (ff_flux f) []) 1 = (5 * (12 / 24))%R /\ at0 (nth 0 (ff_flux f) []) 3 = (5 * (12 / 24))%R /\ at0 (nth 1 (ff_flux f) []) 4 = (4 * (12 / 24))%R).
  { unfold moc_output. change (groups_from (fun l => get_pin_flux (fun i => 1 - i) 2 (2 * 3) zs_pin ri_ms l ri_vol) ri_fl 0 2) with (match get_pin_flux (fun i => 1 - i) 2 6 zs_pin ri_ms [3; 6; 1; 1; 1; 1]%R ri_vol, (match get_pin_flux (fun i => 1 - i) 2 6 zs_pin ri_ms [1; 1; 1; 2; 2; 4]%R ri_vol with Some v => Some (v :: []) | None => None end) with Some v, Some r => Some (v :: r) | _, _ => None end).
    rewrite ri_g0, ri_g1, ri_n. destruct ri_p as (p & ->). eexists. split; [reflexivity|]. repeat split. }
  destruct E as (f & E & V). exists f. split; [exact E|]. split; [apply ri_mesh|]. split; [split; [reflexivity|]; intros row I; repeat (destruct I as [<-|I]; [reflexivity|]); destruct I|]. do 3 (split; [apply V|]).
  pose proof (proj1 (C192_scale 7 ltac:(lra)) true (fun i => 1 - i) 2 3 ri_ms 4%R [ri_x] 2 ri_vol ri_fl) as Q. cbv zeta in Q. rewrite E in Q. destruct (moc_output true (fun i => 1 - i) 2 3 ri_ms 4 [ri_x] 2 ri_vol (map (map (Rmult 7)) ri_fl)) as [b|]; [|contradiction]. exists b. split; [reflexivity|apply Q].
Qed.
