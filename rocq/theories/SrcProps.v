(** Properties of the group source (C40, C41), of the fission bookkeeping (C51, first part) and of pin powers (C88). *)
From Coq Require Import List Lia Bool Reals ZArith Arith Permutation Lra.
From Verif Require Import RUtil ListUtil McModel ScatModel ScatProofs ScatProps MatModel CoreProofs MocProofs PflProps XsModel XsProps HomProps SrcModel.
Import ListNotations.
Open Scope nat_scope.

(** ** Specification *)
(** Cross-section regions are disjoint lists of regions below [n] (as C34 and C86 establish). *)
Definition mesh_fits (xs : list XReg) (n : nat) : Prop := NoDup (concat (map xr_reg xs)) /\ forall r, In r (concat (map xr_reg xs)) -> r < n.
(** Cross-section data for [n] groups, with scattering matrix [m x]. *)
Definition data_fits (ng : nat) (m : XReg -> nat -> nat -> R) (xs : list XReg) : Prop := forall x, In x xs ->
  compress ng (m x) = Some (xr_sc x) /\ off_diag_nonneg ng (m x) /\ length (xr_ch x) = ng /\ length (xr_nf x) = ng /\ length (xr_f x) = ng /\ length (xr_tr x) = ng.
(** A flux with a value per region and group. *)
Definition flux_fits (nreg ng : nat) (fl : list (list R)) : Prop := length fl = nreg /\ forall row, In row fl -> length row = ng.
Definition phi (fl : list (list R)) (i g : nat) : R := nth g (nth i fl []) 0%R.

(** ** Loops over the mesh *)
Lemma at2_phi : forall nreg ng fl i g, flux_fits nreg ng fl -> i < nreg -> g < ng -> at2 fl i g = Some (phi fl i g).
Proof.
  intros nreg ng fl i g [L F] Hi Hg. unfold at2, phi. destruct (nth_error fl i) as [row|] eqn:E; [|apply nth_error_None in E; lia]. rewrite (nth_error_nth _ _ [] E). apply nth_error_nth'. rewrite (F row); [exact Hg|]. now apply nth_error_In in E.
Qed.
Lemma nth_error_at0 : forall l i, i < length l -> nth_error l i = Some (at0 l i).
Proof. intros. unfold at0. now apply nth_error_nth'. Qed.
Lemma set_at0 : forall l i v l', set_nth l i v = Some l' -> length l' = length l /\ forall j, at0 l' j = if j =? i then v else at0 l j.
Proof.
  intros l i v l' E. destruct (set_nth_spec _ _ _ _ E) as (L & B & O). split; [exact L|]. intros j. unfold at0. destruct (Nat.ltb_spec j (length l)) as [Hj|Hj].
  - pose proof (O j) as Oj. destruct (j =? i) eqn:D; [now apply nth_error_nth|]. rewrite (nth_error_nth' l 0%R Hj) in Oj. now apply nth_error_nth.
  - rewrite !nth_overflow by lia. destruct (Nat.eqb_spec j i); [lia|reflexivity].
Qed.

Definition pays (G : nat -> R) (regs : list nat) (i : nat) : R := lsum (fun r => if i =? r then G r else 0%R) regs.
Lemma add_regs_ok : forall regs f G v, (forall r, In r regs -> r < length v /\ f r = Some (G r)) -> exists v', add_regs regs f v = Some v' /\ length v' = length v /\ forall i, at0 v' i = (at0 v i + pays G regs i)%R.
Proof.
  induction regs as [|r regs IH]; intros f G v H; cbn [add_regs].
  - exists v. split; [reflexivity|]. split; [reflexivity|]. intros i. unfold pays. cbn. lra.
  - destruct (H r (or_introl eq_refl)) as [B E]. rewrite E, (nth_error_at0 v r B). destruct (set_nth_lt v r (at0 v r + G r)%R B) as [v1 E1]. rewrite E1. destruct (set_at0 _ _ _ _ E1) as [L1 O1].
    destruct (IH f G v1) as (v' & E' & L & P); [intros q I; rewrite L1; apply H; now right|]. exists v'. split; [exact E'|]. split; [congruence|]. intros i. rewrite P, O1. unfold pays. cbn [lsum]. destruct (Nat.eqb_spec i r) as [->|]; lra.
Qed.
Lemma pays_add : forall G H regs i, (pays G regs i + pays H regs i = pays (fun r => G r + H r)%R regs i)%R.
Proof. intros. unfold pays. rewrite <- lsum_plus. apply lsum_ext. intros r _. destruct (i =? r); lra. Qed.
Lemma pays_ext : forall G H regs i, (forall r, In r regs -> G r = H r) -> pays G regs i = pays H regs i.
Proof. intros G H regs i E. unfold pays. apply lsum_ext. intros r I. destruct (i =? r); [now apply E|reflexivity]. Qed.
Lemma pays_not : forall G regs i, ~ In i regs -> pays G regs i = 0%R.
Proof. intros G regs i N. unfold pays. apply lsum_zero. intros r I. destruct (Nat.eqb_spec i r) as [->|]; [contradiction|reflexivity]. Qed.
Lemma pays_in : forall G regs i, NoDup regs -> In i regs -> pays G regs i = G i.
Proof.
  intros G regs i N. induction N as [|r regs Nr N IH]; intros I; [destruct I|]. unfold pays. cbn [lsum]. fold (pays G regs i). destruct (Nat.eqb_spec i r) as [->|D]; [rewrite pays_not by exact Nr; lra|].
  destruct I as [->|I]; [congruence|]. rewrite IH by exact I. lra.
Qed.

(** A loop over the mesh whose step adds [G x r] to each region [r] of [x]. *)
Fixpoint mesh_loop (step : XReg -> list R -> option (list R)) (xs : list XReg) (v : list R) : option (list R) :=
  match xs with [] => Some v | x :: r => match step x v with Some v' => mesh_loop step r v' | None => None end end.
Lemma mesh_loop_ok : forall step G xs n, (forall x v, In x xs -> length v = n -> exists v', step x v = Some v' /\ length v' = n /\ forall i, at0 v' i = (at0 v i + pays (G x) (xr_reg x) i)%R) ->
  forall v, length v = n -> exists v', mesh_loop step xs v = Some v' /\ length v' = n /\ forall i, at0 v' i = (at0 v i + lsum (fun x => pays (G x) (xr_reg x) i) xs)%R.
Proof.
  intros step G. induction xs as [|x xs IH]; intros n H v L; cbn [mesh_loop].
  - exists v. split; [reflexivity|]. split; [exact L|]. intros. cbn. lra.
  - destruct (H x v (or_introl eq_refl) L) as (v1 & -> & L1 & P1). destruct (IH n (fun y w I => H y w (or_intror I)) v1 L1) as (v' & E & L' & P). exists v'. split; [exact E|]. split; [exact L'|]. intros i. rewrite P, P1. cbn [lsum]. lra.
Qed.
Lemma NoDup_app_l : forall {A} (l m : list A), NoDup (l ++ m) -> NoDup l /\ NoDup m /\ forall x, In x l -> ~ In x m.
Proof.
  induction l as [|a l IH]; intros m N; cbn in N; [repeat split; auto; constructor|]. inversion N; subst. destruct (IH m H2) as (A1 & A2 & A3). split; [constructor; [|exact A1]; intros I; apply H1, in_or_app; now left|].
  split; [exact A2|]. intros x [->|I]; [|now apply A3]. intros J. apply H1, in_or_app. now right.
Qed.
Lemma collapse : forall (G : XReg -> nat -> R) xs x i, NoDup (concat (map xr_reg xs)) -> In x xs -> In i (xr_reg x) -> lsum (fun y => pays (G y) (xr_reg y) i) xs = G x i.
Proof.
  intros G. induction xs as [|y xs IH]; intros x i N I Ii; [destruct I|]. cbn [map concat] in N. destruct (NoDup_app_l _ _ N) as (N1 & N2 & D). cbn [lsum]. destruct I as [->|I].
  - rewrite pays_in by auto. rewrite lsum_zero; [lra|]. intros z Iz. apply pays_not. intros J. apply (D i Ii). apply in_concat. exists (xr_reg z). split; [now apply in_map|exact J].
  - rewrite (IH x i N2 I Ii). rewrite pays_not; [lra|]. intros J. apply (D i J). apply in_concat. exists (xr_reg x). split; [now apply in_map|exact Ii].
Qed.
Lemma collapse_out : forall (G : XReg -> nat -> R) xs i, ~ In i (concat (map xr_reg xs)) -> lsum (fun y => pays (G y) (xr_reg y) i) xs = 0%R.
Proof. intros G xs i N. apply lsum_zero. intros x I. apply pays_not. intros J. apply N. apply in_concat. exists (xr_reg x). split; [now apply in_map|exact J]. Qed.
Lemma reg_bound : forall xs n x r, mesh_fits xs n -> In x xs -> In r (xr_reg x) -> r < n.
Proof. intros xs n x r [_ B] I J. apply B. apply in_concat. exists (xr_reg x). split; [now apply in_map|exact J]. Qed.

(** ** C40 *)
Lemma fission_loop : forall xs fs ig src, fission xs fs ig src = mesh_loop (fun x v => match nth_error (xr_ch x) ig with Some ch => add_regs (xr_reg x) (fun i => match nth_error fs i with Some f => Some (ch * f)%R | None => None end) v | None => None end) xs src.
Proof. induction xs as [|x xs IH]; intros fs ig src; cbn [fission mesh_loop]; [reflexivity|]. destruct (nth_error (xr_ch x) ig); [|reflexivity]. destruct (add_regs _ _ _); [apply IH|reflexivity]. Qed.
Lemma fission_ok : forall ng m xs fs ig src, mesh_fits xs (length src) -> data_fits ng m xs -> length fs = length src -> ig < ng -> exists s, fission xs fs ig src = Some s /\ length s = length src /\
  forall i, at0 s i = (at0 src i + lsum (fun x => pays (fun r => at0 (xr_ch x) ig * at0 fs r) (xr_reg x) i) xs)%R.
Proof.
  intros ng m xs fs ig src M D Lf Hg. rewrite fission_loop. apply (mesh_loop_ok _ (fun x r => at0 (xr_ch x) ig * at0 fs r)%R); [|reflexivity].
  intros x v I Lv. destruct (D x I) as (_ & _ & Lc & _). rewrite (nth_error_at0 (xr_ch x) ig) by lia.
  destruct (add_regs_ok (xr_reg x) (fun i => match nth_error fs i with Some f => Some (at0 (xr_ch x) ig * f)%R | None => None end) (fun r => at0 (xr_ch x) ig * at0 fs r)%R v) as (v' & E & L & P).
  - intros r Ir. pose proof (reg_bound _ _ _ _ M I Ir). split; [lia|]. rewrite (nth_error_at0 fs r) by lia. reflexivity.
  - exists v'. split; [exact E|]. split; [congruence|exact P].
Qed.

Lemma scatter_row_ok : forall nreg ng fl x row (m : nat -> R) ig cnt gg v, flux_fits nreg ng fl -> (forall r, In r (xr_reg x) -> r < length v) -> length v = nreg -> gg + cnt <= ng ->
  (forall g, gg <= g -> g < gg + cnt -> nth_error (scat (xr_sc x)) (rpos row + (g - min_g row)) = Some (m g)) ->
  exists v', scatter_row x row fl ig gg cnt v = Some v' /\ length v' = length v /\ forall i, at0 v' i = (at0 v i + pays (fun r => rsum (fun k => if (gg + k =? ig)%nat then 0 else m (gg + k)%nat * phi fl r (gg + k)%nat) cnt) (xr_reg x) i)%R.
Proof.
  intros nreg ng fl x row m ig. induction cnt as [|c IH]; intros gg v F B Lv Hg Sx; cbn [scatter_row].
  - exists v. split; [reflexivity|]. split; [reflexivity|]. intros i. unfold pays. rewrite lsum_zero; [lra|]. intros r _. cbn. now destruct (i =? r).
  - rewrite (Sx gg) by lia.
    assert (Sum : forall r : nat, rsum (fun k => if (gg + k =? ig)%nat then 0%R else (m (gg + k)%nat * phi fl r (gg + k)%nat)%R) (S c) = ((if (gg =? ig)%nat then 0 else m gg * phi fl r gg) + rsum (fun k => if (S gg + k =? ig)%nat then 0 else m (S gg + k)%nat * phi fl r (S gg + k)%nat) c)%R).
    { intros r. change (S c) with (1 + c). rewrite rsum_app. f_equal.
      - cbn [rsum]. rewrite Nat.add_0_r, Rplus_0_l. reflexivity.
      - apply rsum_ext. intros k _. now replace (gg + (1 + k)) with (S gg + k) by lia. }
    destruct (Nat.eqb_spec gg ig) as [E|D].
    + destruct (IH (S gg) v F B Lv) as (v' & E' & L & P); [lia|intros; apply Sx; lia|]. exists v'. split; [exact E'|]. split; [exact L|]. intros i. rewrite P. f_equal. apply pays_ext. intros r _. rewrite Sum. lra.
    + destruct (add_regs_ok (xr_reg x) (fun i => match at2 fl i gg with Some p => Some (m gg * p)%R | None => None end) (fun r => m gg * phi fl r gg)%R v) as (v1 & E1 & L1 & P1).
      { intros r Ir. split; [now apply B|]. rewrite (at2_phi nreg ng) by (auto; try lia; rewrite <- Lv; now apply B). reflexivity. }
      rewrite E1. destruct (IH (S gg) v1 F) as (v' & E' & L & P); [rewrite L1; exact B|congruence|lia|intros; apply Sx; lia|]. exists v'. split; [exact E'|]. split; [congruence|].
      intros i. rewrite P, P1, Rplus_assoc, pays_add. f_equal. apply pays_ext. intros r _. now rewrite Sum.
Qed.
Lemma in_scatter_loop : forall xs fl ig src, in_scatter xs fl ig src = mesh_loop (fun x v => match xr_reg x with [] => Some v | _ => match nth_error (rows (xr_sc x)) ig with Some row => scatter_row x row fl ig (min_g row) (max_g row + 1 - min_g row) v | None => None end end) xs src.
Proof. induction xs as [|x xs IH]; intros fl ig src; cbn [in_scatter mesh_loop]; [reflexivity|]. destruct (xr_reg x) eqn:R; [apply IH|]. destruct (nth_error (rows (xr_sc x)) ig); [|reflexivity]. destruct (scatter_row _ _ _ _ _ _ _); [apply IH|reflexivity]. Qed.

Lemma rsum_window : forall (f : nat -> R) a c n, a + c <= n -> (forall g, g < n -> g < a \/ a + c <= g -> f g = 0%R) -> rsum (fun k => f (a + k)) c = rsum f n.
Proof.
  intros f a c n H Z. replace n with (a + (c + (n - a - c))) by lia. rewrite rsum_app. rewrite (rsum_ext f (fun _ => 0%R) a) by (intros; apply Z; lia). rewrite rsum_zero, Rplus_0_l, rsum_app.
  rewrite (rsum_ext (fun i => f (a + (c + i))) (fun _ => 0%R)) by (intros; apply Z; lia). rewrite rsum_zero. lra.
Qed.
Lemma in_scatter_ok : forall nreg ng m xs fl ig src, mesh_fits xs nreg -> length src = nreg -> data_fits ng m xs -> flux_fits nreg ng fl -> ig < ng -> exists s, in_scatter xs fl ig src = Some s /\ length s = length src /\
  forall i, at0 s i = (at0 src i + lsum (fun x => pays (fun r => rsum (fun g => if (g =? ig)%nat then 0 else m x ig g * phi fl r g) ng) (xr_reg x) i) xs)%R.
Proof.
  intros nreg ng m xs fl ig src M Ls D F Hg. rewrite in_scatter_loop. apply (mesh_loop_ok _ (fun x r => rsum (fun g => if (g =? ig)%nat then 0%R else (m x ig g * phi fl r g)%R) ng)); [|reflexivity].
  intros x v I Lv. destruct (D x I) as (C & O & _). destruct (C19_access ng (m x)) as (s & C' & _ & A). rewrite C in C'. injection C' as <-. destruct (A ig Hg) as (row & Er & B1 & B2 & V & Z). rewrite Er.
  destruct (scatter_row_ok nreg ng fl x row (m x ig) ig (max_g row + 1 - min_g row) (min_g row) v) as (v' & E & L & P); auto.
  - intros r Ir. rewrite Lv, Ls. now apply (reg_bound xs nreg x r).
  - congruence.
  - lia.
  - intros g H1 H2. specialize (V g ltac:(lia)). unfold row_get in V. destruct ((min_g row <=? g) && (g <=? max_g row)); [exact V|discriminate].
  - assert (P' : forall i, at0 v' i = (at0 v i + pays (fun r => rsum (fun g => if (g =? ig)%nat then 0 else m x ig g * phi fl r g) ng) (xr_reg x) i)%R).
    { intros i. rewrite P. f_equal. apply pays_ext. intros r _. apply (rsum_window (fun g => if g =? ig then 0%R else (m x ig g * phi fl r g)%R)); [lia|]. intros g Hgn Ho. destruct (Nat.eqb_spec g ig) as [|Dg]; [reflexivity|].
      assert (Q : (m x ig g <= 0)%R) by (apply Z; lia). assert (Q' : (0 <= m x ig g)%R) by (apply O; auto; lia). replace (m x ig g) with 0%R by lra. lra. }
    destruct (xr_reg x) as [|r0 rs] eqn:Er0.
    + exists v. split; [reflexivity|]. split; [exact Lv|]. intros i. unfold pays. cbn. lra.
    + exists v'. split; [exact E|]. split; [congruence|]. exact P'.
Qed.

(** C40: whatever the source held before, initialising a group and adding fission and in-scattering gives in every region
    of the mesh chi times fission source plus the sum over the other groups of scattering times flux. *)
Theorem C40_source : forall nreg ng m xs fl fs ig src, mesh_fits xs nreg -> data_fits ng m xs -> flux_fits nreg ng fl -> length fs = nreg -> length src = nreg -> ig < ng ->
  exists s0 s1 s2, initialize_group None nreg ig src = Some s0 /\ fission xs fs ig s0 = Some s1 /\ in_scatter xs fl ig s1 = Some s2 /\ length s2 = nreg /\
    forall x i, In x xs -> In i (xr_reg x) -> at0 s2 i = (at0 (xr_ch x) ig * at0 fs i + rsum (fun g => if (g =? ig)%nat then 0 else m x ig g * phi fl i g) ng)%R.
Proof.
  intros nreg ng m xs fl fs ig src M D F Lf Ls Hg. exists (map (fun _ => 0%R) src). assert (L0 : length (map (fun _ : R => 0%R) src) = nreg) by (now rewrite map_length).
  destruct (fission_ok ng m xs fs ig (map (fun _ => 0%R) src)) as (s1 & E1 & L1 & P1); [now rewrite L0|exact D|congruence|exact Hg|].
  destruct (in_scatter_ok nreg ng m xs fl ig s1) as (s2 & E2 & L2 & P2); auto; [congruence|]. exists s1, s2. split; [reflexivity|]. split; [exact E1|]. split; [exact E2|]. split; [congruence|].
  intros x i I Ii. rewrite P2, P1. destruct M as [N _]. rewrite (collapse (fun x r => at0 (xr_ch x) ig * at0 fs r)%R xs x i N I Ii). rewrite (collapse (fun x r => rsum (fun g => if g =? ig then 0%R else (m x ig g * phi fl r g)%R) ng) xs x i N I Ii).
  replace (at0 (map (fun _ : R => 0%R) src) i) with 0%R; [lra|]. unfold at0. clear. revert i. induction src as [|a l IH]; intros [|i]; cbn; auto.
Qed.
Print Assumptions C40_source.

(** C40: the order of fission and in-scattering does not matter, and both only add to what is there. *)
Theorem C40_commute : forall nreg ng m xs fl fs ig src, mesh_fits xs nreg -> data_fits ng m xs -> flux_fits nreg ng fl -> length fs = nreg -> length src = nreg -> ig < ng ->
  exists a b s, fission xs fs ig src = Some a /\ in_scatter xs fl ig src = Some b /\ in_scatter xs fl ig a = Some s /\ fission xs fs ig b = Some s.
Proof.
  intros nreg ng m xs fl fs ig src M D F Lf Ls Hg.
  destruct (fission_ok ng m xs fs ig src) as (a & Ea & La & Pa); [now rewrite Ls|exact D|congruence|exact Hg|]. destruct (in_scatter_ok nreg ng m xs fl ig src) as (b & Eb & Lb & Pb); auto.
  destruct (in_scatter_ok nreg ng m xs fl ig a) as (s & Es & Lsa & Ps); auto; [congruence|]. destruct (fission_ok ng m xs fs ig b) as (t & Et & Lt & Pt); [now rewrite Lb, Ls|exact D|congruence|exact Hg|].
  exists a, b, s. split; [exact Ea|]. split; [exact Eb|]. split; [exact Es|]. rewrite Et. f_equal. apply MocProofs.at0_ext; [congruence|]. intros i. rewrite Pt, Pb, Ps, Pa. lra.
Qed.
Print Assumptions C40_commute.

(** C40: summed over groups, in-scattering plus self-scattering of a region is the out-scattering cross section times the
    flux. *)
Theorem C40_balance : forall ng (m : nat -> nat -> R) s (p : nat -> R), compress ng m = Some s -> off_diag_nonneg ng m ->
  exists o, length o = ng /\ out s = o /\ rsum (fun ig => rsum (fun g => if (g =? ig)%nat then 0 else m ig g * p g) ng + m ig ig * p ig)%R ng = rsum (fun g => at0 o g * p g)%R ng.
Proof.
  intros ng m s p C O. destruct (C19_out_is_column_sum_partial ng m O) as (s' & C' & L & V). rewrite C in C'. injection C' as <-. exists (out s). split; [exact L|]. split; [reflexivity|].
  rewrite (rsum_ext (fun g => at0 (out s) g * p g)%R (fun g => rsum (fun ig => m ig g * p g)%R ng)).
  - rewrite rsum_swap. apply rsum_ext. intros ig Hi. rewrite (rsum_ext (fun j => m ig j * p j)%R (fun g => (if (g =? ig)%nat then 0 else m ig g * p g) + (if (g =? ig)%nat then m ig ig * p ig else 0))%R) by (intros g _; destruct (Nat.eqb_spec g ig) as [->|]; lra).
    rewrite rsum_plus. f_equal. rewrite rsum_delta by exact Hi. reflexivity.
  - intros g Hg. unfold at0. rewrite (nth_error_nth _ _ 0%R (V g Hg)). now rewrite rsum_scal_r.
Qed.
Print Assumptions C40_balance.

(** C40: auxiliary sources and scaling act region by region. *)
Theorem C40_auxiliary : forall aux v src, length aux = length src -> length v = length src -> exists s t, auxiliary aux src = Some s /\ scale_src v s = Some t /\
  length t = length src /\ forall i, at0 t i = ((at0 src i + at0 aux i) * at0 v i)%R.
Proof.
  intros aux v src La Lv. unfold auxiliary. destruct (add_regs_ok (seq 0 (length src)) (fun i => nth_error aux i) (at0 aux) src) as (s & E & L & P).
  - intros r I. apply in_seq in I. split; [lia|]. apply nth_error_at0. lia.
  - exists s. eexists. split; [exact E|]. unfold scale_src. rewrite (proj2 (Nat.ltb_ge _ _)) by lia. split; [reflexivity|]. split; [rewrite map_length, combine_length; lia|].
    intros i. destruct (Nat.ltb_spec i (length src)) as [Hi|Hi].
    + assert (Ps : at0 s i = (at0 src i + at0 aux i)%R). { rewrite P. rewrite pays_in; [reflexivity|apply seq_NoDup|apply in_seq; lia]. } rewrite <- Ps. unfold at0. set (f := fun p : R * R => (fst p * snd p)%R).
      rewrite (nth_indep _ 0%R (f (0%R, 0%R))) by (rewrite map_length, combine_length; lia). rewrite map_nth, combine_nth by lia. reflexivity.
    + unfold at0. rewrite !nth_overflow by (try rewrite map_length, combine_length; lia). lra.
Qed.
Print Assumptions C40_auxiliary.

(** A mesh of two regions, each with its own material, two groups. *)
Definition sc_two : nat -> nat -> R := fun to from => match to, from with 0, 0 => 1 | 1, 0 => 2 | 1, 1 => 3 | _, _ => 0 end%R.
Definition sm_two : SM := mkSM 2 [1; 2; 3]%R [0 + 1 + 2; 0 + 3]%R [mkRow 0 0 0; mkRow 0 1 1].
Lemma sm_two_made : compress 2 sc_two = Some sm_two.
Proof. unfold compress, band. cbn [first_bound last_bound map seq sc_two]. rewrite (Rltb_true 0 1), (Rltb_true 0 2), (Rltb_true 0 3), (Rltb_false 0 0) by lra. reflexivity. Qed.
Definition xr_a : XReg := mkXR [1] true [4; 5]%R [1; 0]%R [1; 0]%R [1; 0]%R [3; 2]%R sm_two.
Definition xr_b : XReg := mkXR [0] false [6; 7]%R [0; 0]%R [0; 0]%R [0; 0]%R [5; 4]%R sm_two.
Lemma mesh_two : mesh_fits [xr_a; xr_b] 2 /\ data_fits 2 (fun _ => sc_two) [xr_a; xr_b] /\ flux_fits 2 2 [[1; 2]; [3; 4]]%R.
Proof.
  split; [|split].
  - split; [repeat constructor; cbn; intuition lia|]. cbn. intuition lia.
  - intros x [<-|[<-|[]]]; (split; [apply sm_two_made|]); (split; [intros [|[|i]] [|[|g]] Hi Hg H; cbn; try lra; lia|]); repeat split; reflexivity.
  - split; [reflexivity|]. intros row [<-|[<-|[]]]; reflexivity.
Qed.
Example C40_instance : mesh_fits [xr_a; xr_b] 2 /\ data_fits 2 (fun _ => sc_two) [xr_a; xr_b] /\ flux_fits 2 2 [[1; 2]; [3; 4]]%R /\
  exists s, in_scatter [xr_a; xr_b] [[1; 2]; [3; 4]]%R 1 [0; 0]%R = Some s /\ at0 s 1 = (0 + 2 * 3)%R.
Proof. split; [apply mesh_two|]. split; [apply mesh_two|]. split; [apply mesh_two|]. eexists. split; [cbn; reflexivity|]. reflexivity. Qed.

(** C40 refuted for external sources: the accepted array is (group, region) but is read as (region, group): with more
    regions than groups it is read out of range, with as many it is transposed. *)
Theorem C40_external_refuted : (exists ng nreg a src, add_external ng nreg (Some a) None = Got (Some a) /\ length src = nreg /\ ng < nreg /\ forall ig, ig < ng -> initialize_group (Some a) nreg ig src = None) /\
  exists n a src s, add_external n n (Some a) None = Got (Some a) /\ initialize_group (Some a) n 0 src = Some s /\ exists i, i < n /\ nth_error s i <> at2 a 0 i.
Proof.
  split.
  - exists 1, 2, [[5; 6]%R], [0; 0]%R. split; [reflexivity|]. split; [reflexivity|]. split; [lia|]. intros ig Hg. assert (ig = 0) as -> by lia. reflexivity.
  - exists 2, [[1; 2]; [3; 4]]%R, [0; 0]%R. eexists. split; [reflexivity|]. split; [cbn; reflexivity|]. exists 1. split; [lia|]. cbn. intros E. injection E as E. lra.
Qed.
Print Assumptions C40_external_refuted.
(** C40: what holds of external sources: without one every group starts from zero, an array of other dimensions is
    rejected. *)
Theorem C40_external_partial : forall ng nreg a, (add_external ng nreg (Some a) None = Got (Some a) <-> length a = ng /\ forall r, In r a -> length r = nreg) /\
  (add_external ng nreg (Some a) None = Threw <-> ~ (length a = ng /\ forall r, In r a -> length r = nreg)) /\ add_external ng nreg None None = Got None.
Proof.
  intros ng nreg a. assert (Q : (length a =? ng) && forallb (fun r => length r =? nreg) a = true <-> length a = ng /\ forall r, In r a -> length r = nreg).
  { rewrite andb_true_iff, Nat.eqb_eq, forallb_forall. split; intros [A B]; (split; [exact A|]); intros r I; specialize (B r I); now apply Nat.eqb_eq. }
  unfold add_external. destruct (_ && _) eqn:E; (split; [|split; [|reflexivity]]); split; intros H; try discriminate; try reflexivity.
  - now apply Q.
  - exfalso. now apply H, Q.
  - apply Q in H. discriminate.
  - intros H'. apply Q in H'. discriminate.
Qed.
Print Assumptions C40_external_partial.

(** ** C41 *)
Lemma set_regs_ok : forall regs f G v, NoDup regs -> (forall r, In r regs -> r < length v /\ f r = Some (G r)) -> exists v', set_regs regs f v = Some v' /\ length v' = length v /\
  (forall i, In i regs -> at0 v' i = G i) /\ forall i, ~ In i regs -> at0 v' i = at0 v i.
Proof.
  induction regs as [|r regs IH]; intros f G v N H; cbn [set_regs].
  - exists v. repeat split; auto. intros i [].
  - inversion N; subst. destruct (H r (or_introl eq_refl)) as [B E]. rewrite E. destruct (set_nth_lt v r (G r) B) as [v1 E1]. rewrite E1. destruct (set_at0 _ _ _ _ E1) as [L1 O1].
    destruct (IH f G v1 H3) as (v' & E' & L & P & Q); [intros q I; rewrite L1; apply H; now right|]. exists v'. split; [exact E'|]. split; [congruence|]. split.
    + intros i [<-|I]; [|now apply P]. rewrite Q by exact H2. now rewrite O1, Nat.eqb_refl.
    + intros i I. rewrite Q by (intros J; apply I; now right). rewrite O1. destruct (Nat.eqb_spec i r) as [->|]; [|reflexivity]. exfalso. apply I. now left.
Qed.
Lemma self_scatter_ok : forall div nreg ng m xs fl src ig q, mesh_fits xs nreg -> data_fits ng m xs -> flux_fits nreg ng fl -> length src = nreg -> length q = nreg -> ig < ng ->
  (div = true -> forall x, In x xs -> at0 (xr_tr x) ig <> 0%R) -> exists q', self_scatter div xs fl src ig q = Some q' /\ length q' = nreg /\
    (forall x i, In x xs -> In i (xr_reg x) -> at0 q' i = ((at0 src i + phi fl i ig * m x ig ig) * (if div then 1 / (at0 (xr_tr x) ig * (4 * PI)) else 1 / (4 * PI)))%R) /\
    forall i, ~ In i (concat (map xr_reg xs)) -> at0 q' i = at0 q i.
Proof.
  intros div nreg ng m. induction xs as [|x xs IH]; intros fl src ig q M D F Ls Lq Hg Nz; cbn [self_scatter].
  - exists q. repeat split; auto. intros x i [].
  - destruct (D x (or_introl eq_refl)) as (C & O & _ & _ & _ & Lt). destruct (C19_self_scatter ng (m x)) as (s & C' & S). rewrite C in C'. injection C' as <-. rewrite (S ig Hg), (nth_error_at0 (xr_tr x) ig) by lia.
    assert (Z : div && Reqb (at0 (xr_tr x) ig) 0 = false). { destruct div; [|reflexivity]. cbn. destruct (Reqb_spec (at0 (xr_tr x) ig) 0) as [E|]; [|reflexivity]. exfalso. exact (Nz eq_refl x (or_introl eq_refl) E). }
    rewrite Z. set (f := if div then _ else _). destruct M as [N B]. cbn [map concat] in N, B. destruct (NoDup_app_l _ _ N) as (N1 & N2 & Dj).
    destruct (set_regs_ok (xr_reg x) (fun i => match nth_error src i, at2 fl i ig with Some s, Some p => Some ((s + p * m x ig ig) * f)%R | _, _ => None end) (fun i => (at0 src i + phi fl i ig * m x ig ig) * f)%R q N1) as (q1 & E1 & L1 & P1 & Q1).
    { intros r Ir. assert (r < nreg) by (apply B, in_or_app; now left). split; [lia|]. rewrite (nth_error_at0 src r) by lia. now rewrite (at2_phi nreg ng) by auto. }
    rewrite E1. destruct (IH fl src ig q1) as (q' & E' & L' & P' & Q'); auto.
    { split; [exact N2|]. intros r I. apply B, in_or_app. now right. } { intros y I. apply D. now right. } { congruence. } { intros H y I. apply Nz; [exact H|now right]. }
    exists q'. split; [exact E'|]. split; [exact L'|]. split.
    + intros y i [<-|I] Ii; [|now apply P']. rewrite Q' by now apply Dj. rewrite P1 by exact Ii. reflexivity.
    + intros i I. cbn [map concat] in I. rewrite Q' by (intros J; apply I, in_or_app; now right). apply Q1. intros J. apply I, in_or_app. now left.
Qed.
(** C41: without splitting, the source handed to the sweep times 4 pi times the cross section the sweep uses (the expanded
    array) is the group source plus self-scattering. *)
Theorem C41_unsplit_partial : forall nreg ng m xs fl src ig q arr, mesh_fits xs nreg -> data_fits ng m xs -> flux_fits nreg ng fl -> length src = nreg -> length q = nreg -> ig < ng ->
  (forall x, In x xs -> at0 (xr_tr x) ig <> 0%R) -> holds (map (fun x => (xr_reg x, at0 (xr_tr x))) xs) ig (fun _ => 0%R) arr ->
  exists q', self_scatter true xs fl src ig q = Some q' /\ forall x i, In x xs -> In i (xr_reg x) -> (at0 q' i * (4 * PI * at0 arr i) = at0 src i + m x ig ig * phi fl i ig)%R.
Proof.
  intros nreg ng m xs fl src ig q arr M D F Ls Lq Hg Nz H. destruct (self_scatter_ok true nreg ng m xs fl src ig q M D F Ls Lq Hg (fun _ => Nz)) as (q' & E & L & P & _). exists q'. split; [exact E|].
  intros x i I Ii. rewrite (P x i I Ii). specialize (H (xr_reg x) (at0 (xr_tr x)) i). cbn beta in H. rewrite Rplus_0_r in H. unfold at0 at 3. rewrite (nth_error_nth _ _ 0%R (H (in_map (fun x => (xr_reg x, at0 (xr_tr x))) _ _ I) Ii)). fold (at0 (xr_tr x) ig).
  pose proof PI_RGT_0. field. split; [lra|now apply Nz].
Qed.
Print Assumptions C41_unsplit_partial.
(** C41: without a cross section the source is only divided by 4 pi. *)
Theorem C41_plain : forall nreg ng m xs fl src ig q, mesh_fits xs nreg -> data_fits ng m xs -> flux_fits nreg ng fl -> length src = nreg -> length q = nreg -> ig < ng ->
  exists q', self_scatter false xs fl src ig q = Some q' /\ forall x i, In x xs -> In i (xr_reg x) -> (at0 q' i * (4 * PI) = at0 src i + m x ig ig * phi fl i ig)%R.
Proof.
  intros nreg ng m xs fl src ig q M D F Ls Lq Hg. destruct (self_scatter_ok false nreg ng m xs fl src ig q M D F Ls Lq Hg) as (q' & E & L & P & _); [discriminate|]. exists q'. split; [exact E|].
  intros x i I Ii. rewrite (P x i I Ii). pose proof PI_RGT_0. field. lra.
Qed.
Print Assumptions C41_plain.
Example C41_instance : (forall x, In x [xr_a; xr_b] -> at0 (xr_tr x) 1 <> 0%R) /\ holds (map (fun x => (xr_reg x, at0 (xr_tr x))) [xr_a; xr_b]) 1 (fun _ => 0%R) [7; 5]%R.
Proof.
  split; [intros x [<-|[<-|[]]]; cbn; lra|]. intros l f r [[= <- <-]|[[= <- <-]|[]]] [<-|[]]; cbn; f_equal; lra.
Qed.
(** C41 refuted with splitting: the sweep attenuates with the split cross section but the source is divided by the
    unsplit one. *)
Theorem C41_split_refuted : exists nreg ng m xs fl src ig q q' arr split, mesh_fits xs nreg /\ data_fits ng m xs /\ flux_fits nreg ng fl /\ length src = nreg /\ length q = nreg /\ length split = nreg /\ ig < ng /\
  holds (map (fun x => (xr_reg x, at0 (xr_tr x))) xs) ig (fun i => at0 split i) arr /\ self_scatter true xs fl src ig q = Some q' /\
  exists x i, In x xs /\ In i (xr_reg x) /\ (at0 q' i * (4 * PI * at0 arr i) <> at0 src i + m x ig ig * phi fl i ig)%R.
Proof.
  destruct mesh_two as (M & D & F). set (arr := [7 + 1; 5 + 0]%R). destruct (self_scatter_ok true 2 2 (fun _ => sc_two) [xr_a; xr_b] [[1; 2]; [3; 4]]%R [1; 1]%R 1 [0; 0]%R M D F eq_refl eq_refl ltac:(lia) (fun _ => proj1 C41_instance)) as (q' & E & L & P & _).
  exists 2, 2, (fun _ => sc_two), [xr_a; xr_b], [[1; 2]; [3; 4]]%R, [1; 1]%R, 1, [0; 0]%R, q', arr, [1; 0]%R. repeat (split; [first [exact M | exact D | exact F | reflexivity | lia]|]). split; [|split; [exact E|]].
  - intros l f r [[= <- <-]|[[= <- <-]|[]]] [<-|[]]; cbn; f_equal; lra.
  - exists xr_b, 0. split; [now right; left|]. split; [now left|]. rewrite (P xr_b 0) by (cbn; auto). unfold arr, phi. cbn. pose proof PI_RGT_0. intros X.
    replace ((1 + 2 * 3) * (1 / (7 * (4 * PI))) * (4 * PI * (7 + 1)))%R with 8%R in X by (field; lra). lra.
Qed.
Print Assumptions C41_split_refuted.

(** ** Fission production (C51, first part) *)
(** Neutrons produced per second, as a textbook would write it. *)
Definition production (xs : list XReg) (ng : nat) (fl : list (list R)) (vol : list R) : R :=
  lsum (fun x : XReg => lsum (fun r : nat => rsum (fun g => phi fl r g * at0 vol r * at0 (xr_nf x) g)%R ng) (xr_reg x)) xs.
Lemma fis_regs_ok : forall nreg ng fl vol nf ig, flux_fits nreg ng fl -> length vol = nreg -> ig < ng -> forall regs t, (forall r, In r regs -> r < nreg) ->
  fis_regs nf fl vol ig regs t = Some (t + lsum (fun r : nat => phi fl r ig * at0 vol r * nf) regs)%R.
Proof.
  intros nreg ng fl vol nf ig F Lv Hg. induction regs as [|r regs IH]; intros t B; cbn [fis_regs lsum]; [f_equal; lra|].
  pose proof (B r (or_introl eq_refl)). rewrite (at2_phi nreg ng), (nth_error_at0 vol r) by (auto; lia). rewrite IH by (intros; apply B; now right). f_equal. lra.
Qed.
Lemma rsum_front : forall (f : nat -> R) n, rsum f (S n) = (f 0%nat + rsum (fun k => f (S k)) n)%R.
Proof. intros f n. change (S n) with (1 + n). rewrite rsum_app. cbn [rsum]. rewrite Rplus_0_l. reflexivity. Qed.
Lemma fis_groups_ok : forall nreg ng x fl vol, flux_fits nreg ng fl -> length vol = nreg -> length (xr_nf x) = ng -> (forall r, In r (xr_reg x) -> r < nreg) -> forall cnt ig t, ig + cnt <= ng ->
  fis_groups x fl vol ig cnt t = Some (t + rsum (fun k => lsum (fun r : nat => phi fl r (ig + k) * at0 vol r * at0 (xr_nf x) (ig + k)%nat) (xr_reg x)) cnt)%R.
Proof.
  intros nreg ng x fl vol F Lv Ln B. induction cnt as [|c IH]; intros ig t H; cbn [fis_groups]; [cbn; f_equal; lra|].
  rewrite (nth_error_at0 (xr_nf x) ig) by lia. rewrite (fis_regs_ok nreg ng) by (auto; lia). rewrite IH by lia. rewrite rsum_front, Nat.add_0_r. f_equal. rewrite <- Rplus_assoc. f_equal. apply rsum_ext. intros k _. now rewrite <- Nat.add_succ_comm.
Qed.
(** C51: the total fission is the production. *)
Theorem C51_total_fission : forall nreg ng m xs fl vol, mesh_fits xs nreg -> data_fits ng m xs -> flux_fits nreg ng fl -> length vol = nreg -> total_fission xs ng fl vol = Some (production xs ng fl vol).
Proof.
  intros nreg ng m xs fl vol M D F Lv. unfold total_fission, production.
  assert (Q : forall l t, (forall x, In x l -> length (xr_nf x) = ng /\ forall r, In r (xr_reg x) -> r < nreg) -> fis_mesh l ng fl vol t = Some (t + lsum (fun x : XReg => lsum (fun r : nat => rsum (fun g => phi fl r g * at0 vol r * at0 (xr_nf x) g)%R ng) (xr_reg x)) l)%R).
  { induction l as [|x l IH]; intros t H; cbn [fis_mesh lsum]; [f_equal; lra|]. destruct (H x (or_introl eq_refl)) as [Ln B]. rewrite (fis_groups_ok nreg ng) by (auto; lia). rewrite IH by (intros; apply H; now right). f_equal. rewrite lsum_swap_rsum. cbn [Nat.add]. lra. }
  rewrite Q; [f_equal; lra|]. intros x I. split; [now destruct (D x I) as (_ & _ & _ & L & _)|]. intros r Ir. now apply (reg_bound xs nreg x r).
Qed.
Print Assumptions C51_total_fission.

Lemma fs_groups_ok : forall nreg ng x fl rk, flux_fits nreg ng fl -> length (xr_nf x) = ng -> (forall r, In r (xr_reg x) -> r < nreg) -> forall cnt ig v, length v = nreg -> ig + cnt <= ng ->
  exists v', fs_groups rk x fl ig cnt v = Some v' /\ length v' = nreg /\ forall i, at0 v' i = (at0 v i + pays (fun r => rsum (fun k => rk * at0 (xr_nf x) (ig + k)%nat * phi fl r (ig + k)) cnt) (xr_reg x) i)%R.
Proof.
  intros nreg ng x fl rk F Ln B. induction cnt as [|c IH]; intros ig v Lv H; cbn [fs_groups].
  - exists v. split; [reflexivity|]. split; [exact Lv|]. intros i. unfold pays. rewrite lsum_zero; [lra|]. intros r _. cbn. now destruct (i =? r).
  - rewrite (nth_error_at0 (xr_nf x) ig) by lia. destruct (add_regs_ok (xr_reg x) (fun i => match at2 fl i ig with Some p => Some (rk * at0 (xr_nf x) ig * p)%R | None => None end) (fun r => rk * at0 (xr_nf x) ig * phi fl r ig)%R v) as (v1 & E1 & L1 & P1).
    { intros r Ir. split; [rewrite Lv; now apply B|]. rewrite (at2_phi nreg ng) by (auto; lia). reflexivity. }
    rewrite E1. destruct (IH (S ig) v1) as (v' & E' & L' & P'); [congruence|lia|]. exists v'. split; [exact E'|]. split; [exact L'|]. intros i. rewrite P', P1, Rplus_assoc, pays_add. f_equal. apply pays_ext. intros r _. rewrite rsum_front, Nat.add_0_r. f_equal. apply rsum_ext. intros k _. now rewrite <- Nat.add_succ_comm.
Qed.
Lemma fs_mesh_loop : forall rk xs ng fl v, fs_mesh rk xs ng fl v = mesh_loop (fun x v => fs_groups rk x fl 0 ng v) xs v.
Proof. intros rk. induction xs as [|x xs IH]; intros; cbn [fs_mesh mesh_loop]; [reflexivity|]. destruct (fs_groups _ _ _ _ _ _); [apply IH|reflexivity]. Qed.
Lemma at0_zero : forall (l : list R) i, at0 (map (fun _ => 0%R) l) i = 0%R.
Proof. unfold at0. induction l as [|a l IH]; intros [|i]; cbn; auto. Qed.
(** C51: the fission source of a region is production over k; regions of no material get none; whatever was in the array. *)
Theorem C51_fission_source : forall nreg ng m k xs fl fs, k <> 0%R -> mesh_fits xs nreg -> data_fits ng m xs -> flux_fits nreg ng fl -> length fs = nreg ->
  exists fs', calc_fission_source k xs ng fl fs = Some fs' /\ length fs' = nreg /\ (forall x i, In x xs -> In i (xr_reg x) -> at0 fs' i = (rsum (fun g => at0 (xr_nf x) g * phi fl i g) ng / k)%R) /\
    (forall i, ~ In i (concat (map xr_reg xs)) -> at0 fs' i = 0%R).
Proof.
  intros nreg ng m k xs fl fs K M D F Lf. unfold calc_fission_source. destruct (Reqb_spec k 0) as [|_]; [contradiction|]. rewrite fs_mesh_loop.
  destruct (mesh_loop_ok (fun x v => fs_groups (1 / k)%R x fl 0 ng v) (fun x r => rsum (fun g => 1 / k * at0 (xr_nf x) g * phi fl r g)%R ng) xs nreg) with (v := map (fun _ : R => 0%R) fs) as (v' & E & L & P).
  - intros x v I Lv. destruct (D x I) as (_ & _ & _ & Ln & _). apply (fs_groups_ok nreg ng); auto. intros r Ir. now apply (reg_bound xs nreg x r).
  - now rewrite map_length.
  - exists v'. split; [exact E|]. split; [exact L|]. destruct M as [N _]. split.
    + intros x i I Ii. rewrite P, at0_zero, (collapse (fun x r => rsum (fun g => 1 / k * at0 (xr_nf x) g * phi fl r g)%R ng) xs x i N I Ii), Rplus_0_l. unfold Rdiv at 2. rewrite <- rsum_scal_r. apply rsum_ext. intros g _. field. exact K.
    + intros i Hi. rewrite P, at0_zero, collapse_out by exact Hi. lra.
Qed.
Print Assumptions C51_fission_source.
Lemma rsum_lsum : forall (f : nat -> R) n, rsum f n = lsum f (seq 0 n).
Proof. intros f. induction n as [|n IH]; [reflexivity|]. rewrite seq_S, lsum_app. cbn [rsum lsum Nat.add]. rewrite IH. lra. Qed.
Lemma lsum_filter0 : forall {A} (f : A -> R) p l, (forall a, In a l -> p a = false -> f a = 0%R) -> lsum f (filter p l) = lsum f l.
Proof. intros A f p. induction l as [|a l IH]; intros H; cbn [filter lsum]; [reflexivity|]. destruct (p a) eqn:E; cbn [lsum]; rewrite IH by (intros; apply H; auto; now right); [reflexivity|]. rewrite (H a (or_introl eq_refl) E). lra. Qed.
Lemma lsum_support : forall (f : nat -> R) s l, NoDup s -> NoDup l -> incl l s -> (forall i, ~ In i l -> f i = 0%R) -> lsum f s = lsum f l.
Proof.
  intros f s l Ns N I Z. set (p := fun i => if in_dec Nat.eq_dec i l then true else false). rewrite <- (lsum_filter0 f p s).
  - apply lsum_perm. apply NoDup_Permutation; [now apply NoDup_filter|exact N|]. intros i. rewrite filter_In. unfold p. destruct (in_dec Nat.eq_dec i l) as [J|J]; split; intros H; [exact J|split; [now apply I|reflexivity]|destruct H; discriminate|contradiction].
  - intros i _. unfold p. destruct (in_dec Nat.eq_dec i l); [discriminate|]. intros _. now apply Z.
Qed.
Lemma lsum_concat : forall (f : nat -> R) ls, lsum f (concat ls) = lsum (fun l : list nat => lsum f l) ls.
Proof. intros f. induction ls as [|l ls IH]; cbn [concat lsum]; [reflexivity|]. now rewrite lsum_app, IH. Qed.
(** C51: the volume integral of the fission source is the total fission over k. *)
Theorem C51_integral : forall nreg ng m k xs fl fs vol, k <> 0%R -> mesh_fits xs nreg -> data_fits ng m xs -> flux_fits nreg ng fl -> length fs = nreg -> length vol = nreg ->
  exists fs' t, calc_fission_source k xs ng fl fs = Some fs' /\ total_fission xs ng fl vol = Some t /\ rsum (fun i => at0 vol i * at0 fs' i)%R nreg = (t / k)%R.
Proof.
  intros nreg ng m k xs fl fs vol K M D F Lf Lv. destruct (C51_fission_source nreg ng m k xs fl fs K M D F Lf) as (fs' & E & L & P & Q). exists fs', (production xs ng fl vol). split; [exact E|]. split; [eapply C51_total_fission; eauto|].
  assert (Sup : rsum (fun i => at0 vol i * at0 fs' i)%R nreg = lsum (fun i => at0 vol i * at0 fs' i)%R (concat (map xr_reg xs))).
  { rewrite rsum_lsum. destruct M as [N B]. apply lsum_support; [apply seq_NoDup|exact N| |]; [intros r Ir; apply in_seq; specialize (B r Ir); lia|]. intros i Hi. rewrite (Q i Hi). lra. }
  rewrite Sup, lsum_concat. unfold production, Rdiv. rewrite lsum_map. rewrite <- lsum_scal. apply lsum_ext. intros x I. rewrite <- lsum_scal. apply lsum_ext. intros i Ii. rewrite (P x i I Ii). unfold Rdiv. rewrite <- Rmult_assoc. f_equal. rewrite <- rsum_scal. apply rsum_ext. intros g _. lra.
Qed.
Print Assumptions C51_integral.

(** ** C88 *)
(** Fission power of a region. *)
Definition region_power (xs : list XReg) (ng : nat) (fl : list (list R)) (vol : list R) (i : nat) : R :=
  lsum (fun x : XReg => if existsb (Nat.eqb i) (xr_reg x) then rsum (fun g => phi fl i g * at0 (xr_f x) g)%R ng * at0 vol i else 0)%R xs.
Lemma pow_groups_ok : forall nreg ng x fl vol, flux_fits nreg ng fl -> length vol = nreg -> length (xr_f x) = ng -> (forall r, In r (xr_reg x) -> r < nreg) -> forall cnt ig v, length v = nreg -> ig + cnt <= ng ->
  exists v', pow_groups x fl vol ig cnt v = Some v' /\ length v' = nreg /\ forall i, at0 v' i = (at0 v i + pays (fun r => rsum (fun k => phi fl r (ig + k) * at0 (xr_f x) (ig + k)%nat * at0 vol r) cnt) (xr_reg x) i)%R.
Proof.
  intros nreg ng x fl vol F Lv Ln B. induction cnt as [|c IH]; intros ig v Lw H; cbn [pow_groups].
  - exists v. split; [reflexivity|]. split; [exact Lw|]. intros i. unfold pays. rewrite lsum_zero; [lra|]. intros r _. cbn. now destruct (i =? r).
  - rewrite (nth_error_at0 (xr_f x) ig) by lia. destruct (add_regs_ok (xr_reg x) (fun i => match at2 fl i ig, nth_error vol i with Some ph, Some v => Some (ph * at0 (xr_f x) ig * v)%R | _, _ => None end) (fun r => phi fl r ig * at0 (xr_f x) ig * at0 vol r)%R v) as (v1 & E1 & L1 & P1).
    { intros r Ir. pose proof (B r Ir). split; [lia|]. rewrite (at2_phi nreg ng), (nth_error_at0 vol r) by (auto; lia). reflexivity. }
    rewrite E1. destruct (IH (S ig) v1) as (v' & E' & L' & P'); [congruence|lia|]. exists v'. split; [exact E'|]. split; [exact L'|]. intros i. rewrite P', P1, Rplus_assoc, pays_add. f_equal. apply pays_ext. intros r _. rewrite rsum_front, Nat.add_0_r. f_equal. apply rsum_ext. intros k _. now rewrite <- Nat.add_succ_comm.
Qed.
Lemma pow_mesh_loop : forall xs ng fl vol v, pow_mesh xs ng fl vol v = mesh_loop (fun x v => pow_groups x fl vol 0 ng v) xs v.
Proof. induction xs as [|x xs IH]; intros; cbn [pow_mesh mesh_loop]; [reflexivity|]. destruct (pow_groups _ _ _ _ _ _); [apply IH|reflexivity]. Qed.
Lemma pow_mesh_ok : forall nreg ng m xs fl vol, mesh_fits xs nreg -> data_fits ng m xs -> flux_fits nreg ng fl -> length vol = nreg -> exists fp, pow_mesh xs ng fl vol (map (fun _ => 0%R) vol) = Some fp /\ length fp = nreg /\ forall i, at0 fp i = region_power xs ng fl vol i.
Proof.
  intros nreg ng m xs fl vol M D F Lv. rewrite pow_mesh_loop. destruct (mesh_loop_ok (fun x v => pow_groups x fl vol 0 ng v) (fun x r => rsum (fun g => phi fl r g * at0 (xr_f x) g * at0 vol r)%R ng) xs nreg) with (v := map (fun _ : R => 0%R) vol) as (v' & E & L & P).
  - intros x v I L. destruct (D x I) as (_ & _ & _ & _ & Ln & _). apply (pow_groups_ok nreg ng); auto. intros r Ir. now apply (reg_bound xs nreg x r).
  - now rewrite map_length.
  - exists v'. split; [exact E|]. split; [exact L|]. intros i. rewrite P, at0_zero, Rplus_0_l. unfold region_power. apply lsum_ext. intros x I.
    assert (N : NoDup (xr_reg x)). { destruct M as [N _]. destruct (in_split _ _ I) as (l1 & l2 & ->). rewrite map_app, concat_app in N. cbn [map concat] in N. apply NoDup_app_l in N. destruct N as (_ & N & _). now apply NoDup_app_l in N. }
    destruct (existsb (Nat.eqb i) (xr_reg x)) eqn:X.
    + apply existsb_exists in X. destruct X as (j & J & Ej). apply Nat.eqb_eq in Ej. subst j. rewrite pays_in by auto. now rewrite rsum_scal_r.
    + apply pays_not. intros J. assert (existsb (Nat.eqb i) (xr_reg x) = true); [|congruence]. apply existsb_exists. exists i. split; [exact J|apply Nat.eqb_refl].
Qed.

(** The pins in the order they are visited, each with the cell of the power array it adds to. *)
Fixpoint targets (cell : nat -> nat) (nxy ip : nat) (planes : list (list nat)) : list (nat * nat) :=
  match planes with [] => [] | p :: r => map (fun iv => (nxy * ip + cell (fst iv), snd iv)) (combine (seq 0 (length p)) p) ++ targets cell nxy (S ip) r end.
Fixpoint run_pins (ts : list (nat * nat)) (fp pw : list R) : option (list R * list R) :=
  match ts with
  | [] => Some (fp, pw)
  | (c, n) :: r => match nth_error pw c with
                   | Some y => match pin_sum n fp y with Some (s, fp') => match set_nth pw c s with Some pw' => run_pins r fp' pw' | None => None end | None => None end
                   | None => None
                   end
  end.
Lemma run_app : forall a b fp pw, run_pins (a ++ b) fp pw = match run_pins a fp pw with Some (fp', pw') => run_pins b fp' pw' | None => None end.
Proof. induction a as [|[c n] a IH]; intros; cbn [app run_pins]; [reflexivity|]. destruct (nth_error pw c); [|reflexivity]. destruct (pin_sum n fp r) as [[s fp']|]; [|reflexivity]. destruct (set_nth pw c s); [apply IH|reflexivity]. Qed.
Lemma plane_run : forall cell base pins ip fp pw, plane_powers cell base ip pins fp pw = run_pins (map (fun iv => (base + cell (fst iv), snd iv)) (combine (seq ip (length pins)) pins)) fp pw.
Proof.
  intros cell base. induction pins as [|n pins IH]; intros ip fp pw; cbn [plane_powers length seq combine map run_pins fst snd]; [reflexivity|].
  destruct (nth_error pw (base + cell ip)); [|reflexivity]. destruct (pin_sum n fp r) as [[s fp']|]; [|reflexivity]. destruct (set_nth pw (base + cell ip) s); [apply IH|reflexivity].
Qed.
Lemma all_run : forall cell nxy planes ip fp pw, all_powers cell nxy ip planes fp pw = match run_pins (targets cell nxy ip planes) fp pw with Some (_, pw') => Some pw' | None => None end.
Proof.
  intros cell nxy. induction planes as [|p planes IH]; intros ip fp pw; cbn [all_powers targets run_pins]; [reflexivity|]. rewrite plane_run, run_app. destruct (run_pins _ fp pw) as [[fp' pw']|]; [apply IH|reflexivity].
Qed.
Lemma at0_skipn : forall (l : list R) n i, at0 (skipn n l) i = at0 l (n + i).
Proof. unfold at0. induction l as [|a l IH]; intros [|n] i; try reflexivity; [now destruct i|]. cbn [skipn Nat.add nth]. apply IH. Qed.
Lemma pin_sum_ok : forall n fp s, n <= length fp -> pin_sum n fp s = Some (s + rsum (at0 fp) n, skipn n fp)%R.
Proof.
  induction n as [|n IH]; intros fp s H; [destruct fp; cbn; do 2 f_equal; lra|]. destruct fp as [|a fp]; cbn in H; [lia|]. cbn [pin_sum skipn]. rewrite IH by lia. f_equal. f_equal. rewrite rsum_front. unfold at0 at 2. cbn [nth]. rewrite <- Rplus_assoc. f_equal.
Qed.
Lemma run_ok : forall ts fp pw, list_sum (map snd ts) <= length fp -> (forall t, In t ts -> fst t < length pw) -> exists fp' pw', run_pins ts fp pw = Some (fp', pw') /\ length pw' = length pw /\
  forall j, at0 pw' j = (at0 pw j + rsum (fun k => if (j =? fst (nth k ts (0, 0)))%nat then rsum (fun r => at0 fp (list_sum (firstn k (map snd ts)) + r)) (snd (nth k ts (0, 0)%nat)) else 0) (length ts))%R.
Proof.
  induction ts as [|[c n] ts IH]; intros fp pw Hl B; cbn [run_pins].
  - exists fp, pw. split; [reflexivity|]. split; [reflexivity|]. intros j. cbn. lra.
  - cbn [map snd list_sum fold_right] in Hl. change (fold_right Nat.add 0 (map snd ts)) with (list_sum (map snd ts)) in Hl. assert (Hc : c < length pw) by (apply (B (c, n)); now left). rewrite (nth_error_at0 pw c Hc), pin_sum_ok by lia.
    destruct (set_nth_lt pw c (at0 pw c + rsum (at0 fp) n)%R Hc) as [pw1 E1]. rewrite E1. destruct (set_at0 _ _ _ _ E1) as [L1 O1].
    destruct (IH (skipn n fp) pw1) as (fp' & pw' & E & L & P); [rewrite skipn_length; lia|intros t I; rewrite L1; apply B; now right|]. exists fp', pw'. split; [exact E|]. split; [congruence|].
    intros j. rewrite P, O1. cbn [length]. rewrite rsum_front. cbn [nth fst snd firstn map list_sum fold_right Nat.add].
    rewrite (rsum_ext (fun k => if j =? fst (nth k ts (0, 0)) then rsum (fun r => at0 (skipn n fp) (list_sum (firstn k (map snd ts)) + r)) (snd (nth k ts (0, 0))) else 0%R)
      (fun k => if j =? fst (nth k ts (0, 0)) then rsum (fun r => at0 fp (n + fold_right Nat.add 0 (firstn k (map snd ts)) + r)) (snd (nth k ts (0, 0))) else 0%R)).
    + destruct (Nat.eqb_spec j c) as [->|]; [|lra]. rewrite Rplus_assoc. reflexivity.
    + intros k _. destruct (j =? _); [|reflexivity]. apply rsum_ext. intros r _. rewrite at0_skipn. f_equal. unfold list_sum. lia.
Qed.
Lemma targets_snd : forall cell nxy planes ip, map snd (targets cell nxy ip planes) = concat planes.
Proof.
  intros cell nxy. induction planes as [|p planes IH]; intros ip; cbn [targets concat]; [reflexivity|]. rewrite map_app, IH. f_equal. rewrite map_map. cbn [snd]. clear. generalize 0. induction p as [|a p IH]; intros s; cbn; [reflexivity|]. now rewrite IH.
Qed.
Lemma targets_fst : forall cell nxy planes ip, (forall p, In p planes -> length p = nxy) -> map fst (targets cell nxy ip planes) = flat_map (fun k => map (fun i => nxy * k + cell i) (seq 0 nxy)) (seq ip (length planes)).
Proof.
  assert (C : forall (g : nat -> nat) (p : list nat) s, map (fun iv => g (fst iv)) (combine (seq s (length p)) p) = map g (seq s (length p))).
  { intros g. induction p as [|a p IH]; intros s; cbn; [reflexivity|]. now rewrite IH. }
  intros cell nxy. induction planes as [|p planes IH]; intros ip H; cbn [targets length seq flat_map]; [reflexivity|]. rewrite map_app, IH by (intros; apply H; now right). f_equal. rewrite map_map. cbn [fst]. rewrite (C (fun i => nxy * ip + cell i)). now rewrite (H p (or_introl eq_refl)).
Qed.
Lemma targets_nth : forall cell nxy planes, (forall p, In p planes -> length p = nxy) -> forall ip k i, k < length planes -> i < nxy -> nth (k * nxy + i) (targets cell nxy ip planes) (0, 0) = (nxy * (ip + k) + cell i, nth i (nth k planes []) 0).
Proof.
  intros cell nxy. induction planes as [|p planes IH]; intros H ip k i Hk Hi; cbn in Hk; [lia|]. cbn [targets]. pose proof (H p (or_introl eq_refl)) as Lp.
  assert (Ll : length (map (fun iv : nat * nat => (nxy * ip + cell (fst iv), snd iv)) (combine (seq 0 (length p)) p)) = nxy) by (rewrite map_length, combine_length, seq_length; lia). destruct k as [|k].
  - cbn [Nat.mul Nat.add nth]. rewrite app_nth1 by lia. set (f := fun iv : nat * nat => (nxy * ip + cell (fst iv), snd iv)) in *. rewrite (nth_indep _ (0, 0) (f (0, 0))) by lia. rewrite map_nth, combine_nth by now rewrite seq_length. rewrite seq_nth by lia. unfold f. cbn [fst snd]. now rewrite Nat.add_0_r.
  - rewrite app_nth2 by lia. rewrite Ll. replace (S k * nxy + i - nxy) with (k * nxy + i) by lia. rewrite IH by (try lia; intros; apply H; now right). cbn [nth]. f_equal. f_equal. f_equal. lia.
Qed.
Lemma targets_NoDup : forall cell nxy planes, fills cell nxy -> (forall p, In p planes -> length p = nxy) -> NoDup (map fst (targets cell nxy 0 planes)).
Proof.
  intros cell nxy planes (F1 & F2 & _) H. rewrite targets_fst by exact H. generalize (length planes) as n. intros n. assert (Q : forall s, NoDup (flat_map (fun k => map (fun i => nxy * k + cell i) (seq 0 nxy)) (seq s n))); [|apply Q]. induction n as [|n IH]; intros s; cbn [seq flat_map]; [constructor|]. apply BcProofs.NoDup_app'.
  - apply NoDup_map_in; [|apply seq_NoDup]. intros a b Ia Ib E. apply in_seq in Ia, Ib. apply F2; lia.
  - apply IH.
  - intros x I J. apply in_map_iff in I. destruct I as (i & <- & Ii). apply in_flat_map in J. destruct J as (k & K & J). apply in_map_iff in J. destruct J as (i' & E & Ii'). apply in_seq in K, Ii, Ii'. pose proof (F1 i ltac:(lia)). pose proof (F1 i' ltac:(lia)). nia.
Qed.
Lemma rsum_offsets : forall (w : nat -> R) ns, rsum (fun k => rsum (fun r => w (list_sum (firstn k ns) + r)) (nth k ns 0)) (length ns) = rsum w (list_sum ns).
Proof.
  intros w ns. revert w. induction ns as [|n ns IH]; intros w; [reflexivity|]. cbn [length]. rewrite rsum_front. cbn [firstn nth list_sum fold_right Nat.add]. change (fold_right Nat.add 0 ns) with (list_sum ns). rewrite rsum_app. f_equal. rewrite <- IH. apply rsum_ext. intros k _. apply rsum_ext. intros r _. f_equal. unfold list_sum. lia.
Qed.
Lemma fold_left_rsum : forall l, fold_left Rplus l 0%R = rsum (at0 l) (length l).
Proof. assert (Q : forall l a, fold_left Rplus l a = (a + rsum (at0 l) (length l))%R). { induction l as [|b l IH]; intros a; cbn [fold_left length]; [cbn; lra|]. rewrite IH, rsum_front. unfold at0. cbn [nth]. lra. } intros l. rewrite Q. lra. Qed.
Lemma list_sum_concat : forall ls, list_sum (map list_sum ls) = list_sum (concat ls).
Proof. induction ls as [|l ls IH]; [reflexivity|]. cbn [map concat]. rewrite list_sum_app, <- IH. reflexivity. Qed.

(** C88: pin powers.  [planes] lists the numbers of regions of the pins of every macroplane; their regions are numbered in
    that order.  The power of pin [i] of plane [k] is the power of its regions, all scaled by one factor so that the array
    sums to the number of fuel pins of a plane. *)
Theorem C88_pin_powers : forall nreg ng m cell nxy planes nfuel xs fl vol, fills cell nxy -> (forall p, In p planes -> length p = nxy) -> list_sum (concat planes) = nreg ->
  mesh_fits xs nreg -> data_fits ng m xs -> flux_fits nreg ng fl -> length vol = nreg -> let w := region_power xs ng fl vol in
  rsum w nreg <> 0%R -> exists pw, pin_powers cell nxy planes nfuel xs ng fl vol = Some pw /\ length pw = nxy * length planes /\
    (forall k i, k < length planes -> i < nxy -> at0 pw (nxy * k + cell i) = (rsum (fun r => w (list_sum (firstn (k * nxy + i) (concat planes)) + r)%nat) (nth i (nth k planes []) 0%nat) * (nfuel / rsum w nreg))%R) /\
    rsum (at0 pw) (nxy * length planes) = nfuel.
Proof.
  intros nreg ng m cell nxy planes nfuel xs fl vol Fl Hp Hn M D F Lv w Nz. unfold pin_powers. destruct (pow_mesh_ok nreg ng m xs fl vol M D F Lv) as (fp & E & L & P). rewrite E, all_run.
  set (ts := targets cell nxy 0 planes). assert (Ts : map snd ts = concat planes) by apply targets_snd. assert (Lt : length ts = nxy * length planes).
  { rewrite <- (map_length snd), Ts. clear - Hp. induction planes as [|p planes IH]; [cbn; lia|]. cbn [concat length]. rewrite app_length, IH by (intros; apply Hp; now right). rewrite (Hp p (or_introl eq_refl)). lia. }
  destruct (run_ok ts fp (repeat 0%R (nxy * length planes))) as (fp' & pw & Er & Lp & Pp).
  { rewrite Ts, Hn. lia. }
  { intros t I. rewrite repeat_length. apply (in_map fst) in I. unfold ts in I. rewrite targets_fst in I by exact Hp. apply in_flat_map in I. destruct I as (k & K & J). apply in_map_iff in J. destruct J as (i & <- & Ii). apply in_seq in K, Ii. destruct Fl as (F1 & _). pose proof (F1 i ltac:(lia)). nia. }
  rewrite Er. rewrite repeat_length in Lp. rewrite Ts in Pp.
  assert (Tot : fold_left Rplus (firstn (list_sum (map list_sum planes)) fp) 0%R = rsum w nreg).
  { rewrite list_sum_concat, Hn, firstn_all2 by lia. rewrite fold_left_rsum, L. apply rsum_ext. intros i _. apply P. }
  rewrite Tot. destruct (Reqb_spec (rsum w nreg) 0) as [|_]; [contradiction|]. exists (map (fun v => v * (nfuel / rsum w nreg))%R pw). split; [reflexivity|]. split; [now rewrite map_length|].
  assert (Am : forall j, at0 (map (fun v => v * (nfuel / rsum w nreg))%R pw) j = (at0 pw j * (nfuel / rsum w nreg))%R).
  { intros j. unfold at0. destruct (Nat.ltb_spec j (length pw)) as [Hj|Hj]; [|rewrite !nth_overflow by (try rewrite map_length; lia); lra]. set (f := fun v => (v * (nfuel / rsum w nreg))%R). rewrite (nth_indep _ 0%R (f 0%R)) by now rewrite map_length. now rewrite map_nth. }
  assert (At : forall q, q < length ts -> at0 pw (fst (nth q ts (0, 0))) = rsum (fun r => w (list_sum (firstn q (concat planes)) + r)) (snd (nth q ts (0, 0)))).
  { intros q Hq. rewrite Pp, at0_repeat, Rplus_0_l. rewrite (rsum_single _ _ q Hq); [rewrite Nat.eqb_refl; apply rsum_ext; intros r _; apply P|]. intros q' Hq' Dq. destruct (Nat.eqb_spec (fst (nth q ts (0, 0))) (fst (nth q' ts (0, 0)))) as [Eq|]; [|reflexivity]. exfalso. apply Dq. symmetry.
    pose proof (targets_NoDup cell nxy planes Fl Hp) as N. fold ts in N. rewrite (NoDup_nth _ (fst (0, 0))) in N. apply N; rewrite ?map_length; auto. rewrite !(map_nth fst). exact Eq. }
  split.
  - intros k i Hk Hi. rewrite Am. f_equal. assert (Hq : k * nxy + i < length ts) by (rewrite Lt; nia). specialize (At (k * nxy + i) Hq). pose proof (targets_nth cell nxy planes Hp 0 k i Hk Hi) as T. fold ts in T. rewrite T in At. cbn [fst snd Nat.add] in At. exact At.
  - rewrite (rsum_ext _ (fun j => at0 pw j * (nfuel / rsum w nreg))%R) by (intros; apply Am). rewrite rsum_scal_r.
    assert (Sp : rsum (at0 pw) (nxy * length planes) = rsum w nreg).
    { rewrite (rsum_ext _ (fun j => rsum (fun k => if j =? fst (nth k ts (0, 0)) then rsum (fun r => at0 fp (list_sum (firstn k (concat planes)) + r)) (snd (nth k ts (0, 0))) else 0%R) (length ts))) by (intros j _; rewrite Pp, at0_repeat; lra).
      rewrite rsum_swap. rewrite (rsum_ext _ (fun k => rsum (fun r => at0 fp (list_sum (firstn k (concat planes)) + r)) (nth k (concat planes) 0))).
      - rewrite <- (map_length snd ts), Ts, rsum_offsets, Hn. apply rsum_ext. intros i _. apply P.
      - intros k Hk. assert (Es : snd (nth k ts (0, 0)) = nth k (concat planes) 0) by (rewrite <- Ts; symmetry; exact (map_nth snd ts (0, 0) k)). rewrite Es. apply rsum_delta.
        assert (In (fst (nth k ts (0, 0))) (map fst ts)) by (apply in_map, nth_In; exact Hk). unfold ts in H at 2. rewrite targets_fst in H by exact Hp. apply in_flat_map in H. destruct H as (k' & K & J). apply in_map_iff in J. destruct J as (i & <- & Ii). apply in_seq in K, Ii. destruct Fl as (F1 & _). pose proof (F1 i ltac:(lia)). nia. }
    rewrite Sp. field. exact Nz.
Qed.
Print Assumptions C88_pin_powers.
Lemma region_power_two : forall i, region_power [xr_a; xr_b] 2 [[1; 2]; [3; 4]]%R [1; 2]%R i = if i =? 1 then 6%R else 0%R.
Proof. intros [|[|i]]; unfold region_power, phi, at0; cbn; lra. Qed.
Example C88_instance : fills (fun i => 1 - i) 2 /\ (forall p, In p [[1; 1]] -> length p = 2) /\ list_sum (concat [[1; 1]]) = 2 /\ rsum (region_power [xr_a; xr_b] 2 [[1; 2]; [3; 4]]%R [1; 2]%R) 2 <> 0%R /\
  exists pw, pin_powers (fun i => 1 - i) 2 [[1; 1]] 1%R [xr_a; xr_b] 2 [[1; 2]; [3; 4]]%R [1; 2]%R = Some pw /\ at0 pw 0 = 1%R /\ at0 pw 1 = 0%R.
Proof.
  assert (F : fills (fun i => 1 - i) 2). { split; [intros; lia|]. split; [intros; lia|]. intros c Hc. exists (1 - c). lia. }
  assert (T : rsum (region_power [xr_a; xr_b] 2 [[1; 2]; [3; 4]]%R [1; 2]%R) 2 = 6%R) by (rewrite (rsum_ext _ _ _ (fun i _ => region_power_two i)); cbn; lra).
  split; [exact F|]. split; [intros p [<-|[]]; reflexivity|]. split; [reflexivity|]. split; [lra|]. destruct mesh_two as (M & D & Fl).
  destruct (C88_pin_powers 2 2 (fun _ => sc_two) (fun i => 1 - i) 2 [[1; 1]] 1%R [xr_a; xr_b] [[1; 2]; [3; 4]]%R [1; 2]%R F) as (pw & E & _ & P & _); auto; [intros p [<-|[]]; reflexivity|lra|].
  exists pw. split; [exact E|]. split.
  - specialize (P 0 1 ltac:(cbn; lia) ltac:(lia)). cbn [Nat.mul Nat.add Nat.sub] in P. rewrite P. rewrite T. cbn [nth rsum firstn concat app list_sum fold_right Nat.add]. rewrite region_power_two. cbn. lra.
  - specialize (P 0 0 ltac:(cbn; lia) ltac:(lia)). cbn [Nat.mul Nat.add Nat.sub] in P. rewrite P. rewrite T. cbn [nth rsum firstn concat app list_sum fold_right Nat.add]. rewrite region_power_two. cbn. lra.
Qed.

(** C88 refuted for plane heights: the factor is fixed by the fuel pins of one plane, so over several planes powers do not
    average to one. *)
Theorem C88_planes_refuted : exists cell nxy planes nfuel xs ng fl vol pw, pin_powers cell nxy planes nfuel xs ng fl vol = Some pw /\ (forall j, j < nxy * length planes -> (0 < at0 pw j)%R) /\
  nfuel = INR nxy /\ (rsum (at0 pw) (nxy * length planes) / INR (nxy * length planes) <> 1)%R.
Proof.
  set (x := mkXR [0; 1] true [4; 5]%R [1; 0]%R [1; 0]%R [1; 0]%R [3; 2]%R sm_two). set (fl := [[1; 1]; [1; 1]]%R).
  destruct (C88_pin_powers 2 2 (fun _ => sc_two) (fun i => i) 1 [[1]; [1]] 1%R [x] fl [1; 1]%R) as (pw & E & _ & P & T).
  - split; [intros; lia|]. split; [intros; lia|]. intros c Hc. now exists c.
  - intros p [<-|[<-|[]]]; reflexivity.
  - reflexivity.
  - split; [cbn; repeat constructor; cbn; intuition lia|cbn; intuition lia].
  - intros y [<-|[]]. split; [apply sm_two_made|]. split; [apply (proj1 (proj2 mesh_two) xr_a); now left|]. repeat split; reflexivity.
  - split; [reflexivity|]. intros row [<-|[<-|[]]]; reflexivity.
  - reflexivity.
  - cbn. unfold region_power, phi, at0. cbn. lra.
  - exists (fun i => i), 1, [[1]; [1]], 1%R, [x], 2, fl, [1; 1]%R, pw. split; [exact E|]. split; [|split; [reflexivity|]].
    + intros j Hj. cbn in Hj. assert (W : forall i, i < 2 -> region_power [x] 2 fl [1; 1]%R i = 1%R) by (intros [|[|i]] Hi; [| |lia]; unfold region_power, phi, at0; cbn; lra).
      specialize (P j 0 Hj ltac:(lia)). replace (1 * j + 0) with j in P by lia. rewrite P. assert (T2 : rsum (region_power [x] 2 fl [1; 1]%R) 2 = 2%R) by (cbn [rsum]; rewrite !W by lia; lra). rewrite T2.
      destruct j as [|[|j]]; [| |cbn in Hj; lia]; cbn [nth rsum firstn concat app list_sum fold_right Nat.mul Nat.add]; rewrite W by lia; lra.
    + cbn [length Nat.mul] in *. change (1 * 2) with 2 in T. rewrite T. cbn. lra.
Qed.
Print Assumptions C88_planes_refuted.

(** C88: the flux residual vanishes exactly when nothing changed. *)
Theorem C88_residual : forall a b, length a = length b -> (0 <= flux_residual a b)%R /\ (flux_residual a b = 0%R <-> a = b) /\ flux_residual a b = flux_residual b a.
Proof.
  intros a b L. unfold flux_residual.
  assert (Q : forall a b s, fold_left (fun s p => (s + (fst p - snd p) * (fst p - snd p))%R) (combine a b) s = (s + lsum (fun p : R * R => (fst p - snd p) * (fst p - snd p)) (combine a b))%R).
  { clear. induction a as [|x a IH]; intros [|y b] s; cbn [combine fold_left lsum]; try lra. rewrite IH. cbn [fst snd]. lra. }
  assert (N : forall a b, (0 <= lsum (fun p : R * R => (fst p - snd p) * (fst p - snd p)) (combine a b))%R) by (intros; apply lsum_nonneg; intros; apply Rle_0_sqr).
  rewrite !Q, !Rplus_0_l. split; [apply sqrt_pos|]. split.
  - split; intros H.
    + apply sqrt_eq_0 in H; [|apply N]. clear Q. revert b L H. induction a as [|x a IH]; intros [|y b] L H; cbn in L; try lia; [reflexivity|]. cbn [combine lsum fst snd] in H. specialize (N a b) as Nab. pose proof (Rle_0_sqr (x - y)) as Sq. unfold Rsqr in Sq.
      f_equal; [|apply IH; [lia|lra]]. assert (Z : ((x - y) * (x - y) = 0)%R) by lra. apply Rmult_integral in Z. lra.
    + subst. rewrite lsum_zero; [apply sqrt_0|]. clear. intros [x y] I. assert (x = y) as ->; [|cbn; lra]. revert I. induction b as [|z b IH]; cbn; [tauto|]. intros [[= -> ->]|I]; auto.
  - f_equal. clear. revert b. induction a as [|x a IH]; intros [|y b]; cbn [combine lsum fst snd]; try lra. rewrite IH. lra.
Qed.
Print Assumptions C88_residual.

(** C40 for the 2D3D source: the fission source written for [Sn | MoC] is read back in the same parts. *)
Theorem C40_2d3d : forall ns nm ng ms mm sn moc snf mof k fs ig a b, k <> 0%R -> mesh_fits sn ns -> mesh_fits moc nm -> data_fits ng ms sn -> data_fits ng mm moc -> flux_fits ns ng snf -> flux_fits nm ng mof ->
  length fs = ns + nm -> length a = ns -> length b = nm -> ig < ng -> exists fs' a' b', calc_fission_2d3d k sn moc ng snf mof fs = Some fs' /\ length fs' = ns + nm /\ fission_2d3d sn moc fs' ig a b = Some (a', b') /\
    (forall x i, In x sn -> In i (xr_reg x) -> at0 a' i = (at0 a i + at0 (xr_ch x) ig * (rsum (fun g => at0 (xr_nf x) g * phi snf i g) ng / k))%R) /\
    (forall x i, In x moc -> In i (xr_reg x) -> at0 b' i = (at0 b i + at0 (xr_ch x) ig * (rsum (fun g => at0 (xr_nf x) g * phi mof i g) ng / k))%R).
Proof.
  intros ns nm ng ms mm sn moc snf mof k fs ig a b K M1 M2 D1 D2 F1 F2 Lf La Lb Hg. unfold calc_fission_2d3d. destruct F1 as [L1 F1]. rewrite L1.
  destruct (C51_fission_source ns ng ms k sn snf (firstn ns fs) K M1 D1 (conj L1 F1)) as (u & Eu & Lu & Pu & _); [rewrite firstn_length; lia|].
  destruct (C51_fission_source nm ng mm k moc mof (skipn ns fs) K M2 D2 F2) as (v & Ev & Lv & Pv & _); [rewrite skipn_length; lia|]. rewrite Eu, Ev. exists (u ++ v).
  unfold fission_2d3d. rewrite La. rewrite firstn_app, skipn_app, Lu, Nat.sub_diag, firstn_O, app_nil_r, (firstn_all2 u), (skipn_all2 u) by lia. cbn [app skipn].
  destruct (fission_ok ng ms sn u ig a) as (a' & Ea & _ & Pa); [now rewrite La|exact D1|congruence|exact Hg|]. destruct (fission_ok ng mm moc v ig b) as (b' & Eb & _ & Pb); [now rewrite Lb|exact D2|congruence|exact Hg|]. rewrite Ea, Eb. exists a', b'.
  split; [reflexivity|]. split; [rewrite app_length; lia|]. split; [reflexivity|]. split; intros x i I Ii.
  - rewrite Pa, (collapse (fun x r => at0 (xr_ch x) ig * at0 u r)%R sn x i (proj1 M1) I Ii), (Pu x i I Ii). reflexivity.
  - rewrite Pb, (collapse (fun x r => at0 (xr_ch x) ig * at0 v r)%R moc x i (proj1 M2) I Ii), (Pv x i I Ii). reflexivity.
Qed.
Print Assumptions C40_2d3d.
