(** Proofs about whole fixed-source calculations: one outer iteration as a contraction, and what follows. *)
From Coq Require Import List Bool Reals ZArith Arith Lia Lra Permutation.
From Verif Require Import RUtil ListUtil McModel MeshModel AngModel BcModel BcProofs StdAlg CoreModel CoreProofs ScatModel ScatProofs MatModel ExpModel MocModel MocProofs MocProps XsModel SrcModel SrcProps SolModel SolProps MgModel MgProps MgInnerProps SnGroupProps EigProps MocMaxProps MocEigProps MocLinProofs MocConvProps FixModel.
Import ListNotations.
Open Scope nat_scope.

(** An iteration that shrinks weighted differences. *)
Section Shrink.
Variables (X : Type) (shape : X -> Prop) (stepX : X -> option X) (sm : X -> X -> Prop) (val : X -> nat -> nat -> R) (nr ng : nat) (w : nat -> R) (c : R).
Definition wapart (D : R) (s1 s2 : X) : Prop := forall i g, i < nr -> g < ng -> (Rabs (val s1 i g - val s2 i g) <= D * w g)%R.
Hypothesis Hc : (0 <= c < 1)%R.
Hypothesis Hw : forall g, g < ng -> (0 < w g)%R.
Hypothesis Tot : forall s, shape s -> exists s', stepX s = Some s' /\ shape s'.
Hypothesis Con : forall D s1 s2 s1' s2', (0 <= D)%R -> shape s1 -> shape s2 -> sm s1 s2 -> wapart D s1 s2 -> stepX s1 = Some s1' -> stepX s2 = Some s2' -> wapart (c * D) s1' s2' /\ sm s1' s2'.
Hypothesis Again : forall s s1 s2, shape s -> stepX s = Some s1 -> stepX s1 = Some s2 -> sm s2 s1.
Hypothesis sm_refl : forall s, sm s s.
Hypothesis sm_sym : forall s t, sm s t -> sm t s.
Hypothesis sm_trans : forall s t u, sm s t -> sm t u -> sm s u.

Lemma shrink_run : forall s, shape s -> exists it : nat -> X, it 0 = s /\ (forall n, shape (it n)) /\ forall n, stepX (it n) = Some (it (S n)).
Proof.
  intros s Hs. set (f := fun t => match stepX t with Some t' => t' | None => t end). exists (fun n => Nat.iter n f s). split; [reflexivity|].
  assert (A : forall n, shape (Nat.iter n f s)). { induction n as [|n IH]; [exact Hs|]. change (shape (f (Nat.iter n f s))). unfold f at 1. destruct (Tot _ IH) as (t & -> & Ht). exact Ht. }
  split; [exact A|]. intros n. change (Nat.iter (S n) f s) with (f (Nat.iter n f s)). unfold f at 2. destruct (Tot _ (A n)) as (t & E & _). rewrite E. reflexivity.
Qed.
Lemma wapart_top : forall s1 s2, exists D, (0 <= D)%R /\ wapart D s1 s2.
Proof.
  intros s1 s2. destruct (abs_top (concat (map (fun g => map (fun i => (val s1 i g - val s2 i g) / w g)%R (seq 0 nr)) (seq 0 ng)))) as (D & D0 & F). exists D. split; [exact D0|]. intros i g Hi Hg. rewrite Forall_forall in F. specialize (Hw g Hg).
  assert (B : (- D <= (val s1 i g - val s2 i g) / w g <= D)%R). { apply F. apply in_concat. exists (map (fun i => (val s1 i g - val s2 i g) / w g)%R (seq 0 nr)). split; [apply in_map_iff; exists g; split; [reflexivity|apply in_seq; lia]|]. apply (in_map (fun i => (val s1 i g - val s2 i g) / w g)%R). apply in_seq. lia. }
  replace (val s1 i g - val s2 i g)%R with ((val s1 i g - val s2 i g) / w g * w g)%R by (field; lra). rewrite Rabs_mult, (Rabs_pos_eq (w g)) by lra. apply Rmult_le_compat_r; [lra|]. apply Rabs_le. lra.
Qed.
Lemma wapart_mono : forall D E s1 s2, (D <= E)%R -> wapart D s1 s2 -> wapart E s1 s2.
Proof. intros D E s1 s2 H A i g Hi Hg. eapply Rle_trans; [now apply A|]. apply Rmult_le_compat_r; [pose proof (Hw g Hg); lra|exact H]. Qed.

Section Run.
Variable it : nat -> X.
Hypothesis Sh : forall n, shape (it n).
Hypothesis St : forall n, stepX (it n) = Some (it (S n)).
Lemma run_sm1 : forall n, sm (it (S n)) (it 1).
Proof. induction n as [|n IH]; [apply sm_refl|]. apply (sm_trans _ (it (S n))); [exact (Again (it n) _ _ (Sh n) (St n) (St (S n)))|exact IH]. Qed.
Lemma run_sm : forall n k, sm (it (S n)) (it (S k)).
Proof. intros n k. apply (sm_trans _ (it 1)); [apply run_sm1|apply sm_sym, run_sm1]. Qed.
Lemma run_shrink : forall a b D, (0 <= D)%R -> sm (it a) (it b) -> wapart D (it a) (it b) -> forall k, wapart (c ^ k * D) (it (a + k)) (it (b + k)) /\ sm (it (a + k)) (it (b + k)).
Proof.
  intros a b D HD Sm A. induction k as [|k [IH1 IH2]].
  - rewrite !Nat.add_0_r. cbn [pow]. rewrite Rmult_1_l. now split.
  - rewrite !Nat.add_succ_r. replace (c ^ S k * D)%R with (c * (c ^ k * D))%R by (cbn [pow]; ring). apply (Con (c ^ k * D) (it (a + k)) (it (b + k))); auto. apply Rmult_le_pos; [apply pow_le; lra|exact HD].
Qed.
Lemma run_limit : exists (lim : nat -> nat -> R) D, (0 <= D)%R /\ (forall n i g, i < nr -> g < ng -> (Rabs (val (it (S n)) i g - lim i g) <= c ^ n * D * w g)%R).
Proof.
  destruct (wapart_top (it 2) (it 1)) as (D & D0 & A0). assert (K0 : (0 <= D / (1 - c))%R) by (apply Rmult_le_pos; [exact D0|left; apply Rinv_0_lt_compat; lra]).
  assert (Q : forall i g, i < nr -> g < ng -> exists l, forall n, (Rabs (val (it (S n)) i g - l) <= c ^ n * (D / (1 - c)) * w g)%R).
  { intros i g Hi Hg. pose proof (Hw g Hg) as W. destruct (geom_lim (fun n => val (it (S n)) i g) c (D * w g) Hc) as (l & Hl); [apply Rmult_le_pos; lra| |].
    - intros j. destruct (run_shrink 2 1 D D0 (run_sm 1 0) A0 j) as [B _]. rewrite <- Rmult_assoc. exact (B i g Hi Hg).
    - exists l. intros n. specialize (Hl n). cbv beta in Hl. replace (c ^ n * (D / (1 - c)) * w g)%R with (c ^ n * (D * w g / (1 - c)))%R by (field; lra). exact Hl. }
  assert (Li : forall n, n <= ng -> exists lim : nat -> nat -> R, forall g i, g < n -> i < nr -> forall k, (Rabs (val (it (S k)) i g - lim i g) <= c ^ k * (D / (1 - c)) * w g)%R).
  { induction n as [|n IH]; intros Hn; [exists (fun _ _ => 0%R); intros; lia|]. destruct IH as (lim & Hl); [lia|].
    assert (Row : forall p, p <= nr -> exists l : nat -> R, forall i, i < p -> forall k, (Rabs (val (it (S k)) i n - l i) <= c ^ k * (D / (1 - c)) * w n)%R).
    { induction p as [|p IHp]; intros Hp; [exists (fun _ => 0%R); intros; lia|]. destruct IHp as (l & H); [lia|]. destruct (Q p n ltac:(lia) ltac:(lia)) as (v & Hv). exists (fun i => if i =? p then v else l i). intros i Hi k. destruct (Nat.eqb_spec i p) as [->|]; [apply Hv|apply H; lia]. }
    destruct (Row nr (le_n _)) as (l & H). exists (fun i g => if g =? n then l i else lim i g). intros g i Hg Hi k. destruct (Nat.eqb_spec g n) as [->|]; [now apply H|apply Hl; [lia|exact Hi]]. }
  destruct (Li ng (le_n _)) as (lim & Hl). exists lim, (D / (1 - c))%R. split; [exact K0|]. intros n i g Hi Hg. now apply Hl.
Qed.
Variable lim : nat -> nat -> R.
Variable D : R.
Hypothesis D0 : (0 <= D)%R.
Hypothesis Hl : forall n i g, i < nr -> g < ng -> (Rabs (val (it (S n)) i g - lim i g) <= c ^ n * D * w g)%R.
(** How far the limit still is, from the last change. *)
Lemma run_error : forall n d, sm (it (S n)) (it n) -> wapart d (it (S n)) (it n) -> forall i g, i < nr -> g < ng -> (Rabs (val (it (S n)) i g - lim i g) <= c / (1 - c) * d * w g)%R.
Proof.
  intros n d Sm A i g Hi Hg. pose proof (Hw g Hg) as W. assert (d0 : (0 <= d)%R). { specialize (A i g Hi Hg). pose proof (Rabs_pos (val (it (S n)) i g - val (it n) i g)). apply (Rmult_le_reg_r (w g)); lra. }
  assert (Hc0 : (0 <= c)%R) by lra. destruct (geom_lim (fun k => val (it (S n + k)) i g) c (c * d * w g) Hc) as (l & B).
  - apply Rmult_le_pos; [now apply Rmult_le_pos|lra].
  - intros j. destruct (run_shrink (S n) n d d0 Sm A (S j)) as [Bj _]. specialize (Bj i g Hi Hg). replace (n + S j) with (S n + j) in Bj by lia. replace (c ^ j * (c * d * w g))%R with (c ^ S j * d * w g)%R by (cbn [pow]; ring). exact Bj.
  - assert (El : (l - lim i g = 0)%R).
    { apply (small_zero _ c (c * d * w g / (1 - c) + D * w g) Hc). intros k. specialize (B k). cbv beta in B. pose proof (Hl (n + k) i g Hi Hg) as B'. change (S (n + k)) with (S n + k) in B'. set (z := val (it (S n + k)) i g) in *. replace (l - lim i g)%R with (- (z - l) + (z - lim i g))%R by ring. eapply Rle_trans; [apply Rabs_triang|]. rewrite Rabs_Ropp.
      rewrite pow_add in B'. pose proof (pow_le c k Hc0) as Z1. assert (Z2 : (0 <= c ^ n <= 1)%R) by (split; [now apply pow_le|]; rewrite <- (pow1 n); apply pow_incr; lra).
      assert (c ^ n * c ^ k * D * w g <= c ^ k * (D * w g))%R. { replace (c ^ n * c ^ k * D * w g)%R with (c ^ n * (c ^ k * (D * w g)))%R by ring. assert (0 <= c ^ k * (D * w g))%R by (apply Rmult_le_pos; [assumption|apply Rmult_le_pos; lra]). nra. } lra. }
    specialize (B 0). cbv beta in B. rewrite Nat.add_0_r in B. replace (lim i g) with l by lra. cbn [pow] in B. rewrite Rmult_1_l in B. replace (c / (1 - c) * d * w g)%R with (c * d * w g / (1 - c))%R by (field; lra). exact B.
Qed.
Lemma run_fixed : forall t, shape t -> sm t (it 1) -> (forall i g, i < nr -> g < ng -> val t i g = lim i g) -> exists t', stepX t = Some t' /\ forall i g, i < nr -> g < ng -> val t' i g = lim i g.
Proof.
  intros t Ft S1 Et. destruct (Tot t Ft) as (t' & E & F'). exists t'. split; [exact E|]. intros i g Hi Hg. pose proof (Hw g Hg) as W. assert (Z : (val t' i g - lim i g = 0)%R); [|lra].
  apply (small_zero _ c (2 * (D * w g)) Hc). intros n. assert (Sx : sm t (it (S n))) by (apply (sm_trans _ (it 1)); [exact S1|apply sm_sym, run_sm1]).
  assert (An : wapart (c ^ n * D) t (it (S n))) by (intros k h Hk Hh; rewrite (Et k h Hk Hh), Rabs_minus_sym; now apply Hl).
  assert (N0 : (0 <= c ^ n)%R) by (apply pow_le; lra). destruct (Con (c ^ n * D) t (it (S n)) t' (it (S (S n)))) as [B _]; auto; [now apply Rmult_le_pos|].
  specialize (B i g Hi Hg). pose proof (Hl (S n) i g Hi Hg) as B'. set (z := val (it (S (S n))) i g) in *. replace (val t' i g - lim i g)%R with ((val t' i g - z) + (z - lim i g))%R by ring. eapply Rle_trans; [apply Rabs_triang|].
  cbn [pow] in B'. assert (0 <= c ^ n * (D * w g))%R by (apply Rmult_le_pos; [assumption|apply Rmult_le_pos; lra]). nra.
Qed.
Lemma run_unique : forall t t', shape t -> sm t (it 1) -> stepX t = Some t' -> (forall i g, i < nr -> g < ng -> val t' i g = val t i g) -> forall i g, i < nr -> g < ng -> val t i g = lim i g.
Proof.
  intros t t' Ft S1 E Et i g Hi Hg. assert (Z : (val t i g - lim i g = 0)%R); [|lra]. destruct (wapart_top t (it 1)) as (D2 & D20 & A2). pose proof (Hw g Hg) as W.
  assert (An : forall n, wapart (c ^ n * D2) t (it (S n))).
  { induction n as [|n IH]; [cbn [pow]; rewrite Rmult_1_l; exact A2|]. assert (Sx : sm t (it (S n))) by (apply (sm_trans _ (it 1)); [exact S1|apply sm_sym, run_sm1]).
    destruct (Con (c ^ n * D2) t (it (S n)) t' (it (S (S n)))) as [B _]; auto; [apply Rmult_le_pos; [apply pow_le; lra|exact D20]|].
    intros k h Hk Hh. rewrite <- (Et k h Hk Hh). replace (c ^ S n * D2)%R with (c * (c ^ n * D2))%R by (cbn [pow]; ring). now apply B. }
  apply (small_zero _ c (D2 * w g + D * w g) Hc). intros n. pose proof (An n i g Hi Hg) as B. pose proof (Hl n i g Hi Hg) as B'. set (z := val (it (S n)) i g) in *. replace (val t i g - lim i g)%R with ((val t i g - z) + (z - lim i g))%R by ring. eapply Rle_trans; [apply Rabs_triang|]. lra.
Qed.
End Run.
End Shrink.

(** What the group source starts from. *)
Definition ext_fits (nreg ng : nat) (ext : option (list (list R))) : Prop := match ext with None => True | Some a => forall i g, i < nreg -> g < ng -> exists v, at2 a i g = Some v end.
Definition ext_at (ext : option (list (list R))) (i g : nat) : R := match ext with None => 0%R | Some a => match at2 a i g with Some v => v | None => 0%R end end.
Lemma read_ext_ok : forall a g cnt ireg, (forall i, ireg <= i < ireg + cnt -> exists v, at2 a i g = Some v) -> exists l, read_ext a g ireg cnt = Some l /\ length l = cnt /\ forall k, k < cnt -> at0 l k = ext_at (Some a) (ireg + k) g.
Proof.
  intros a g. induction cnt as [|c IH]; intros ireg H; cbn [read_ext]; [exists []; split; [reflexivity|split; [reflexivity|intros; lia]]|].
  destruct (H ireg ltac:(lia)) as (v & E). rewrite E. destruct (IH (S ireg)) as (l & -> & L & P); [intros i Hi; apply H; lia|]. exists (v :: l). split; [reflexivity|]. split; [cbn; lia|].
  intros [|k] Hk; [rewrite Nat.add_0_r; unfold ext_at; rewrite E; reflexivity|]. change (at0 (v :: l) (S k)) with (at0 l k). rewrite P by lia. f_equal. lia.
Qed.
Lemma init_ok : forall ext nreg ng g src, ext_fits nreg ng ext -> g < ng -> length src = nreg -> exists s0, initialize_group ext nreg g src = Some s0 /\ length s0 = nreg /\ forall i, i < nreg -> at0 s0 i = ext_at ext i g.
Proof.
  intros [a|] nreg ng g src H Hg L; cbn [initialize_group].
  - destruct (read_ext_ok a g nreg 0) as (l & E & Ll & P); [intros i Hi; apply H; lia|]. exists l. auto.
  - exists (map (fun _ => 0%R) src). split; [reflexivity|]. split; [now rewrite map_length|]. intros i _. cbn [ext_at]. unfold at0. clear. revert i. induction src as [|v l IH]; intros [|i]; cbn; auto.
Qed.

Section Fix.
Variables (m : MocStatic) (ng : nat) (sct : XReg -> nat -> nat -> R) (ext : option (list (list R))).
Hypothesis P : moc_problem m ng sct.
Hypothesis Ph : physical (ms_nreg m) ng sct (ms_xs m).
Hypothesis Ex : ext_fits (ms_nreg m) ng ext.
Notation grp := (fss_group MocState mg_flux (moc_sweep m) (ms_xs m) (ms_nreg m) ext None).
Notation grps := (fss_groups MocState mg_flux (moc_sweep m) (ms_xs m) (ms_nreg m) ext None).

Lemma reg_of : forall i, i < ms_nreg m -> exists x, In x (ms_xs m) /\ In i (xr_reg x).
Proof. intros i Hi. destruct Ph as (_ & _ & Cov & _). specialize (Cov i Hi). apply in_concat in Cov. destruct Cov as (l & I & Ii). apply in_map_iff in I. destruct I as (x & <- & Ix). eauto. Qed.
(** The source of a group. *)
Lemma fx_source : forall g src fl, g < ng -> length src = ms_nreg m -> flux_fits (ms_nreg m) ng fl -> exists s0 s2, initialize_group ext (ms_nreg m) g src = Some s0 /\ in_scatter (ms_xs m) fl g s0 = Some s2 /\ length s2 = ms_nreg m /\
  forall x i, In x (ms_xs m) -> In i (xr_reg x) -> at0 s2 i = (ext_at ext i g + rsum (fun h => if (h =? g)%nat then 0 else sct x g h * phi fl i h) ng)%R.
Proof.
  intros g src fl Hg Ls Ff. destruct (init_ok ext (ms_nreg m) ng g src Ex Hg Ls) as (s0 & E0 & L0 & P0). destruct Ph as (M & D & Cov & _).
  destruct (in_scatter_ok (ms_nreg m) ng sct (ms_xs m) fl g s0 M L0 D Ff Hg) as (s2 & E2 & L2 & P2). exists s0, s2. split; [exact E0|]. split; [exact E2|]. split; [congruence|].
  intros x i I Ii. rewrite P2. rewrite P0 by (exact (reg_bound _ _ _ _ M I Ii)). destruct M as [N _]. rewrite (collapse (fun x r => rsum (fun h => if h =? g then 0%R else (sct x g h * phi fl r h)%R) ng) (ms_xs m) x i N I Ii). reflexivity.
Qed.
Lemma inners_other : forall g src n s s', g < ng -> length src = ms_nreg m -> moc_shape m ng s -> moc_inners m g src n s = Some s' -> forall i h, i < ms_nreg m -> h <> g -> phi (mg_flux s') i h = phi (mg_flux s) i h.
Proof.
  intros g src. induction n as [|n IH]; intros s s' Hg Ls Fs E i h Hi Hh; cbn [moc_inners] in E; [now injection E as <-|]. destruct (inner_shape m ng sct P Ph g src s Hg Ls Fs) as (t & Et & Ft & Ot). rewrite Et in E. rewrite (IH t s' Hg Ls Ft E i h Hi Hh). now apply Ot.
Qed.
Lemma grp_ok : forall g src sw, g < ng -> length src = ms_nreg m -> moc_shape m ng sw -> exists s2 sw', grp g (src, sw) = Some (s2, sw') /\ length s2 = ms_nreg m /\ moc_shape m ng sw' /\ moc_inners m g s2 (ms_inner m) sw = Some sw' /\
  (forall i h, i < ms_nreg m -> h <> g -> phi (mg_flux sw') i h = phi (mg_flux sw) i h) /\
  forall x i, In x (ms_xs m) -> In i (xr_reg x) -> at0 s2 i = (ext_at ext i g + rsum (fun h => if (h =? g)%nat then 0 else sct x g h * phi (mg_flux sw) i h) ng)%R.
Proof.
  intros g src sw Hg Ls F. destruct (fx_source g src (mg_flux sw) Hg Ls (proj1 F)) as (s0 & s2 & E0 & E2 & L2 & P2). destruct (inners_shape m ng sct P Ph g s2 (ms_inner m) sw Hg L2 F) as (sw' & E & F').
  exists s2, sw'. unfold fss_group. rewrite E0, E2. unfold moc_sweep. rewrite E. do 4 (split; [auto|]). split; [|exact P2]. exact (inners_other g s2 (ms_inner m) sw sw' Hg L2 F E).
Qed.
Lemma grps_ok : forall cnt ig src sw, ig + cnt <= ng -> length src = ms_nreg m -> moc_shape m ng sw -> exists s2 sw', grps ig cnt (src, sw) = Some (s2, sw') /\ length s2 = ms_nreg m /\ moc_shape m ng sw' /\
  forall i h, i < ms_nreg m -> h < ig -> phi (mg_flux sw') i h = phi (mg_flux sw) i h.
Proof.
  induction cnt as [|c IH]; intros ig src sw Hc Ls F; cbn [fss_groups]; [exists src, sw; auto|]. destruct (grp_ok ig src sw ltac:(lia) Ls F) as (s2 & sw' & -> & L2 & F2 & _ & O & _).
  destruct (IH (S ig) s2 sw' ltac:(lia) L2 F2) as (s3 & sw3 & E3 & L3 & F3 & O3). exists s3, sw3. split; [exact E3|]. split; [exact L3|]. split; [exact F3|]. intros i h Hi Hh. rewrite O3 by lia. apply O; lia.
Qed.

Section Bound.
Hypothesis Op : open_bc m.
Variables (v : nat -> R) (c : R).
Hypothesis Hc : (0 <= c < 1)%R.
Hypothesis Hv : forall g, g < ng -> (0 < v g)%R.
Hypothesis Dom : forall x g, In x (ms_xs m) -> g < ng -> (rsum (fun h => sct x g h * v h) ng <= c * at0 (xr_tr x) g * v g)%R.
Definition fl_apart (M : R) (s1 s2 : MocState) : Prop := forall i h, i < ms_nreg m -> h < ng -> (Rabs (phi (mg_flux s1) i h - phi (mg_flux s2) i h) <= M * v h)%R.

Lemma rsum_split : forall (f : nat -> R) n g, g < n -> rsum f n = (f g + rsum (fun h => if h =? g then 0 else f h) n)%R.
Proof.
  intros f n g. induction n as [|n IH]; intros H; [lia|]. cbn [rsum]. destruct (Nat.eq_dec g n) as [->|N].
  - rewrite Nat.eqb_refl. rewrite (rsum_ext (fun h => if h =? n then 0%R else f h) f n) by (intros i Hi; destruct (Nat.eqb_spec i n); [lia|reflexivity]). lra.
  - rewrite IH by lia. destruct (Nat.eqb_spec n g); [lia|]. lra.
Qed.
Lemma rsum_abs : forall (f b : nat -> R) n, (forall i, i < n -> (Rabs (f i) <= b i)%R) -> (Rabs (rsum f n) <= rsum b n)%R.
Proof. intros f b n H. induction n as [|n IH]; cbn [rsum]; [rewrite Rabs_R0; lra|]. eapply Rle_trans; [apply Rabs_triang|]. apply Rplus_le_compat; [apply IH; intros; apply H; lia|apply H; lia]. Qed.

(** One inner iteration of group [g] in two runs whose sources differ by what the fluxes of the other groups differ. *)
Lemma inner_two : forall M g src1 src2 s1 s2 s1' s2', (0 <= M)%R -> g < ng -> length src1 = ms_nreg m -> length src2 = ms_nreg m -> moc_shape m ng s1 -> moc_shape m ng s2 -> same_in s1 s2 ->
  (forall x i, In x (ms_xs m) -> In i (xr_reg x) -> (Rabs (at0 src1 i - at0 src2 i) <= M * rsum (fun h => if (h =? g)%nat then 0 else sct x g h * v h) ng)%R) ->
  (forall i, i < ms_nreg m -> (Rabs (phi (mg_flux s1) i g - phi (mg_flux s2) i g) <= M * v g)%R) ->
  moc_inner m g src1 s1 = Some s1' -> moc_inner m g src2 s2 = Some s2' -> (forall i, i < ms_nreg m -> (Rabs (phi (mg_flux s1') i g - phi (mg_flux s2') i g) <= c * M * v g)%R) /\ same_in s1' s2'.
Proof.
  intros M g src1 src2 s1 s2 s1' s2' HM Hg L1 L2 F1 F2 Sm Hs Hf E1 E2. split; [|eapply same_in_inner; eauto; [apply F1|apply F2]]. pose proof PI_RGT_0 as PP. pose proof (Hv g Hg) as V.
  destruct (inner_parts m ng sct P Ph g src1 s1 Hg L1 F1) as (q1 & f1 & b1 & t1 & K1 & Q1 & W1 & I1 & B1 & _ & O1). destruct (inner_parts m ng sct P Ph g src2 s2 Hg L2 F2) as (q2 & f2 & b2 & t2 & K2 & Q2 & W2 & I2 & B2 & _ & O2).
  rewrite E1 in I1. injection I1 as <-. rewrite E2 in I2. injection I2 as <-. set (B := (c * M * v g / (4 * PI))%R). assert (B0 : (0 <= B)%R) by (unfold B; apply Rmult_le_pos; [apply Rmult_le_pos; [apply Rmult_le_pos; lra|lra]|left; apply Rinv_0_lt_compat; lra]).
  destruct F1 as (_ & _ & Lb1 & Fb1). destruct F2 as (_ & _ & Lb2 & Fb2).
  destruct (sweep_diff m ng sct P g q1 q2 (- B) B (mg_bnd s1) (mg_bnd s2) Hg K1 K2 Lb1 Lb2 Fb1 Fb2) as (g1 & c1 & g2 & c2 & V1 & V2 & Bd & _).
  - intros i Hi. destruct (reg_of i Hi) as (x & Ix & Ii). rewrite (Q1 x i Ix Ii), (Q2 x i Ix Ii). pose proof (mp_tr m ng sct P x g Ix Hg) as T. pose proof (mp_self m ng sct P x g Ix Hg) as Z. specialize (Hs x i Ix Ii). specialize (Hf i Hi). pose proof (Dom x g Ix Hg) as Dx. rewrite (rsum_split _ ng g Hg) in Dx.
    set (d := (phi (mg_flux s1) i g - phi (mg_flux s2) i g)%R) in *. set (tr := at0 (xr_tr x) g) in *. set (ss := sct x g g) in *. set (ds := (at0 src1 i - at0 src2 i)%R) in *. set (os := rsum (fun h => if h =? g then 0%R else (sct x g h * v h)%R) ng) in *.
    replace ((at0 src1 i + phi (mg_flux s1) i g * ss) * (1 / (tr * (4 * PI))) - (at0 src2 i + phi (mg_flux s2) i g * ss) * (1 / (tr * (4 * PI))))%R with ((ds + ss * d) / (tr * (4 * PI)))%R by (unfold d, ds; field; split; lra).
    assert (R1 : (Rabs (ds + ss * d) <= c * M * v g * tr)%R).
    { eapply Rle_trans; [apply Rabs_triang|]. rewrite Rabs_mult, (Rabs_pos_eq ss) by exact Z. assert (ss * Rabs d <= ss * (M * v g))%R by (now apply Rmult_le_compat_l).
      replace (c * M * v g * tr)%R with (M * (c * tr * v g))%R by ring. apply Rle_trans with (M * (ss * v g + os))%R; [|now apply Rmult_le_compat_l]. lra. }
    assert (R2 : (Rabs ((ds + ss * d) / (tr * (4 * PI))) <= B)%R). { unfold Rdiv. assert (0 < tr * (4 * PI))%R by (apply Rmult_lt_0_compat; lra). rewrite Rabs_mult, (Rabs_pos_eq (/ (tr * (4 * PI)))) by (left; now apply Rinv_0_lt_compat). apply (Rmult_le_reg_r (tr * (4 * PI))); [assumption|]. unfold B. replace (Rabs (ds + ss * d) * / (tr * (4 * PI)) * (tr * (4 * PI)))%R with (Rabs (ds + ss * d)) by (field; split; lra). replace (c * M * v g / (4 * PI) * (tr * (4 * PI)))%R with (c * M * v g * tr)%R by (field; lra). exact R1. }
    set (y := ((ds + ss * d) / (tr * (4 * PI)))%R) in *. pose proof (Rle_abs y). pose proof (Rle_abs (- y)). rewrite Rabs_Ropp in *. lra.
  - intros s _. lra.
  - now apply near_same.
  - rewrite W1 in V1. injection V1 as <- <-. rewrite W2 in V2. injection V2 as <- <-. intros i Hi. rewrite (O1 i g Hi), (O2 i g Hi), Nat.eqb_refl. specialize (Bd i Hi). replace (c * M * v g)%R with (4 * PI * B)%R by (unfold B; field; lra). apply Rabs_le. lra.
Qed.
Lemma inners_two : forall M g src1 src2 n s1 s2 s1' s2', (0 <= M)%R -> g < ng -> length src1 = ms_nreg m -> length src2 = ms_nreg m -> moc_shape m ng s1 -> moc_shape m ng s2 -> same_in s1 s2 ->
  (forall x i, In x (ms_xs m) -> In i (xr_reg x) -> (Rabs (at0 src1 i - at0 src2 i) <= M * rsum (fun h => if (h =? g)%nat then 0 else sct x g h * v h) ng)%R) ->
  (forall i, i < ms_nreg m -> (Rabs (phi (mg_flux s1) i g - phi (mg_flux s2) i g) <= M * v g)%R) ->
  moc_inners m g src1 n s1 = Some s1' -> moc_inners m g src2 n s2 = Some s2' -> (forall i, i < ms_nreg m -> (Rabs (phi (mg_flux s1') i g - phi (mg_flux s2') i g) <= (if n then 1 else c) * M * v g)%R) /\ same_in s1' s2'.
Proof.
  intros M g src1 src2. induction n as [|n IH]; intros s1 s2 s1' s2' HM Hg L1 L2 F1 F2 Sm Hs Hf E1 E2; cbn [moc_inners] in *.
  - injection E1 as <-. injection E2 as <-. split; [|exact Sm]. intros i Hi. rewrite Rmult_1_l. now apply Hf.
  - destruct (inner_shape m ng sct P Ph g src1 s1 Hg L1 F1) as (t1 & T1 & G1 & _). destruct (inner_shape m ng sct P Ph g src2 s2 Hg L2 F2) as (t2 & T2 & G2 & _). rewrite T1 in E1. rewrite T2 in E2. destruct (inner_two M g src1 src2 s1 s2 t1 t2 HM Hg L1 L2 F1 F2 Sm Hs Hf T1 T2) as [A1 Sm1].
    pose proof (Hv g Hg) as V. assert (MV : (0 <= M * v g)%R) by (apply Rmult_le_pos; lra).
    destruct n as [|n]; [cbn [moc_inners] in *; injection E1 as <-; injection E2 as <-; now split|]. apply (IH t1 t2 s1' s2' HM Hg L1 L2 G1 G2 Sm1 Hs); auto. intros i Hi. eapply Rle_trans; [now apply A1|]. nra.
Qed.
Lemma grps_two : forall M, (0 <= M)%R -> 1 <= ms_inner m -> forall cnt ig src1 sw1 src2 sw2 src1' sw1' src2' sw2', ig + cnt <= ng -> length src1 = ms_nreg m -> length src2 = ms_nreg m -> moc_shape m ng sw1 -> moc_shape m ng sw2 -> same_in sw1 sw2 -> fl_apart M sw1 sw2 ->
  grps ig cnt (src1, sw1) = Some (src1', sw1') -> grps ig cnt (src2, sw2) = Some (src2', sw2') -> same_in sw1' sw2' /\ forall i h, i < ms_nreg m -> ig <= h < ig + cnt -> (Rabs (phi (mg_flux sw1') i h - phi (mg_flux sw2') i h) <= c * M * v h)%R.
Proof.
  intros M HM Hn. induction cnt as [|k IH]; intros ig src1 sw1 src2 sw2 src1' sw1' src2' sw2' Hk L1 L2 F1 F2 Sm A E1 E2; cbn [fss_groups] in *.
  - injection E1 as <- <-. injection E2 as <- <-. split; [exact Sm|]. intros; lia.
  - destruct (grp_ok ig src1 sw1 ltac:(lia) L1 F1) as (u1 & w1 & G1 & K1 & S1 & I1 & O1 & Q1). destruct (grp_ok ig src2 sw2 ltac:(lia) L2 F2) as (u2 & w2 & G2 & K2 & S2 & I2 & O2 & Q2). rewrite G1 in E1. rewrite G2 in E2.
    assert (Hig : ig < ng) by lia. destruct (inners_two M ig u1 u2 (ms_inner m) sw1 sw2 w1 w2 HM Hig K1 K2 F1 F2 Sm) as [B Sm1]; auto.
    + intros x i Ix Ii. rewrite (Q1 x i Ix Ii), (Q2 x i Ix Ii). assert (Hi : i < ms_nreg m) by (destruct Ph as (M0 & _); exact (reg_bound _ _ _ _ M0 Ix Ii)).
      match goal with |- (Rabs ?t <= _)%R => replace t with (rsum (fun h => if h =? ig then 0 else sct x ig h * phi (mg_flux sw1) i h) ng - rsum (fun h => if h =? ig then 0 else sct x ig h * phi (mg_flux sw2) i h) ng)%R by lra end. rewrite <- rsum_minus.
      rewrite <- rsum_scal. apply rsum_abs. intros h Hh. destruct (Nat.eqb_spec h ig) as [|Nh]; [rewrite Rminus_0_r, Rabs_R0; lra|]. destruct Ph as (_ & D & _). destruct (D x Ix) as (_ & Nn & _). pose proof (Nn ig h Hig Hh (fun e => Nh (eq_sym e))) as Z. replace (sct x ig h * phi (mg_flux sw1) i h - sct x ig h * phi (mg_flux sw2) i h)%R with (sct x ig h * (phi (mg_flux sw1) i h - phi (mg_flux sw2) i h))%R by ring.
      rewrite Rabs_mult, (Rabs_pos_eq _ Z). replace (M * (sct x ig h * v h))%R with (sct x ig h * (M * v h))%R by ring. apply Rmult_le_compat_l; [exact Z|]. now apply A.
    + assert (A1 : fl_apart M w1 w2). { intros i h Hi Hh. destruct (Nat.eq_dec h ig) as [->|N]; [|rewrite (O1 i h Hi N), (O2 i h Hi N); now apply A]. eapply Rle_trans; [now apply B|]. pose proof (Hv ig Hig) as V. assert (MV : (0 <= M * v ig)%R) by (apply Rmult_le_pos; lra). destruct (ms_inner m); nra. }
      destruct (IH (S ig) u1 w1 u2 w2 src1' sw1' src2' sw2' ltac:(lia) K1 K2 S1 S2 Sm1 A1 E1 E2) as [Sm2 C2]. split; [exact Sm2|]. intros i h Hi Hh. destruct (Nat.eq_dec h ig) as [->|N]; [|apply C2; [exact Hi|lia]].
      destruct (grps_ok k (S ig) u1 w1 ltac:(lia) K1 S1) as (x1 & y1 & Y1 & _ & _ & Z1). rewrite E1 in Y1. injection Y1 as <- <-. destruct (grps_ok k (S ig) u2 w2 ltac:(lia) K2 S2) as (x2 & y2 & Y2 & _ & _ & Z2). rewrite E2 in Y2. injection Y2 as <- <-.
      rewrite Z1, Z2 by lia. specialize (B i Hi). destruct (ms_inner m); [lia|exact B].
Qed.
End Bound.

(** Without reflection every incoming flux is kept or cleared, whatever is computed. *)
Section Masks.
Hypothesis Op : open_bc m.
Definition masks (z : nat -> nat -> bool) (s s' : MocState) : Prop := length (mg_bnd s') = length (ms_planes m) /\ forall j d b, nth_error (mg_bnd s) j = Some d -> nth_error (mg_bnd s') j = Some b -> masked (z j) (fst d) (fst b).
Lemma masks_trans : forall z1 z2 s1 s2 s3, masks z1 s1 s2 -> masks z2 s2 s3 -> masks (fun j k => z1 j k || z2 j k) s1 s3.
Proof.
  intros z1 z2 s1 s2 s3 [L1 H1] [L2 H2]. split; [exact L2|]. intros j d b E1 E3. assert (Hj : j < length (ms_planes m)) by (rewrite <- L2; apply nth_error_Some; congruence). destruct (nth_error (mg_bnd s2) j) as [e|] eqn:E; [|apply nth_error_None in E; lia].
  exact (masked_trans _ _ _ _ _ (H1 j d e E1 E) (H2 j e b E E3)).
Qed.
Lemma masks_none : forall s, length (mg_bnd s) = length (ms_planes m) -> masks (fun _ _ => false) s s.
Proof. intros s L. split; [exact L|]. intros j d b E1 E2. rewrite E1 in E2. injection E2 as <-. apply masked_none. Qed.
Lemma inners_mask : forall g n, exists z, forall src s s', length (mg_bnd s) = length (ms_planes m) -> moc_inners m g src n s = Some s' -> masks z s s'.
Proof.
  intros g n. induction n as [|n (z & IH)].
  - exists (fun _ _ => false). intros src s s' L E. cbn in E. injection E as <-. now apply masks_none.
  - destruct (open_inner m g Op) as (z1 & H). exists (fun j k => z1 j k || z j k). intros src s s' L E. cbn [moc_inners] in E. destruct (moc_inner m g src s) as [t|] eqn:Et; [|discriminate]. pose proof (H src s t L Et) as M1. apply (masks_trans z1 z s t s'); [exact M1|]. apply (IH src); [apply M1|exact E].
Qed.
Lemma grps_mask : forall cnt ig, ig + cnt <= ng -> exists z, forall src sw src' sw', length src = ms_nreg m -> moc_shape m ng sw -> grps ig cnt (src, sw) = Some (src', sw') -> masks z sw sw'.
Proof.
  induction cnt as [|k IH]; intros ig Hk.
  - exists (fun _ _ => false). intros src sw src' sw' Ls F E. cbn in E. injection E as <- <-. apply masks_none. apply F.
  - destruct (IH (S ig) ltac:(lia)) as (z & Hz). destruct (inners_mask ig (ms_inner m)) as (z1 & H1). exists (fun j n => z1 j n || z j n). intros src sw src' sw' Ls F E. cbn [fss_groups] in E.
    destruct (grp_ok ig src sw ltac:(lia) Ls F) as (u & w & G & Lu & Fw & I & _). rewrite G in E. apply (masks_trans z1 z sw w sw'); [|exact (Hz u w src' sw' Lu Fw E)]. apply (H1 u); [apply F|exact I].
Qed.
Lemma masks_again : forall z s s1 s2, length (mg_bnd s) = length (ms_planes m) -> masks z s s1 -> masks z s1 s2 -> same_in s2 s1.
Proof.
  intros z s s1 s2 L [M1 H1] [M2 H2]. apply map_fst_nth; [congruence|]. intros j d2 d1 X2 X1. assert (Hj : j < length (ms_planes m)) by (rewrite <- M1; apply nth_error_Some; congruence). destruct (nth_error (mg_bnd s) j) as [e|] eqn:Y; [|apply nth_error_None in Y; lia]. exact (masked_twice _ _ _ _ (H1 j _ _ Y X1) (H2 j _ _ X1 X2)).
Qed.
End Masks.
End Fix.
