(** C114-C118: the 2D3D sweeper: when the MoC sweeper runs, the exchange of pin fluxes between the sweepers, and the CMFD
    step. *)
From Coq Require Import List Bool Reals ZArith Arith Lia Lra.
From Verif Require Import RUtil ListUtil McModel MatModel ExpModel MocModel PflModel PflProps SnModel SnPinModel SnPinProps CmfdModel XsModel SrcModel SrcProps SolModel CmdoModel.
Import ListNotations.
Open Scope nat_scope.

Lemma obind_got : forall A B (o : Out A) (f : A -> Out B) b, obind o f = Got b -> exists a, o = Got a /\ f a = Got b.
Proof. intros A B [a| |] f b E; try discriminate. eauto. Qed.
Lemma odef_got : forall A (o : option A) a, odef o = Got a -> o = Some a.
Proof. intros A [x|] a E; [now injection E as ->|discriminate]. Qed.
Ltac open_got := repeat match goal with
  | H : obind _ _ = Got _ |- _ => let a := fresh "a" in let E := fresh "E" in apply obind_got in H; destruct H as (a & E & H)
  | H : odef _ = Got _ |- _ => apply odef_got in H
  | H : Got _ = Got _ |- _ => injection H; clear H; intros; subst
  end.

(** ** C114 *)
(** Outer iteration [i], counted from zero, is one in which the MoC sweeper is due. *)
Definition due (o : Opts) (i : Z) : bool := (o_inactive o <=? i)%Z && (i mod o_modulo o =? 0)%Z.
Lemma do_moc_due : forall o i d, do_moc o i = Got d -> o_modulo o <> 0%Z -> d = due o i.
Proof.
  intros o i d E N. unfold do_moc, due in *. destruct (Z.ltb_spec (o_inactive o) (i + 1)) as [H|H].
  - destruct (Z.eqb_spec (o_modulo o) 0); [contradiction|]. injection E as <-. destruct (Z.leb_spec (o_inactive o) i); [|lia]. cbn [andb].
    destruct (Z.eqb_spec (Z.rem i (o_modulo o)) 0) as [A|A]; destruct (Z.eqb_spec (i mod o_modulo o) 0) as [B|B]; auto; exfalso.
    + apply B, Z.mod_divide; auto. now apply Z.rem_divide.
    + apply A, Z.rem_divide; auto. now apply Z.mod_divide.
  - injection E as <-. destruct (Z.leb_spec (o_inactive o) i); [lia|reflexivity].
Qed.

Section P.
Variable W : Type.
Variable mcol : nat -> W -> list R.
Variable mput : nat -> list R -> W -> W.
Variable smps : nat -> W -> list MP.
Variable sput : nat -> list MP -> W -> W.
Variable msweep ssweep leak : nat -> W -> Out W.
Variable geo : Geo.
Variable op : Opts.
Let Sweep := sweep W mcol mput smps sput msweep ssweep leak geo op.
Let Run := run W mcol mput smps sput msweep ssweep leak geo op.

Fixpoint groups_of (evs : list (Ev W)) : list nat := match evs with [] => [] | ESweep _ g :: r => g :: groups_of r | EOther _ _ :: r => groups_of r end.
(** The MoC sweeps of a sequence of group sweeps. *)
Fixpoint log (i : Z) (gs : list nat) : list (Z * nat) :=
  match gs with [] => [] | g :: r => let i' := if g =? 0 then (i + 1)%Z else i in (if due op i' then [(i', g)] else []) ++ log i' r end.
Lemma run_log : forall evs t t', o_modulo op <> 0%Z -> Run true evs t = Got t' -> t_swept W t' = t_swept W t ++ log (t_i W t) (groups_of evs).
Proof.
  intros evs. induction evs as [|[g|f] evs IH]; intros t t' N E; cbn [Run run groups_of log] in *; unfold Run in *; cbn [run] in E.
  - injection E as <-. now rewrite app_nil_r.
  - apply obind_got in E. destruct E as (t1 & E1 & E). rewrite (IH _ _ N E). unfold sweep in E1. cbn [negb] in E1. apply obind_got in E1. destruct E1 as (w1 & _ & E1). apply obind_got in E1.
    destruct E1 as ([[w2 prev] d] & Em & E1). apply obind_got in E1. destruct E1 as ([w3 r] & _ & E1). injection E1 as <-. cbn [t_swept t_i]. unfold moc_part in Em. apply obind_got in Em. destruct Em as (d' & Ed & Em).
    assert (d' = d) as ->. { open_got. reflexivity. } rewrite (do_moc_due _ _ _ Ed N). now rewrite <- app_assoc.
  - apply obind_got in E. destruct E as (w & _ & E). rewrite (IH _ _ N E). reflexivity.
Qed.
End P.
Lemma log_iter : forall op ng k i, 0 < ng -> (-1 <= i)%Z -> log op i (concat (repeat (seq 0 ng) k)) =
  flat_map (fun j => if due op (i + 1 + Z.of_nat j) then map (pair (i + 1 + Z.of_nat j)%Z) (seq 0 ng) else []) (seq 0 k).
Proof.
  intros op ng k. assert (Step : forall n g i rest, 0 < g -> log op i (seq g n ++ rest) = (if due op i then map (pair i) (seq g n) else []) ++ log op i rest).
  { induction n as [|n IH]; intros g i rest Hg; cbn [seq app map log]; [destruct (due op i); reflexivity|]. destruct (Nat.eqb_spec g 0); [lia|]. rewrite IH by lia. destruct (due op i); reflexivity. }
  induction k as [|k IH]; intros i Hn Hi; [reflexivity|]. cbn [repeat concat]. destruct ng as [|ng]; [lia|]. specialize (IH (i + 1)%Z Hn ltac:(lia)). set (rest := concat (repeat (seq 0 (S ng)) k)) in *. set (big := flat_map _ (seq 0 k)) in IH. cbn [seq app log Nat.eqb]. rewrite Step by lia. rewrite IH. subst big.
  cbn [flat_map]. replace (i + 1 + Z.of_nat 0)%Z with (i + 1)%Z by lia. rewrite app_assoc. f_equal; [destruct (due op (i + 1)); reflexivity|]. change (0 :: seq 1 ng) with (seq 0 (S ng)).
  rewrite <- (seq_shift k 0), flat_map_concat_map, flat_map_concat_map, map_map. f_equal. apply map_ext. intros j. replace (i + 1 + Z.of_nat (S j))%Z with (i + 1 + 1 + Z.of_nat j)%Z by lia. reflexivity.
Qed.
(** For any two sweepers, any number of outer iterations over all groups in order and anything done between the sweeps: the
    MoC sweeper is swept for every group in exactly the outer iterations that are due, in order, and in no other. *)
Theorem C114_schedule : forall W mcol mput smps sput msweep ssweep leak geo op evs ng n w t', 0 < ng -> o_modulo op <> 0%Z -> groups_of W evs = concat (repeat (seq 0 ng) n) ->
  run W mcol mput smps sput msweep ssweep leak geo op true evs (fresh W w) = Got t' ->
  t_swept W t' = flat_map (fun i => if due op (Z.of_nat i) then map (pair (Z.of_nat i)) (seq 0 ng) else []) (seq 0 n).
Proof.
  intros W mcol mput smps sput msweep ssweep leak geo op evs ng n w t' Hn N G E. rewrite (run_log _ _ _ _ _ _ _ _ _ _ _ _ _ N E). cbn [fresh t_swept t_i app]. rewrite G, log_iter by lia.
  rewrite !flat_map_concat_map. f_equal.
Qed.
Print Assumptions C114_schedule.
(** Without coarse data (CMFD) every sweep is refused; a modulo of zero is accepted and has no defined behaviour as soon as
    the inactive iterations are over. *)
Theorem C114_refused : forall W mcol mput smps sput msweep ssweep leak geo op g t, sweep W mcol mput smps sput msweep ssweep leak geo op false g t = Threw.
Proof. reflexivity. Qed.
Print Assumptions C114_refused.
Theorem C114_zero_modulo : forall W mcol mput smps sput msweep ssweep leak geo op t, o_modulo op = 0%Z -> o_tl op = false -> o_v op = false -> (o_inactive op <= t_i W t + 1)%Z ->
  sweep W mcol mput smps sput msweep ssweep leak geo op true 0 t = Undef.
Proof.
  intros W mcol mput smps sput msweep ssweep leak geo op t M T V I. unfold sweep. cbn [negb Nat.eqb]. unfold opening. rewrite T, V. cbn [obind]. unfold moc_part, do_moc. rewrite M.
  destruct (Z.ltb_spec (o_inactive op) (t_i W t + 1 + 1)); [reflexivity|lia].
Qed.
Print Assumptions C114_zero_modulo.

(** ** C115 *)
(** Writing the flux of one sweeper and sweeping touch nothing else: reading back what was written, the other sweeper's flux
    unchanged, an Sn sweep leaves the MoC flux alone. *)
Record Laws (W : Type) (mcol : nat -> W -> list R) (mput : nat -> list R -> W -> W) (smps : nat -> W -> list MP) (sput : nat -> list MP -> W -> W) (ssweep : nat -> W -> Out W) : Prop := {
  l_mm : forall g g' f w, mcol g' (mput g f w) = if g' =? g then f else mcol g' w;
  l_ms : forall g g' f w, smps g' (mput g f w) = smps g' w;
  l_ss : forall g g' f w, smps g' (sput g f w) = if g' =? g then f else smps g' w;
  l_sm : forall g g' f w, mcol g' (sput g f w) = mcol g' w;
  l_sw : forall g g' w w', ssweep g w = Got w' -> mcol g' w' = mcol g' w
}.
(** Root of the sum of squared differences. *)
Definition distance (a b : list R) : R := sqrt (fold_right (fun p s => (fst p - snd p) * (fst p - snd p) + s)%R 0%R (combine a b)).
Lemma sq_sum_fold : forall a b s, sq_sum a b = Some s -> length a <= length b /\ s = fold_right (fun p s => (fst p - snd p) * (fst p - snd p) + s)%R 0%R (combine a b).
Proof.
  induction a as [|x a IH]; intros [|y b] s E; cbn [sq_sum] in E; try discriminate; try (injection E as <-; cbn; split; [lia|reflexivity]).
  destruct (sq_sum a b) as [q|] eqn:Q; [|discriminate]. injection E as <-. destruct (IH _ _ Q) as [L ->]. cbn. split; [lia|reflexivity].
Qed.
Lemma clip_pos : forall l, existsb (fun v => Rleb v 0) (clip l) = false -> clip l = l /\ forall v, In v l -> (0 < v)%R.
Proof.
  induction l as [|v l IH]; intros E; [split; [reflexivity|intros v []]|]. cbn [clip map existsb] in E. apply orb_false_elim in E. destruct E as [A B]. destruct (IH B) as [C D]. cbn [clip map]. fold (clip l). rewrite C.
  destruct (Rltb_spec v 0) as [H|H]; [destruct (Rleb_spec 0 0); [discriminate|lra]|]. destruct (Rleb_spec v 0); [discriminate|]. split; [reflexivity|]. intros x [<-|X]; [lra|now apply D].
Qed.

Section Q.
Variable W : Type.
Variable mcol : nat -> W -> list R.
Variable mput : nat -> list R -> W -> W.
Variable smps : nat -> W -> list MP.
Variable sput : nat -> list MP -> W -> W.
Variable msweep ssweep leak : nat -> W -> Out W.
Variable geo : Geo.
Variable hs : list R.
Hypothesis laws : Laws W mcol mput smps sput ssweep.
Hypothesis good : mesh_good (ge_cell geo) (ge_nxy geo) hs (ge_ms geo).
Hypothesis vols : ge_vol geo = mvols hs (ge_ms geo).
Lemma set_get : forall g pf w w' r, moc_set W mcol mput geo g pf w = Got (w', r) ->
  moc_get W mcol geo g w' = Some pf /\ (forall v, In v pf -> (0 < v)%R) /\ (forall g', smps g' w' = smps g' w) /\ (forall g', g' <> g -> mcol g' w' = mcol g' w) /\
  exists fs, length fs = length (sizes (ge_ms geo)) /\ mcol g w' = scale_blocks (sizes (ge_ms geo)) fs (mcol g w).
Proof.
  intros g pf w w' r E. unfold moc_set in E. destruct (PflModel.set_pin_flux _ _ _ _ _) as [[fl r0]| |] eqn:S; try discriminate. injection E as <- <-. destruct (C30_round_trip _ _ _ _ _ _ _ _ good S) as (G & fs & Lf & F).
  split; [unfold moc_get; rewrite (l_mm _ _ _ _ _ _ laws), Nat.eqb_refl, vols; exact G|]. split.
  { unfold PflModel.set_pin_flux in S. destruct (existsb _ pf) eqn:X; [discriminate|]. intros v I. destruct (Rlt_dec 0 v) as [H|H]; [exact H|]. exfalso. assert (Y : existsb (fun v => Rleb v 0) pf = true); [|congruence].
    apply existsb_exists. exists v. split; [exact I|]. destruct (Rleb_spec v 0); [reflexivity|lra]. }
  split; [intros g'; now rewrite (l_ms _ _ _ _ _ _ laws)|]. split; [intros g' D; rewrite (l_mm _ _ _ _ _ _ laws); now rewrite (proj2 (Nat.eqb_neq _ _) D)|].
  exists fs. split; [exact Lf|]. now rewrite (l_mm _ _ _ _ _ _ laws), Nat.eqb_refl.
Qed.
End Q.

(** With sn_project, every sweep that ends normally leaves the MoC sweeper with exactly the pin fluxes of the Sn sweeper,
    which are all positive; within each pin the MoC flux keeps the shape it had, other groups are untouched; the pin fluxes
    MoC had before are kept, and their distance from the Sn ones over the number of pins is recorded. *)
Theorem C115_projection : forall W mcol mput smps sput msweep ssweep leak geo hs op g t t', Laws W mcol mput smps sput ssweep -> mesh_good (ge_cell geo) (ge_nxy geo) hs (ge_ms geo) -> ge_vol geo = mvols hs (ge_ms geo) ->
  o_snp op = true -> sweep W mcol mput smps sput msweep ssweep leak geo op true g t = Got t' ->
  exists sn w, snflux W smps geo g (t_w W t') = Some sn /\ moc_get W mcol geo g (t_w W t') = Some sn /\ (forall v, In v sn -> (0 < v)%R) /\
    moc_get W mcol geo g w = Some (t_prev W t' g) /\
    (exists fs, length fs = length (sizes (ge_ms geo)) /\ mcol g (t_w W t') = scale_blocks (sizes (ge_ms geo)) fs (mcol g w)) /\
    (forall g', g' <> g -> mcol g' (t_w W t') = mcol g' w) /\
    t_res W t' = t_res W t ++ [(g, distance (t_prev W t' g) sn / INR (ge_npin geo))%R] /\ length (t_prev W t' g) <= length sn.
Proof.
  intros W mcol mput smps sput msweep ssweep leak geo hs op g t t' L G V P E. unfold sweep in E. cbn [negb] in E. apply obind_got in E. destruct E as (w1 & _ & E). apply obind_got in E. destruct E as ([[w2 prev] d] & Em & E).
  apply obind_got in E. destruct E as ([w3 r] & Es & E). injection E as <-. cbn [t_w t_prev t_res]. rewrite Nat.eqb_refl. unfold sn_part in Es. rewrite P in Es. apply obind_got in Es. destruct Es as (w4 & E4 & Es). apply obind_got in Es.
  destruct Es as (sn & Esn & Es). apply odef_got in Esn. apply obind_got in Es. destruct Es as (w5 & Ep & Es). apply obind_got in Es. destruct Es as (r' & Er & Es). apply odef_got in Er. injection Es as <- <-.
  unfold project in Ep. apply obind_got in Ep. destruct Ep as ([w6 rr] & Ep & Q). cbn [fst] in Q. injection Q as <-. assert (C : clip sn = sn /\ forall v, In v sn -> (0 < v)%R).
  { apply clip_pos. unfold moc_set, PflModel.set_pin_flux in Ep. destruct (existsb _ (clip sn)); [discriminate|reflexivity]. }
  destruct C as [C Pos]. rewrite C in Ep, Er. destruct (set_get W mcol mput smps sput ssweep geo hs L G V _ _ _ _ _ Ep) as (Gm & _ & Hs & Ho & fs & Lf & F).
  unfold moc_part in Em. apply obind_got in Em. destruct Em as (d' & _ & Em). apply obind_got in Em. destruct Em as (w7 & _ & Em). apply obind_got in Em. destruct Em as (prev' & Epv & Em). apply odef_got in Epv. apply obind_got in Em.
  destruct Em as (w8 & Ew & Em). injection Em as <- <- <-. exists sn, w8. split; [unfold snflux; rewrite Hs; exact Esn|]. split; [exact Gm|]. split; [exact Pos|].
  assert (K : forall g', mcol g' w4 = mcol g' w8) by (intros g'; exact (l_sw _ _ _ _ _ _ L _ _ _ _ E4)).
  assert (M8 : forall g', mcol g' w8 = mcol g' w7). { intros g'. destruct (o_mocp op); [|now injection Ew as <-]. apply odef_got in Ew. destruct (sn_set_pin prev' (smps g w7)); [|discriminate]. injection Ew as <-. apply (l_sm _ _ _ _ _ _ L). }
  split; [unfold moc_get in *; now rewrite M8|]. split; [exists fs; split; [exact Lf|now rewrite F, K]|]. split; [intros g' D; now rewrite (Ho g' D), K|].
  unfold residual in Er. destruct (sq_sum prev' sn) as [q|] eqn:Eq; [|discriminate]. destruct (sq_sum_fold _ _ _ Eq) as [Ln ->]. split; [|exact Ln]. repeat f_equal. unfold rdiv in Er. destruct (Reqb _ _) in Er; [discriminate|]. now injection Er as <-.
Qed.
Print Assumptions C115_projection.

(** What is false: a negative Sn pin flux is announced as corrected and set to zero, but the MoC sweeper refuses zero pin
    fluxes, so every such sweep ends in an exception. *)
Theorem C115_negative_throws : forall W mcol mput smps ssweep geo op g prev w w1 sn v, o_snp op = true -> ssweep g w = Got w1 -> snflux W smps geo g w1 = Some sn -> In v sn -> (v <= 0)%R ->
  sn_part W mcol mput smps ssweep geo op g prev w = Threw.
Proof.
  intros W mcol mput smps ssweep geo op g prev w w1 sn v P Es En I H. unfold sn_part. rewrite Es. cbn [obind]. rewrite En. cbn [odef obind]. rewrite P. unfold project, moc_set, PflModel.set_pin_flux.
  assert (existsb (fun v => Rleb v 0) (clip sn) = true) as ->; [|reflexivity]. apply existsb_exists. exists (if Rltb v 0 then 0%R else v). split; [unfold clip; apply in_map_iff; eauto|].
  destruct (Rltb_spec v 0); [destruct (Rleb_spec 0 0); [reflexivity|lra]|destruct (Rleb_spec v 0); [reflexivity|lra]].
Qed.
Print Assumptions C115_negative_throws.

(** A concrete state: the MoC and the Sn flux of every group. *)
Definition Wx : Type := (nat -> list R) * (nat -> list MP).
Definition x_mput (g : nat) (f : list R) (w : Wx) : Wx := (fun g' => if g' =? g then f else fst w g', snd w).
Definition x_sput (g : nat) (f : list MP) (w : Wx) : Wx := (fst w, fun g' => if g' =? g then f else snd w g').
Definition x_mcol (g : nat) (w : Wx) : list R := fst w g.
Definition x_smps (g : nat) (w : Wx) : list MP := snd w g.
(** An Sn sweep that sets the Sn flux to a given one, a MoC sweep that doubles the MoC flux. *)
Definition x_ssweep (ms : list MP) (g : nat) (w : Wx) : Out Wx := Got (x_sput g ms w).
Definition x_msweep (g : nat) (w : Wx) : Out Wx := Got (x_mput g (map (fun v => v * 2)%R (x_mcol g w)) w).
Lemma x_laws : forall ms, Laws Wx x_mcol x_mput x_smps x_sput (x_ssweep ms).
Proof. intros ms. split; intros; try reflexivity. unfold x_ssweep in H. injection H as <-. reflexivity. Qed.
Definition x_geo : Geo := mkGeo swap01 2 mesh2 (mvols [1; 5]%R mesh2) 6.
Definition x_sn (v : R) : list MP := [mkMP 1 [(1%R, [v; 1]%R)]; mkMP 5 [(2%R, [1; 1]%R); (3%R, [1; 1]%R)]].
Definition x_op : Opts := mkOp false true true false 0 1.
Definition x_w : Wx := (fun _ => repeat 1%R 8, fun _ => x_sn 1).
Lemma x_flux : forall v g w, x_smps g w = x_sn v -> exists sn, snflux Wx x_smps x_geo g w = Some sn /\ length sn = 4 /\ nth 0 sn 0%R = v /\ forall k, 0 < k < 4 -> nth k sn 0%R = 1%R.
Proof.
  intros v g w E. unfold snflux, sn_get. rewrite E. cbn [x_sn x_geo ge_nxy get_pin_plane]. destruct (get_mp_spec 2 (mkMP 1 [(1%R, [v; 1]%R)])) as (l1 & E1 & L1 & A1); [split; cbn; [lra|repeat constructor]|].
  destruct (get_mp_spec 2 (mkMP 5 [(2%R, [1; 1]%R); (3%R, [1; 1]%R)])) as (l2 & E2 & L2 & A2); [split; cbn; [lra|repeat constructor]|]. rewrite E1, E2. eexists. split; [reflexivity|]. cbn [concat]. rewrite !app_nil_r.
  destruct l1 as [|a [|b [|]]]; try discriminate. destruct l2 as [|c [|d [|]]]; try discriminate. split; [reflexivity|]. pose proof (A1 0 ltac:(lia)) as H1. pose proof (A1 1 ltac:(lia)) as H2. pose proof (A2 0 ltac:(lia)) as H3. pose proof (A2 1 ltac:(lia)) as H4.
  unfold mean in *. cbn in H1, H2, H3, H4. cbn. split; [lra|]. intros [|[|[|[|k]]]] Hk; try lia; cbn; lra.
Qed.
Lemma x_set : forall sn g w, length sn = 4 -> (forall v, In v sn -> (0 < v)%R) -> length (x_mcol g w) = 8 -> (forall v, In v (x_mcol g w) -> (0 < v)%R) ->
  exists w' r, moc_set Wx x_mcol x_mput x_geo g sn w = Got (w', r) /\ length (x_mcol g w') = 8 /\ (forall v, In v (x_mcol g w') -> (0 < v)%R).
Proof.
  intros sn g w L P Lm Pm. destruct (C30_write_succeeds swap01 2 mesh2 sn (x_mcol g w)) as (fl & r & E & Pf & Lf); auto.
  - apply C30_instance.
  - intros m [<-|[<-|[]]]; (split; [reflexivity|]); cbn; intros p [<-|[<-|[]]]; (split; [split; cbn; lra|]); (split; [cbn; lra|]); (split; [discriminate|]); cbn; intros a [<-|[<-|[]]]; lra.
  - unfold moc_set. cbn [x_geo ge_cell ge_nxy ge_ms]. rewrite E. do 2 eexists. split; [reflexivity|]. cbn. rewrite Nat.eqb_refl. split; [congruence|exact Pf].
Qed.
Lemma x_get : forall g w, length (x_mcol g w) = 8 -> exists pv, moc_get Wx x_mcol x_geo g w = Some pv /\ length pv = 4.
Proof.
  intros g w L. unfold moc_get, PflModel.get_pin_flux. cbn [x_geo ge_cell ge_nxy ge_ms ge_vol]. destruct (x_mcol g w) as [|a [|b [|c [|d [|e [|f [|h [|i [|]]]]]]]]] eqn:Ec; try discriminate.
  cbn [mesh2 macro_means ml_pins plane_means pinA pinB pg_areas length pin_mean mvols combine flat_map plane_vols fst snd map app skipn firstn Nat.ltb Nat.leb orb vsum fold_left].
  repeat (match goal with |- context [Reqb ?x 0] => destruct (Reqb_spec x 0); [exfalso; lra|] end). cbn.
  repeat (match goal with |- context [Reqb ?x 0] => destruct (Reqb_spec x 0); [exfalso; lra|] end). cbn. eexists. split; reflexivity.
Qed.
Example C115_instance : Laws Wx x_mcol x_mput x_smps x_sput (x_ssweep (x_sn 1)) /\ mesh_good (ge_cell x_geo) (ge_nxy x_geo) [1; 5]%R (ge_ms x_geo) /\ ge_vol x_geo = mvols [1; 5]%R (ge_ms x_geo) /\
  exists t', sweep Wx x_mcol x_mput x_smps x_sput x_msweep (x_ssweep (x_sn 1)) (fun _ w => Got w) x_geo x_op true 0 (fresh Wx x_w) = Got t' /\ t_swept Wx t' = [(0%Z, 0)].
Proof.
  split; [apply x_laws|]. split; [apply C30_instance|]. split; [reflexivity|]. unfold sweep. cbn [negb Nat.eqb fresh t_w t_i t_res t_prev t_swept]. change (-1 + 1)%Z with 0%Z.
  assert (P1 : forall sn : list R, length sn = 4 -> nth 0 sn 0%R = 1%R -> (forall k, 0 < k < 4 -> nth k sn 0%R = 1%R) -> forall v, In v sn -> (0 < v)%R).
  { intros sn L A B v I. apply (In_nth _ _ 0%R) in I. destruct I as (k & Hk & <-). destruct k as [|k]; [lra|]. rewrite B by lia. lra. }
  assert (CL : forall l : list R, (forall v, In v l -> (0 < v)%R) -> clip l = l). { induction l as [|x l IH]; intros H; [reflexivity|]. cbn [clip map]. fold (clip l). rewrite IH by (intros; apply H; now right). pose proof (H x (or_introl eq_refl)). destruct (Rltb_spec x 0); [lra|reflexivity]. }
  unfold opening. cbn [x_op o_tl o_v obind]. unfold x_ssweep at 1. cbn [obind]. destruct (x_flux 1 0 (x_sput 0 (x_sn 1) x_w) eq_refl) as (sn & -> & L & A & B). cbn [odef obind]. pose proof (P1 sn L A B) as Ps. unfold project at 1. rewrite CL by auto.
  destruct (x_set sn 0 (x_sput 0 (x_sn 1) x_w) L Ps) as (w2 & r & E2 & L2 & P2); [reflexivity|intros v I; apply repeat_spec in I; lra|]. rewrite E2. cbn [obind fst].
  assert (E0 : exists w1, x_msweep 0 w2 = Got w1 /\ length (x_mcol 0 w1) = 8 /\ forall v, In v (x_mcol 0 w1) -> (0 < v)%R).
  { eexists. split; [reflexivity|]. unfold x_mcol, x_mput. cbn [fst Nat.eqb]. split; [now rewrite map_length|]. intros v I. apply in_map_iff in I. destruct I as (x & <- & I). specialize (P2 x I). lra. }
  unfold moc_part. change (do_moc x_op 0) with (@Got bool true). cbn [obind o_mocp x_op]. destruct E0 as (w1 & -> & L1 & Q1). cbn [obind].
  destruct (x_get 0 w1 L1) as (pv & Eg & Lp). rewrite Eg. cbn [odef obind]. unfold sn_part. unfold x_ssweep. cbn [obind]. destruct (x_flux 1 0 (x_sput 0 (x_sn 1) w1) eq_refl) as (sn' & -> & L' & A' & B'). cbn [odef obind o_snp x_op]. pose proof (P1 sn' L' A' B') as Ps'. unfold project. rewrite CL by auto.
  destruct (x_set sn' 0 (x_sput 0 (x_sn 1) w1) L' Ps') as (w3 & r3 & E3 & _); [exact L1|exact Q1|]. rewrite E3. cbn [obind fst]. unfold residual. destruct pv as [|p1 [|p2 [|p3 [|p4 [|]]]]]; try discriminate. destruct sn' as [|s1 [|s2 [|s3 [|s4 [|]]]]]; try discriminate. cbn [sq_sum].
  unfold rdiv. destruct (Reqb_spec (INR (ge_npin x_geo)) 0) as [H|_]; [cbn in H; lra|]. cbn [odef obind]. eexists. split; reflexivity.
Qed.
(** The Sn sweeper leaves one pin of one group with a negative flux, all others positive: the sweep is refused. *)
Theorem C115_negative_refuted : exists W mcol mput smps sput msweep ssweep leak geo hs op t, Laws W mcol mput smps sput ssweep /\ mesh_good (ge_cell geo) (ge_nxy geo) hs (ge_ms geo) /\ ge_vol geo = mvols hs (ge_ms geo) /\
  o_snp op = true /\ (forall g w w' sn, ssweep g w = Got w' -> snflux W smps geo g w' = Some sn -> length sn = 4 /\ (nth 0 sn 0 < 0)%R /\ forall k, 0 < k < 4 -> (0 < nth k sn 0)%R) /\
  sweep W mcol mput smps sput msweep ssweep leak geo op true 0 t = Threw.
Proof.
  exists Wx, x_mcol, x_mput, x_smps, x_sput, x_msweep, (x_ssweep (x_sn (-1))), (fun _ w => Got w), x_geo, [1; 5]%R, (mkOp false false true false 1 1), (fresh Wx x_w).
  split; [apply x_laws|]. split; [apply C30_instance|]. split; [reflexivity|]. split; [reflexivity|]. split.
  - intros g w w' sn E F. injection E as <-. destruct (x_flux (-1) g (x_sput g (x_sn (-1)) w)) as (sn' & E' & L & A & B); [unfold x_smps, x_sput; cbn [snd]; now rewrite Nat.eqb_refl|].
    rewrite F in E'. injection E' as <-. split; [exact L|]. split; [lra|]. intros k Hk. rewrite (B k Hk). lra.
  - unfold sweep. cbn [negb Nat.eqb fresh t_w t_i t_res t_prev t_swept]. change (-1 + 1)%Z with 0%Z. unfold opening. cbn [o_tl o_v obind]. unfold moc_part. change (do_moc _ 0) with (@Got bool false). cbn [obind o_mocp].
    destruct (x_get 0 x_w eq_refl) as (pv & -> & _). cbn [odef obind]. destruct (x_flux (-1) 0 (x_sput 0 (x_sn (-1)) x_w) eq_refl) as (sn & Es & L & A & _).
    rewrite (C115_negative_throws Wx x_mcol x_mput x_smps (x_ssweep (x_sn (-1))) x_geo (mkOp false false true false 1 1) 0 pv x_w _ sn (nth 0 sn 0%R) eq_refl eq_refl Es); [reflexivity|apply nth_In; lia|lra].
Qed.
Print Assumptions C115_negative_refuted.

(** Three outer iterations of two groups, the first inactive, every second one with MoC: MoC runs in the third only. *)
Lemma x_step : forall i m g t, m <> 0%Z -> (forall g', length (x_mcol g' (t_w Wx t)) = 8) -> exists t', sweep Wx x_mcol x_mput x_smps x_sput x_msweep (x_ssweep (x_sn 1)) (fun _ w => Got w) x_geo (mkOp false false false false i m) true g t = Got t' /\
  (forall g', length (x_mcol g' (t_w Wx t')) = 8).
Proof.
  intros i m g t M L. unfold sweep. cbn [negb]. set (n := if g =? 0 then _ else _). unfold opening. cbn [o_tl o_v obind]. unfold moc_part. assert (D : exists d, do_moc (mkOp false false false false i m) n = Got d).
  { unfold do_moc. cbn [o_inactive o_modulo]. destruct (Z.ltb _ _); [|eauto]. destruct (Z.eqb_spec m 0); [contradiction|eauto]. }
  destruct D as (d & ->). cbn [obind o_mocp]. assert (K : exists w1, (if d then x_msweep g (t_w Wx t) else Got (t_w Wx t)) = Got w1 /\ forall g', length (x_mcol g' w1) = 8).
  { destruct d; eexists; (split; [reflexivity|]); [|exact L]. intros g'. unfold x_mcol, x_mput. cbn [fst]. destruct (g' =? g); [rewrite map_length|]; apply L. }
  destruct K as (w1 & -> & L1). cbn [obind]. destruct (x_get g w1 (L1 g)) as (pv & -> & Lp). cbn [odef obind]. unfold sn_part, x_ssweep. cbn [obind o_snp]. destruct (x_flux 1 g (x_sput g (x_sn 1) w1)) as (sn & -> & Ls & _); [unfold x_smps, x_sput; cbn [snd]; now rewrite Nat.eqb_refl|].
  cbn [odef obind]. unfold residual. destruct pv as [|p1 [|p2 [|p3 [|p4 [|]]]]]; try discriminate. destruct sn as [|s1 [|s2 [|s3 [|s4 [|]]]]]; try discriminate. cbn [sq_sum].
  unfold rdiv. destruct (Reqb_spec (INR (ge_npin x_geo)) 0) as [H|_]; [cbn in H; lra|]. cbn [odef obind]. eexists. split; [reflexivity|]. exact L1.
Qed.
Example C114_instance : exists evs t', groups_of Wx evs = concat (repeat (seq 0 2) 3) /\ run Wx x_mcol x_mput x_smps x_sput x_msweep (x_ssweep (x_sn 1)) (fun _ w => Got w) x_geo (mkOp false false false false 1 2) true evs (fresh Wx x_w) = Got t' /\
  t_swept Wx t' = [(2%Z, 0); (2%Z, 1)].
Proof.
  exists (map (ESweep Wx) [0; 1; 0; 1; 0; 1]). assert (Rn : forall gs t, (forall g', length (x_mcol g' (t_w Wx t)) = 8) -> exists t', run Wx x_mcol x_mput x_smps x_sput x_msweep (x_ssweep (x_sn 1)) (fun _ w => Got w) x_geo (mkOp false false false false 1 2) true (map (ESweep Wx) gs) t = Got t').
  { induction gs as [|g gs IH]; intros t L; cbn [map run]; [eauto|]. destruct (x_step 1 2 g t ltac:(lia) L) as (t1 & -> & L1). cbn [obind]. apply IH, L1. }
  destruct (Rn [0; 1; 0; 1; 0; 1] (fresh Wx x_w)) as (t' & E); [reflexivity|]. exists t'. split; [reflexivity|]. split; [exact E|].
  rewrite (C114_schedule Wx _ _ _ _ _ _ _ _ (mkOp false false false false 1 2) (map (ESweep Wx) [0; 1; 0; 1; 0; 1]) 2 3 _ _ ltac:(lia) ltac:(discriminate) eq_refl E). reflexivity.
Qed.

(** ** C116 *)
Lemma loop_sing : forall pf a c res fl r, set_pin_loop 0 (length a) pf (map (fun v => [v]) (a ++ c)) res = Some (fl, r) -> length pf <= length c /\ fl = map (fun v => [v]) (a ++ pf ++ skipn (length pf) c).
Proof.
  induction pf as [|v pf IH]; intros a c res fl r E; cbn [set_pin_loop] in E; [injection E as <- _; split; [cbn; lia|reflexivity]|].
  destruct (nth_error (map _ (a ++ c)) 1) as [row1|]; [|discriminate]. destruct (nth_error (map _ (a ++ c)) (length a)) as [row|] eqn:E0; [|discriminate]. destruct c as [|x c].
  { exfalso. rewrite app_nil_r in E0. assert (length (map (fun v : R => [v]) a) <= length a) by (rewrite map_length; lia). apply nth_error_None in H. congruence. }
  rewrite map_app, nth_error_app2, map_length, Nat.sub_diag in E0 by (rewrite map_length; lia). cbn in E0. injection E0 as <-. cbn [McModel.set_nth] in E. destruct (nth_error row1 0) as [f1|]; [|discriminate].
  destruct (McModel.set_nth (map _ (a ++ x :: c)) (length a) [v]) as [fl1|] eqn:Ef; [|discriminate].
  assert (fl1 = map (fun v => [v]) ((a ++ [v]) ++ c)) as ->.
  { clear - Ef. revert fl1 Ef. induction a as [|y a IH]; intros fl1 Ef; cbn in Ef; [now injection Ef as <-|]. destruct (McModel.set_nth (map _ (a ++ x :: c)) (length a) [v]) as [q|]; [|discriminate]. injection Ef as <-. cbn. f_equal. now apply IH. }
  replace (S (length a)) with (length (a ++ [v])) in E by (rewrite app_length; cbn; lia). destruct (IH _ _ _ _ _ E) as [L ->]. split; [cbn; lia|]. now rewrite <- app_assoc.
Qed.
Lemma sn_set_spec : forall pf ms ms', sn_set_pin pf ms = Some ms' -> length pf <= length (flat ms) /\ ms' = refill ms (pf ++ skipn (length pf) (flat ms)).
Proof.
  intros pf ms ms' E. unfold sn_set_pin, SnModel.set_pin_flux in E. destruct (set_pin_loop 0 0 pf _ 0) as [[fl r]|] eqn:El; [|discriminate]. injection E as <-. destruct (loop_sing pf [] _ _ _ _ El) as [L ->]. split; [exact L|]. f_equal. cbn [app].
  assert (C : forall l : list R, concat (map (fun v => [v]) l) = l) by (induction l as [|x l IH]; [reflexivity|cbn; now f_equal]). apply C.
Qed.
(** Every macroplane is a single plane of [n] cells. *)
Definition single (n : nat) (m : MP) : Prop := mp_h m <> 0%R /\ exists p, mp_pl m = [(mp_h m, p)] /\ length p = n.
Lemma flat_single : forall n ms, Forall (single n) ms -> length (flat ms) = n * length ms.
Proof. intros n ms F. induction F as [|m ms (_ & p & E & L) F IH]; [cbn; lia|]. unfold flat in *. cbn [map concat]. rewrite app_length, IH, E. cbn. rewrite app_nil_r, L. lia. Qed.
Lemma refill_single : forall n ms col, Forall (single n) ms -> length col = n * length ms -> sn_get n (refill ms col) = Some col.
Proof.
  intros n ms col F. revert col. induction F as [|m ms (Hm & p & E & L) F IH]; intros col Lc; cbn [refill length] in *.
  - destruct col; [reflexivity|cbn in Lc; lia].
  - rewrite E. cbn [refill_planes]. rewrite L. unfold sn_get in *. cbn [get_pin_plane]. destruct (get_mp_spec n (mkMP (mp_h m) [(mp_h m, firstn n col)])) as (l & El & Ll & Al); [split; [exact Hm|repeat constructor; cbn; rewrite firstn_length; lia]|]. rewrite El.
    specialize (IH (skipn n col) ltac:(rewrite skipn_length; lia)). destruct (get_pin_plane n (refill ms (skipn n col))) as [q|]; [|discriminate]. injection IH as IH. cbn [concat]. rewrite IH. f_equal. rewrite <- (firstn_skipn n col) at 2. f_equal.
    apply (nth_ext _ _ 0%R 0%R); [rewrite Ll, firstn_length; lia|]. intros k Hk. rewrite Al by lia. unfold mean. cbn [mp_pl mp_h fold_right fst snd]. field. exact Hm.
Qed.
Lemma get_length : forall cell nxy n zs ms fl vol out, PflModel.get_pin_flux cell nxy n zs ms fl vol = Some out -> length out = n.
Proof.
  intros cell nxy n zs ms fl vol out E. unfold PflModel.get_pin_flux in E. destruct (macro_means ms fl vol); [|discriminate]. revert E. generalize (macro_writes cell nxy zs ms l). intros ds. rewrite <- (repeat_length 0%R n) at 2. generalize (repeat 0%R n). 
  induction ds as [|[i d] ds IH]; intros t E; cbn [deposit] in E; [now injection E as <-|]. destruct (add_at t i (d * 1)) as [t'|] eqn:A; [|discriminate]. rewrite (IH _ E). clear - A.
  revert i d t' A. induction t as [|x t IH]; intros [|i] d t' A; cbn in A; try discriminate; [now injection A as <-|]. destruct (add_at t i (d * 1)) as [q|] eqn:Q; [|discriminate]. injection A as <-. cbn. f_equal. eauto.
Qed.
(** With moc_project and one plane per macroplane, the Sn sweep that follows starts from exactly the pin fluxes of the MoC
    sweeper, whose flux is not changed by handing them over. *)
Theorem C116_handover : forall W mcol mput smps sput msweep ssweep geo op g i w w' prev d, Laws W mcol mput smps sput ssweep -> (forall w w', msweep g w = Got w' -> smps g w' = smps g w) ->
  Forall (single (ge_nxy geo)) (smps g w) -> length (smps g w) = length (ge_ms geo) -> o_mocp op = true -> moc_part W mcol smps sput msweep geo op g i w = Got (w', prev, d) ->
  snflux W smps geo g w' = Some prev /\ moc_get W mcol geo g w' = Some prev.
Proof.
  intros W mcol mput smps sput msweep ssweep geo op g i w w' prev d L Hm F Ln P E. unfold moc_part in E. rewrite P in E. apply obind_got in E. destruct E as (d' & _ & E). apply obind_got in E. destruct E as (w1 & E1 & E). apply obind_got in E.
  destruct E as (pv & Eg & E). apply odef_got in Eg. apply obind_got in E. destruct E as (w2 & Es & E). apply odef_got in Es. injection E as <- <- <-. assert (S1 : smps g w1 = smps g w) by (destruct d'; [now apply Hm|now injection E1 as <-]).
  rewrite S1 in Es. destruct (sn_set_pin pv (smps g w)) as [ms|] eqn:Eq; [|discriminate]. injection Es as <-. split.
  - unfold snflux. rewrite (l_ss _ _ _ _ _ _ L), Nat.eqb_refl. destruct (sn_set_spec _ _ _ Eq) as [Le ->]. assert (Lp : length pv = ge_nxy geo * length (smps g w)) by (rewrite Ln; eapply get_length; exact Eg).
    rewrite skipn_all2 by (rewrite (flat_single _ _ F); lia). rewrite app_nil_r. now apply refill_single.
  - unfold moc_get in *. now rewrite (l_sm _ _ _ _ _ _ L).
Qed.
Print Assumptions C116_handover.

(** One plane of two pins. *)
Definition y_geo : Geo := mkGeo swap01 2 [mkMPl 0 0 [pinA; pinB]] (mvols [1]%R [mkMPl 0 0 [pinA; pinB]]) 2.
Definition y_w : Wx := (fun _ => [1; 3; 5; 7]%R, fun _ => [mkMP 1 [(1%R, [9; 9]%R)]]).
Example C116_instance : exists w' prev d, moc_part Wx x_mcol x_smps x_sput x_msweep y_geo (mkOp false false false true 0 1) 0 0 y_w = Got (w', prev, d) /\ d = true /\ length prev = 2 /\ Forall (single (ge_nxy y_geo)) (x_smps 0 y_w) /\ length (x_smps 0 y_w) = length (ge_ms y_geo) /\
  (forall w w', x_msweep 0 w = Got w' -> x_smps 0 w' = x_smps 0 w) /\ snflux Wx x_smps y_geo 0 w' = Some prev.
Proof.
  assert (S1 : Forall (single (ge_nxy y_geo)) (x_smps 0 y_w)). { repeat constructor; cbn; [lra|]. exists [9; 9]%R. split; reflexivity. }
  assert (S2 : forall w w', x_msweep 0 w = Got w' -> x_smps 0 w' = x_smps 0 w) by (intros w w' E; injection E as <-; reflexivity).
  assert (G : exists w' prev d, moc_part Wx x_mcol x_smps x_sput x_msweep y_geo (mkOp false false false true 0 1) 0 0 y_w = Got (w', prev, d) /\ d = true /\ length prev = 2).
  { unfold moc_part. change (do_moc _ 0) with (@Got bool true). cbn [obind]. unfold x_msweep. cbn [obind]. set (w1 := x_mput _ _ _).
    assert (E : exists pv, moc_get Wx x_mcol y_geo 0 w1 = Some pv /\ length pv = 2).
    { unfold moc_get, PflModel.get_pin_flux. cbn. repeat (match goal with |- context [Reqb ?x 0] => destruct (Reqb_spec x 0); [exfalso; lra|] end). cbn. eexists. split; reflexivity. }
    destruct E as (pv & -> & L). cbn [odef obind o_mocp]. destruct pv as [|p1 [|p2 [|]]]; try discriminate. cbn. do 3 eexists. split; [reflexivity|]. split; reflexivity. }
  destruct G as (w' & prev & d & E & D & L). exists w', prev, d. split; [exact E|]. split; [exact D|]. split; [exact L|]. split; [exact S1|]. split; [reflexivity|]. split; [exact S2|].
  eapply (C116_handover Wx x_mcol x_mput x_smps x_sput x_msweep (x_ssweep [])); [apply x_laws|exact S2|exact S1|reflexivity| |exact E]. reflexivity.
Qed.
(** What is false: with two planes in a macroplane the values of the macroplane mesh are written to the first cells of the
    full mesh.  One pin, a macroplane of two planes of height one, MoC pin flux 2, Sn flux 4 in both planes: afterwards the
    Sn pin flux is 3. *)
Theorem C116_subplanes_refuted : exists geo op w w' prev d, ge_nxy geo = 1 /\ o_mocp op = true /\ moc_part Wx x_mcol x_smps x_sput (fun _ w => Got w) geo op 0 0 w = Got (w', prev, d) /\
  Forall (fun m => mp_h m = fold_right (fun p s => fst p + s)%R 0%R (mp_pl m)) (x_smps 0 w) /\ length (x_smps 0 w) = length (ge_ms geo) /\
  (exists v, prev = [v] /\ v = 2%R) /\ exists v, snflux Wx x_smps geo 0 w' = Some [v] /\ v = 3%R.
Proof.
  exists (mkGeo (fun i => i) 1 [mkMPl 0 1 [mkPG 1 [1%R]]] [2%R] 2), (mkOp false false false true 0 1), (fun _ => [2%R], fun _ => [mkMP 2 [(1%R, [4%R]); (1%R, [4%R])]]).
  unfold moc_part. change (do_moc _ 0) with (@Got bool true). cbn [obind]. unfold moc_get, PflModel.get_pin_flux. cbn. destruct (Reqb_spec (0 + 2) 0); [lra|]. cbn. do 3 eexists. split; [reflexivity|]. split; [reflexivity|]. split; [reflexivity|].
  split; [repeat constructor; cbn; lra|]. split; [reflexivity|]. split; [eexists; split; [reflexivity|lra]|]. unfold snflux, sn_get. cbn. unfold rdiv. destruct (Reqb_spec 2 0); [lra|]. cbn. eexists. split; [reflexivity|]. lra.
Qed.
Print Assumptions C116_subplanes_refuted.

(** ** C117 *)
Lemma rows_len : forall n k l, length (rows n k l) = k.
Proof. intros n. induction k as [|k IH]; intros l; cbn; [reflexivity|]. now rewrite IH. Qed.
Lemma concat_rows : forall n k l, length l = n * k -> concat (rows n k l) = l.
Proof. intros n. induction k as [|k IH]; intros l L; cbn; [destruct l; [reflexivity|cbn in L; lia]|]. rewrite IH by (rewrite skipn_length; lia). apply firstn_skipn. Qed.
Lemma rows_ok : forall n k l (P : R -> Prop), length l = n * k -> (forall v, In v l -> P v) -> Forall (fun r => length r = n /\ forall v, In v r -> P v) (rows n k l).
Proof.
  intros n. induction k as [|k IH]; intros l P L H; cbn; constructor.
  - split; [rewrite firstn_length; lia|]. intros v I. apply H. rewrite <- (firstn_skipn n l). apply in_or_app. now left.
  - apply IH; [rewrite skipn_length; lia|]. intros v I. apply H. rewrite <- (firstn_skipn n l). apply in_or_app. now right.
Qed.
(** The Sn flux of a group fits the mesh and no pin flux is zero. *)
Definition sn_fits (geo : Geo) (ms : list MP) : Prop := length ms = length (ge_ms geo) /\ Forall (fun m => mp_ok (ge_nxy geo) m /\ forall k, k < ge_nxy geo -> mean m k <> 0%R) ms.

Section C.
Variable W : Type.
Variable mcol : nat -> W -> list R.
Variable mput : nat -> list R -> W -> W.
Variable smps : nat -> W -> list MP.
Variable sput : nat -> list MP -> W -> W.
Variable ssweep : nat -> W -> Out W.
Variable geo : Geo.
Variable hs : list R.
Hypothesis laws : Laws W mcol mput smps sput ssweep.
Hypothesis good : mesh_good (ge_cell geo) (ge_nxy geo) hs (ge_ms geo).
Hypothesis vols : ge_vol geo = mvols hs (ge_ms geo).
Lemma set_1g_spec : forall g pf w w' r, sn_fits geo (smps g w) -> set_1g W mcol mput smps sput geo g pf w = Got (w', r) ->
  moc_get W mcol geo g w' = Some pf /\ snflux W smps geo g w' = Some pf /\ (forall v, In v pf -> (0 < v)%R) /\
  (exists fs, length fs = length (sizes (ge_ms geo)) /\ mcol g w' = scale_blocks (sizes (ge_ms geo)) fs (mcol g w)) /\
  forall g', g' <> g -> mcol g' w' = mcol g' w /\ smps g' w' = smps g' w.
Proof.
  intros g pf w w' r [Ln F] E. unfold set_1g in E. apply obind_got in E. destruct E as (w1 & E1 & E). apply odef_got in E1. unfold sn_put in E1.
  destruct (set_get W mcol mput smps sput ssweep geo hs laws good vols _ _ _ _ _ E) as (G & Pos & Hs & Ho & fs & Lf & Ef).
  assert (Lp : length pf = ge_nxy geo * length (smps g w)). { rewrite Ln. unfold moc_set, PflModel.set_pin_flux in E. destruct (existsb _ pf); [discriminate|]. destruct (Nat.eqb_spec (length pf) (ge_nxy geo * length (ge_ms geo))); [assumption|discriminate]. }
  destruct (C47_plane_round_trip (ge_nxy geo) (smps g w) (rows (ge_nxy geo) (length (smps g w)) pf)) as (ms & r0 & Es & Eg & _).
  { eapply Forall_impl; [|exact F]. cbn. tauto. }
  { pose proof (rows_ok (ge_nxy geo) (length (smps g w)) pf (fun v => 0 < v)%R Lp Pos) as K. pose proof (rows_len (ge_nxy geo) (length (smps g w)) pf) as KL. revert K KL F. clear. generalize (rows (ge_nxy geo) (length (smps g w)) pf). generalize (smps g w). clear.
    induction l as [|m l IH]; intros [|v rs] K KL F; try discriminate; constructor.
    - inversion K as [|? ? [L P] _]; subst. inversion F as [|? ? [_ M] _]; subst. split; [exact L|]. intros k Hk. split; [|now apply M]. apply Rgt_not_eq. apply P, nth_In. lia.
    - inversion K; inversion F; subst. apply IH; auto. }
  rewrite Es in E1. injection E1 as <-. split; [exact G|]. split.
  { unfold snflux. rewrite Hs, (l_ss _ _ _ _ _ _ laws), Nat.eqb_refl. unfold sn_get. rewrite Eg. f_equal. apply concat_rows. exact Lp. }
  split; [exact Pos|]. split; [exists fs; split; [exact Lf|]; now rewrite Ef, (l_sm _ _ _ _ _ _ laws)|].
  intros g' D. split; [now rewrite (Ho g' D), (l_sm _ _ _ _ _ _ laws)|]. rewrite Hs, (l_ss _ _ _ _ _ _ laws). now rewrite (proj2 (Nat.eqb_neq _ _) D).
Qed.
Lemma set_all_spec : forall pfs g w w' r, (forall g', sn_fits geo (smps g' w)) -> set_all W mcol mput smps sput geo g pfs w = Got (w', r) ->
  (forall k pf, nth_error pfs k = Some pf -> moc_get W mcol geo (g + k) w' = Some pf /\ snflux W smps geo (g + k) w' = Some pf /\ (forall v, In v pf -> (0 < v)%R) /\
     exists fs, length fs = length (sizes (ge_ms geo)) /\ mcol (g + k) w' = scale_blocks (sizes (ge_ms geo)) fs (mcol (g + k) w)) /\
  forall g', (g' < g \/ g + length pfs <= g') -> mcol g' w' = mcol g' w /\ smps g' w' = smps g' w.
Proof.
  (* the groups after the first only need their own Sn flux to fit *)
  assert (H : forall pfs g w w' r, (forall g', g <= g' -> sn_fits geo (smps g' w)) -> set_all W mcol mput smps sput geo g pfs w = Got (w', r) ->
    (forall k pf, nth_error pfs k = Some pf -> moc_get W mcol geo (g + k) w' = Some pf /\ snflux W smps geo (g + k) w' = Some pf /\ (forall v, In v pf -> (0 < v)%R) /\
       exists fs, length fs = length (sizes (ge_ms geo)) /\ mcol (g + k) w' = scale_blocks (sizes (ge_ms geo)) fs (mcol (g + k) w)) /\
    forall g', (g' < g \/ g + length pfs <= g') -> mcol g' w' = mcol g' w /\ smps g' w' = smps g' w).
  { induction pfs as [|pf pfs IH]; intros g w w' r F E; cbn [set_all] in E.
    - injection E as <- _. split; [intros [|k] ? ?; discriminate|]. auto.
    - apply obind_got in E. destruct E as ([w1 r1] & E1 & E). apply obind_got in E. destruct E as ([w2 r2] & E2 & E). cbn [fst] in *. injection E as <- _. destruct (set_1g_spec _ _ _ _ _ (F g (le_n g)) E1) as (G1 & S1 & P1 & Sh & O1).
      destruct (IH (S g) w1 w2 r2) as [A B]; [intros g' Hg; rewrite (proj2 (O1 g' ltac:(lia))); apply F; lia|exact E2|]. cbn [length]. destruct (B g ltac:(lia)) as [B1 B2]. split.
      + intros [|k] q Q; cbn in Q.
        * injection Q as <-. rewrite Nat.add_0_r. unfold moc_get, snflux in *. rewrite B1, B2. auto.
        * replace (g + S k) with (S g + k) by lia. destruct (A k q Q) as (A1 & A2 & A3 & fs & A4 & A5). repeat (split; [assumption|]). exists fs. split; [exact A4|]. rewrite A5. f_equal. apply O1. lia.
      + intros g' Hg. destruct (B g' ltac:(lia)) as [C1 C2]. rewrite C1, C2. apply O1. lia. }
  intros pfs g w w' r F. apply H. intros g' _. apply F.
Qed.
End C.
(** A CMFD step of a 2D3D calculation that ends normally: the CMFD solver gets the pin fluxes the sweeper exposes and the
    present eigenvalue; afterwards the eigenvalue is the one it found, and in every group both the MoC and the Sn sweeper
    have as pin fluxes the absolute values of what it found, none of them zero, the MoC flux keeping its shape within each
    pin. *)
Theorem C117_cmfd_step : forall W mcol mput smps sput ssweep geo hs expose ng solve k w w' k', Laws W mcol mput smps sput ssweep -> mesh_good (ge_cell geo) (ge_nxy geo) hs (ge_ms geo) -> ge_vol geo = mvols hs (ge_ms geo) ->
  (forall g, sn_fits geo (smps g w)) -> do_cmfd W mcol mput smps sput geo expose ng solve k w = Got (w', k') ->
  exists pf f, solve k pf = Got (k', f) /\ length pf = ng /\ (forall g, g < ng -> exists p, nth_error pf g = Some p /\ (if expose then snflux W smps geo g w else moc_get W mcol geo g w) = Some p) /\
    forall g l, nth_error f g = Some l -> moc_get W mcol geo g w' = Some (map Rabs l) /\ snflux W smps geo g w' = Some (map Rabs l) /\ (forall v, In v l -> v <> 0%R) /\
      exists fs, length fs = length (sizes (ge_ms geo)) /\ mcol g w' = scale_blocks (sizes (ge_ms geo)) fs (mcol g w).
Proof.
  intros W mcol mput smps sput ssweep geo hs expose ng solve k w w' k' L G V F E. unfold do_cmfd in E. apply obind_got in E. destruct E as (pf & Ep & E). apply odef_got in Ep. apply obind_got in E. destruct E as ([k1 f] & Es & E). apply obind_got in E.
  destruct E as ([w1 r] & Ea & E). cbn [fst] in E. injection E as <- <-. exists pf, f. split; [exact Es|]. assert (Fx : forall l, fix_negative l = map Rabs l).
  { intros l. unfold fix_negative. apply map_ext. intros v. destruct (Rltb_spec v 0) as [H|H]; [now rewrite Rabs_left|rewrite Rabs_pos_eq; [reflexivity|lra]]. }
  assert (Pf : forall cnt g pf, pin_flux W mcol smps geo expose g cnt w = Some pf -> length pf = cnt /\ forall j, j < cnt -> exists p, nth_error pf j = Some p /\ pin_flux_1g W mcol smps geo expose (g + j) w = Some p).
  { clear. induction cnt as [|c IH]; intros g pf E; cbn [pin_flux] in E; [injection E as <-; split; [reflexivity|intros; lia]|]. destruct (pin_flux_1g W mcol smps geo expose g w) as [a|] eqn:Ea; [|discriminate].
    destruct (pin_flux W mcol smps geo expose (S g) c w) as [b|] eqn:Eb; [|discriminate]. injection E as <-. destruct (IH _ _ Eb) as [Lb Hb]. split; [cbn; lia|]. intros [|j] Hj; [exists a; rewrite Nat.add_0_r; auto|]. cbn. replace (g + S j) with (S g + j) by lia. apply Hb. lia. }
  destruct (Pf _ _ _ Ep) as [Lp Hp]. split; [exact Lp|]. split; [exact Hp|]. intros g l El. destruct (set_all_spec W mcol mput smps sput ssweep geo hs L G V _ _ _ _ _ F Ea) as [A _].
  destruct (A g (fix_negative l)) as (A1 & A2 & A3 & A4); [now apply map_nth_error|]. rewrite Fx in *. split; [exact A1|]. split; [exact A2|]. split; [|exact A4].
  intros v I. assert (0 < Rabs v)%R by (apply A3; now apply in_map). intros ->. rewrite Rabs_R0 in H. lra.
Qed.
Print Assumptions C117_cmfd_step.
Lemma x_fits : forall g, sn_fits x_geo (x_smps g x_w).
Proof. intros g. split; [reflexivity|]. cbn [x_w x_smps snd x_sn]. repeat constructor; cbn; try lra; (intros [|[|k]] Hk; [| |lia]); unfold mean; cbn; lra. Qed.
Example C117_instance : (forall g, sn_fits x_geo (x_smps g x_w)) /\ exists w', do_cmfd Wx x_mcol x_mput x_smps x_sput x_geo true 1 (fun k pf => Got (2 * k, [[1; -2; 3; 4]])%R) 1 x_w = Got (w', (2 * 1)%R) /\
  moc_get Wx x_mcol x_geo 0 w' = Some (map Rabs [1; -2; 3; 4]%R).
Proof.
  split; [exact x_fits|]. assert (H : exists w', do_cmfd Wx x_mcol x_mput x_smps x_sput x_geo true 1 (fun k pf => Got (2 * k, [[1; -2; 3; 4]])%R) 1 x_w = Got (w', (2 * 1)%R)).
  { unfold do_cmfd, pin_flux, pin_flux_1g. destruct (x_flux 1 0 x_w eq_refl) as (sn & -> & _). cbn [odef obind map set_all]. unfold set_1g, sn_put. set (pf := fix_negative _).
    assert (Ep : pf = [1; 2; 3; 4]%R). { unfold pf, fix_negative. cbn [map]. rewrite (Rltb_false 1 0), (Rltb_true (-2) 0), (Rltb_false 3 0), (Rltb_false 4 0) by lra. repeat f_equal. lra. }
    clearbody pf. subst pf. destruct (C47_plane_round_trip 2 (x_smps 0 x_w) (rows 2 2 [1; 2; 3; 4]%R)) as (ms & r0 & Es & _).
    - eapply Forall_impl; [|apply (x_fits 0)]. cbn. tauto.
    - cbn [rows firstn skipn x_smps x_w snd x_sn]. (constructor; [|constructor; [|constructor]]); (split; [reflexivity|]); intros [|[|k]] Hk; try lia; unfold mean; cbn; lra.
    - cbn [x_geo ge_nxy]. change (length (x_smps 0 x_w)) with 2 in *. rewrite Es. cbn [odef obind]. destruct (x_set [1; 2; 3; 4]%R 0 (x_sput 0 ms x_w) eq_refl) as (w2 & r & E2 & _).
      + intros v I. cbn in I. repeat (destruct I as [<-|I]; [lra|]). destruct I.
      + reflexivity.
      + intros v I. apply repeat_spec in I. lra.
      + rewrite E2. cbn [obind fst]. eexists. reflexivity. }
  destruct H as [w' E]. exists w'. split; [exact E|]. destruct (C117_cmfd_step Wx x_mcol x_mput x_smps x_sput (x_ssweep []) x_geo [1; 5]%R true 1 _ 1 x_w w' _ (x_laws _) (proj1 C30_instance) eq_refl x_fits E) as (pf & f & Es & _ & _ & A).
  injection Es as <-. apply (A 0 _ eq_refl).
Qed.

(** ** C118 *)
Lemma sum_sq_zero : forall n a b e, sum_sq n a b = Some e -> (0 <= e)%R /\ (e = 0%R <-> firstn n a = firstn n b).
Proof.
  induction n as [|n IH]; intros a b e E; cbn [sum_sq] in E; [injection E as <-; split; [lra|split; reflexivity]|]. destruct a as [|x a]; [discriminate|]. destruct b as [|y b]; [discriminate|].
  destruct (sum_sq n a b) as [t|] eqn:T; [|discriminate]. injection E as <-. destruct (IH _ _ _ T) as [P Z]. pose proof (Rle_0_sqr (x - y)) as Q. unfold Rsqr in Q. split; [lra|]. cbn [firstn]. split.
  - intros H. assert (Ex : ((x - y) * (x - y) = 0)%R) by lra. assert (x = y) by (destruct (Rmult_integral _ _ Ex); lra). subst. f_equal. apply Z. lra.
  - intros H. injection H as -> H. rewrite (proj2 Z H). lra.
Qed.
(** The error is zero exactly when the first [n] normalised entries agree. *)
Lemma psi_error_zero : forall n nf fs fsp e, psi_error n nf fs fsp = Got e -> exists f c fp d, normalize fs = Some (f, c) /\ normalize fsp = Some (fp, d) /\ (0 <= e)%R /\ (e = 0%R <-> firstn n f = firstn n fp).
Proof.
  intros n nf fs fsp e E. unfold psi_error in E. destruct (normalize fs) as [[f c]|]; [|discriminate]. destruct (normalize fsp) as [[fp d]|]; [|discriminate]. destruct (sum_sq n f fp) as [t|] eqn:T; [|discriminate].
  destruct (Nat.eqb_spec nf 0) as [|N]; [discriminate|]. injection E as <-. destruct (sum_sq_zero _ _ _ _ T) as [P Z]. exists f, c, fp, d. split; [reflexivity|]. split; [reflexivity|]. split; [apply sqrt_pos|]. rewrite <- Z.
  assert (0 < INR nf)%R by (apply lt_0_INR; lia). split; [|intros ->; unfold Rdiv; rewrite Rmult_0_l; apply sqrt_0]. intros H1. apply sqrt_eq_0 in H1; [|apply Rmult_le_pos; [lra|left; now apply Rinv_0_lt_compat]].
  unfold Rdiv in H1. apply Rmult_integral in H1. destruct H1 as [H1|H1]; [exact H1|]. pose proof (Rinv_0_lt_compat _ H). lra.
Qed.
(** For a sweeper whose regions are all of the fission source, the error of the fission source is never negative and is zero
    exactly when the source of one iteration is a multiple of the one before, in every region. *)
Theorem C118_single : forall nf fs fsp e, length fs = length fsp -> (exists v, In v fs /\ (0 < v)%R) -> psi_error (length fs) nf fs fsp = Got e ->
  (0 <= e)%R /\ (e = 0%R -> exists c, forall i, i < length fs -> (nth i fs 0 = c * nth i fsp 0)%R) /\ (fs = fsp -> e = 0%R).
Proof.
  intros nf fs fsp e L (v & Iv & Pv) E. destruct (psi_error_zero _ _ _ _ _ E) as (f & c & fp & d & Ef & Ep & P & Z). split; [exact P|]. split; [|intros ->; apply Z; congruence].
  intros H. apply Z in H. unfold normalize in Ef, Ep. destruct (Reqb_spec (total fs) 0) as [|Nf]; [discriminate|]. destruct (Reqb_spec (total fsp) 0) as [|Np]; [discriminate|]. injection Ef as <- Ec. injection Ep as <- Ed.
  rewrite Ec, Ed, !firstn_all2 in H by (rewrite map_length; lia). assert (C0 : c <> 0%R \/ c = 0%R) by (destruct (Req_EM_T c 0); auto). destruct C0 as [C0|C0].
  - exists (d / c)%R. intros i Hi. assert (G : (nth i fs 0 * c = nth i fsp 0 * d)%R).
    { assert (G : nth i (map (fun v => v * c)%R fs) (0 * c)%R = nth i (map (fun v => v * d)%R fsp) (0 * d)%R) by (rewrite H, !Rmult_0_l; reflexivity). rewrite (map_nth (fun v => v * c)%R), (map_nth (fun v => v * d)%R) in G. exact G. }
    transitivity (nth i fs 0 * c / c)%R; [now field|]. rewrite G. field. exact C0.
  - exfalso. assert (0 < INR (count_pos fs))%R.
    { apply lt_0_INR. unfold count_pos. assert (I : In v (filter (fun u => Rltb 0 u) fs)) by (apply filter_In; split; [exact Iv|destruct (Rltb_spec 0 v); [reflexivity|lra]]). destruct (filter (fun u => Rltb 0 u) fs); [destruct I|cbn; lia]. }
    rewrite C0 in Ec. unfold Rdiv in Ec. apply Rmult_integral in Ec. destruct Ec as [Ec|Ec]; [lra|]. now apply (Rinv_neq_0_compat _ Nf).
Qed.
Print Assumptions C118_single.
Example C118_instance : (exists v, In v [1; 3]%R /\ (0 < v)%R) /\ exists e, psi_error 2 1 [1; 3]%R [2; 6]%R = Got e /\ e = 0%R.
Proof.
  split; [exists 1%R; split; [now left|lra]|]. assert (H : exists e, psi_error 2 1 [1; 3]%R [2; 6]%R = Got e).
  { unfold psi_error, normalize, total. cbn [fold_left]. destruct (Reqb_spec (0 + 1 + 3) 0); [lra|]. destruct (Reqb_spec (0 + 2 + 6) 0); [lra|]. cbn [map sum_sq Nat.eqb]. eexists. reflexivity. }
  destruct H as [e E]. exists e. split; [exact E|]. destruct (psi_error_zero _ _ _ _ _ E) as (f & c & fp & d & Ef & Ep & _ & Z). apply Z. unfold normalize, total, count_pos in Ef, Ep. cbn [fold_left] in Ef, Ep.
  destruct (Reqb_spec (0 + 1 + 3) 0); [lra|]. destruct (Reqb_spec (0 + 2 + 6) 0); [lra|]. injection Ef as <- _. injection Ep as <- _. cbn [filter]. rewrite (Rltb_true 0 1), (Rltb_true 0 3), (Rltb_true 0 2), (Rltb_true 0 6) by lra.
  cbn [length map firstn]. f_equal; [|f_equal]; field.
Qed.
(** What is false: for the 2D3D sweeper the sum stops at the number of MoC regions (or Sn regions when these are exposed)
    while the fission source holds those of the Sn sweeper followed by those of the MoC sweeper, so that many regions of the
    MoC sweeper are never looked at.  Two Sn cells and four MoC regions of the same fissile material; the MoC flux of the
    third region moves to the fourth: the error is zero, whatever the solver exposed. *)
Theorem C118_2d3d_refuted : exists sn moc sf mf0 mf1 fs, mesh_fits sn (length sf) /\ mesh_fits moc (length mf0) /\ length mf0 = length mf1 /\ length fs = length sf + length mf0 /\
  (forall b, psi_error_2d3d b sn moc 1 1 1 sf mf0 sf mf1 fs = Got 0%R) /\
  exists a b, calc_fission_2d3d 1 sn moc 1 sf mf0 fs = Some a /\ calc_fission_2d3d 1 sn moc 1 sf mf1 fs = Some b /\ forall c, exists i, i < length b /\ nth i b 0%R <> (c * nth i a 0)%R.
Proof.
  set (x := fun regs => mkXR regs true [1]%R [1]%R [1]%R [1]%R [1]%R sm_two).
  exists [x [0; 1]], [x [0; 1; 2; 3]], [[1]; [1]]%R, [[1]; [1]; [2]; [1]]%R, [[1]; [1]; [1]; [2]]%R, [0; 0; 0; 0; 0; 0]%R.
  assert (E0 : calc_fission_2d3d 1 [x [0; 1]] [x [0; 1; 2; 3]] 1 [[1]; [1]]%R [[1]; [1]; [2]; [1]]%R [0; 0; 0; 0; 0; 0]%R = Some [1; 1; 1; 1; 2; 1]%R).
  { unfold calc_fission_2d3d, calc_fission_source. destruct (Reqb_spec 1 0); [lra|]. cbn. do 2 f_equal; [lra|]. repeat (f_equal; [lra|]). f_equal. lra. }
  assert (E1 : calc_fission_2d3d 1 [x [0; 1]] [x [0; 1; 2; 3]] 1 [[1]; [1]]%R [[1]; [1]; [1]; [2]]%R [0; 0; 0; 0; 0; 0]%R = Some [1; 1; 1; 1; 1; 2]%R).
  { unfold calc_fission_2d3d, calc_fission_source. destruct (Reqb_spec 1 0); [lra|]. cbn. do 2 f_equal; [lra|]. repeat (f_equal; [lra|]). f_equal. lra. }
  split; [|split; [|split; [reflexivity|split; [reflexivity|split]]]].
  - split; [repeat constructor; cbn; intuition discriminate|]. cbn. intros r I. repeat (destruct I as [<-|I]; [lia|]). destruct I.
  - split; [repeat constructor; cbn; intuition discriminate|]. cbn. intros r I. repeat (destruct I as [<-|I]; [lia|]). destruct I.
  - intros b. unfold psi_error_2d3d. rewrite E0, E1. assert (N : n_fissile [x [0; 1; 2; 3]] = 4) by (unfold n_fissile; cbn; destruct (Rltb_spec 0 1); [reflexivity|lra]). rewrite N.
    assert (B : n_reg_2d3d b [[1]; [1]]%R [[1]; [1]; [1]; [2]]%R = if b then 2 else 4) by now destruct b. rewrite B.
    assert (H : exists e, psi_error (if b then 2 else 4) 4 [1; 1; 1; 1; 1; 2]%R [1; 1; 1; 1; 2; 1]%R = Got e).
    { unfold psi_error, normalize, total. cbn [fold_left]. destruct (Reqb_spec (0 + 1 + 1 + 1 + 1 + 1 + 2) 0); [lra|]. destruct (Reqb_spec (0 + 1 + 1 + 1 + 1 + 2 + 1) 0); [lra|]. cbn [map]. destruct b; cbn [sum_sq Nat.eqb]; eexists; reflexivity. }
    destruct H as [e E]. rewrite E. f_equal. destruct (psi_error_zero _ _ _ _ _ E) as (f & c & fp & d & Ef & Ep & _ & Z). apply Z. unfold normalize, total, count_pos in Ef, Ep. cbn [fold_left] in Ef, Ep.
    destruct (Reqb_spec (0 + 1 + 1 + 1 + 1 + 1 + 2) 0); [lra|]. destruct (Reqb_spec (0 + 1 + 1 + 1 + 1 + 2 + 1) 0); [lra|]. injection Ef as <- _. injection Ep as <- _. cbn [filter]. rewrite !(Rltb_true 0 1), !(Rltb_true 0 2) by lra.
    cbn [length]. assert (Q : (0 + 1 + 1 + 1 + 1 + 1 + 2 = 0 + 1 + 1 + 1 + 1 + 2 + 1)%R) by lra. rewrite Q. destruct b; reflexivity.
  - do 2 eexists. split; [exact E0|]. split; [exact E1|]. intros c. destruct (Req_EM_T c 1) as [->|N]; [exists 4; cbn; split; [lia|lra]|exists 0; cbn; split; [lia|lra]].
Qed.
Print Assumptions C118_2d3d_refuted.
