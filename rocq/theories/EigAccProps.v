(** Eigenvalue calculations accelerated by CMFD: C174 (what acceleration leaves alone), C175 (what the convergence record of an
    accelerated iteration says), C176 (soundness of the whole calculation, or which iteration broke it). *)
From Coq Require Import List Bool Reals ZArith Arith Lia Lra FunctionalExtensionality.
From Verif Require Import RUtil ListUtil McModel ScatModel MatModel XsModel SrcModel SolModel MocModel MgModel PflModel.
From Verif Require Import MeshModel ExpModel CmfdModel CmsModel EigAccModel.
From Verif Require Import HomProps MocProofs ScatProofs MeshSpec MeshProofs CmfdProps CmsProps CmPosProps.
From Verif Require Import SrcProps SolProps PflProps MgInnerProps EigProps MocMaxProps MocEigProps EigAccProofs.
Import ListNotations.
Open Scope nat_scope.

(** ** C174 *)
(** With acceleration off the calculation is the one of C148, whatever CMFD would do. *)
Theorem C174_off : forall Sw flux sweep xs ng nreg vol Data note getp setp csolve p dumps src sw (d : Data) fs fsp,
  match acc_run Sw flux sweep xs ng nreg vol Data note getp setp csolve false p dumps src sw d fs fsp with
  | Got (s, _, n, du) => eigen_run Sw flux sweep xs ng nreg vol p dumps src sw fs fsp = Got (s, n, du)
  | Threw => eigen_run Sw flux sweep xs ng nreg vol p dumps src sw fs fsp = Threw
  | Undef => eigen_run Sw flux sweep xs ng nreg vol p dumps src sw fs fsp = Undef
  end.
Proof.
  intros. unfold acc_run, eigen_run. destruct (calc_fission_source 1 xs ng (flux sw) fs) as [f|]; [|reflexivity]. unfold eigen_solve.
  pose proof (loops_agree (ESt Sw) (ESt Sw * Data) (eigen_iter Sw flux sweep xs ng nreg vol) (acc_iter Sw flux sweep xs ng nreg vol Data note getp setp csolve false) (eigen_conv Sw p) (fun sd => eigen_conv Sw p (fst sd)) fst (fun _ => eq_refl)) as L.
  assert (H : forall b : ESt Sw * Data, match acc_iter Sw flux sweep xs ng nreg vol Data note getp setp csolve false b with Got b' => eigen_iter Sw flux sweep xs ng nreg vol (fst b) = Got (fst b') | Threw => eigen_iter Sw flux sweep xs ng nreg vol (fst b) = Threw | Undef => eigen_iter Sw flux sweep xs ng nreg vol (fst b) = Undef end).
  { intros [s d0]. unfold acc_iter. cbv zeta. assert (with_k Sw s (e_k Sw s) (e_sw Sw s) = s) as -> by (destruct s; reflexivity). cbn [fst]. destruct (eigen_iter Sw flux sweep xs ng nreg vol s); reflexivity. }
  specialize (L H (ep_max p) 0 (ep_min p) (sort_z dumps) (first_dump (sort_z dumps)) (mkE Sw src sw 1 1 f fsp [], d) []). cbn [fst] in L. destruct (eigen_loop (ESt Sw * Data) _ _ _ _ _ _ _ _ _) as [[[[s d'] n'] du']| |]; exact L.
Qed.
Print Assumptions C174_off.

(** A CMFD problem set up for a sweeper's pin fluxes [pfs], of as many groups and cells, whose cells balance with the currents of the
    sweeps and the eigenvalue [k]. *)
Record consistent (p : CmProb) (pfs : list (list R)) (k : R) : Prop := {
  co_good : cp_good p; co_set : set_up p; co_keeps : keeps_solutions p; co_groups : cp_ng p = length pfs;
  co_cells : forall pf, In pf pfs -> Z.of_nat (length pf) = n_pin (cp_m p);
  co_flux : forall g, cm_flux (cp_env p g) = as_flux pfs g;
  co_data : forall g, g < cp_ng p -> cm_rad (cp_env p g) = true /\ cm_ax (cp_env p g) = true;
  co_pos : forall pf v, In pf pfs -> In v pf -> (0 < v)%R;
  co_fis : lsum (CmsProps.production p (as_flux pfs)) (zrange (n_pin (cp_m p))) <> 0%R;
  co_bal : balanced p k (as_flux pfs) (fun g => cm_cur (cp_env p g)) }.
Lemma zero_fixup_pos : forall l, (forall v, In v l -> (0 < v)%R) -> zero_fixup l = l.
Proof. intros l H. unfold zero_fixup. rewrite <- (map_id l) at 2. apply map_ext_in. intros v I. specialize (H v I). apply Rmax_left. lra. Qed.
Lemma zrange_seq : forall n, zrange (Z.of_nat n) = map Z.of_nat (seq 0 n).
Proof. intros n. unfold zrange. now rewrite Nat2Z.id. Qed.
Lemma as_back : forall p pfs f, cp_ng p = length pfs -> (forall pf, In pf pfs -> Z.of_nat (length pf) = n_pin (cp_m p)) -> same_flux p (as_flux pfs) f -> as_lists p f = pfs.
Proof.
  intros p pfs f Eg Ec S. unfold as_lists, cp_groups. apply (nth_ext _ _ [] []); [now rewrite map_length, seq_length|]. intros g Hg. rewrite map_length, seq_length in Hg. rewrite (nth_map_seq _ [] _ g Hg). rewrite Eg in Hg.
  pose proof (Ec _ (nth_In pfs [] Hg)) as Lc. unfold cp_cells. rewrite <- Lc, zrange_seq, map_map. apply (nth_ext _ _ 0%R 0%R); [now rewrite map_length, seq_length|]. intros i Hi. rewrite map_length, seq_length in Hi. rewrite (nth_map_seq _ 0%R _ i Hi).
  rewrite S; [unfold as_flux; now rewrite Nat2Z.id|lia|lia].
Qed.
(** The CMFD solve of such a problem returns eigenvalue and fluxes as they are, whatever the tolerances. *)
Lemma cmfd_same : forall {Sw Data} fixup o (mk : list (list R) -> Sw -> Data -> CmProb) store k pfs sw d, consistent (mk pfs sw d) pfs k -> k <> 0%R -> (0 <= co_max o)%Z ->
  exists d', cmfd_solve fixup o mk store k pfs sw d = Got (k, pfs, d').
Proof.
  intros Sw Data fixup o mk store k pfs sw d C NK M. unfold cmfd_solve. assert ((if fixup then map zero_fixup pfs else pfs) = pfs) as ->. { destruct fixup; [|reflexivity]. rewrite <- (map_id pfs) at 2. apply map_ext_in. intros pf I. apply zero_fixup_pos. intros v. now apply (co_pos _ _ _ C). }
  set (p := mk pfs sw d) in *. assert (EF : (fun g => cm_flux (cp_env p g)) = as_flux pfs) by (apply functional_extensionality; apply (co_flux _ _ _ C)).
  pose proof (C131_unchanged p (co_ktol o) (co_ptol o) (co_rred o) (co_max o) k (co_good _ _ _ C) (co_set _ _ _ C) (co_keeps _ _ _ C) M NK) as U. cbv zeta in U. rewrite EF in U.
  destruct (U (co_data _ _ _ C)) as (l & E & Kl & S & _); [|exact (co_fis _ _ _ C)|exact (co_bal _ _ _ C)|].
  - intros g i Hg Hi. unfold as_flux. rewrite (co_groups _ _ _ C) in Hg. pose proof (nth_In pfs [] Hg) as I. pose proof (co_cells _ _ _ C _ I). apply (co_pos _ _ _ C _ _ I). apply nth_In. lia.
  - rewrite E, Kl. rewrite (as_back p pfs (fix_neg (l_s l)) (co_groups _ _ _ C) (co_cells _ _ _ C) S). eauto.
Qed.
(** A MoC state whose pins balance passes CMFD unchanged: same eigenvalue, same flux in every region. *)
Theorem C174_moc : forall cell nxy hs mps ng Data fixup o (mk : list (list R) -> MocState -> Data -> CmProb) store k sw d pfs, mesh_good cell nxy hs mps ->
  moc_getp cell nxy mps (mvols hs mps) ng (mg_flux sw) = Got pfs -> consistent (mk pfs sw d) pfs k -> k <> 0%R -> (0 <= co_max o)%Z ->
  exists d', acc_cmfd MocState Data (fun s => moc_getp cell nxy mps (mvols hs mps) ng (mg_flux s)) (moc_put cell nxy mps) (cmfd_solve fixup o mk store) k sw d = Got (k, sw, d').
Proof.
  intros cell nxy hs mps ng Data fixup o mk store k sw d pfs M E C NK Mo. unfold acc_cmfd. rewrite E. destruct (cmfd_same fixup o mk store k pfs sw d C NK Mo) as (d' & ->). unfold moc_put. destruct (getp_nth _ _ _ _ _ _ _ _ E) as [Lp Pp].
  rewrite (put_all cell nxy hs mps (mg_flux sw) M pfs 0); [destruct sw; eauto| |exact (co_pos _ _ _ C)]. intros j Hj. rewrite Lp in Hj. apply Pp, Hj.
Qed.
Print Assumptions C174_moc.
(** So an accelerated iteration from such a state is the unaccelerated one. *)
Theorem C174_iteration : forall Sw flux sweep xs ng nreg vol Data note getp setp csolve (s : ESt Sw) (d d' : Data), acc_cmfd Sw Data getp setp csolve (e_k Sw s) (e_sw Sw s) d = Got (e_k Sw s, e_sw Sw s, d') ->
  acc_iter Sw flux sweep xs ng nreg vol Data note getp setp csolve true (s, d) = match eigen_iter Sw flux sweep xs ng nreg vol s with Got s' => Got (s', note s s' d') | Threw => Threw | Undef => Undef end.
Proof. intros. unfold acc_iter. rewrite H. cbv zeta. assert (with_k Sw s (e_k Sw s) (e_sw Sw s) = s) as -> by (destruct s; reflexivity). reflexivity. Qed.
Print Assumptions C174_iteration.

(** Two pins, of two regions and of one, in the state that problem [prob] of C131 balances: mean fluxes 3 and 1 in the first group. *)
Definition two_pins : list MPl := [mkMPl 0 0 [mkPG 2 [1; 1]; mkPG 1 [1]]%R].
Definition steady : MocState := mkMG [[2; 1]; [4; 1]; [1; 1]]%R [0; 0; 0]%R [].
Definition means : list (list R) := [[3; 1]; [1; 1]]%R.
Definition prob_of (pfs : list (list R)) (_ : MocState) (_ : unit) : CmProb :=
  mkCP two (fun g => mkCM two (fun _ => 1%R) (fun _ => 1%R) (fun _ => 1%R) (fun _ => (1 / 3)%R) (fun _ => 1%R) (as_flux pfs g) (cm_cur (cp_env prob g)) (fun _ => 1%R) (fun _ => BcModel.REFLECT) true true) (cp_dt prob) (cp_dh prob) 2 (cp_nf prob) (cp_chi prob) (cp_sc prob) (cp_solver prob).
Lemma two_pins_good : mesh_good (fun i => i) 2 [1]%R two_pins.
Proof.
  constructor.
  - split; [auto|]. split; [auto|]. intros c Hc. exists c. auto.
  - intros m [<-|[]]. split; [reflexivity|]. intros p [<-|[<-|[]]]; split; unfold vsum; cbn; lra.
  - split; [reflexivity|]. intros h [<-|[]]. lra.
Qed.
Lemma steady_means : moc_getp (fun i => i) 2 two_pins (mvols [1]%R two_pins) 2 (mg_flux steady) = Got means.
Proof.
  unfold moc_getp, steady, means. cbn [seq fold_right mg_flux col nth_error].
  assert (G : forall a b c x y, (a + b = 2 * x)%R -> c = y -> get_pin_flux (fun i => i) 2 (2 * length two_pins) zs_plane two_pins [a; b; c] (mvols [1]%R two_pins) = Some [x; y]).
  { intros a b c x y E ->. unfold get_pin_flux, two_pins, mvols, plane_vols. cbn [combine flat_map fst snd ml_pins map app pg_areas macro_means plane_means length skipn]. unfold pin_mean. cbn [length Nat.ltb Nat.leb orb firstn]. unfold vsum, wsum. cbn [fold_left combine fst snd].
    destruct (Reqb_spec (0 + 1 * 1 + 1 * 1) 0); [lra|]. destruct (Reqb_spec (0 + 1 * 1) 0); [lra|]. unfold macro_writes, plane_writes, zs_plane. cbn [length seq combine flat_map fst snd map app deposit repeat Nat.mul Nat.add]. cbn. f_equal. f_equal; [|f_equal]; try field. replace a with (2 * x - b)%R by lra. field. }
  rewrite (G 2 4 1 3 1)%R, (G 1 1 1 1 1)%R by lra. reflexivity.
Qed.
Lemma means_consistent : consistent (prob_of means steady tt) means (5 / 4).
Proof.
  destruct C131_instance as (G0 & U0 & K0 & _ & _ & T0 & B0). constructor.
  - constructor; [apply (cg_m _ G0)|reflexivity|cbn; lia].
  - intros g Hg. cbn [prob_of cp_ng] in Hg. destruct (U0 g Hg) as [_ C]. assert (g = 0 \/ g = 1) as [-> | ->] by lia; (split; [constructor; cbn; intros; try lra; [unfold mesh_ok; cbn; lia|left; reflexivity]|]); intros is Is; destruct (C is Is) as (c & E & D); exists c; (split; [|exact D]); rewrite <- E;
    assert (IS : In is [0; 1; 2; 3; 4; 5; 6; 7; 8; 9; 10]%Z) by (change (0 <= is < 11)%Z in Is; cbn; lia); cbn in IS; repeat (destruct IS as [<-|IS]; [reflexivity|]); destruct IS.
  - intros g b x Hg H i Hi. cbn [prob_of cp_ng] in Hg. assert (g = 0 \/ g = 1) as [-> | ->] by lia; [exact (K0 0 b x Hg H i Hi)|exact (K0 1 b x Hg H i Hi)].
  - reflexivity.
  - intros pf [<-|[<-|[]]]; reflexivity.
  - reflexivity.
  - intros g _. split; reflexivity.
  - intros pf v [<-|[<-|[]]] [<-|[<-|[]]]; lra.
  - intros Z. revert T0. intros T0. assert (5 = 0)%R; [|lra]. rewrite <- T0, <- Z. reflexivity.
  - intros g q Hg Q. cbn [prob_of cp_ng] in Hg. assert (g = 0 \/ g = 1) as [-> | ->] by lia; destruct (two_pos q Q) as [-> | ->].
    + exact (B0 0 _ Hg Q).
    + exact (B0 0 _ Hg Q).
    + exact (B0 1 _ Hg Q).
    + exact (B0 1 _ Hg Q).
Qed.
Example C174_instance : exists d', acc_cmfd MocState unit (fun s => moc_getp (fun i => i) 2 two_pins (mvols [1]%R two_pins) 2 (mg_flux s)) (moc_put (fun i => i) 2 two_pins) (cmfd_solve true (mkCO 1 1 1 20) prob_of (fun _ _ d => d)) (5 / 4) steady tt = Got ((5 / 4)%R, steady, d').
Proof. apply (C174_moc (fun i => i) 2 [1]%R two_pins 2 unit true (mkCO 1 1 1 20) prob_of (fun _ _ d => d) (5 / 4) steady tt means); [apply two_pins_good|apply steady_means|apply means_consistent|lra|cbn; lia]. Qed.

(** ** C175 *)
(** An accelerated iteration records the new eigenvalue and its distance from the eigenvalue that CMFD returned in the same iteration:
    the new eigenvalue is that one times the ratio of fission production after the sweeps and after CMFD. *)
Theorem C175_record : forall Sw flux sweep xs ng nreg vol Data note getp setp csolve (s s' : ESt Sw) (d d' : Data), acc_iter Sw flux sweep xs ng nreg vol Data note getp setp csolve true (s, d) = Got (s', d') ->
  exists k1 sw1 d1 t1 t2 ep, acc_cmfd Sw Data getp setp csolve (e_k Sw s) (e_sw Sw s) d = Got (k1, sw1, d1) /\ total_fission xs ng (flux (e_sw Sw s')) vol = Some t1 /\ total_fission xs ng (flux sw1) vol = Some t2 /\ t2 <> 0%R /\
    e_k Sw s' = (k1 * (t1 / t2))%R /\ e_hist Sw s' = e_hist Sw s ++ [(e_k Sw s', Rabs (k1 * (t1 / t2 - 1)), ep)].
Proof.
  intros Sw flux sweep xs ng nreg vol Data note getp setp csolve s s' d d' E. unfold acc_iter in E. destruct (acc_cmfd Sw Data getp setp csolve (e_k Sw s) (e_sw Sw s) d) as [[[k1 sw1] d1]| |]; try discriminate. cbv zeta in E.
  destruct (eigen_iter Sw flux sweep xs ng nreg vol (with_k Sw s k1 sw1)) as [s1| |] eqn:Ei; try discriminate. injection E as <- <-. unfold eigen_iter, eigen_step in Ei. unfold with_k in Ei. cbn [e_src e_sw e_k e_kp e_fs e_fsp e_hist] in Ei.
  destruct (calc_fission_source k1 xs ng (flux sw1) (e_fs Sw s)) as [f1|]; [|discriminate]. destruct (fss_groups _ _ _ _ _ _ _ _ _ _) as [[src' sw']|]; [|discriminate].
  destruct (total_fission xs ng (flux sw') vol) as [t1|] eqn:E1; [|discriminate]. destruct (total_fission xs ng (flux sw1) vol) as [t2|] eqn:E2; [|discriminate]. destruct (Reqb_spec t2 0) as [|N2]; [discriminate|].
  cbv zeta in Ei. destruct (calc_fission_source _ xs ng (flux sw') f1) as [f2|]; [|discriminate]. cbn [e_src e_sw e_k e_kp e_fs e_fsp e_hist] in Ei.
  destruct (normalize f2) as [[a ?]|]; [|discriminate]. destruct (normalize f1) as [[b ?]|]; [|discriminate]. destruct (sum_sq nreg a b) as [e|]; [|discriminate]. destruct (_ =? 0); [discriminate|]. injection Ei as <-. cbn [e_sw e_k e_hist].
  exists k1, sw1, d1, t1, t2. eexists. split; [reflexivity|]. split; [exact E1|]. split; [exact E2|]. split; [exact N2|]. split; [field; exact N2|]. f_equal. f_equal. f_equal. f_equal. f_equal. field. exact N2.
Qed.
Print Assumptions C175_record.
(** In those, the eigenvalue and the flux are the ones that the coarse solve gives from the sweeper's pin fluxes and the eigenvalue before. *)
Theorem C175_taken : forall Sw flux sweep xs ng nreg vol Data note getp setp csolve (s s' : ESt Sw) (d d' : Data), acc_iter Sw flux sweep xs ng nreg vol Data note getp setp csolve true (s, d) = Got (s', d') ->
  exists pf pf1 k1 sw1 d1 t1 t2, getp (e_sw Sw s) = Got pf /\ csolve (e_k Sw s) pf (e_sw Sw s) d = Got (k1, pf1, d1) /\ setp pf1 (e_sw Sw s) = Got sw1 /\ total_fission xs ng (flux (e_sw Sw s')) vol = Some t1 /\ total_fission xs ng (flux sw1) vol = Some t2 /\
    e_k Sw s' = (k1 * (t1 / t2))%R.
Proof.
  intros Sw flux sweep xs ng nreg vol Data note getp setp csolve s s' d d' E. destruct (C175_record _ _ _ _ _ _ _ _ _ _ _ _ _ _ _ _ E) as (k1 & sw1 & d1 & t1 & t2 & ep & E2 & T1 & T2 & N & K & H). unfold acc_cmfd in E2.
  destruct (getp (e_sw Sw s)) as [pf| |]; try discriminate. destruct (csolve (e_k Sw s) pf (e_sw Sw s) d) as [[[k0 pf1] d0]| |] eqn:Ec; try discriminate. destruct (setp pf1 (e_sw Sw s)) as [sw0| |] eqn:Es; try discriminate. injection E2 as -> -> ->.
  exists pf, pf1, k1, sw1, d1, t1, t2. repeat (split; [first [assumption | reflexivity]|]). exact K.
Qed.
Print Assumptions C175_taken.
(** So the eigenvalue counts as converged, at any tolerance, when the sweeps keep the fission production that CMFD left, however far CMFD
    moved the eigenvalue in that iteration. *)
Theorem C175_blind : forall Sw flux sweep xs ng nreg vol Data note getp setp csolve (s s' : ESt Sw) (d d' : Data) k1 sw1 d1, acc_iter Sw flux sweep xs ng nreg vol Data note getp setp csolve true (s, d) = Got (s', d') ->
  acc_cmfd Sw Data getp setp csolve (e_k Sw s) (e_sw Sw s) d = Got (k1, sw1, d1) -> total_fission xs ng (flux (e_sw Sw s')) vol = total_fission xs ng (flux sw1) vol ->
  e_k Sw s' = k1 /\ exists ep, e_hist Sw s' = e_hist Sw s ++ [(k1, 0%R, ep)].
Proof.
  intros Sw flux sweep xs ng nreg vol Data note getp setp csolve s s' d d' k1 sw1 d1 E Ec T. destruct (C175_record _ _ _ _ _ _ _ _ _ _ _ _ _ _ _ _ E) as (k2 & sw2 & d2 & t1 & t2 & ep & E2 & T1 & T2 & N & K & H). rewrite Ec in E2. injection E2 as <- <- <-. rewrite T, T2 in T1. injection T1 as <-.
  assert (K1 : e_k Sw s' = k1) by (rewrite K; field; exact N). split; [exact K1|]. exists ep. rewrite H, K1. f_equal. f_equal. f_equal. f_equal. replace (k1 * (t2 / t2 - 1))%R with 0%R by (field; exact N). apply Rabs_R0.
Qed.
Print Assumptions C175_blind.
(** A sweeper that leaves its flux alone and a CMFD that doubles the eigenvalue: the record says 0. *)
Definition still : list (list R) := [[1]; [1]]%R.
Example C175_instance : exists s' ep, acc_iter unit (fun _ => still) (fun _ _ s => Some s) [mo_x0; mo_x1] 1 2 [1; 1]%R unit (fun _ _ d => d) (fun _ => Got still) (fun _ s => Got s) (fun k pf _ d => Got ((2 * k)%R, pf, d)) true (mkE unit [0; 0]%R tt 1 1 [0; 0]%R [] [], tt) = Got (s', tt) /\
  e_k _ s' = 2%R /\ e_hist _ s' = [(2, 0, ep)]%R.
Proof.
  set (s1 := mkE unit [0; 0]%R tt (2 * 1) 1 [0; 0]%R [] []).
  assert (G : good_sweeper (fun _ : unit => still) (fun _ _ s => Some s) (fun _ => True) 2 1). { split; [intros; split; [reflexivity|intros row [<-|[<-|[]]]; reflexivity]|]. intros g src sw Hg _ _ _ N. exists sw. split; [reflexivity|]. split; [exact I|]. split; [reflexivity|]. intros i Hi. apply N; lia. }
  assert (P1 : SrcProps.production [mo_x0; mo_x1] 1 still [1; 1]%R = 3%R) by (unfold SrcProps.production, phi; cbn; lra).
  assert (Pv : forall i, i < 2 -> (0 < at0 [1; 1]%R i)%R) by (intros [|[|i]] Hi; [| |lia]; unfold at0; cbn; lra).
  assert (So : sound (fun _ : unit => still) (fun _ => True) 2 1 [mo_x0; mo_x1] [1; 1]%R s1). { unfold sound, s1. cbn [e_sw e_src e_fs e_k]. rewrite P1. split; [exact I|]. split; [reflexivity|]. split; [reflexivity|]. split; [lra|]. split; [|lra]. intros [|[|i]] [|h] Hi Hh; try lia; unfold phi; cbn; lra. }
  destruct (step_made (fun _ : unit => still) (fun _ _ s => Some s) (fun _ => True) 2 1 (fun _ => mo_sc) [mo_x0; mo_x1] [1; 1]%R G mo_physical eq_refl Pv s1 So) as [[(fs & a & b & _ & _ & Z) _]|[_ (s' & E & _)]]; [rewrite P1 in Z; lra|].
  assert (Ei : acc_iter unit (fun _ => still) (fun _ _ s => Some s) [mo_x0; mo_x1] 1 2 [1; 1]%R unit (fun _ _ d => d) (fun _ => Got still) (fun _ s => Got s) (fun k pf _ d => Got ((2 * k)%R, pf, d)) true (mkE unit [0; 0]%R tt 1 1 [0; 0]%R [] [], tt) = Got (s', tt)).
  { unfold acc_iter, acc_cmfd, with_k. cbn [e_src e_sw e_k e_kp e_fs e_fsp e_hist]. fold s1. cbv zeta. rewrite E. reflexivity. }
  destruct (C175_blind _ _ _ _ _ _ _ _ _ _ _ _ _ _ _ _ (2 * 1)%R tt tt Ei eq_refl eq_refl) as (K & ep & H). exists s', ep. split; [exact Ei|]. cbn [e_hist app] in H. rewrite H, K. replace (2 * 1)%R with 2%R by lra. auto.
Qed.

(** ** C176 *)
(** Pins whose regions have no negative area. *)
Definition plain_pins (mps : list MPl) : Prop := forall m p, In m mps -> In p (ml_pins m) -> (0 < pg_area p)%R /\ forall a, In a (pg_areas p) -> (0 <= a)%R.
(** Each value of [l'] is the one of [l] times something positive. *)
Definition scaled_up (l l' : list R) : Prop := Forall2 (fun x y => exists c, (0 < c)%R /\ y = (x * c)%R) l l'.
Lemma scaled_at : forall l l', scaled_up l l' -> length l' = length l /\ forall i, exists c, (0 < c)%R /\ at0 l' i = (at0 l i * c)%R.
Proof.
  intros l l' H. induction H as [|x y l l' (c & C & ->) H (L & P)]; [split; [reflexivity|]; intros i; exists 1%R; split; [lra|]; unfold at0; destruct i; cbn; lra|].
  split; [cbn; congruence|]. intros [|i]; [exists c; auto|]. destruct (P i) as (c' & C' & E). exists c'. split; [exact C'|]. exact E.
Qed.
Lemma scaled_app : forall a a' b b', scaled_up a a' -> scaled_up b b' -> scaled_up (a ++ b) (a' ++ b').
Proof. intros. now apply Forall2_app. Qed.
Lemma scaled_refl : forall l, scaled_up l l.
Proof. induction l as [|x l IH]; constructor; [exists 1%R; lra|exact IH]. Qed.
Lemma scaled_map : forall c l, (0 < c)%R -> scaled_up l (map (fun x => x * c)%R l).
Proof. intros c l C. induction l as [|x l IH]; constructor; [eauto|exact IH]. Qed.
Lemma wsum_nonneg : forall fl w, (forall x, In x fl -> (0 <= x)%R) -> (forall x, In x w -> (0 <= x)%R) -> (0 <= wsum fl w)%R.
Proof. intros fl w A B. rewrite wsum_lsum. apply lsum_nonneg. intros [x y] I. cbn. apply Rmult_le_pos; [apply A; eapply in_combine_l; eauto|apply B; eapply in_combine_r; eauto]. Qed.
Lemma set_pins_up : forall cell nxy z pins ipin input fl new rest e, (forall p, In p pins -> (0 < pg_area p)%R /\ forall a, In a (pg_areas p) -> (0 <= a)%R) -> (forall v, In v input -> (0 < v)%R) -> (forall x, In x fl -> (0 <= x)%R) ->
  set_pins cell nxy z ipin pins input fl = Some (new, rest, e) -> exists old, fl = old ++ rest /\ scaled_up old new.
Proof.
  intros cell nxy z. induction pins as [|p pins IH]; intros ipin input fl new rest e G V N E; cbn [set_pins] in E; [injection E as <- <- <-; exists []; split; [reflexivity|constructor]|].
  set (n := length (pg_areas p)) in *. destruct (Nat.ltb_spec (length fl) n) as [|L]; [discriminate|]. destruct (nth_error input _) as [v|] eqn:Ev; [|discriminate]. destruct (Reqb_spec (pg_area p) 0) as [|Na]; [discriminate|].
  set (fm := (wsum (firstn n fl) (pg_areas p) / pg_area p)%R) in *. destruct (Reqb_spec fm 0) as [|Nf]; [discriminate|]. destruct (set_pins cell nxy z (S ipin) pins input (skipn n fl)) as [[[new' rest'] e']|] eqn:E'; [|discriminate]. injection E as <- <- <-.
  assert (Ns : forall x, In x (skipn n fl) -> (0 <= x)%R) by (intros x I; apply N; rewrite <- (firstn_skipn n fl); apply in_or_app; now right).
  destruct (IH _ _ _ _ _ _ (fun q Q => G q (or_intror Q)) V Ns E') as (old & Eo & S).
  destruct (G p (or_introl eq_refl)) as [Ga Gp]. assert (Pf : (0 < fm)%R). { assert (0 <= fm)%R; [|lra]. unfold fm, Rdiv. apply Rmult_le_pos; [|left; now apply Rinv_0_lt_compat]. apply wsum_nonneg; [|exact Gp]. intros x I. apply N. rewrite <- (firstn_skipn n fl). apply in_or_app. now left. }
  exists (firstn n fl ++ old). split; [rewrite <- app_assoc, <- Eo; symmetry; apply firstn_skipn|]. apply scaled_app; [|exact S]. apply scaled_map. apply Rdiv_lt_0_compat; [apply V; eapply nth_error_In; eauto|exact Pf].
Qed.
Lemma set_planes_up : forall cell nxy input ms z fl new e, plain_pins ms -> (forall v, In v input -> (0 < v)%R) -> (forall x, In x fl -> (0 <= x)%R) -> set_planes cell nxy z ms input fl = Some (new, e) -> scaled_up fl new.
Proof.
  intros cell nxy input. induction ms as [|m ms IH]; intros z fl new e G V N E; cbn [set_planes] in E; [injection E as <- <-; apply scaled_refl|].
  destruct (set_pins cell nxy z 0 (ml_pins m) input fl) as [[[n1 rest] e1]|] eqn:E1; [|discriminate]. destruct (set_planes cell nxy (S z) ms input rest) as [[n2 e2]|] eqn:E2; [|discriminate]. injection E as <- <-.
  destruct (set_pins_up _ _ _ _ _ _ _ _ _ _ (fun p I => G m p (or_introl eq_refl) I) V N E1) as (old & -> & S). apply scaled_app; [exact S|]. refine (IH _ _ _ _ (fun q p A B => G q p (or_intror A) B) V _ E2). intros x I. apply N, in_or_app. now right.
Qed.
(** Writing pin fluxes into a MoC sweeper multiplies each region's flux with something positive, group by group; it throws exactly
    because some pin flux is not positive. *)
Lemma setp_up : forall cell nxy mps nreg ng pfs g fl, plain_pins mps -> flux_fits nreg ng fl -> (forall i h, i < nreg -> h < ng -> (0 <= phi fl i h)%R) ->
  match moc_setp cell nxy mps g pfs fl with
  | Got fl' => flux_fits nreg ng fl' /\ (0 < nreg -> forall pf v, In pf pfs -> In v pf -> (0 < v)%R) /\ forall i h, i < nreg -> h < ng -> exists c, (0 < c)%R /\ phi fl' i h = (phi fl i h * c)%R
  | Threw => exists pf v, In pf pfs /\ In v pf /\ (v <= 0)%R
  | Undef => True
  end.
Proof.
  intros cell nxy mps nreg ng. induction pfs as [|pf pfs IH]; intros g fl G F N; cbn [moc_setp].
  - split; [exact F|]. split; [intros _ pf v []|]. intros i h _ _. exists 1%R. split; lra.
  - destruct (col g fl) as [f|] eqn:Ec; [|exact I]. destruct (set_pin_flux cell nxy mps pf f) as [[f' r]| |] eqn:Es; [| |exact I].
    + unfold set_pin_flux in Es. destruct (existsb (fun v => Rleb v 0) pf) eqn:Ex; [discriminate|]. destruct (negb _); [discriminate|]. destruct (set_planes cell nxy 0 mps pf f) as [[n e]|] eqn:Ep; [|discriminate]. injection Es as -> <-.
      assert (V : forall v, In v pf -> (0 < v)%R). { intros v Iv. destruct (Rle_lt_dec v 0) as [L|]; [|assumption]. exfalso. rewrite <- Bool.not_true_iff_false in Ex. apply Ex. apply existsb_exists. exists v. split; [exact Iv|]. destruct (Rleb_spec v 0); [reflexivity|lra]. }
      destruct (set_col g f' fl) as [fl1|] eqn:E1; [|exact I]. destruct (set_col_spec _ _ _ _ E1) as (L1 & L2 & L3 & P1). pose proof (fits_map _ _ _ _ F L2 L3) as F1. destruct F as [Ln Lr].
      assert (Sc : forall i h, i < nreg -> h < ng -> exists c, (0 < c)%R /\ phi fl1 i h = (phi fl i h * c)%R).
      { intros i h Hi Hh. rewrite P1 by lia. destruct (Nat.eqb_spec h g) as [->|_]; [|exists 1%R; split; lra]. destruct (col_made nreg ng fl g (conj Ln Lr) Hh) as (f0 & E0 & L0 & P0). rewrite Ec in E0. injection E0 as <-.
        assert (Nf : forall x, In x f -> (0 <= x)%R). { intros x Ix. apply (In_nth _ _ 0%R) in Ix. destruct Ix as (j & Hj & <-). change (0 <= at0 f j)%R. rewrite P0 by lia. apply N; lia. }
        pose proof (set_planes_up _ _ _ _ _ _ _ _ G V Nf Ep) as S. destruct (scaled_at _ _ S) as [_ Sa]. destruct (Sa i) as (c & C & Ea). exists c. split; [exact C|]. rewrite Ea, P0 by exact Hi. reflexivity. }
      assert (N1 : forall i h, i < nreg -> h < ng -> (0 <= phi fl1 i h)%R). { intros i h Hi Hh. destruct (Sc i h Hi Hh) as (c & C & ->). apply Rmult_le_pos; [now apply N|lra]. }
      specialize (IH (S g) fl1 G F1 N1). destruct (moc_setp cell nxy mps (S g) pfs fl1) as [fl2| |]; [|destruct IH as (q & v & A & B & C); exists q, v; split; [now right|auto]|exact I].
      destruct IH as (F2 & V2 & S2). split; [exact F2|]. split; [intros Hn q v [<-|Iq] Iv; [now apply V|now apply (V2 Hn q v)]|]. intros i h Hi Hh. destruct (Sc i h Hi Hh) as (c & C & E). destruct (S2 i h Hi Hh) as (c' & C' & E'). exists (c * c')%R. split; [now apply Rmult_lt_0_compat|]. rewrite E', E. ring.
    + unfold set_pin_flux in Es. destruct (existsb (fun v => Rleb v 0) pf) eqn:Ex; [|destruct (negb _); [discriminate|]; destruct (set_planes _ _ _ _ _ _) as [[? ?]|]; discriminate].
      apply existsb_exists in Ex. destruct Ex as (v & Iv & Q). exists pf, v. split; [now left|]. split; [exact Iv|]. destruct (Rleb_spec v 0); [assumption|discriminate].
Qed.
(** A CMFD step on a MoC sweeper keeps which regions have flux, and in which groups; it throws only for a coarse flux that is not positive. *)
Theorem C176_flux : forall m ng cell nxy hs mps Data (csolve : R -> list (list R) -> MocState -> Data -> Out (R * list (list R) * Data)) k sw d, plain_pins mps -> moc_state m ng sw -> (forall i h, i < ms_nreg m -> h < ng -> (0 <= phi (mg_flux sw) i h)%R) ->
  match acc_cmfd MocState Data (fun s => moc_getp cell nxy mps (mvols hs mps) ng (mg_flux s)) (moc_put cell nxy mps) csolve k sw d with
  | Got (k1, sw1, d1) => moc_state m ng sw1 /\ (forall i h, i < ms_nreg m -> h < ng -> (0 <= phi (mg_flux sw1) i h)%R /\ ((0 < phi (mg_flux sw1) i h)%R <-> (0 < phi (mg_flux sw) i h)%R))
  | Threw => (exists pf, csolve k pf sw d = Threw) \/ exists pf k1 pfs d1, csolve k pf sw d = Got (k1, pfs, d1) /\ exists q v, In q pfs /\ In v q /\ (v <= 0)%R
  | Undef => True
  end.
Proof.
  intros m ng cell nxy hs mps Data csolve k sw d G St N. unfold acc_cmfd. destruct (moc_getp cell nxy mps (mvols hs mps) ng (mg_flux sw)) as [pf| |] eqn:Eg; [| |exact I].
  - destruct (csolve k pf sw d) as [[[k1 pfs] d1]| |] eqn:Ec; [|left; eauto|exact I]. unfold moc_put. assert (St' := St). destruct St' as (F & Q & B & C). pose proof (setp_up cell nxy mps (ms_nreg m) ng pfs 0 (mg_flux sw) G F N) as H.
    destruct (moc_setp cell nxy mps 0 pfs (mg_flux sw)) as [fl| |]; [|right; exists pf, k1, pfs, d1; auto|exact I]. destruct H as (F' & _ & S). split; [unfold moc_state; cbn [mg_flux mg_q mg_bnd]; auto|]. cbn [mg_flux].
    intros i h Hi Hh. destruct (S i h Hi Hh) as (c & P & ->). pose proof (N i h Hi Hh) as [P0|P0]; [split; [apply Rmult_le_pos; lra|split; [auto|intros; now apply Rmult_lt_0_compat]]|rewrite <- P0, Rmult_0_l; split; [lra|split; lra]].
  - exfalso. unfold moc_getp in Eg. induction (seq 0 ng) as [|g l IH]; cbn [fold_right] in Eg; [discriminate|]. destruct (col g (mg_flux sw)); [|discriminate]. destruct (get_pin_flux _ _ _ _ _ _ _); [|discriminate]. destruct (fold_right _ _ l); try discriminate.
Qed.
Print Assumptions C176_flux.

(** The eigenvalue that CMFD returns stays positive if its coefficients are tame (C173), its cross sections not negative, its linear
    systems are solved, its fluxes end positive and some cell fissions. *)
Theorem C176_eigenvalue : forall Sw Data (fixup : bool) o (mk : list (list R) -> Sw -> Data -> CmProb) store k pfs sw d k1 pfs1 d1, let pfs0 := if fixup then map zero_fixup pfs else pfs in let p := mk pfs0 sw d in
  cp_good p -> solves p -> plain_data p -> (forall g, g < cp_ng p -> cm_sane (cp_env p g) /\ removes (cp_env p g) /\ tame (cp_m p) (cp_dt p g) (cp_dh p g)) -> (0 < k)%R -> (forall pf v, In pf pfs -> In v pf -> (0 <= v)%R) ->
  (exists g i, g < cp_ng p /\ (0 <= i < n_pin (cp_m p))%Z /\ (0 < cp_nf p g i)%R) -> cmfd_solve fixup o mk store k pfs sw d = Got (k1, pfs1, d1) -> (forall pf v, In pf pfs1 -> In v pf -> (0 < v)%R) -> (0 < k1)%R.
Proof.
  intros Sw Data fixup o mk store k pfs sw d k1 pfs1 d1 pfs0 p G SV PD S K N (g0 & i0 & Hg & Hi & Nf) E V. unfold cmfd_solve in E. fold pfs0 in E. fold p in E. destruct (cms_solve p _ _ _ _ k (as_flux pfs0)) as [l|] eqn:El; [|discriminate]. injection E as <- <- <-.
  assert (N0 : forall pf v, In pf pfs0 -> In v pf -> (0 <= v)%R). { intros pf v J I. unfold pfs0 in J. destruct fixup; [|now apply (N pf v)]. apply in_map_iff in J. destruct J as (q & <- & _). unfold zero_fixup in I. apply in_map_iff in I. destruct I as (w & <- & _). apply Rmax_r. }
  assert (NN : not_negative p (as_flux pfs0)). { intros g i _ _. unfold as_flux. destruct (nth_in_or_default (Z.to_nat i) (nth g pfs0 []) 0%R) as [I|Q]; [|rewrite Q; lra]. destruct (nth_in_or_default g pfs0 []) as [J|Q]; [now apply (N0 _ _ J)|rewrite Q in I; destruct I]. }
  destruct (C173_solve p _ _ _ _ k _ l G SV PD S K NN El) as (N1 & Sm & _ & Pk). apply Pk.
  assert (P1 : forall g i, g < cp_ng p -> (0 <= i < n_pin (cp_m p))%Z -> (0 < l_s l g i)%R). { intros g i Gg Ii. rewrite <- (Sm g i Gg Ii). apply (V (map (fix_neg (l_s l) g) (cp_cells p))); [unfold as_lists; apply in_map_iff; exists g; split; [reflexivity|now apply in_groups]|apply in_map; now apply in_cells]. }
  assert (T : forall i, (0 <= i < n_pin (cp_m p))%Z -> forall h, In h (seq 0 (cp_ng p)) -> (0 <= cp_nf p h i * l_s l h i)%R). { intros i Ii h Ih. apply in_seq in Ih. apply Rmult_le_pos; [destruct (PD h h i ltac:(lia) ltac:(lia) Ii) as (A & _); exact A|left; apply P1; auto; lia]. }
  assert (T2 : forall i, In i (zrange (n_pin (cp_m p))) -> (0 <= CmsProps.production p (l_s l) i)%R) by (intros i Ii; apply lsum_nonneg; apply T; now apply in_cells).
  pose proof (lsum_nonneg _ _ T2) as [|Z0]; [assumption|exfalso]. symmetry in Z0. pose proof (lsum_zero_nonneg _ _ T2 Z0 i0 (proj2 (in_cells p i0) Hi)) as Z1. pose proof (lsum_zero_nonneg _ _ (T i0 Hi) Z1 g0 (proj2 (in_groups p g0) Hg)) as Z2. cbn beta in Z2.
  pose proof (Rmult_lt_0_compat _ _ Nf (P1 g0 i0 Hg Hi)). lra.
Qed.
Print Assumptions C176_eigenvalue.

Section Sound.
Context (m : MocStatic) (ng : nat) (sct : XReg -> nat -> nat -> R) (vol : list R) (Data : Type) (note : ESt MocState -> ESt MocState -> Data -> Data).
Context (cell : nat -> nat) (nxy : nat) (hs : list R) (mps : list MPl) (csolve : R -> list (list R) -> MocState -> Data -> Out (R * list (list R) * Data)).
Context (Pr : moc_problem m ng sct) (Ph : physical (ms_nreg m) ng sct (ms_xs m)) (Lv : length vol = ms_nreg m) (Pv : forall i, i < ms_nreg m -> (0 < at0 vol i)%R) (PP : plain_pins mps).
Notation getp := (fun s => moc_getp cell nxy mps (mvols hs mps) ng (mg_flux s)).
Notation cmfd := (acc_cmfd MocState Data getp (moc_put cell nxy mps) csolve).
Notation iter := (acc_iter MocState mg_flux (moc_sweep m) (ms_xs m) ng (ms_nreg m) vol Data note getp (moc_put cell nxy mps) csolve true).
Notation fine := (sound mg_flux (moc_state m ng) (ms_nreg m) ng (ms_xs m) vol).
Notation out := (dies mg_flux (moc_sweep m) (ms_nreg m) ng (ms_xs m) vol).
(** What can go wrong in an iteration, and the outcome. *)
Definition breaks (t : ESt MocState) (d : Data) (threw undef : Prop) : Prop :=
  (cmfd (e_k _ t) (e_sw _ t) d = Threw /\ threw) \/ (cmfd (e_k _ t) (e_sw _ t) d = Undef /\ undef) \/
  exists k1 sw1 d1, cmfd (e_k _ t) (e_sw _ t) d = Got (k1, sw1, d1) /\ ((k1 <= 0)%R \/ ((0 < k1)%R /\ out (with_k _ t k1 sw1) /\ undef)).
Lemma prod_kept : forall fl fl', (forall i h, i < ms_nreg m -> h < ng -> (0 <= phi fl i h)%R) -> (forall i h, i < ms_nreg m -> h < ng -> (0 <= phi fl' i h)%R /\ ((0 < phi fl' i h)%R <-> (0 < phi fl i h)%R)) ->
  (0 < SrcProps.production (ms_xs m) ng fl vol)%R -> (0 < SrcProps.production (ms_xs m) ng fl' vol)%R.
Proof.
  intros fl fl' N H P. pose proof (prod_nonneg (ms_nreg m) ng sct (ms_xs m) vol Ph Pv fl' (fun i h A B => proj1 (H i h A B))) as [|Z0]; [assumption|exfalso]. symmetry in Z0.
  assert (SrcProps.production (ms_xs m) ng fl vol = 0%R); [|lra]. destruct Ph as (M & D & Cov & Pos). unfold SrcProps.production in *.
  assert (T : forall x r h, In x (ms_xs m) -> In r (xr_reg x) -> h < ng -> (0 <= phi fl' r h * at0 vol r * at0 (xr_nf x) h)%R). { intros x r h Ix Ir Hh. pose proof (reg_bound _ _ _ _ M Ix Ir) as Hr. apply Rmult_le_pos; [apply Rmult_le_pos; [apply (H r h Hr Hh)|left; now apply Pv]|apply (Pos x h Ix Hh)]. }
  assert (T1 : forall x r, In x (ms_xs m) -> In r (xr_reg x) -> (0 <= rsum (fun h => phi fl' r h * at0 vol r * at0 (xr_nf x) h) ng)%R) by (intros; apply rsum_nonneg; auto).
  assert (T2 : forall x, In x (ms_xs m) -> (0 <= lsum (fun r => rsum (fun h => phi fl' r h * at0 vol r * at0 (xr_nf x) h) ng) (xr_reg x))%R) by (intros; apply lsum_nonneg; auto).
  apply lsum_zero. intros x Ix. apply lsum_zero. intros r Ir. pose proof (lsum_zero_nonneg _ _ T2 Z0 x Ix) as Z1. pose proof (lsum_zero_nonneg _ _ (fun r => T1 x r Ix) Z1 r Ir) as Z2. cbn beta in Z2. pose proof (reg_bound _ _ _ _ M Ix Ir) as Hr.
  assert (Z3 : forall h, h < ng -> (phi fl' r h * at0 vol r * at0 (xr_nf x) h = 0)%R). { revert Z2. pose proof (fun h => T x r h Ix Ir) as T3. clear - T3. revert T3. induction ng as [|n IH]; intros T3 Z h Hh; [lia|]. cbn [rsum] in Z. pose proof (T3 n ltac:(lia)). pose proof (rsum_nonneg (fun h => phi fl' r h * at0 vol r * at0 (xr_nf x) h)%R n (fun i Hi => T3 i ltac:(lia))). destruct (Nat.eq_dec h n) as [->|]; [lra|]. apply IH; [intros; apply T3; lia|lra|lia]. }
  transitivity (rsum (fun _ => 0%R) ng); [|clear; induction ng; cbn; lra]. apply rsum_ext. intros h Hh. specialize (Z3 h Hh). destruct (H r h Hr Hh) as [_ Hs]. pose proof (N r h Hr Hh) as [P0|P0]; [|rewrite <- P0; ring].
  apply Hs in P0. pose proof (Pv r Hr) as Pvr. destruct (proj2 (Pos x h Ix Hh)) as [Q|Q]; [|rewrite <- Q; ring]. pose proof (Rmult_lt_0_compat _ _ (Rmult_lt_0_compat _ _ P0 Pvr) Q). lra.
Qed.
Lemma acc_made : forall s d, fine s -> breaks s d (iter (s, d) = Threw) (iter (s, d) = Undef) \/ exists s' d', iter (s, d) = Got (s', d') /\ fine s'.
Proof.
  intros s d (F & Ls & Lf & K & N & P). pose proof (C176_flux m ng cell nxy hs mps Data csolve (e_k _ s) (e_sw _ s) d PP F N) as H. unfold breaks, acc_iter. destruct (cmfd (e_k _ s) (e_sw _ s) d) as [[[k1 sw1] d1]| |] eqn:Ec; [|left; left; auto|left; right; left; auto].
  destruct H as [F1 H]. destruct (Rle_lt_dec k1 0) as [Le|K1]; [left; right; right; exists k1, sw1, d1; auto|]. cbv zeta.
  assert (So : fine (with_k _ s k1 sw1)). { unfold sound, with_k. cbn [e_sw e_src e_fs e_k]. split; [exact F1|]. split; [exact Ls|]. split; [exact Lf|]. split; [exact K1|]. split; [intros i h Hi Hh; apply (H i h Hi Hh)|]. now apply (prod_kept (mg_flux (e_sw _ s))). }
  destruct (step_made mg_flux (moc_sweep m) (moc_state m ng) (ms_nreg m) ng sct (ms_xs m) vol (moc_good m ng sct Pr Ph) Ph Lv Pv _ So) as [[Di Eu]|[_ (s1 & Es & S1 & _)]]; [left; right; right; exists k1, sw1, d1; split; [reflexivity|]; right; rewrite Eu; auto|]. right. rewrite Es. eauto.
Qed.
Lemma acc_loop_made : forall conv left n mn dl next s d du, fine s -> (dl = [] -> next = SolModel.INT_MAX \/ next = UINT_MAX) -> (Z.of_nat (n + left) < SolModel.INT_MAX)%Z ->
  let o := eigen_loop (ESt MocState * Data) iter conv left n mn dl next (s, d) du in
  (exists s' d' n' du', o = Got (s', d', n', du') /\ fine s') \/
  (exists j t dt, j < left /\ steps iter j (s, d) = Got (t, dt) /\ fine t /\ breaks t dt (o = Threw) (o = Undef)).
Proof.
  intros conv. induction left as [|l IH]; intros n mn dl next s d du S0 D Hl o; unfold o; cbn [eigen_loop]; [left; eauto 8|].
  destruct (acc_made s d S0) as [B|(s1 & d1 & Es & S1)]; [right; exists 0, s, d; split; [lia|]; split; [reflexivity|]; split; [exact S0|]; destruct B as [[B1 B2]|[[B1 B2]|(k1 & sw1 & d1 & B1 & [B2|(B2 & B3 & B4)])]]; [left; rewrite B2; auto|right; left; rewrite B2; auto|right; right; exists k1, sw1, d1; auto|right; right; exists k1, sw1, d1; rewrite B4; auto 6]|]. rewrite Es.
  assert (Go : forall dl' next' du', (dl' = [] -> next' = SolModel.INT_MAX \/ next' = UINT_MAX) -> let o := eigen_loop (ESt MocState * Data) iter conv l (n + 1) mn dl' next' (s1, d1) du' in
    (exists s' d' n' du', o = Got (s', d', n', du') /\ fine s') \/ (exists j t dt, j < S l /\ steps iter j (s, d) = Got (t, dt) /\ fine t /\ breaks t dt (o = Threw) (o = Undef))).
  { intros dl' next' du' D'. cbv zeta. destruct (IH (n + 1) mn dl' next' s1 d1 du' S1 D' ltac:(lia)) as [A|(j & t & dt & Hj & B & C)]; [left; exact A|right]. exists (S j), t, dt. split; [lia|]. cbn [steps]. rewrite Es. auto. }
  destruct (Z.eqb_spec (Z.of_nat (n + 1)) next) as [En|En].
  - destruct dl as [|d0 dl']; [destruct (D eq_refl) as [X|X]; subst next; unfold UINT_MAX, SolModel.INT_MAX in *; lia|]. destruct (_ && _); [left; eauto 8|]. apply Go. intros ->. now left.
  - destruct (_ && _); [left; eauto 8|]. now apply Go.
Qed.
End Sound.

(** An accelerated MoC eigenvalue calculation ends with a positive eigenvalue, a nonnegative flux and some fission, or an iteration that
    started from such a state broke it: CMFD threw, CMFD was undefined, its eigenvalue was not positive, or the sweeps left no fission. *)
Theorem C176_run : forall m ng sct vol Data note cell nxy hs mps csolve p dumps src sw (d : Data) fs fsp, moc_problem m ng sct -> physical (ms_nreg m) ng sct (ms_xs m) -> length vol = ms_nreg m -> (forall i, i < ms_nreg m -> (0 < at0 vol i)%R) -> plain_pins mps ->
  (Z.of_nat (ep_max p) < SolModel.INT_MAX)%Z -> moc_state m ng sw -> length src = ms_nreg m -> length fs = ms_nreg m -> (forall i h, i < ms_nreg m -> h < ng -> (0 <= phi (mg_flux sw) i h)%R) -> (0 < SrcProps.production (ms_xs m) ng (mg_flux sw) vol)%R ->
  let getp := fun s => moc_getp cell nxy mps (mvols hs mps) ng (mg_flux s) in let setp := moc_put cell nxy mps in
  let run := acc_run MocState mg_flux (moc_sweep m) (ms_xs m) ng (ms_nreg m) vol Data note getp setp csolve true p dumps src sw d fs fsp in
  let cmfd t := acc_cmfd MocState Data getp setp csolve (e_k _ t) (e_sw _ t) in
  (exists s d' n du, run = Got (s, d', n, du) /\ moc_state m ng (e_sw _ s) /\ (0 < e_k _ s)%R /\ (forall i h, i < ms_nreg m -> h < ng -> (0 <= phi (mg_flux (e_sw _ s)) i h)%R) /\ (0 < SrcProps.production (ms_xs m) ng (mg_flux (e_sw _ s)) vol)%R) \/
  (exists f j t dt, calc_fission_source 1 (ms_xs m) ng (mg_flux sw) fs = Some f /\ j < ep_max p /\
    steps (acc_iter MocState mg_flux (moc_sweep m) (ms_xs m) ng (ms_nreg m) vol Data note getp setp csolve true) j (mkE _ src sw 1 1 f fsp [], d) = Got (t, dt) /\ sound mg_flux (moc_state m ng) (ms_nreg m) ng (ms_xs m) vol t /\
    ((cmfd t dt = Threw /\ run = Threw) \/ (cmfd t dt = Undef /\ run = Undef) \/
     exists k1 sw1 d1, cmfd t dt = Got (k1, sw1, d1) /\ ((k1 <= 0)%R \/ ((0 < k1)%R /\ dies mg_flux (moc_sweep m) (ms_nreg m) ng (ms_xs m) vol (with_k _ t k1 sw1) /\ run = Undef)))).
Proof.
  intros m ng sct vol Data note cell nxy hs mps csolve p dumps src sw d fs fsp Pr Ph Lv Pv PP Hm F Ls Lf N P getp setp run cmfd. assert (Ph' := Ph). destruct Ph' as (M & D & Cov & Pos).
  destruct (C51_fission_source (ms_nreg m) ng sct 1 (ms_xs m) (mg_flux sw) fs ltac:(lra) M D (proj1 F) Lf) as (f & E & L & _). unfold run, acc_run. rewrite E. unfold eigen_solve.
  set (s0 := mkE MocState src sw 1 1 f fsp []). assert (S0 : sound mg_flux (moc_state m ng) (ms_nreg m) ng (ms_xs m) vol s0) by (unfold sound, s0; cbn [e_sw e_src e_fs e_k]; split; [exact F|]; split; [exact Ls|]; split; [exact L|]; split; [lra|auto]).
  destruct (acc_loop_made m ng sct vol Data note cell nxy hs mps csolve Pr Ph Lv Pv PP (fun sd => eigen_conv MocState p (fst sd)) (ep_max p) 0 (ep_min p) (sort_z dumps) (first_dump (sort_z dumps)) s0 d []) as [(s & d' & n & du & Eo & So)|(j & t & dt & Hj & St & So & B)]; auto.
  - intros ->. now right.
  - left. exists s, d', n, du. split; [exact Eo|]. destruct So as (F' & _ & _ & K' & N' & P'). auto.
  - right. exists f, j, t, dt. split; [reflexivity|]. do 3 (split; [assumption|]). exact B.
Qed.
Print Assumptions C176_run.

(** The two regions of C148's example as two pins; and CMFD's eigenvalue for the pins of C174's example. *)
Definition one_each : list MPl := [mkMPl 0 0 [mkPG 1 [1]; mkPG 1 [1]]%R].
Example C176_instance : plain_pins one_each /\ mesh_good (fun i => i) 2 [1]%R one_each /\ (forall gs, moc_problem (mo_static gs) 1 (fun _ => mo_sc) /\ moc_state (mo_static gs) 1 mo_start) /\ physical 2 1 (fun _ => mo_sc) [mo_x0; mo_x1] /\ (0 < SrcProps.production [mo_x0; mo_x1] 1 (mg_flux mo_start) [1; 1])%R /\
  let p := prob_of means steady tt in cp_good p /\ solves p /\ plain_data p /\ (forall g, g < cp_ng p -> cm_sane (cp_env p g) /\ removes (cp_env p g) /\ tame (cp_m p) (cp_dt p g) (cp_dh p g)) /\ (0 < cp_nf p 0 0%Z)%R /\
  exists d', cmfd_solve false (mkCO 1 1 1 20) prob_of (fun _ _ d => d) (5 / 4) means steady tt = Got ((5 / 4)%R, means, d').
Proof.
  split; [intros m p [<-|[]] [<-|[<-|[]]]; cbn; (split; [lra|]); intros a [<-|[]]; lra|]. split.
  { constructor; [split; [auto|]; split; [auto|]; intros c Hc; exists c; auto| |split; [reflexivity|]; intros h [<-|[]]; lra]. intros m [<-|[]]. split; [reflexivity|]. intros p [<-|[<-|[]]]; split; unfold vsum; cbn; lra. }
  split; [intros gs; split; [apply mo_problem|apply mo_state]|]. split; [apply mo_physical|]. split; [unfold SrcProps.production, phi; cbn; lra|]. intros p. pose proof means_consistent as C. fold p in C. destruct C173_instance as (_ & SV & PD & T & _).
  split; [apply (co_good _ _ _ C)|]. split; [intros g b x i Hg Hi; assert (E : g = 0 \/ g = 1) by (change (g < 2) in Hg; lia); destruct E as [-> | ->]; [exact (SV 0 b x i Hg Hi)|exact (SV 1 b x i Hg Hi)]|]. split; [intros g h i Hg Hh Hi; exact (PD g h i Hg Hh Hi)|]. split; [|split; [cbn; lra|]].
  - intros g Hg. split; [apply (co_set _ _ _ C g Hg)|]. destruct (T g Hg) as (_ & _ & T3). split; [intros i _; cbn; lra|exact T3].
  - apply cmfd_same; [exact C|lra|cbn; lia].
Qed.
