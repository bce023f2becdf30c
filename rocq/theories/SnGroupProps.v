(** C108: the boundary after an Sn sweep, and the group sweep of the Sn sweeper. *)
From Coq Require Import List Lia Bool Reals ZArith Arith Permutation Lra.
From Verif Require Import RUtil ListUtil McModel MeshModel MeshSpec MeshProofs MeshProps AngModel BcModel BcProofs BcProps StdAlg CoreModel ExpModel MocModel MocProofs CurModel SnModel SnEqProps SnProofs SnProps SnCurProps SnSweepProps ScatModel ScatProofs MatModel XsModel XsProps SrcModel SrcProps SolModel SolProps MgModel MgProps MgInnerProps SnPinProps SnGroupModel.
Import ListNotations.
Open Scope nat_scope.

(** ** Specification *)
(** What the incoming values [d1] of group [g] must be, given those before, [d0], and the outgoing values [o]: value [i] of face
    [n] of angle [a'] is decided by the condition on the side it enters through; a reflecting side returns what the mirrored
    angle [a] carried out of the same place.  Only faces whose mirrored angle satisfies [on] are touched. *)
Definition follows (b : BC) (g : nat) (on : nat -> Prop) (o d0 d1 : list R) : Prop :=
  (forall a' n i k a t ko, slot b g a' n i k -> refl_n b a' n = Some a -> type_at b a' n = Some t -> slot b 0 a n i ko -> on a ->
     nth_error d1 k = match t with VACUUM => Some 0%R | REFLECT => nth_error o ko | _ => nth_error d0 k end) /\
  (forall a' n i k a, slot b g a' n i k -> refl_n b a' n = Some a -> ~ on a -> nth_error d1 k = nth_error d0 k) /\
  (forall g' a' n i k, slot b g' a' n i k -> g' <> g -> nth_error d1 k = nth_error d0 k).

Lemma put_other : forall b d iang n v d' a m i k, put_face b d iang n v = Some d' -> a <> iang -> slot b 0 a m i k -> nth_error d' k = nth_error d k.
Proof.
  intros b d iang n v d' a m i k H N Sl. unfold put_face in H. destruct (get_face b 0 iang n) as [[size off]|] eqn:F; [|discriminate]. destruct (Nat.eqb_spec (length v) size) as [L|]; [|discriminate].
  destruct (write_range_spec _ _ _ _ H) as [_ W]. rewrite W. destruct (Nat.leb_spec off k); [|reflexivity]. destruct (Nat.ltb_spec k (off + length v)); [|reflexivity]. cbn [andb]. exfalso. apply N.
  destruct (slot_inj b 0 a m i k 0 iang n (k - off) Sl) as (_ & E & _); [|exact E]. exists size, off. split; [exact F|]. lia.
Qed.
Lemma slot_any : forall b b' g a n i k, BcModel.sizes b = BcModel.sizes b' -> slot b g a n i k -> slot b' g a n i k.
Proof. intros b b' g a n i k E (size & off & F & H). exists size, off. split; [|exact H]. rewrite <- F. symmetry. now apply get_face_any. Qed.

Lemma angle_step : forall e nt tid iang s s', sn_fits e -> st_fits e nt s -> tid < nt -> iang < length (BcModel.sizes (sn_in e)) -> sn_angle e tid iang s = Ok s' ->
  st_fits e nt s' /\ (forall a n i k, a <> iang -> slot (sn_in e) 0 a n i k -> nth_error (ss_out s') k = nth_error (ss_out s) k) /\
  (if sn_gs e then update_angle (sn_in e) (with_data (sn_out e) (ss_out s')) (sn_group e) iang (ss_in s) = Ok (ss_in s') else ss_in s' = ss_in s).
Proof.
  intros e nt tid iang s s' F S Ht Hi H. destruct (sn_angle_def e nt tid iang s F S Ht Hi) as (s2 & H2 & S2). rewrite H in H2. injection H2 as <-. split; [exact S2|].
  unfold sn_angle in H. step H a. step H t. step H x. step H y. step H z. step H u. destruct u as [cu sf]. step H r. step H o1. step H o2. step H o3. step H ts. step H d. injection H as <-. cbn [ss_out ss_in]. split.
  - intros a' n i k N Sl. apply (slot_any _ (sn_out e)) in Sl; [|symmetry; apply (f_out e F)]. transitivity (nth_error o2 k).
    + destruct (sn_d3 e); [eapply put_other; eauto|congruence].
    + rewrite (put_other _ _ _ _ _ _ _ _ _ _ Eo2 N Sl). eapply put_other; eauto.
  - destruct (sn_gs e); [exact Ed|congruence].
Qed.
Lemma slot_angle : forall b g a n i k, slot b g a n i k -> a < length (BcModel.sizes b).
Proof. intros b g a n i k (size & off & F & _). destruct (get_face_inv _ _ _ _ _ _ F) as (s & o & Es & _). apply nth_error_Some. congruence. Qed.

Lemma angles_follow : forall e nt sched s s', sn_fits e -> st_fits e nt s -> (forall tid iang, In (tid, iang) sched -> tid < nt /\ iang < length (BcModel.sizes (sn_in e))) -> NoDup (map snd sched) ->
  sn_angles e sched s = Ok s' -> st_fits e nt s' /\ (forall a n i k, ~ In a (map snd sched) -> slot (sn_in e) 0 a n i k -> nth_error (ss_out s') k = nth_error (ss_out s) k) /\
  (if sn_gs e then follows (sn_in e) (sn_group e) (fun a => In a (map snd sched)) (ss_out s') (ss_in s) (ss_in s') else ss_in s' = ss_in s).
Proof.
  intros e nt sched. induction sched as [|[tid x] sched IH]; intros s s' F S B N H; cbn [sn_angles] in H.
  - injection H as <-. split; [exact S|]. split; [auto|]. destruct (sn_gs e); [|reflexivity]. split; [|split]; auto. intros a' n i k a t ko _ _ _ _ [].
  - step H s1. destruct (B tid x (or_introl eq_refl)) as [Bt Bx]. cbn [map snd] in N. apply NoDup_cons_iff in N. destruct N as [Nx N].
    destruct (angle_step e nt tid x s s1 F S Bt Bx Es1) as (S1 & O1 & U1). destruct (IH s1 s' F S1 (fun t i I => B t i (or_intror I)) N H) as (S' & O' & U'). split; [exact S'|]. split.
    { intros a n i k Na Sl. cbn [map snd] in Na. rewrite (O' a n i k) by (auto; intros I; apply Na; now right). apply (O1 a n i k); auto. intros ->. apply Na. now left. }
    destruct (sn_gs e) eqn:G; [|congruence]. destruct S1 as (Li1 & Lo1 & _). destruct S as (Li & _). destruct U' as (P1 & P2 & P3).
    destruct (C18_update_angle_partial (sn_in e) (with_data (sn_out e) (ss_out s1)) (sn_group e) x (ss_in s) (f_in e F)) as (d' & Eu & _ & Q1 & Q2);
      [apply (f_out e F)|cbn [with_data data]; now rewrite bc_per_group_total|apply (f_sup e F)|exact Bx|apply (f_grp e F)|now rewrite bc_per_group_total|now apply no_gaps|].
    rewrite U1 in Eu. injection Eu as <-. cbn [with_data data] in Q2.
    assert (Inv : forall a' n i k g a, slot (sn_in e) g a' n i k -> refl_n (sn_in e) a' n = Some a -> refl_n (sn_in e) a n = Some a').
    { intros a' n i k g a Sl Ra. destruct (refl_n_spec (sn_in e) a' n (f_in e F) (slot_angle _ _ _ _ _ _ Sl)) as (j & _ & R1 & R2). congruence. }
    split; [|split].
    + intros a' n i k a t ko Sl Ra Ty So [E|I]; cbn [map snd] in *.
      * subst a. rewrite (P2 a' n i k x Sl Ra Nx). rewrite (Q2 a' n i k ko t Sl (Inv _ _ _ _ _ _ Sl Ra) So Ty). destruct t; auto. symmetry. now apply (O' x n i ko).
      * rewrite (P1 a' n i k a t ko Sl Ra Ty So I). assert (nth_error (ss_in s1) k = nth_error (ss_in s) k) as ->; [|reflexivity]. apply (Q1 (sn_group e) a' n i k Sl). intros [_ Rx].
        destruct (refl_n_spec (sn_in e) x n (f_in e F) Bx) as (j & _ & R1 & R2). assert (x = a) by congruence. subst a. auto.
    + intros a' n i k a Sl Ra Na. cbn [map snd] in Na. rewrite (P2 a' n i k a Sl Ra) by (intros I; apply Na; now right). apply (Q1 (sn_group e) a' n i k Sl). intros [_ Rx].
      destruct (refl_n_spec (sn_in e) x n (f_in e F) Bx) as (j & _ & R1 & R2). apply Na. left. congruence.
    + intros g' a' n i k Sl Ng. rewrite (P3 g' a' n i k Sl Ng). apply (Q1 g' a' n i k Sl). intros [E _]. contradiction.
Qed.

Lemma sweep_follows : forall e nt sched din dout cur sf flux st, sn_fits e -> length din = n_group (sn_in e) * bc_per_group (BcModel.sizes (sn_in e)) -> length dout = bc_per_group (BcModel.sizes (sn_in e)) ->
  length cur = Z.to_nat (n_surf (sn_m e)) -> length sf = Z.to_nat (n_surf (sn_m e)) -> (forall tid iang, In (tid, iang) sched -> tid < nt /\ iang < length (BcModel.sizes (sn_in e))) -> NoDup (map snd sched) ->
  sn_sweep1g e nt sched (Nx e * Ny e * planes e) din dout cur sf = Ok (flux, st) ->
  (length (ss_in st) = length din /\ length (ss_out st) = length dout /\ length (ss_cur st) = length cur /\ length (ss_sf st) = length sf /\ length flux = Nx e * Ny e * planes e) /\
  follows (sn_in e) (sn_group e) (fun a => sn_gs e = true -> In a (map snd sched)) (ss_out st) din (ss_in st).
Proof.
  intros e nt sched din dout cur sf flux st F Li Lo Lc Lf B N H. rewrite bc_per_group_total in Li, Lo. unfold sn_sweep1g in H. step H s1. step H d. injection H as <- <-. cbn [ss_in ss_out ss_cur ss_sf].
  assert (S0 : st_fits e nt (mkSS din dout (repeat (repeat 0%R (Nx e * Ny e * planes e)) nt) cur sf)). { unfold st_fits. cbn [ss_in ss_out ss_t ss_cur ss_sf]. split; [exact Li|]. split; [exact Lo|]. split; [apply repeat_length|]. split; [|auto]. apply Forall_forall. intros t I. apply repeat_spec in I. subst. apply repeat_length. }
  destruct (angles_follow e nt sched _ s1 F S0 B N Es1) as ((Li1 & Lo1 & Lt1 & Ft1 & Lc1 & Lf1) & _ & U). cbn [ss_in ss_out ss_t] in U.
  destruct (sum_threads_spec _ _ Ft1) as [L1 _]. destruct (sn_gs e) eqn:G.
  - injection Ed as <-. split; [repeat split; congruence|]. destruct U as (P1 & P2 & P3). split; [|split].
    + intros a' n i k a t ko Sl Ra Ty So I. apply (P1 a' n i k a t ko Sl Ra Ty So). auto.
    + intros a' n i k a Sl Ra Na. apply (P2 a' n i k a Sl Ra). intros I. apply Na. auto.
    + exact P3.
  - rewrite U in *. destruct (update_group_ok (sn_in e) (with_data (sn_out e) (ss_out s1)) (sn_group e) din (f_in e F)) as (d2 & E2 & L2 & Q1 & Q2);
      [apply (f_out e F)|exact Lo1|apply (f_sup e F)|apply (f_grp e F)|now apply no_gaps|exact Li|]. rewrite Ed in E2. injection E2 as <-. cbn [with_data data] in Q2.
    split; [repeat split; congruence|]. split; [|split].
    + intros a' n i k a t ko Sl Ra Ty So _. destruct (Q2 a' n i k Sl) as (a2 & t2 & ko2 & Ra2 & Ty2 & So2 & E). assert (a2 = a) by congruence. assert (t2 = t) by congruence. subst. destruct So as (z1 & f1 & G1 & _ & ->). destruct So2 as (z2 & f2 & G2 & _ & ->). assert (f1 = f2) by congruence. subst. exact E.
    + intros a' n i k a Sl Ra Na. exfalso. apply Na. discriminate.
    + exact Q1.
Qed.
(** One one-group sweep leaves the incoming values of the group as the boundary conditions prescribe, from the outgoing values
    it leaves; with Gauss-Seidel updates this concerns the angles that were swept, otherwise all of them. *)
Theorem C108_boundary_sweep : forall e nt sched din dout cur sf flux st, sn_fits e -> length din = n_group (sn_in e) * bc_per_group (BcModel.sizes (sn_in e)) -> length dout = bc_per_group (BcModel.sizes (sn_in e)) ->
  length cur = Z.to_nat (n_surf (sn_m e)) -> length sf = Z.to_nat (n_surf (sn_m e)) -> (forall tid iang, In (tid, iang) sched -> tid < nt /\ iang < length (BcModel.sizes (sn_in e))) -> NoDup (map snd sched) ->
  sn_sweep1g e nt sched (Nx e * Ny e * planes e) din dout cur sf = Ok (flux, st) ->
  follows (sn_in e) (sn_group e) (fun a => sn_gs e = true -> In a (map snd sched)) (ss_out st) din (ss_in st).
Proof. intros e nt sched din dout cur sf flux st F Li Lo Lc Lf B N H. exact (proj2 (sweep_follows e nt sched din dout cur sf flux st F Li Lo Lc Lf B N H)). Qed.
Print Assumptions C108_boundary_sweep.

(** ** The group sweep *)
Record sg_fits (m : SnStatic) (ng : nat) (sct : XReg -> nat -> nat -> R) (g : nat) : Prop := {
  sgf_mesh : mesh_fits (sg_xs m) (sg_nreg m);
  sgf_data : data_fits ng sct (sg_xs m);
  sgf_g : g < ng;
  sgf_env : forall q cw, length q = sg_nreg m -> sn_fits (sg_env m g q cw);
  sgf_reg : forall q cw, sg_nreg m = Nx (sg_env m g q cw) * Ny (sg_env m g q cw) * planes (sg_env m g q cw);
  sgf_sched : forall k tid iang, In (tid, iang) (sg_sched m k) -> tid < sg_nt m /\ iang < length (BcModel.sizes (sg_in m));
  sgf_once : forall k, NoDup (map snd (sg_sched m k))
}.
(** Sizes of the state: a flux per region and group, boundary values for all groups and for one, coarse data per group. *)
Definition co_fits (m : SnStatic) (ng : nat) (c : CoarseD) : Prop :=
  length (co_cur c) = ng /\ length (co_sf c) = ng /\ Forall (fun l => length l = Z.to_nat (n_surf (sg_m m))) (co_cur c) /\ Forall (fun l => length l = Z.to_nat (n_surf (sg_m m))) (co_sf c).
Definition gs_fits (m : SnStatic) (ng : nat) (s : SnGSt) : Prop :=
  flux_fits (sg_nreg m) ng (gs_flux s) /\ length (gs_q s) = sg_nreg m /\ length (gs_bin s) = n_group (sg_in m) * bc_per_group (BcModel.sizes (sg_in m)) /\ length (gs_bout s) = bc_per_group (BcModel.sizes (sg_in m)) /\
  (forall c, gs_co s = Some c -> co_fits m ng c).
(** Whether a pass with [k] passes to go records currents. *)
Definition records (k : nat) (s : SnGSt) : bool := match k, gs_co s with O, Some _ => true | _, _ => false end.
(** One pass for group [g] from [s] to [s'], [k] passes remaining: the source is external plus within-group scattering of the
    flux before, per solid angle; a one-group sweep starts from the boundary values before and from zero currents; the group's
    flux is its result and the other groups are untouched.  The last pass, and only that one, replaces the coarse data of the
    group. *)
Definition sn_pass (m : SnStatic) (sct : XReg -> nat -> nat -> R) (g : nat) (src : list R) (k : nat) (s s' : SnGSt) : Prop :=
  exists f st, (forall x i, In x (sg_xs m) -> In i (xr_reg x) -> (at0 (gs_q s') i * (4 * PI) = at0 src i + sct x g g * phi (gs_flux s) i g)%R) /\
    sn_sweep1g (sg_env m g (gs_q s') (records k s)) (sg_nt m) (sg_sched m k) (sg_nreg m) (gs_bin s) (gs_bout s) (no_arr m) (no_arr m) = Ok (f, st) /\
    gs_bin s' = ss_in st /\ gs_bout s' = ss_out st /\ length f = sg_nreg m /\
    (forall i h, i < sg_nreg m -> phi (gs_flux s') i h = if h =? g then at0 f i else phi (gs_flux s) i h) /\
    (if records k s then exists c c', gs_co s = Some c /\ gs_co s' = Some c' /\ nth_error (co_cur c') g = Some (ss_cur st) /\ nth_error (co_sf c') g = Some (ss_sf st) /\
       (forall h, h <> g -> nth_error (co_cur c') h = nth_error (co_cur c) h /\ nth_error (co_sf c') h = nth_error (co_sf c) h) /\ co_radial c' = true /\ (co_axial c' = true <-> co_axial c = true \/ sg_d3 m = true)
     else gs_co s' = gs_co s).
(** Passes one after the other, down to the last. *)
Fixpoint counted {A} (r : nat -> A -> A -> Prop) (k : nat) (a : A) (l : list A) : Prop := match k, l with O, [] => True | S j, b :: t => r j a b /\ counted r j b t | _, _ => False end.

Lemma map_zero : forall (l : list R) n, length l = n -> map (fun _ => 0%R) l = repeat 0%R n.
Proof. induction l as [|a l IH]; intros n <-; cbn; [reflexivity|]. now rewrite (IH (length l)). Qed.
Lemma set_col_def : forall g n ng f fl, flux_fits n ng fl -> g < ng -> length f = n -> exists fl', set_col g f fl = Some fl'.
Proof.
  intros g n ng f fl [L R]. revert fl n L R. induction f as [|v f IH]; intros [|row fl] n L R Hg Lf; cbn in L, Lf; try lia; cbn [set_col]; [eauto|].
  destruct (set_nth_def row g v) as (r & E & _); [rewrite (R row); [lia|now left]|]. rewrite E. destruct (IH fl (length fl) eq_refl (fun x I => R x (or_intror I)) Hg ltac:(lia)) as (l & ->). eauto.
Qed.
Lemma set_nth_full : forall {A} (l l' : list A) i v, set_nth l i v = Some l' -> length l' = length l /\ nth_error l' i = Some v /\ forall j, j <> i -> nth_error l' j = nth_error l j.
Proof.
  induction l as [|a l IH]; intros l' i v H; destruct i as [|i]; cbn in H; try discriminate.
  - injection H as <-. repeat split. intros [|j] N; [contradiction|reflexivity].
  - destruct (set_nth l i v) as [t|] eqn:E; [|discriminate]. injection H as <-. destruct (IH _ _ _ E) as (A1 & A2 & A3). repeat split; [cbn; lia|exact A2|]. intros [|j] N; [reflexivity|]. cbn. apply A3. lia.
Qed.
Section Pass.
Context (m : SnStatic) (ng : nat) (sct : XReg -> nat -> nat -> R) (g : nat) (src : list R) (F : sg_fits m ng sct g) (Ls : length src = sg_nreg m).
Lemma one_def : forall k cw q s, gs_fits m ng s -> length q = sg_nreg m -> exists f st fl, sn_sweep1g (sg_env m g q cw) (sg_nt m) (sg_sched m k) (sg_nreg m) (gs_bin s) (gs_bout s) (no_arr m) (no_arr m) = Ok (f, st) /\
  set_col g f (gs_flux s) = Some fl /\ sg_one m g k cw q (no_arr m) (no_arr m) s = Some (fl, st).
Proof.
  intros k cw q s (Ff & _ & Lb & Lo & _) Lq. assert (Fe := sgf_env m ng sct g F q cw Lq). assert (Er := sgf_reg m ng sct g F q cw). assert (La : length (no_arr m) = Z.to_nat (n_surf (sg_m m))) by apply repeat_length.
  destruct (C45_sweep_defined (sg_env m g q cw) (sg_nt m) (sg_sched m k) (gs_bin s) (gs_bout s) (no_arr m) (no_arr m) Fe Lb Lo La La (sgf_sched m ng sct g F k)) as (f & st & E).
  destruct (sweep_follows (sg_env m g q cw) (sg_nt m) (sg_sched m k) _ _ _ _ f st Fe Lb Lo La La (sgf_sched m ng sct g F k) (sgf_once m ng sct g F k) E) as ((_ & _ & _ & _ & L) & _).
  rewrite <- Er in E, L. destruct (set_col_def g (sg_nreg m) ng f (gs_flux s) Ff (sgf_g m ng sct g F) L) as (fl & Ec). exists f, st, fl. split; [exact E|]. split; [exact Ec|]. unfold sg_one. now rewrite E, Ec.
Qed.
Lemma pass_made : forall k s, gs_fits m ng s -> exists s', sg_step m g src k s = Some s' /\ sn_pass m sct g src k s s' /\ gs_fits m ng s' /\
  (forall h i, h <> g -> i < sg_nreg m -> phi (gs_flux s') i h = phi (gs_flux s) i h) /\
  follows (sg_in m) g (fun a => sg_gs m = true -> In a (map snd (sg_sched m k))) (gs_bout s') (gs_bin s) (gs_bin s').
Proof.
  intros k s Fs. assert (Fs' := Fs). destruct Fs' as (Ff & Lq & Lb & Lo & Fc).
  destruct (self_scatter_ok false (sg_nreg m) ng sct (sg_xs m) (gs_flux s) src g (gs_q s) (sgf_mesh m ng sct g F) (sgf_data m ng sct g F) Ff Ls Lq (sgf_g m ng sct g F)) as (q & Eq & L & P & _); [discriminate|].
  assert (Psrc : forall x i, In x (sg_xs m) -> In i (xr_reg x) -> (at0 q i * (4 * PI) = at0 src i + sct x g g * phi (gs_flux s) i g)%R). { intros x i I Ii. rewrite (P x i I Ii). pose proof PI_RGT_0. field. lra. }
  assert (La : length (no_arr m) = Z.to_nat (n_surf (sg_m m))) by apply repeat_length.
  destruct (one_def k (records k s) q s Fs L) as (f & st & fl & E & Ec & E1).
  destruct (set_col_spec _ _ _ _ Ec) as (A & B & C & V). assert (Lfl : length (gs_flux s) = sg_nreg m) by apply Ff.
  assert (E' := E). rewrite (sgf_reg m ng sct g F q (records k s)) in E'.
  destruct (sweep_follows (sg_env m g q (records k s)) (sg_nt m) (sg_sched m k) _ _ _ _ f st (sgf_env m ng sct g F q (records k s) L) Lb Lo La La (sgf_sched m ng sct g F k) (sgf_once m ng sct g F k) E') as ((Li & Lo' & Lc & Lsf & Lf) & Fo).
  rewrite <- (sgf_reg m ng sct g F q (records k s)) in Lf. cbn [sg_env sn_in sn_group sn_gs] in Fo.
  assert (Vf : forall i h, i < sg_nreg m -> phi fl i h = if h =? g then at0 f i else phi (gs_flux s) i h) by (intros i h Hi; apply V; lia).
  assert (Vh : forall h i, h <> g -> i < sg_nreg m -> phi fl i h = phi (gs_flux s) i h) by (intros h i Hh Hi; rewrite Vf by auto; destruct (Nat.eqb_spec h g); [contradiction|reflexivity]).
  unfold sg_step. rewrite Eq. destruct (records k s) eqn:Rc.
  - unfold records in Rc. destruct k as [|k]; [|discriminate]. destruct (gs_co s) as [c|] eqn:Es; [|discriminate]. destruct (Fc c eq_refl) as (L1 & L2 & F1 & F2).
    destruct (nth_error (co_cur c) g) as [cur|] eqn:E3; [|apply nth_error_None in E3; pose proof (sgf_g m ng sct g F); lia]. destruct (nth_error (co_sf c) g) as [sf|] eqn:E4; [|apply nth_error_None in E4; pose proof (sgf_g m ng sct g F); lia].
    rewrite (map_zero cur (Z.to_nat (n_surf (sg_m m)))) by (rewrite Forall_forall in F1; apply F1; eapply nth_error_In; eauto). rewrite (map_zero sf (Z.to_nat (n_surf (sg_m m)))) by (rewrite Forall_forall in F2; apply F2; eapply nth_error_In; eauto).
    fold (no_arr m). rewrite E1. destruct (set_nth_def (co_cur c) g (ss_cur st)) as (cu & Ecu & _); [pose proof (sgf_g m ng sct g F); lia|]. destruct (set_nth_def (co_sf c) g (ss_sf st)) as (su & Esu & _); [pose proof (sgf_g m ng sct g F); lia|]. rewrite Ecu, Esu.
    destruct (set_nth_full _ _ _ _ Ecu) as (C1 & C2 & C3). destruct (set_nth_full _ _ _ _ Esu) as (D1 & D2 & D3).
    eexists. split; [reflexivity|]. split; [|split; [|split; [exact Vh|exact Fo]]].
    + exists f, st. cbn [gs_q gs_flux gs_bin gs_bout gs_co]. assert (Rt : records 0 s = true) by (unfold records; now rewrite Es). rewrite Rt. split; [exact Psrc|]. split; [exact E|]. split; [reflexivity|]. split; [reflexivity|]. split; [exact Lf|]. split; [exact Vf|].
      exists c. eexists. split; [exact Es|]. split; [reflexivity|]. cbn [co_cur co_sf co_radial co_axial]. split; [exact C2|]. split; [exact D2|]. split; [intros h Hh; split; auto|]. split; [reflexivity|]. now rewrite orb_true_iff.
    + split; [exact (fits_map _ _ _ _ Ff B C)|]. cbn [gs_q gs_bin gs_bout gs_co]. split; [exact L|]. split; [congruence|]. split; [congruence|]. intros c' Ec'. injection Ec' as <-. unfold co_fits. cbn [co_cur co_sf]. split; [congruence|]. split; [congruence|].
      split; eapply Forall_set; eauto; congruence.
  - assert (Ew : match k, gs_co s with O, Some c => match nth_error (co_cur c) g, nth_error (co_sf c) g with | Some cur, Some sf => match sg_one m g k true q (map (fun _ => 0%R) cur) (map (fun _ => 0%R) sf) s with
      | Some (fl0, st0) => match set_nth (co_cur c) g (ss_cur st0), set_nth (co_sf c) g (ss_sf st0) with Some cu, Some su => Some (mkGS fl0 q (ss_in st0) (ss_out st0) (Some (mkCD cu su (co_axial c || sg_d3 m) true))) | _, _ => None end | None => None end | _, _ => None end
      | _, _ => match sg_one m g k false q (no_arr m) (no_arr m) s with Some (fl0, st0) => Some (mkGS fl0 q (ss_in st0) (ss_out st0) (gs_co s)) | None => None end end
      = Some (mkGS fl q (ss_in st) (ss_out st) (gs_co s))). { unfold records in Rc. rewrite E1. destruct k as [|k]; [|reflexivity]. destruct (gs_co s) as [c|]; [discriminate|reflexivity]. }
    rewrite Ew. eexists. split; [reflexivity|]. split; [|split; [|split; [exact Vh|exact Fo]]].
    + exists f, st. cbn [gs_q gs_flux gs_bin gs_bout gs_co]. rewrite Rc. auto 9.
    + split; [exact (fits_map _ _ _ _ Ff B C)|]. cbn [gs_q gs_bin gs_bout gs_co]. split; [exact L|]. split; [congruence|]. split; [congruence|]. exact Fc.
Qed.
End Pass.

Lemma steps_made : forall m ng sct g src n s, sg_fits m ng sct g -> length src = sg_nreg m -> (forall k k' a, In a (map snd (sg_sched m k)) -> In a (map snd (sg_sched m k'))) -> gs_fits m ng s ->
  exists l u, sg_steps m g src n s = Some u /\ counted (sn_pass m sct g src) n s l /\ last l s = u /\ gs_fits m ng u /\
    (forall h i, h <> g -> i < sg_nreg m -> phi (gs_flux u) i h = phi (gs_flux s) i h) /\
    (0 < n -> follows (sg_in m) g (fun a => sg_gs m = true -> In a (map snd (sg_sched m 0))) (gs_bout u) (gs_bin s) (gs_bin u)).
Proof.
  intros m ng sct g src n s F Ls Sc. revert s. induction n as [|n IH]; intros s Fs; cbn [sg_steps].
  - exists [], s. cbn [counted last]. do 5 (split; [auto|]). intros Q. inversion Q.
  - destruct (pass_made m ng sct g src F Ls n s Fs) as (t & Et & Pt & Ft & Vt & Fo). rewrite Et. destruct (IH t Ft) as (l & u & Eu & Cl & La & Fu & Vu & Fo'). exists (t :: l), u. split; [exact Eu|]. split; [split; [exact Pt|exact Cl]|]. split.
    { rewrite <- La. clear. destruct l as [|v l]; [reflexivity|]. change (last (t :: v :: l) s) with (last (v :: l) s). revert v. induction l as [|w l IH]; intros v; [reflexivity|]. exact (IH w). }
    split; [exact Fu|]. split; [intros h i Hh Hi; now rewrite Vu, Vt|]. intros _.
    assert (Fo1 : follows (sg_in m) g (fun a => sg_gs m = true -> In a (map snd (sg_sched m 0))) (gs_bout t) (gs_bin s) (gs_bin t)).
    { destruct Fo as (A & B & C). split; [|split]; [| |exact C].
      - intros a' n' i k a ty ko Sl Ra Ty So On. apply (A a' n' i k a ty ko Sl Ra Ty So). intros G. apply (Sc 0 n a). auto.
      - intros a' n' i k a Sl Ra Nn. apply (B a' n' i k a Sl Ra). intros On. apply Nn. intros G. apply (Sc n 0 a). auto. }
    destruct n as [|n]; [cbn [sg_steps] in Eu; injection Eu as <-; exact Fo1|]. specialize (Fo' ltac:(lia)). destruct Fo1 as (A & B & C). destruct Fo' as (A' & B' & C'). split; [|split].
    + intros a' n' i k a ty ko Sl Ra Ty So On. rewrite (A' a' n' i k a ty ko Sl Ra Ty So On). assert (P := A a' n' i k a ty ko Sl Ra Ty So On). destruct ty; auto.
    + intros a' n' i k a Sl Ra Nn. now rewrite (B' a' n' i k a Sl Ra Nn), (B a' n' i k a Sl Ra Nn).
    + intros g' a' n' i k Sl Ng. now rewrite (C' g' a' n' i k Sl Ng), (C g' a' n' i k Sl Ng).
Qed.
Lemma get_col_def : forall g n ng fl, flux_fits n ng fl -> g < ng -> exists f, get_col g fl = Some f /\ length f = n /\ forall i, i < n -> at0 f i = phi fl i g.
Proof.
  intros g n ng fl [L R]. revert n L R. induction fl as [|row fl IH]; intros n L R Hg; cbn in L; cbn [get_col].
  - exists []. split; [reflexivity|]. split; [exact L|]. intros; lia.
  - destruct (nth_error row g) as [v|] eqn:E; [|apply nth_error_None in E; rewrite (R row) in E; [lia|now left]]. destruct (IH (length fl) eq_refl (fun x I => R x (or_intror I)) Hg) as (f & -> & Lf & Pf). exists (v :: f). split; [reflexivity|]. split; [cbn; lia|].
    intros [|i] Hi; [|apply (Pf i); lia]. unfold phi. cbn [nth]. unfold at0. cbn. symmetry. now apply nth_error_nth.
Qed.
Lemma clean_at : forall f i, at0 (clean_up f) i = Rmax 0 (at0 f i).
Proof.
  induction f as [|v f IH]; intros [|i]; unfold at0; cbn [clean_up map nth].
  - symmetry. apply Rmax_left. lra.
  - symmetry. apply Rmax_left. lra.
  - destruct (Rltb_spec v 0); [symmetry; apply Rmax_left; lra|symmetry; apply Rmax_right; lra].
  - exact (IH i).
Qed.
(** The whole group sweep: as many passes as there are inner iterations, then negative fluxes of the group become zero and
    nothing else changes. *)
Theorem C108_sweep : forall m ng sct g src s, sg_fits m ng sct g -> length src = sg_nreg m -> (forall k k' a, In a (map snd (sg_sched m k)) -> In a (map snd (sg_sched m k'))) -> gs_fits m ng s ->
  exists l u s', sg_sweep m g src s = Some s' /\ counted (sn_pass m sct g src) (sg_inner m) s l /\ last l s = u /\
    (forall i, i < sg_nreg m -> phi (gs_flux s') i g = Rmax 0 (phi (gs_flux u) i g)) /\
    (forall i h, i < sg_nreg m -> h <> g -> phi (gs_flux s') i h = phi (gs_flux s) i h) /\
    gs_q s' = gs_q u /\ gs_bin s' = gs_bin u /\ gs_bout s' = gs_bout u /\ gs_co s' = gs_co u /\ gs_fits m ng s'.
Proof.
  intros m ng sct g src s F Ls Sc Fs. destruct (steps_made m ng sct g src (sg_inner m) s F Ls Sc Fs) as (l & u & Eu & Cl & La & Fu & Vu & _). unfold sg_sweep. rewrite Eu. assert (Ff : flux_fits (sg_nreg m) ng (gs_flux u)) by apply Fu.
  destruct (get_col_def g _ _ _ Ff (sgf_g _ _ _ _ F)) as (f & -> & Lf & Pf). destruct (set_col_def g (sg_nreg m) ng (clean_up f) (gs_flux u) Ff (sgf_g _ _ _ _ F)) as (fl & Ec); [unfold clean_up; now rewrite map_length|]. rewrite Ec.
  destruct (set_col_spec _ _ _ _ Ec) as (A & B & C & V). unfold clean_up in V at 1. rewrite map_length, Lf in V. exists l, u. eexists. split; [reflexivity|]. cbn [gs_flux gs_q gs_bin gs_bout gs_co]. split; [exact Cl|]. split; [exact La|]. split.
  { intros i Hi. rewrite V, Nat.eqb_refl, clean_at, Pf by auto. reflexivity. } split.
  { intros i h Hi Hh. rewrite V by auto. destruct (Nat.eqb_spec h g); [contradiction|]. now apply Vu. } do 4 (split; [reflexivity|]).
  destruct Fu as (_ & U). split; [exact (fits_map _ _ _ _ Ff B C)|exact U].
Qed.
Print Assumptions C108_sweep.
(** The group's flux is never negative afterwards, and a flux that was not negative is kept. *)
Theorem C108_nonnegative : forall m ng sct g src s s', sg_fits m ng sct g -> length src = sg_nreg m -> (forall k k' a, In a (map snd (sg_sched m k)) -> In a (map snd (sg_sched m k'))) -> gs_fits m ng s ->
  sg_sweep m g src s = Some s' -> (forall i, i < sg_nreg m -> (0 <= phi (gs_flux s') i g)%R) /\
  exists u, sg_steps m g src (sg_inner m) s = Some u /\ forall i, i < sg_nreg m -> (0 <= phi (gs_flux u) i g -> phi (gs_flux s') i g = phi (gs_flux u) i g)%R /\ (phi (gs_flux u) i g < 0 -> phi (gs_flux s') i g = 0)%R.
Proof.
  intros m ng sct g src s s' F Ls Sc Fs E. destruct (steps_made m ng sct g src (sg_inner m) s F Ls Sc Fs) as (l & u & Eu & Cl & La & Fu & Vu & _). unfold sg_sweep in E. rewrite Eu in E. assert (Ff : flux_fits (sg_nreg m) ng (gs_flux u)) by apply Fu.
  destruct (get_col_def g _ _ _ Ff (sgf_g _ _ _ _ F)) as (f & Ef & Lf & Pf). rewrite Ef in E. destruct (set_col g (clean_up f) (gs_flux u)) as [fl|] eqn:Ec; [|discriminate]. injection E as <-. cbn [gs_flux].
  destruct (set_col_spec _ _ _ _ Ec) as (A & B & C & V). unfold clean_up in V at 1. rewrite map_length, Lf in V. assert (W : forall i, i < sg_nreg m -> phi fl i g = Rmax 0 (phi (gs_flux u) i g)) by (intros i Hi; rewrite V, Nat.eqb_refl, clean_at, Pf by auto; reflexivity).
  split; [intros i Hi; rewrite W by auto; apply Rmax_l|]. exists u. split; [exact Eu|]. intros i Hi. rewrite W by auto. split; intros Q; [apply Rmax_right; exact Q|apply Rmax_left; lra].
Qed.
Print Assumptions C108_nonnegative.
(** The boundary afterwards, whatever the number of inner iterations: decided by the conditions from the outgoing values; prescribed
    values and those of other groups are kept. *)
Theorem C108_boundary : forall m ng sct g src s s', sg_fits m ng sct g -> length src = sg_nreg m -> (forall k k' a, In a (map snd (sg_sched m k)) -> In a (map snd (sg_sched m k'))) -> gs_fits m ng s ->
  0 < sg_inner m -> sg_sweep m g src s = Some s' -> follows (sg_in m) g (fun a => sg_gs m = true -> In a (map snd (sg_sched m 0))) (gs_bout s') (gs_bin s) (gs_bin s').
Proof.
  intros m ng sct g src s s' F Ls Sc Fs Hn E. destruct (steps_made m ng sct g src (sg_inner m) s F Ls Sc Fs) as (l & u & Eu & _ & _ & _ & _ & Fo). unfold sg_sweep in E. rewrite Eu in E.
  destruct (get_col g (gs_flux u)) as [f|]; [|discriminate]. destruct (set_col g (clean_up f) (gs_flux u)) as [fl|]; [|discriminate]. injection E as <-. cbn [gs_bout gs_bin]. now apply Fo.
Qed.
Print Assumptions C108_boundary.

Lemma last_pass : forall m sct g src n s l, 0 < n -> counted (sn_pass m sct g src) n s l -> exists t, sn_pass m sct g src 0 t (last l s) /\ gs_co t = gs_co s /\ (n = 1 -> t = s).
Proof.
  intros m sct g src n s l. revert s l. induction n as [|n IH]; intros s [|b l] Hn C; try lia; cbn [counted] in C; [contradiction|]. destruct C as [Pb C].
  assert (La : last (b :: l) s = last l b). { clear. destruct l as [|v l]; [reflexivity|]. change (last (b :: v :: l) s) with (last (v :: l) s). revert v. induction l as [|w l IH]; intros v; [reflexivity|]. exact (IH w). }
  rewrite La. destruct n as [|n].
  - destruct l as [|c l]; [|contradiction]. exists s. split; [exact Pb|]. split; [reflexivity|auto].
  - destruct (IH b l ltac:(lia) C) as (t & Pt & Et & _). exists t. split; [exact Pt|]. split; [|lia]. rewrite Et. destruct Pb as (f & st & _ & _ & _ & _ & _ & _ & R). cbn [records] in R. exact R.
Qed.
Lemma lsum_scale : forall {A} (f : A -> R) c l, lsum (fun x => f x * c)%R l = (lsum f l * c)%R.
Proof. intros A f c l. induction l as [|x l IH]; cbn [lsum]; [lra|]. rewrite IH. lra. Qed.
(** The currents recorded by a three-dimensional group sweep: in every cell the net leakage plus the collisions of the swept flux
    balance the external source plus the within-group scattering of the flux the last pass started from ([old]).  The flux
    delivered is the swept one with negative values raised to zero.  Coarse data of other groups are kept. *)
Theorem C108_currents : forall m ng sct g src s s' c (dx dy dz : nat -> R), sg_fits m ng sct g -> length src = sg_nreg m -> (forall k k' a, In a (map snd (sg_sched m k)) -> In a (map snd (sg_sched m k'))) -> gs_fits m ng s ->
  0 < sg_inner m -> sg_d3 m = true -> gs_co s = Some c -> (forall a q cw, In a (sg_quad m) -> cosines (sg_env m g q cw) a) -> (forall i, 0 < dx i /\ 0 < dy i /\ 0 < dz i)%R ->
  (forall iang a ix iy iz fx fy fz q xs o, nth_error (sg_quad m) iang = Some a -> sg_eq m g iang ix iy iz fx fy fz q xs = Some o -> balanced (Rabs (ox (adir a)) / dx ix) (Rabs (oy (adir a)) / dy iy) (Rabs (oz (adir a)) / dz iz) fx fy fz q xs o) ->
  lsum (fun ti => match nth_error (sg_quad m) (snd ti) with Some a => weight a * (PI / 2) | None => 0 end)%R (sg_sched m 0) = (4 * PI)%R ->
  sg_sweep m g src s = Some s' ->
  exists c' cur old f, gs_co s' = Some c' /\ nth_error (co_cur c') g = Some cur /\ (sg_inner m = 1 -> old = gs_flux s) /\
    (forall h, h <> g -> nth_error (co_cur c') h = nth_error (co_cur c) h /\ nth_error (co_sf c') h = nth_error (co_sf c) h) /\ co_radial c' = true /\ co_axial c' = true /\
    (forall i, i < sg_nreg m -> phi (gs_flux s') i g = Rmax 0 (at0 f i)) /\
    forall x ix iy iz, let e := sg_env m g [] true in let i := cell_ix e (ix, iy, iz) in ix < Nx e -> iy < Ny e -> iz < Nz e -> In x (sg_xs m) -> In i (xr_reg x) ->
      let J := surf_val e cur ix iy iz in
      ((J EAST - J WEST) * (dy iy * dz iz) + (J NORTH - J SOUTH) * (dx ix * dz iz) + (J TOP - J BOTTOM) * (dx ix * dy iy) + at0 (sg_xstr m g) i * at0 f i * (dx ix * dy iy * dz iz) =
       (at0 src i + sct x g g * phi old i g) * (dx ix * dy iy * dz iz))%R.
Proof.
  intros m ng sct g src s s' c dx dy dz F Ls Sc Fs Hn D3 Ec Co Pos Bal Wt E. destruct (C108_sweep m ng sct g src s F Ls Sc Fs) as (l & u & s2 & E2 & Cl & La & Vg & Vh & Eq & Eb & Eo & Eco & _). rewrite E in E2. injection E2 as <-.
  destruct (last_pass m sct g src (sg_inner m) s l Hn Cl) as (t & Pt & Et & T1). rewrite La in Pt. destruct Pt as (f & st & Psrc & Esw & _ & _ & Lf & Pf & R). unfold records in R, Esw. rewrite Et, Ec in R, Esw.
  destruct R as (c0 & c' & Ec0 & Ec' & N1 & N2 & Oth & Rad & Ax). assert (c0 = c) by congruence. subst c0.
  exists c', (ss_cur st), (gs_flux t), f. split; [congruence|]. split; [exact N1|]. split; [intros Q; now rewrite (T1 Q)|]. split; [exact Oth|]. split; [exact Rad|]. split; [apply Ax; now right|]. split.
  { intros i Hi. rewrite Vg, Pf, Nat.eqb_refl by auto. reflexivity. }
  intros x ix iy iz e i Hx Hy Hz Ix Ii J.
  assert (B := C89_balance (sg_env m g (gs_q u) true) (sg_nt m) (sg_sched m 0) (sg_nreg m) (gs_bin t) (gs_bout t) (no_arr m) (no_arr m) f st dx dy dz).
  assert (Lq : length (gs_q u) = sg_nreg m). { destruct (steps_made m ng sct g src (sg_inner m) s F Ls Sc Fs) as (l2 & u2 & Eu2 & _ & _ & Fu2 & _). unfold sg_sweep in E. rewrite Eu2 in E. destruct (get_col g (gs_flux u2)) as [f2|]; [|discriminate]. destruct (set_col g (clean_up f2) (gs_flux u2)) as [fl2|]; [|discriminate]. injection E as <-. cbn [gs_q] in Eq. rewrite <- Eq. apply Fu2. }
  specialize (B (f_mesh _ (sgf_env m ng sct g F _ true Lq)) D3 eq_refl (fun a => Co a _ _) (sgf_once m ng sct g F 0) (fun k => at0_repeat _ k) Pos Bal Esw ix iy iz Hx Hy Hz). cbv zeta in B.
  change (surf_val (sg_env m g (gs_q u) true) (ss_cur st) ix iy iz) with J in B. change (cell_ix (sg_env m g (gs_q u) true) (ix, iy, iz)) with i in B. change (sn_xstr (sg_env m g (gs_q u) true)) with (sg_xstr m g) in B. rewrite B.
  cbn [sg_env sn_q]. rewrite lsum_scale. assert (Sw : lsum (fun ti : nat * nat => aof (sg_env m g (gs_q u) true) (sn_wgt (sg_env m g (gs_q u) true)) (snd ti)) (sg_sched m 0) = (4 * PI)%R).
  { rewrite <- Wt. apply lsum_ext. intros ti _. unfold aof, sn_wgt. cbn [sg_env sn_quad sn_d3]. now rewrite D3. }
  match goal with |- (lsum ?F ?L * _ * _ = _)%R => replace (lsum F L) with (4 * PI)%R by (symmetry; exact Sw) end. rewrite <- (Psrc x i Ix Ii). lra.
Qed.
Print Assumptions C108_currents.

(** Two cells, two groups, eight angles, reflecting on one side, two inner iterations with Gauss-Seidel updates. *)
Definition gx_st : SnStatic := mkSG sx_m (sx_bc 2) (sx_bc 1) sx_quad (fun _ => [1; 2]%R) true true (fun _ => sn_eq (sx_env true)) 2 (fun _ => sx_sched1) 2 2 [xr_a; xr_b].
Definition gx_c : CoarseD := mkCD [repeat 7%R 11; repeat 8%R 11] [repeat 7%R 11; repeat 8%R 11] false false.
Definition gx_s : SnGSt := mkGS [[1; 2]; [3; 4]]%R [0; 0]%R (repeat 1%R 80) (repeat 0%R 40) (Some gx_c).
Lemma gx_fits : sg_fits gx_st 2 (fun _ => sc_two) 1.
Proof.
  destruct mesh_two as (M & D & _). constructor; [exact M|exact D|lia| |reflexivity| |].
  - intros q cw Lq. assert (F := sx_fits true). destruct F. constructor; auto.
  - intros k. cbn [gx_st sg_sched sg_nt sg_in sx_bc BcModel.sizes length repeat]. sched_in.
  - intros k. cbn. repeat (constructor; [cbn; intuition discriminate|]); constructor.
Qed.
Lemma gx_sfits : gs_fits gx_st 2 gx_s.
Proof.
  destruct mesh_two as (_ & _ & F). split; [exact F|]. do 3 (split; [reflexivity|]). intros c E. injection E as <-. split; [reflexivity|]. split; [reflexivity|]. split; repeat constructor.
Qed.
Example C108_instance : exists s', sg_sweep gx_st 1 [1; 1]%R gx_s = Some s' /\ sg_fits gx_st 2 (fun _ => sc_two) 1 /\ gs_fits gx_st 2 gx_s /\ sg_inner gx_st = 2 /\
  (forall a q cw, In a (sg_quad gx_st) -> cosines (sg_env gx_st 1 q cw) a) /\
  (lsum (fun ti => match nth_error (sg_quad gx_st) (snd ti) with Some a => weight a * (PI / 2) | None => 0 end) (sg_sched gx_st 0) = 4 * PI)%R /\
  (exists a' n i k a ko, slot (sg_in gx_st) 1 a' n i k /\ refl_n (sg_in gx_st) a' n = Some a /\ type_at (sg_in gx_st) a' n = Some REFLECT /\ slot (sg_in gx_st) 0 a n i ko /\ nth_error (gs_bin s') k = nth_error (gs_bout s') ko /\ nth_error (gs_bout s') ko <> None).
Proof.
  destruct (C108_sweep gx_st 2 (fun _ => sc_two) 1 [1; 1]%R gx_s gx_fits eq_refl (fun _ _ _ I => I) gx_sfits) as (l & u & s' & E & _ & _ & _ & _ & _ & _ & _ & _ & Fs'). exists s'. split; [exact E|]. split; [apply gx_fits|]. split; [apply gx_sfits|]. split; [reflexivity|]. split; [intros a q cw I; apply (sx_cos true a I)|]. split; [cbn; lra|].
  assert (B := C108_boundary gx_st 2 (fun _ => sc_two) 1 [1; 1]%R gx_s s' gx_fits eq_refl (fun _ _ _ I => I) gx_sfits ltac:(cbn; lia) E). destruct B as (B & _).
  assert (Q : refl_n (sg_in gx_st) 1 X_NORM = Some 0) by reflexivity. assert (T : type_at (sg_in gx_st) 1 X_NORM = Some REFLECT).
  { unfold type_at. cbn. f_equal. unfold upwind_surface. cbn. destruct (Rltb_spec 0 (- Rabs (1 / 3))) as [Q0|]; [pose proof (Rabs_pos (1 / 3)); lra|reflexivity]. }
  assert (S1 : slot (sg_in gx_st) 1 1 X_NORM 0 45) by (exists 1, 45; split; [reflexivity|lia]). assert (S0 : slot (sg_in gx_st) 0 0 X_NORM 0 0) by (exists 1, 0; split; [reflexivity|lia]).
  exists 1, X_NORM, 0, 45, 0, 0. do 4 (split; [assumption|]). split; [apply (B 1 X_NORM 0 45 0 REFLECT 0 S1 Q T S0); intros _; cbn; auto|]. destruct Fs' as (_ & _ & _ & L & _). apply nth_error_Some. rewrite L. cbn. lia.
Qed.
