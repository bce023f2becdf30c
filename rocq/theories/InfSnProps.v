(** Properties of a whole eigenvalue calculation: C156 for the Sn sweeper (a flux that is flat in space and balances in every material is a solution when nothing leaks out). *)
From Coq Require Import List Bool Reals ZArith Arith Lia Lra Permutation.
From Verif Require Import RUtil ListUtil McModel MeshModel MeshSpec MeshProofs MeshProps AngModel BcModel BcProofs BcProps StdAlg CoreModel ExpModel MocModel MocProofs MocMaxProps MocEigProps InfProps CurModel SnModel SnEqProps SnProofs SnProps SnCurProps SnSweepProps ScatModel ScatProofs MatModel XsModel XsProps SrcModel SrcProps SolModel SolProps MgModel MgProps MgInnerProps SnPinProps SnGroupModel SnGroupProps EigProps EigSnProps.
Import ListNotations.
Open Scope nat_scope.

(** Faces a sweep works with: no axial ones in two dimensions. *)
Definition used (d3 : bool) (n : Normal) : Prop := n = Z_NORM -> d3 = true.

Lemma put_same : forall b d iang n v d' m i k, put_face b d iang n v = Some d' -> slot b 0 iang m i k -> nth_error d' k = if normal_eqb m n then nth_error v i else nth_error d k.
Proof.
  intros b d iang n v d' m i k H Sl. unfold put_face in H. destruct (get_face b 0 iang n) as [[size off]|] eqn:F; [|discriminate]. destruct (Nat.eqb_spec (length v) size) as [L|]; [|discriminate].
  destruct (write_range_spec _ _ _ _ H) as [_ W]. rewrite W. destruct ((off <=? k) && (k <? off + length v)) eqn:Q.
  - apply andb_true_iff in Q. destruct Q as [Q1 Q2]. apply Nat.leb_le in Q1. apply Nat.ltb_lt in Q2. destruct (slot_inj b 0 iang m i k 0 iang n (k - off) Sl) as (_ & _ & -> & ->); [exists size, off; split; [exact F|]; lia|]. destruct n; reflexivity.
  - destruct (normal_eqb m n) eqn:E; [|reflexivity]. assert (m = n) by (destruct m, n; try discriminate E; reflexivity). subst m. destruct Sl as (s2 & o2 & F2 & Hi & ->). rewrite F in F2. injection F2 as <- <-. exfalso. apply andb_false_iff in Q. destruct Q as [Q|Q]; [apply Nat.leb_gt in Q|apply Nat.ltb_ge in Q]; lia.
Qed.

Section Flat.
Variables (e : SnEnv) (nt : nat) (c : R).
Hypothesis F : sn_fits e.
Hypothesis NV : forall t, (t = TOP \/ t = BOTTOM -> sn_d3 e = true) -> types (sn_in e) t <> VACUUM.
Hypothesis Q : forall iang ix iy iz, ix < Nx e -> iy < Ny e -> iz < planes e -> at0 (sn_q e iang) (cell_ix e (ix, iy, iz)) = (at0 (sn_xstr e) (cell_ix e (ix, iy, iz)) * c)%R.
Hypothesis U : forall iang ix iy iz xs, In xs (sn_xstr e) -> exists gz, sn_eq e iang ix iy iz c c (if sn_d3 e then c else 0%R) (xs * c)%R xs = Some (c, c, c, gz) /\ (sn_d3 e = true -> gz = c).

Definition in_flat (d : list R) : Prop := forall a n i k, used (sn_d3 e) n -> slot (sn_in e) (sn_group e) a n i k -> nth_error d k = Some c.
Definition out_flat (on : nat -> Prop) (d : list R) : Prop := forall a n i k, on a -> used (sn_d3 e) n -> slot (sn_in e) 0 a n i k -> nth_error d k = Some c.

Lemma face_flat : forall d iang n v, in_flat d -> used (sn_d3 e) n -> face_of_bc (sn_in e) d (sn_group e) iang n = Some v -> forall i, i < length v -> at0 v i = c.
Proof.
  intros d iang n v I Us H i Hi. unfold face_of_bc in H. destruct (get_face (sn_in e) (sn_group e) iang n) as [[size off]|] eqn:G; [|discriminate]. destruct (read_range_spec _ _ _ _ H) as [L P].
  apply (nth_error_nth _ _ 0%R). rewrite P by lia. apply (I iang n i); [exact Us|]. exists size, off. split; [exact G|]. lia.
Qed.
Lemma mirror_slot : forall g a n i k a2, slot (sn_in e) g a n i k -> refl_n (sn_in e) a n = Some a2 -> exists ko, slot (sn_in e) 0 a2 n i ko.
Proof.
  intros g a n i k a2 (size & off & G & Hi & ->) H2. destruct (get_face_inv _ _ _ _ _ _ G) as (s & o & Es & _ & -> & _). destruct (ok_mirror _ (f_in e F) a a2 n s Es H2) as (s' & Es' & Z); [lia|].
  destruct (get_face_some (sn_in e) 0 a2 n) as (s2 & o2 & G2); [apply nth_error_Some; congruence|]. exists (o2 + i), s2, o2. split; [exact G2|]. split; [|reflexivity].
  destruct (get_face_inv _ _ _ _ _ _ G2) as (s3 & o3 & Es3 & _ & -> & _). rewrite Es' in Es3. injection Es3 as <-. lia.
Qed.
Lemma keep_in : forall (on : nat -> Prop) o d0 d1, follows (sn_in e) (sn_group e) on o d0 d1 -> out_flat on o -> (forall a, on a \/ ~ on a) -> in_flat d0 -> in_flat d1.
Proof.
  intros on o d0 d1 (P1 & P2 & _) Of Dc I a' n i k Us Sl. pose proof (slot_angle _ _ _ _ _ _ Sl) as La. destruct (refl_n_spec (sn_in e) a' n (f_in e F) La) as (a & _ & Ra & Rb).
  destruct (Dc a) as [On|On]; [|rewrite (P2 a' n i k a Sl Ra On); exact (I a' n i k Us Sl)]. destruct (mirror_slot _ _ _ _ _ a Sl Ra) as (ko & So).
  destruct (nth_error (quad (sn_in e)) a') as [an|] eqn:Ea; [|apply nth_error_None in Ea; pose proof (ok_quad _ (f_in e F)); lia].
  assert (T : type_at (sn_in e) a' n = Some (types (sn_in e) (upwind_surface (adir an) n))) by (unfold type_at; now rewrite Ea).
  rewrite (P1 a' n i k a _ ko Sl Ra T So On). destruct (types (sn_in e) (upwind_surface (adir an) n)) eqn:Ty; try (exact (I a' n i k Us Sl)).
  - exact (Of a n i ko On Us So).
  - exfalso. revert Ty. apply NV. intros Tb. apply Us. destruct n; cbn [upwind_surface] in Tb; [| |reflexivity]; destruct (Rltb _ _); destruct Tb; discriminate.
Qed.
Lemma angle_flat : forall tid iang s s', st_fits e nt s -> tid < nt -> iang < length (BcModel.sizes (sn_in e)) -> in_flat (ss_in s) -> sn_angle e tid iang s = Ok s' ->
  st_fits e nt s' /\ in_flat (ss_in s') /\ out_flat (fun a => a = iang) (ss_out s') /\ (forall a n i k, a <> iang -> slot (sn_in e) 0 a n i k -> nth_error (ss_out s') k = nth_error (ss_out s) k) /\
  (forall ix iy iz, ix < Nx e -> iy < Ny e -> iz < planes e -> tot (ss_t s') (cell_ix e (ix, iy, iz)) = (tot (ss_t s) (cell_ix e (ix, iy, iz)) + c * aof e (sn_wgt e) iang)%R).
Proof.
  intros tid iang s s' S Ht Hi If H. assert (Hs : sn_angles e [(tid, iang)] s = Ok s') by (cbn [sn_angles]; rewrite H; reflexivity).
  destruct (angles_follow e nt [(tid, iang)] s s' F S) as (S' & Oth & Fo); [intros t i [E|[]]; injection E as <- <-; auto|constructor; [intros []|constructor]|exact Hs|]. cbn [map snd] in Oth, Fo.
  assert (Main : out_flat (fun a => a = iang) (ss_out s') /\ (forall ix iy iz, ix < Nx e -> iy < Ny e -> iz < planes e -> tot (ss_t s') (cell_ix e (ix, iy, iz)) = (tot (ss_t s) (cell_ix e (ix, iy, iz)) + c * aof e (sn_wgt e) iang)%R)).
  { clear Hs Fo Oth S'. destruct S as (Li & Lo & Lt & Ft & Lc & Lf). assert (M := f_mesh e F). destruct M as (Mx & My & Mz). assert (Px : 0 < Nx e) by (unfold Nx; lia). assert (Py : 0 < Ny e) by (unfold Ny; lia). assert (Pz : 0 < planes e) by (unfold planes, Nz; destruct (sn_d3 e); lia).
    unfold sn_angle in H. step H a. step H t. step H x. step H y. step H z. step H u. destruct u as [cu sf]. step H r. step H o1. step H o2. step H o3. step H ts. step H d. injection H as <-. cbn [ss_out ss_t].
    destruct (read_face e (ss_in s) iang X_NORM F Hi Li) as (x2 & Ex2 & Lx). rewrite Ex in Ex2. injection Ex2 as <-. destruct (read_face e (ss_in s) iang Y_NORM F Hi Li) as (y2 & Ey2 & Ly). rewrite Ey in Ey2. injection Ey2 as <-. cbn [sn_size face_size sx sy] in Lx, Ly.
    assert (Zz : sn_d3 e = true -> length z = Nx e * Ny e /\ forall i, i < length z -> at0 z i = c).
    { intros D. rewrite D in Ez. destruct (read_face e (ss_in s) iang Z_NORM F Hi Li) as (z2 & Ez2 & Lz). rewrite Ez in Ez2. injection Ez2 as <-. split; [exact Lz|]. intros i Hz. apply (face_flat (ss_in s) iang Z_NORM z If); [intros _; exact D|exact Ez|exact Hz]. }
    destruct (C91_infinite_medium e iang a _ r c Px Py Pz Er) as (T1 & T2 & T3 & T4).
    { intros ix iy iz Hx Hy Hz. cbn [as_x as_y as_z]. split; [apply (face_flat (ss_in s) iang X_NORM x If); [discriminate|exact Ex|rewrite Lx; nia]|]. split; [apply (face_flat (ss_in s) iang Y_NORM y If); [discriminate|exact Ey|rewrite Ly; nia]|]. intros D. destruct (Zz D) as [Lz Vz]. apply Vz. rewrite Lz. nia. }
    { intros ix iy iz q xs Hx Hy Hz Eq Exs. specialize (Q iang ix iy iz Hx Hy Hz). apply at0_some in Eq. destruct Eq as [Eq _]. rewrite Eq in Q. assert (Ix := nth_error_In _ _ Exs). apply at0_some in Exs. destruct Exs as [Exs _]. rewrite Exs in Q. rewrite Q. now apply U. }
    destruct (swept e iang a _ r Er Px Py Pz) as (_ & _ & _ & (Rx & Ry & Rz & _) & _). cbn [as_x as_y as_z as_t] in *. split.
    - intros a0 n i k -> Us Sl. assert (Sl' := Sl). apply (slot_any _ (sn_out e)) in Sl'; [|symmetry; apply (f_out e F)].
      assert (Hn : i < face_size (sn_size e) n). { destruct Sl as (size & off & G & Hi' & _). destruct (get_face_inv _ _ _ _ _ _ G) as (s0 & o & Es & _ & -> & _). pose proof (f_sizes e F) as Sz. rewrite Forall_forall in Sz. rewrite (Sz s0 (nth_error_In _ _ Es)) in Hi'. exact Hi'. }
      cbn [sn_size face_size sx sy sz] in Hn.
      assert (E2 : nth_error o3 k = match n with X_NORM => nth_error (as_x r) i | Y_NORM => nth_error (as_y r) i | Z_NORM => nth_error (as_z r) i end).
      { destruct n; cbn [sn_size face_size sx sy sz] in Hn.
        - transitivity (nth_error o2 k); [destruct (sn_d3 e); [rewrite (put_same _ _ _ _ _ _ _ _ _ Eo3 Sl'); reflexivity|congruence]|]. rewrite (put_same _ _ _ _ _ _ _ _ _ Eo2 Sl'). cbn [normal_eqb]. rewrite (put_same _ _ _ _ _ _ _ _ _ Eo1 Sl'). reflexivity.
        - transitivity (nth_error o2 k); [destruct (sn_d3 e); [rewrite (put_same _ _ _ _ _ _ _ _ _ Eo3 Sl'); reflexivity|congruence]|]. rewrite (put_same _ _ _ _ _ _ _ _ _ Eo2 Sl'). reflexivity.
        - rewrite (Us eq_refl) in Eo3. rewrite (put_same _ _ _ _ _ _ _ _ _ Eo3 Sl'). reflexivity. }
      rewrite E2. destruct n; cbn [sn_size face_size sx sy sz] in Hn.
      + rewrite (at0_in (as_x r) i) by lia. f_equal. rewrite (Nat.div_mod i (Ny e)) by lia. apply T2; [apply Nat.mod_upper_bound; lia|apply Nat.div_lt_upper_bound; lia].
      + rewrite (at0_in (as_y r) i) by lia. f_equal. rewrite (Nat.div_mod i (Nx e)) by lia. apply T3; [apply Nat.mod_upper_bound; lia|apply Nat.div_lt_upper_bound; lia].
      + assert (D := Us eq_refl). rewrite (at0_in (as_z r) i) by (rewrite Rz; destruct (Zz D); lia). f_equal. rewrite (Nat.div_mod i (Nx e)) by lia. apply (T4 D); [apply Nat.mod_upper_bound; lia|apply Nat.div_lt_upper_bound; lia].
    - intros ix iy iz Hx Hy Hz. rewrite (tot_set _ _ _ _ _ _ Et Ets), (T1 ix iy iz Hx Hy Hz). unfold aof. rewrite Ea. ring. }
  destruct Main as [M1 M2]. split; [exact S'|]. split; [|split; [exact M1|split; [|exact M2]]].
  - destruct (sn_gs e); [|rewrite Fo; exact If]. apply (keep_in _ _ _ _ Fo); [|intros x; destruct (Nat.eq_dec iang x) as [->|N]; [left; now left|right; intros [E|[]]; contradiction]|exact If].
    intros x n i k [<-|[]] Us Sl. exact (M1 iang n i k eq_refl Us Sl).
  - intros x n i k N Sl. apply (Oth x n i k); [|exact Sl]. intros [E|[]]. apply N. symmetry. exact E.
Qed.
Lemma angles_flat : forall sched s s', st_fits e nt s -> (forall tid iang, In (tid, iang) sched -> tid < nt /\ iang < length (BcModel.sizes (sn_in e))) -> NoDup (map snd sched) -> in_flat (ss_in s) -> sn_angles e sched s = Ok s' ->
  st_fits e nt s' /\ in_flat (ss_in s') /\ out_flat (fun a => In a (map snd sched)) (ss_out s') /\ (forall a n i k, ~ In a (map snd sched) -> slot (sn_in e) 0 a n i k -> nth_error (ss_out s') k = nth_error (ss_out s) k) /\
  (forall ix iy iz, ix < Nx e -> iy < Ny e -> iz < planes e -> tot (ss_t s') (cell_ix e (ix, iy, iz)) = (tot (ss_t s) (cell_ix e (ix, iy, iz)) + c * lsum (fun ti => aof e (sn_wgt e) (snd ti)) sched)%R).
Proof.
  induction sched as [|[tid x] sched IH]; intros s s' S B N If H; cbn [sn_angles] in H.
  - injection H as <-. split; [exact S|]. split; [exact If|]. split; [intros a n i k []|]. split; [auto|]. intros. cbn [lsum]. ring.
  - step H s1. destruct (B tid x (or_introl eq_refl)) as [Bt Bx]. cbn [map snd] in N. apply NoDup_cons_iff in N. destruct N as [Nx0 N]. destruct (angle_flat tid x s s1 S Bt Bx If Es1) as (S1 & I1 & O1 & K1 & T1).
    destruct (IH s1 s' S1 (fun t i I => B t i (or_intror I)) N I1 H) as (S2 & I2 & O2 & K2 & T2). split; [exact S2|]. split; [exact I2|]. split; [|split].
    + intros a n i k [<-|I] Us Sl; [|exact (O2 a n i k I Us Sl)]. cbn [snd] in *. rewrite (K2 x n i k Nx0 Sl). exact (O1 x n i k eq_refl Us Sl).
    + intros a n i k Na Sl. cbn [map snd] in Na. rewrite (K2 a n i k) by (auto; intros I; apply Na; now right). apply (K1 a n i k); [|exact Sl]. intros ->. apply Na. now left.
    + intros ix iy iz Hx Hy Hz. rewrite T2, T1 by assumption. cbn [lsum snd]. ring.
Qed.
(** A whole one-group sweep. *)
Lemma sweep_flat : forall sched din dout cur sf flux st, length din = n_group (sn_in e) * bc_per_group (BcModel.sizes (sn_in e)) -> length dout = bc_per_group (BcModel.sizes (sn_in e)) ->
  length cur = Z.to_nat (n_surf (sn_m e)) -> length sf = Z.to_nat (n_surf (sn_m e)) -> (forall tid iang, In (tid, iang) sched -> tid < nt /\ iang < length (BcModel.sizes (sn_in e))) -> NoDup (map snd sched) -> (forall a, a < length (BcModel.sizes (sn_in e)) -> In a (map snd sched)) -> in_flat din ->
  sn_sweep1g e nt sched (Nx e * Ny e * planes e) din dout cur sf = Ok (flux, st) ->
  in_flat (ss_in st) /\ (forall ix iy iz, ix < Nx e -> iy < Ny e -> iz < planes e -> at0 flux (cell_ix e (ix, iy, iz)) = (c * lsum (fun ti => aof e (sn_wgt e) (snd ti)) sched)%R).
Proof.
  intros sched din dout cur sf flux st Li Lo Lc Lf B N Cov If H. destruct (sweep_follows e nt sched din dout cur sf flux st F Li Lo Lc Lf B N H) as [_ Fo]. rewrite bc_per_group_total in Li, Lo. unfold sn_sweep1g in H. step H s1. step H d. injection H as <- <-. cbn [ss_in ss_out] in *.
  assert (S0 : st_fits e nt (mkSS din dout (repeat (repeat 0%R (Nx e * Ny e * planes e)) nt) cur sf)). { unfold st_fits. cbn [ss_in ss_out ss_t ss_cur ss_sf]. split; [exact Li|]. split; [exact Lo|]. split; [apply repeat_length|]. split; [|auto]. apply Forall_forall. intros t I. apply repeat_spec in I. subst. apply repeat_length. }
  destruct (angles_flat sched _ s1 S0 B N If Es1) as ((_ & _ & _ & Ft1 & _) & I1 & O1 & _ & T1). cbn [ss_t] in T1. split.
  - apply (keep_in _ _ _ _ Fo); [|intros a; destruct (sn_gs e); [|left; discriminate]; destruct (in_dec Nat.eq_dec a (map snd sched)) as [Ia|Ia]; [left; auto|right; auto]|exact If].
    intros a n i k _ Us Sl. exact (O1 a n i k (Cov a (slot_angle _ _ _ _ _ _ Sl)) Us Sl).
  - intros ix iy iz Hx Hy Hz. destruct (sum_threads_spec _ _ Ft1) as [_ At]. rewrite At, T1, tot_zero by assumption. ring.
Qed.
End Flat.

(** ** The Sn sweeper *)
(** A flux that is [F] everywhere, and boundary values to match: an angular flux of a 4 PI-th of it in every direction. *)
Definition sn_flat (m : SnStatic) (ng : nat) (F : nat -> R) (s : SnGSt) : Prop :=
  (forall i g, i < sg_nreg m -> g < ng -> phi (gs_flux s) i g = F g) /\ forall g a n i k, g < ng -> used (sg_d3 m) n -> slot (sg_in m) g a n i k -> nth_error (gs_bin s) k = Some (F g / (4 * PI))%R.
(** The premises on the discretisation: no vacuum on the sides the sweep works with, every angle swept once per iteration with weights that integrate
    the unit sphere, the transport cross section of every cell, and a cell equation that leaves a uniform flux in equilibrium with its source alone
    (C46_uniform for the built-in ones). *)
Record sn_closed (m : SnStatic) (ng : nat) : Prop := {
  sc_sides : forall t, (t = TOP \/ t = BOTTOM -> sg_d3 m = true) -> types (sg_in m) t <> VACUUM;
  sc_all : forall k a, a < length (BcModel.sizes (sg_in m)) -> In a (map snd (sg_sched m k));
  sc_w : forall k, lsum (fun ti => match nth_error (sg_quad m) (snd ti) with Some a => if sg_d3 m then weight a * (PI / 2) else weight a * PI | None => 0 end)%R (sg_sched m k) = (4 * PI)%R;
  sc_xs : forall x i g, In x (sg_xs m) -> In i (xr_reg x) -> g < ng -> at0 (sg_xstr m g) i = at0 (xr_tr x) g;
  sc_eq : forall g iang ix iy iz xs c, g < ng -> In xs (sg_xstr m g) -> (0 <= c)%R -> exists gz, sg_eq m g iang ix iy iz c c (if sg_d3 m then c else 0%R) (xs * c)%R xs = Some (c, c, c, gz) /\ (sg_d3 m = true -> gz = c)
}.
Lemma cell_lt : forall X Y P ix iy iz, ix < X -> iy < Y -> iz < P -> iz * X * Y + iy * X + ix < X * Y * P.
Proof.
  intros X Y P ix iy iz Hx Hy Hz. pose proof (Nat.mul_le_mono_r (S iy) Y X Hy) as A. pose proof (Nat.mul_le_mono_l (S iz) P (X * Y) Hz) as B. rewrite Nat.mul_succ_r in B. replace (iz * X * Y) with (X * Y * iz) by ring. rewrite Nat.mul_succ_l in A. rewrite (Nat.mul_comm Y X) in A. lia.
Qed.
Lemma cell_all : forall X Y P i, i < X * Y * P -> exists ix iy iz, ix < X /\ iy < Y /\ iz < P /\ i = iz * X * Y + iy * X + ix.
Proof.
  intros X Y P i Hi. assert (NX : X <> 0) by (intros ->; cbn in Hi; lia). assert (NY : Y <> 0) by (intros ->; rewrite Nat.mul_0_r in Hi; cbn in Hi; lia).
  exists (i mod X), ((i / X) mod Y), (i / X / Y). split; [now apply Nat.mod_upper_bound|]. split; [now apply Nat.mod_upper_bound|]. split; [apply Nat.div_lt_upper_bound; [exact NY|]; apply Nat.div_lt_upper_bound; [exact NX|]; rewrite Nat.mul_assoc; exact Hi|].
  pose proof (Nat.div_mod i X NX) as D1. pose proof (Nat.div_mod (i / X) Y NY) as D2. replace (i / X / Y * X * Y + (i / X) mod Y * X) with (X * (i / X)) by (rewrite D2 at 1; ring). exact D1.
Qed.
Lemma pass_keeps : forall m ng sct F, sn_problem m ng sct -> physical (sg_nreg m) ng sct (sg_xs m) -> sn_closed m ng -> (forall g, g < ng -> (0 <= F g)%R) ->
  forall g src k s s', g < ng -> length src = sg_nreg m -> gs_fits m ng s -> length (gs_q s') = sg_nreg m -> sn_flat m ng F s -> (forall x i, In x (sg_xs m) -> In i (xr_reg x) -> at0 src i = (at0 (xr_tr x) g * F g - sct x g g * F g)%R) ->
  sn_pass m sct g src k s s' -> follows (sg_in m) g (fun a => sg_gs m = true -> In a (map snd (sg_sched m k))) (gs_bout s') (gs_bin s) (gs_bin s') -> sn_flat m ng F s'.
Proof.
  intros m ng sct F [Fit Sc] Ph Cl F0 g src k s s' Hg Ls Fs Lq [Fv Bv] Sv (f & st & Pq & Es & Ei & _ & Lf & Pf & _) Fo. assert (G := Fit g Hg). destruct Ph as (M & D & Cov & _). pose proof PI_RGT_0 as PP.
  set (c := (F g / (4 * PI))%R) in *. set (e := sg_env m g (gs_q s') (records k s)) in *. assert (Fe : sn_fits e) by (apply (sgf_env m ng sct g G); exact Lq). assert (Er : sg_nreg m = Nx e * Ny e * planes e) by apply (sgf_reg m ng sct g G). destruct Fs as (Ff & _ & Lb & Lo & _).
  assert (Cell : forall ix iy iz, ix < Nx e -> iy < Ny e -> iz < planes e -> cell_ix e (ix, iy, iz) < sg_nreg m) by (intros ix iy iz Hx Hy Hz; rewrite Er; cbn [cell_ix]; now apply cell_lt).
  destruct (sweep_flat e (sg_nt m) c Fe) with (sched := sg_sched m k) (din := gs_bin s) (dout := gs_bout s) (cur := no_arr m) (sf := no_arr m) (flux := f) (st := st) as [If Ff2].
  - exact (sc_sides m ng Cl).
  - intros iang ix iy iz Hx Hy Hz. specialize (Cov _ (Cell ix iy iz Hx Hy Hz)). apply in_concat in Cov. destruct Cov as (l & I & Ii). apply in_map_iff in I. destruct I as (x & <- & Ix). cbn [e sg_env sn_q sn_xstr]. specialize (Pq x _ Ix Ii).
    rewrite (sc_xs m ng Cl x _ g Ix Ii Hg). rewrite (Sv x _ Ix Ii), (Fv _ g (Cell ix iy iz Hx Hy Hz) Hg) in Pq. unfold c. apply (Rmult_eq_reg_r (4 * PI)); [|lra]. etransitivity; [exact Pq|]. field. lra.
  - intros iang ix iy iz xs I. cbn [e sg_env sn_eq sn_d3]. apply (sc_eq m ng Cl); [exact Hg|exact I|]. unfold c. apply Rmult_le_pos; [now apply F0|]. apply Rlt_le, Rinv_0_lt_compat. lra.
  - exact Lb.
  - exact Lo.
  - apply repeat_length.
  - apply repeat_length.
  - exact (sgf_sched m ng sct g G k).
  - exact (sgf_once m ng sct g G k).
  - exact (sc_all m ng Cl k).
  - intros a n i k0 Us Sl. exact (Bv g a n i k0 Hg Us Sl).
  - rewrite <- Er. exact Es.
  - split.
    + intros i h Hi Hh. rewrite Pf by exact Hi. destruct (Nat.eqb_spec h g) as [->|]; [|now apply Fv].
      assert (Ex : exists ix iy iz, ix < Nx e /\ iy < Ny e /\ iz < planes e /\ i = cell_ix e (ix, iy, iz)).
      { rewrite Er in Hi. exact (cell_all _ _ _ _ Hi). }
      destruct Ex as (ix & iy & iz & Hx & Hy & Hz & ->). rewrite (Ff2 ix iy iz Hx Hy Hz).
      replace (lsum (fun ti : nat * nat => aof e (sn_wgt e) (snd ti)) (sg_sched m k)) with (4 * PI)%R; [unfold c; field; lra|]. rewrite <- (sc_w m ng Cl k). apply lsum_ext. intros ti _. unfold aof, sn_wgt. cbn [e sg_env sn_quad sn_d3]. destruct (nth_error (sg_quad m) (snd ti)); reflexivity.
    + intros h a n i k0 Hh Us Sl. destruct (Nat.eq_dec h g) as [->|N]; [rewrite Ei; exact (If a n i k0 Us Sl)|]. destruct Fo as (_ & _ & P3). rewrite (P3 h a n i k0 Sl N). exact (Bv h a n i k0 Hh Us Sl).
Qed.
Lemma sn_keeps : forall m ng sct F b, sn_problem m ng sct -> physical (sg_nreg m) ng sct (sg_xs m) -> sn_closed m ng -> (forall g, g < ng -> (0 <= F g)%R) ->
  keeps gs_flux (sg_sweep m) (sn_state m ng b) (sn_flat m ng F) (sg_nreg m) ng sct (sg_xs m) F.
Proof.
  intros m ng sct F b P Ph Cl F0. split; [intros sw [H _]; exact H|]. intros g src sw sw' Hg Ls [Fs _] Fl Sv E. assert (P' := P). destruct P' as [Fit Sc]. assert (G := Fit g Hg).
  assert (Mid : forall n s u, gs_fits m ng s -> sn_flat m ng F s -> sg_steps m g src n s = Some u -> sn_flat m ng F u /\ gs_fits m ng u).
  { induction n as [|n IH]; intros s u Fs0 Fl0 E0; cbn [sg_steps] in E0; [injection E0 as <-; auto|]. destruct (pass_made m ng sct g src G Ls n s Fs0) as (t & Et & Pt & Ft & _ & Fo). rewrite Et in E0. apply (IH t u Ft); [|exact E0].
    apply (pass_keeps m ng sct F P Ph Cl F0 g src n s t Hg Ls Fs0); auto. apply Ft. }
  destruct (C108_sweep m ng sct g src sw G Ls Sc Fs) as (l & u & s2 & E2 & _). rewrite E in E2. injection E2 as <-.
  unfold sg_sweep in E. destruct (sg_steps m g src (sg_inner m) sw) as [u'|] eqn:Eu; [|discriminate]. destruct (Mid _ _ _ Fs Fl Eu) as [[Fv Bv] Fu]. destruct (get_col_def g _ _ _ (proj1 Fu) Hg) as (f & Ef & Lf & Pf). rewrite Ef in E.
  destruct (set_col g (clean_up f) (gs_flux u')) as [fl|] eqn:Ec; [|discriminate]. injection E as <-. split; cbn [gs_flux gs_bin]; [|exact Bv].
  destruct (set_col_spec _ _ _ _ Ec) as (_ & _ & _ & V). unfold clean_up in V at 1. rewrite map_length, Lf in V. intros i h Hi Hh. rewrite V by exact Hi. destruct (Nat.eqb_spec h g) as [->|]; [|now apply Fv]. rewrite clean_at, Pf, Fv by auto. apply Rmax_right. now apply F0.
Qed.
(** C156 for the Sn sweeper: any mesh, quadrature, schedule and number of inner iterations, in two and three dimensions, with either boundary update and with or without currents. *)
Theorem C156_sn : forall m ng sct vol F b s j, sn_problem m ng sct -> physical (sg_nreg m) ng sct (sg_xs m) -> length vol = sg_nreg m -> (forall i, i < sg_nreg m -> (0 < at0 vol i)%R) -> sn_closed m ng -> medium (sg_xs m) ng sct F (e_k _ s) ->
  sound gs_flux (sn_state m ng b) (sg_nreg m) ng (sg_xs m) vol s -> sn_flat m ng F (e_sw _ s) ->
  exists s', steps (eigen_iter SnGSt gs_flux (sg_sweep m) (sg_xs m) ng (sg_nreg m) vol) j s = Got s' /\ sn_flat m ng F (e_sw _ s') /\ e_k _ s' = e_k _ s /\ e_hist _ s' = e_hist _ s ++ repeat (e_k _ s, 0, 0)%R j.
Proof.
  intros m ng sct vol F b s j P Ph Lv Pv Cl Md So Fl. assert (So' := So). destruct So' as (_ & _ & _ & K & N & Pp). assert (Ph' := Ph). destruct Ph' as (M & D & Cov & Pos).
  destruct (sg_nreg m) as [|n0] eqn:En. { exfalso. unfold production in Pp. rewrite lsum_zero in Pp; [lra|]. intros x Ix. apply lsum_zero. intros i Ii. pose proof (reg_bound _ _ x i M Ix Ii). lia. }
  rewrite <- En in *. assert (F0 : forall g, g < ng -> (0 <= F g)%R) by (intros g Hg; rewrite <- (proj1 Fl 0 g) by lia; apply N; lia).
  destruct (flat_steps gs_flux (sg_sweep m) (sn_state m ng b) (sn_flat m ng F) (sg_nreg m) ng sct (sg_xs m) vol F (e_k _ s) (sn_good m ng sct b P) Ph Lv Pv) with (j := j) (s := s) as (s' & E & _ & Fl' & Ek & Eh); auto; [|eauto 6].
  now apply (sn_keeps m ng sct F b P Ph Cl).
Qed.
Print Assumptions C156_sn.

(** Two cells of different materials in a mirrored box, eight angles, diamond differencing: the flux 1 and k = 3/2 stay. *)
Definition es_bc : BC := mkBC 1 (repeat (mkSize 1 2 2) 8) (fun _ => REFLECT) 1 sx_quad [].
Definition es_st (gs : bool) : SnStatic := mkSG sx_m es_bc es_bc sx_quad (fun _ => [1; 2]%R) gs true (fun _ => sn_eq (sx_env true)) 2 (fun _ => sx_sched1) 2 3 [mf_x0; mf_x1].
Definition es_w : SnGSt := mkGS [[1]; [1]]%R [0; 0]%R (repeat (1 / (4 * PI))%R 40) (repeat 0%R 40) (Some (mkCD [repeat 7%R 11] [repeat 7%R 11] false false)).
Definition es_s : ESt SnGSt := mkE _ [0; 0]%R es_w (3 / 2) 1 [0; 0]%R [0; 0]%R [].
Lemma es_env : forall gs q cw, length q = 2 -> sn_fits (sg_env (es_st gs) 0 q cw).
Proof.
  intros gs q cw Lq. constructor.
  - unfold mesh_ok; cbn; lia.
  - constructor; [cbn; lia|cbn; lia|cbn; lia|]. intros a a' n s Es R H. assert (La : a < 8) by (apply (nth_error_Some (repeat (mkSize 1 2 2) 8)); cbn in Es; cbn; congruence).
    do 8 (destruct a as [|a]; [destruct n; cbn in Es, R, H; injection Es as <-; injection R as <-; cbn in H; try lia; eexists; split; reflexivity|]). lia.
  - intros []; cbn; unfold BcProofs.supported; auto.
  - cbn [es_st sg_env sn_in sg_in es_bc BcModel.sizes]. apply Forall_forall. intros s I. apply repeat_spec in I. subst. reflexivity.
  - reflexivity.
  - cbn; lia.
  - cbn; lia.
  - intros iang. exact Lq.
  - reflexivity.
  - intros iang ix iy iz fx fy fz q' xs I. cbn [es_st sg_env sn_eq sg_eq sx_env]. destruct (sx_dir _ (sx_ang_in iang)) as (A & B & C). unfold eval_dd. rewrite A, B, C.
    assert (P : (0 < xs)%R) by (cbn in I; destruct I as [<-|[<-|[]]]; lra). rewrite rdiv_ok by lra. eauto.
Qed.
Lemma es_problem : forall gs, sn_problem (es_st gs) 1 (fun _ => mo_sc).
Proof.
  intros gs. split; [|auto]. intros g Hg. assert (g = 0) by lia. subst. destruct mf_physical as (M & D & _). constructor; [exact M|exact D|lia|exact (es_env gs)|reflexivity| |].
  - intros k. cbn [es_st sg_sched sg_nt sg_in es_bc BcModel.sizes length repeat]. sched_in.
  - intros k. apply ec_sched_once.
Qed.
Lemma es_closed : forall gs, sn_closed (es_st gs) 1.
Proof.
  intros gs. constructor.
  - intros t _ E. discriminate E.
  - intros k a La. cbn in La. cbn [es_st sg_sched sx_sched1 map snd In]. lia.
  - intros k. cbn. lra.
  - intros x i g [<-|[<-|[]]] [<-|[]] Hg; assert (g = 0) by lia; subst; reflexivity.
  - intros g iang ix iy iz xs c _ I Hc. cbn [es_st sg_eq sg_d3 sx_env sn_eq]. destruct (sx_dir _ (sx_ang_in iang)) as (A & B & C). rewrite A, B, C. assert (P : (0 < xs)%R) by (cbn in I; destruct I as [<-|[<-|[]]]; lra).
    exists c. split; [|reflexivity]. apply (C46_uniform (1 / 3 / 1) (2 / 3 / 1) (2 / 3 / 1) xs c); lra.
Qed.
Lemma es_state : forall gs, sn_state (es_st gs) 1 true es_w.
Proof.
  intros gs. split; [|intros _; eexists; reflexivity]. split; [split; [reflexivity|intros row [<-|[<-|[]]]; reflexivity]|]. do 3 (split; [reflexivity|]). intros c E. injection E as <-. split; [reflexivity|]. split; [reflexivity|]. split; repeat constructor.
Qed.
Lemma es_flat : forall gs, sn_flat (es_st gs) 1 (fun _ => 1%R) es_w.
Proof.
  intros gs. split; [intros [|[|i]] [|h] Hi Hh; cbn in Hi; try lia; reflexivity|]. intros g a n i k Hg _ Sl. pose proof (slot_range _ _ _ _ _ _ Sl Hg) as B. apply nth_error_repeat'. exact B.
Qed.
Example C156_sn_instance : forall gs, sn_problem (es_st gs) 1 (fun _ => mo_sc) /\ sn_closed (es_st gs) 1 /\ medium [mf_x0; mf_x1] 1 (fun _ => mo_sc) (fun _ => 1%R) (3 / 2) /\ sn_flat (es_st gs) 1 (fun _ => 1%R) es_w /\
  exists s', steps (eigen_iter SnGSt gs_flux (sg_sweep (es_st gs)) [mf_x0; mf_x1] 1 2 [1; 1]%R) 5 es_s = Got s' /\ e_k _ s' = (3 / 2)%R /\ phi (gs_flux (e_sw _ s')) 1 0 = 1%R.
Proof.
  intros gs. assert (Md : medium [mf_x0; mf_x1] 1 (fun _ => mo_sc) (fun _ => 1%R) (3 / 2)) by (intros x g [<-|[<-|[]]] Hg; assert (g = 0) by lia; subst; unfold mo_sc; cbn; field).
  split; [apply es_problem|]. split; [apply es_closed|]. split; [exact Md|]. split; [apply es_flat|].
  destruct (C156_sn (es_st gs) 1 (fun _ => mo_sc) [1; 1]%R (fun _ => 1%R) true es_s 5 (es_problem gs) mf_physical) as (s' & E & Fl & K & _); [reflexivity|intros [|[|i]] Hi; cbn in Hi; try lia; cbn; lra|apply es_closed|exact Md| |apply es_flat|].
  - split; [apply es_state|]. do 2 (split; [reflexivity|]). split; [cbn; lra|]. split; [intros [|[|i]] [|h] Hi Hh; cbn in Hi; try lia; unfold phi; cbn; lra|]. unfold production, phi; cbn; lra.
  - exists s'. split; [exact E|]. split; [exact K|]. apply Fl; cbn; lia.
Qed.
