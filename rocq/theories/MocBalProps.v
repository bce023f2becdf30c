(** Neutron balance of the MoC sweep: what the regions gain is what comes in along the rays less what leaves (C155), through the sides of the core
    that do not reflect, and the balance of a whole eigenvalue solution. *)
From Coq Require Import List Bool Reals ZArith Arith Lia Lra Permutation.
From Verif Require Import RUtil ListUtil McModel MeshModel AngModel BcModel BcProofs StdAlg CoreModel CoreProofs ScatModel ScatProofs ScatProps MatModel ExpModel MocModel MocProofs MocProps XsModel HomProps SrcModel SrcProps SolModel SolProps MgModel MgProps MgInnerProps SnGroupProps EigProps EigSnProps MocMaxProps MocEigProps InfProps.
Import ListNotations.
Open Scope nat_scope.

(** Everything in the slots of angle [a] in group [g] of boundary data [d]; the same for one face. *)
Definition angle_flow (b : BC) (g a : nat) (d : list R) : R := match get_boundary b g a with Some (z, o) => rsum (fun j => at0 d (o + j)) z | None => 0%R end.
Definition face_flow (b : BC) (g a : nat) (n : Normal) (d : list R) : R := match get_face b g a n with Some (z, o) => rsum (fun j => at0 d (o + j)) z | None => 0%R end.
(** Neutrons per unit of angular flux crossing a ray of angle [a] in a plane of height [h]. *)
Definition angle_wt (e : MocEnv) (h : R) (a : nat) : R :=
  match nth_error (me_quad e) a, nth_error (me_space e) a with Some an, Some sp => (weight an * sp * h * sin (theta (adir an)) * PI)%R | _, _ => 0%R end.
(** What comes in less what leaves along angle [j] and its reverse. *)
Definition net_in (e : MocEnv) (din dout : list R) (j : nat) : R :=
  let r := rev_ang (n_oct (me_in e)) j in
  (angle_flow (me_in e) (me_group e) j din + angle_flow (me_in e) (me_group e) r din - angle_flow (me_in e) 0 j dout - angle_flow (me_in e) 0 r dout)%R.

Lemma lsum_perm_seq : forall {A} (f : nat -> R) (k : A -> nat) l n, Permutation (map k l) (seq 0 n) -> lsum (fun r => f (k r)) l = rsum f n.
Proof. intros A f k l n P. rewrite rsum_lsum, <- (lsum_perm f _ _ P). now rewrite lsum_map. Qed.

Lemma flow_ext : forall b g a d d', (forall n i k, slot b g a n i k -> nth_error d' k = nth_error d k) -> angle_flow b g a d' = angle_flow b g a d.
Proof.
  intros b g a d d' H. unfold angle_flow. destruct (get_boundary b g a) as [[z o]|] eqn:E; [|reflexivity]. apply rsum_ext. intros j Hj. destruct (boundary_slot _ _ _ _ _ _ E Hj) as (n & i & Sx). unfold at0.
  specialize (H n i _ Sx). destruct (nth_error d (o + j)) as [v|] eqn:E1.
  - rewrite (nth_error_nth _ _ 0%R H), (nth_error_nth _ _ 0%R E1). reflexivity.
  - apply nth_error_None in H, E1. now rewrite !nth_overflow by assumption.
Qed.
Lemma flow_faces : forall b g a d, angle_flow b g a d = (face_flow b g a X_NORM d + face_flow b g a Y_NORM d + face_flow b g a Z_NORM d)%R.
Proof.
  intros b g a d. unfold angle_flow, face_flow, get_boundary, get_face. destruct (nth_error (sizes b) a) as [s|] eqn:Es; [|cbn; lra]. destruct (nth_error (BcModel.offsets 0 (sizes b)) a) as [o|] eqn:Eo; [|cbn; lra].
  assert (G : forall l k a s o, nth_error l a = Some s -> nth_error (BcModel.offsets k l) a = Some o -> sy o = sx o + sx s /\ sz o = sx o + sx s + sy s).
  { induction l as [|t l IH]; intros k [|a'] s' o' H1 H2; try discriminate; cbn in H1, H2; [|eauto]. injection H1 as <-. injection H2 as <-. auto. }
  destruct (G _ _ _ _ _ Es Eo) as [G1 G2]. unfold size_total. cbn [face_size]. rewrite !rsum_app. rewrite G1, G2. f_equal; [f_equal|]; apply rsum_ext; intros j Hj; f_equal; lia.
Qed.

(** What the boundary condition leaves in slot ([a'], [n], [i]) given the flux [out] leaving the reflected angle [a]. *)
Definition made (b : BC) (dout : list R) (a' a : nat) (n : Normal) (i : nat) (old : option R) : option R :=
  match type_at b a' n, get_face b 0 a n with Some t, Some (_, off) => new_value t old (nth_error dout (off + i)) | _, _ => None end.

Section Balance.
  Variables (e : MocEnv) (nreg nt : nat).
  Let b := me_in e.
  Let g := me_group e.
  Let rv := rev_ang (n_oct (me_in e)).
  Hypothesis K : bc_ok b.
  Hypothesis So : sizes (me_out e) = sizes b.
  Hypothesis Su : all_supported b.
  Hypothesis Ng : Forall no_gap (sizes b).
  Hypothesis Hg : g < n_group b.
  Hypothesis Len : length (sizes b) = 4 * n_oct b.

  Lemma angle_gain : forall first h iang rays din s d' s', iang < 4 * n_oct b -> Forall (fun tr => fst tr < nt) rays -> rays_cover e iang (map snd rays) -> length din = n_group b * BcProofs.total (sizes b) -> store_ok nreg (BcProofs.total (sizes b)) nt s ->
    sweep_angle e first h iang rays din s = Ok (d', s') -> store_ok nreg (BcProofs.total (sizes b)) nt s' /\ length d' = length din /\
    (forall a n i k, slot b 0 a n i k -> a <> iang -> a <> rv iang -> nth_error (st_out s') k = nth_error (st_out s) k) /\
    (forall g' a' n i k a, slot b g' a' n i k -> refl_n b a' n = Some a -> nth_error d' k = if me_gs e && (g' =? g) && ((a =? iang) || (a =? rv iang)) then made b (st_out s') a' a n i (nth_error din k) else nth_error din k) /\
    (me_gs e = false -> d' = din) /\
    (rsum (tot (st_t s')) nreg = rsum (tot (st_t s)) nreg + angle_wt e h iang * net_in e din (st_out s') iang)%R.
  Proof.
    intros first h iang rays din s d' s' Hi Ht Cov Ld Os H. unfold sweep_angle in H. destruct (ang_ctx e h iang) as [cx|] eqn:Ec; [|discriminate]. cbn [of_opt rbind] in H.
    destruct (sweep_rays (me_xstr e) (me_q e iang) first cx din rays s) as [s1|] eqn:Er; [|discriminate]. cbn [of_opt rbind] in H.
    pose proof (fit_slots e h iang cx _ Ec (cover_fit _ _ _ Cov) Hi) as ND. destruct Cov as (z1 & z2 & N1 & N2 & L1 & L2 & P1 & P2).
    destruct (rev_ang_spec _ _ Hi) as [R1 R2]. fold b in N2, R1, R2. change (rev_ang (n_oct b) iang) with (rv iang) in N2, R1, R2. rewrite So in N1, N2.
    destruct (bdry_some b g _ _ N1) as (oi1 & B1). destruct (bdry_some b g _ _ N2) as (oi2 & B2). destruct (bdry_some b 0 _ _ N1) as (oo1 & B3). destruct (bdry_some b 0 _ _ N2) as (oo2 & B4).
    assert (Cx : ac_wt cx = angle_wt e h iang /\ ac_in1 cx = oi1 /\ ac_in2 cx = oi2 /\ ac_out1 cx = oo1 /\ ac_out2 cx = oo2).
    { unfold ang_ctx in Ec. fold (rv iang) in Ec. fold g in Ec. rewrite !(get_boundary_out e So) in Ec. fold b in Ec. rewrite B1, B2, B3, B4 in Ec. unfold angle_wt. destruct (nth_error (me_quad e) iang); [|discriminate]. destruct (nth_error (me_space e) iang); [|discriminate]. injection Ec as <-. auto. }
    destruct Cx as (Cw & C1 & C2 & C3 & C4).
    assert (AllOk : forall r, In r (map snd rays) -> ray_ok (me_xstr e) (me_q e iang) first cx din nreg (BcProofs.total (sizes b)) r).
    { destruct (all_ray_ok_dec (me_xstr e) (me_q e iang) first cx din nreg (BcProofs.total (sizes b)) (map snd rays)) as [G|(r & I & N)]; auto. rewrite (sweep_rays_bad _ _ _ _ _ _ _ _ _ _ r Os Ht I N) in Er. discriminate. }
    destruct (sweep_rays_ok _ _ _ _ _ _ _ _ rays s Os Ht AllOk ND) as (sb & Eb & Ob & _ & Kb & _). rewrite Er in Eb. injection Eb as <-.
    assert (Bal := C27_angle_balance (me_xstr e) (me_q e iang) first cx din nreg nt rays s s1 (proj1 (proj2 Os)) (proj2 (proj2 Os)) Ht ND Er).
    assert (Ups : (me_gs e = true -> update_angles b (with_data (me_out e) (st_out s1)) g [iang; rv iang] din = Ok d') /\ (me_gs e = false -> d' = din) /\ s1 = s').
    { cbn [update_angles]. fold b g in H. change (rev_ang (n_oct b) iang) with (rv iang) in H. destruct (me_gs e); [|injection H as <- <-; split; [discriminate|auto]]. split; [|split; [discriminate|]].
      - intros _. destruct (update_angle b _ g iang din) as [d1| |]; [|discriminate|discriminate]. cbn [rbind] in H. destruct (update_angle b _ g (rv iang) d1) as [d2| |]; [|discriminate|discriminate]. cbn [rbind] in H. injection H as <- <-. reflexivity.
      - destruct (update_angle b _ g iang din) as [d1| |]; [|discriminate|discriminate]. cbn [rbind] in H. destruct (update_angle b _ g (rv iang) d1) as [d2| |]; [|discriminate|discriminate]. cbn [rbind] in H. now injection H as _ <-. }
    destruct Ups as (U1 & U2 & <-). split; [exact Ob|]. split; [|split; [|split; [|split; [exact U2|]]]].
    - destruct (me_gs e); [|now rewrite U2]. specialize (U1 eq_refl).
      destruct (update_angles_ok b (with_data (me_out e) (st_out s1)) g [iang; rv iang] din K So (proj1 Ob) Su Hg Ng) as (d2 & E2 & L3 & _); [intros a [<-|[<-|[]]]; lia|repeat constructor; cbn; intuition congruence|exact Ld|]. congruence.
    - intros a n i k Sx Na Nr. apply Kb. intros I. unfold all_slots in I. apply in_app_or in I.
      assert (Bc : forall r, In r (map snd rays) -> ray_bc1 r < length (map snd rays) /\ ray_bc2 r < length (map snd rays)).
      { intros r J. split; [apply (in_map ray_bc1) in J; apply (Permutation_in _ P1) in J|apply (in_map ray_bc2) in J; apply (Permutation_in _ P2) in J]; apply in_seq in J; lia. }
      destruct (face_bdry b _ _ _ _ _ Sx) as (z & o & j & X & Hj & Ek).
      destruct I as [I|I]; apply in_map_iff in I; destruct I as (r & <- & Ir); destruct (Bc r Ir) as [Q1 Q2].
      + apply Na. eapply (boundary_disjoint b 0 a iang z o _ oo1 j (ray_bc2 r) X B3 Hj); [lia|]. unfold slot1 in Ek. lia.
      + apply Nr. eapply (boundary_disjoint b 0 a (rv iang) z o _ oo2 j (ray_bc1 r) X B4 Hj); [lia|]. unfold slot2 in Ek. lia.
    - intros g' a' n i k a Sx Ra. destruct (me_gs e); [|rewrite U2 by reflexivity; reflexivity]. specialize (U1 eq_refl).
      destruct (update_angles_ok b (with_data (me_out e) (st_out s1)) g [iang; rv iang] din K So (proj1 Ob) Su Hg Ng) as (d2 & E2 & _ & P); [intros x [<-|[<-|[]]]; lia|repeat constructor; cbn; intuition congruence|exact Ld|].
      rewrite U1 in E2. injection E2 as <-. rewrite (P _ _ _ _ _ _ Sx Ra). cbn [existsb andb]. rewrite orb_false_r. reflexivity.
    - rewrite Bal, Cw. f_equal. f_equal. unfold net_in. fold b g. change (rev_ang (n_oct b) iang) with (rv iang). unfold angle_flow. rewrite B1, B2, B3, B4, C1, C2, C3, C4, L1, L2.
      rewrite <- (lsum_perm_seq (fun j => at0 din (oi1 + j)) ray_bc1 _ _ P1), <- (lsum_perm_seq (fun j => at0 din (oi2 + j)) ray_bc2 _ _ P2), <- (lsum_perm_seq (fun j => at0 (st_out s1) (oo1 + j)) ray_bc2 _ _ P2), <- (lsum_perm_seq (fun j => at0 (st_out s1) (oo2 + j)) ray_bc1 _ _ P1).
      generalize (map snd rays). induction l as [|r l IH]; cbn [lsum]; [ring|]. rewrite IH. ring.
  Qed.

  Lemma rv_small : forall j, j < 2 * n_oct b -> rv j = j + 2 * n_oct b.
  Proof. intros j H. unfold rv. fold b. unfold rev_ang, reverse2. rewrite Z.mod_small by lia. lia. Qed.
  (** Angle [a] is swept, one way or the other, with one of [cnt] angles from [iang] on. *)
  Definition touched (iang cnt a : nat) : Prop := exists j, iang <= j < iang + cnt /\ (a = j \/ a = rv j).
  Lemma touched_dec : forall iang cnt a, {touched iang cnt a} + {~ touched iang cnt a}.
  Proof.
    intros iang cnt a. assert (D : {exists j, In j (seq iang cnt) /\ (a = j \/ a = rv j)} + {~ exists j, In j (seq iang cnt) /\ (a = j \/ a = rv j)}).
    { generalize (seq iang cnt) as l. induction l as [|j l [IH|IH]]; [right; intros (j & [] & _)|left; destruct IH as (j' & I & E); exists j'; split; [now right|exact E]|].
      destruct (Nat.eq_dec a j) as [->|N1]; [left; exists j; split; [now left|now left]|]. destruct (Nat.eq_dec a (rv j)) as [->|N2]; [left; exists j; split; [now left|now right]|].
      right. intros (j' & [<-|I] & [X|X]); [contradiction|contradiction|apply IH; exists j'; auto|apply IH; exists j'; auto]. }
    destruct D as [D|D]; [left|right].
    - destruct D as (j & I & E). exists j. apply in_seq in I. split; [lia|exact E].
    - intros (j & I & E). apply D. exists j. split; [apply in_seq; lia|exact E].
  Qed.

  Lemma angles_gain : forall first h angs iang din s d' s', iang + length angs <= 2 * n_oct b -> Forall (Forall (fun tr => fst tr < nt)) angs ->
    (forall j rays, nth_error angs j = Some rays -> rays_cover e (iang + j) (map snd rays)) -> length din = n_group b * BcProofs.total (sizes b) -> store_ok nreg (BcProofs.total (sizes b)) nt s ->
    sweep_angles e first h iang angs din s = Ok (d', s') -> store_ok nreg (BcProofs.total (sizes b)) nt s' /\ length d' = length din /\
    (forall a n i k, slot b 0 a n i k -> ~ touched iang (length angs) a -> nth_error (st_out s') k = nth_error (st_out s) k) /\
    (forall g' a' n i k a, slot b g' a' n i k -> refl_n b a' n = Some a -> (me_gs e = true -> g' = g -> touched iang (length angs) a -> nth_error d' k = made b (st_out s') a' a n i (nth_error din k)) /\
      (me_gs e = false \/ g' <> g \/ ~ touched iang (length angs) a -> nth_error d' k = nth_error din k)) /\
    (me_gs e = false -> d' = din) /\
    exists ins, (forall j, length (ins j) = length din /\ (me_gs e = false -> ins j = din) /\ forall a n i k, slot b g a n i k -> nth_error (ins j) k = nth_error din k \/ nth_error (ins j) k = nth_error d' k) /\
      (rsum (tot (st_t s')) nreg = rsum (tot (st_t s)) nreg + lsum (fun j => angle_wt e h j * net_in e (ins j) (st_out s') j) (seq iang (length angs)))%R.
  Proof.
    intros first h angs. induction angs as [|rays angs IH]; intros iang din s d' s' Hi Ht Cov Ld Os H; cbn [sweep_angles] in H.
    - injection H as <- <-. split; [exact Os|]. split; [reflexivity|]. split; [auto|]. split; [|split; [auto|]].
      + intros g' a' n i k a _ _. split; [|auto]. intros _ _ (j & J & _). cbn in J. lia.
      + exists (fun _ => din). split; [auto|]. cbn. ring.
    - cbn [length] in Hi. apply Forall_cons_iff in Ht. destruct Ht as [Ht1 Ht2]. assert (C0 : rays_cover e iang (map snd rays)) by (specialize (Cov 0 rays eq_refl); now rewrite Nat.add_0_r in Cov).
      destruct (sweep_angle e first h iang rays din s) as [[d1 s1]| |] eqn:E1; [|discriminate|discriminate]. cbn [rbind] in H.
      destruct (angle_gain first h iang rays din s d1 s1 ltac:(lia) Ht1 C0 Ld Os E1) as (O1 & L1 & K1 & U1 & J1 & G1).
      destruct (IH (S iang) d1 s1 d' s' ltac:(lia) Ht2) as (O2 & L2 & K2 & U2 & J2 & ins & I2 & G2); auto; [intros j r Ej; replace (S iang + j) with (iang + S j) by lia; now apply Cov|congruence|].
      assert (Old : forall a, a = iang \/ a = rv iang -> ~ touched (S iang) (length angs) a).
      { intros a Ha (j & J & Ej). rewrite (rv_small j) in Ej by lia. rewrite (rv_small iang) in Ha by lia. lia. }
      assert (New : forall a, touched iang (S (length angs)) a <-> a = iang \/ a = rv iang \/ touched (S iang) (length angs) a).
      { intros a. split.
        - intros (j & J & Ej). destruct (Nat.eq_dec j iang) as [->|Nj]; [tauto|]. right. right. exists j. split; [lia|exact Ej].
        - intros [->|[->|(j & J & Ej)]]; [exists iang; split; [lia|auto]|exists iang; split; [lia|auto]|exists j; split; [lia|exact Ej]]. }
      assert (Keep : forall a n i k, slot b 0 a n i k -> a = iang \/ a = rv iang -> nth_error (st_out s') k = nth_error (st_out s1) k) by (intros a n i k Sx Ha; apply (K2 a n i k Sx); now apply Old).
      assert (Mk : forall a' a n i o, (a = iang \/ a = rv iang) -> (exists k, slot b g a' n i k) -> refl_n b a' n = Some a -> made b (st_out s') a' a n i o = made b (st_out s1) a' a n i o).
      { intros a' a n i o Ha (k & Sx) Ra. unfold made. destruct (type_at b a' n) as [t|]; [|reflexivity]. destruct (get_face b 0 a n) as [[z off]|] eqn:Gf; [|reflexivity]. f_equal. apply (Keep a n i); [|exact Ha].
        exists z, off. split; [exact Gf|]. split; [|reflexivity]. destruct Sx as (z' & off' & Gf' & Hi' & _). destruct (get_face_inv _ _ _ _ _ _ Gf) as (w & o' & Ew & _ & -> & _). destruct (get_face_inv _ _ _ _ _ _ Gf') as (w' & o'' & Ew' & _ & -> & _).
        destruct (ok_mirror b K a' a n w' Ew' Ra ltac:(lia)) as (w2 & Ew2 & Efs). rewrite Ew in Ew2. injection Ew2 as <-. lia. }
      cbn [length]. split; [exact O2|]. split; [congruence|]. split; [|split; [|split]].
      + intros a n i k Sx Nt. rewrite New in Nt. rewrite (K2 a n i k Sx) by tauto. apply (K1 a n i k Sx); tauto.
      + intros g' a' n i k a Sx Ra. destruct (U2 g' a' n i k a Sx Ra) as [A1 A2]. pose proof (U1 g' a' n i k a Sx Ra) as A3. split.
        * intros Gs -> Tc. apply New in Tc. rewrite Gs, Nat.eqb_refl in A3. cbn [andb] in A3. destruct (touched_dec (S iang) (length angs) a) as [Tc'|Tc'].
          -- rewrite (A1 Gs eq_refl Tc'). f_equal. rewrite A3. assert (~ (a = iang \/ a = rv iang)) by (intros Y; now apply (Old a Y)). destruct (Nat.eqb_spec a iang); [tauto|]. destruct (Nat.eqb_spec a (rv iang)); [tauto|]. reflexivity.
          -- rewrite A2 by tauto. assert (Ha : a = iang \/ a = rv iang) by tauto. rewrite A3. replace ((a =? iang) || (a =? rv iang)) with true by (symmetry; apply orb_true_iff; destruct Ha as [->| ->]; [left|right]; apply Nat.eqb_refl).
             symmetry. apply Mk; eauto.
        * intros C. rewrite New in C. rewrite A2 by tauto. rewrite A3. destruct C as [->|[C|C]]; [reflexivity|apply Nat.eqb_neq in C; rewrite C, andb_false_r; reflexivity|]. destruct (Nat.eqb_spec a iang); [tauto|]. destruct (Nat.eqb_spec a (rv iang)); [tauto|]. cbn [orb]. rewrite andb_false_r. reflexivity.
      + intros Gs. rewrite (J2 Gs). now apply J1.
      + exists (fun j => if j =? iang then din else ins j). split.
        * intros j. destruct (Nat.eqb_spec j iang) as [->|Nj]; [auto|]. destruct (I2 j) as (I3 & I4 & I5). split; [congruence|]. split; [intros Gs; rewrite (I4 Gs); now apply J1|].
          intros a' n i k Sx. destruct (I5 a' n i k Sx) as [X|X]; [|now right]. rewrite X.
          assert (Ha : a' < length (sizes b)) by (destruct Sx as (z & o & Gf & _); destruct (get_face_inv _ _ _ _ _ _ Gf) as (w & o' & Ew & _); apply nth_error_Some; congruence).
          destruct (refl_n_spec b a' n K Ha) as (a & _ & Ra & _). pose proof (U1 g a' n i k a Sx Ra) as A3. destruct (U2 g a' n i k a Sx Ra) as [_ A2].
          destruct (Nat.eqb_spec a iang) as [Y|Y]; [right; symmetry; apply A2; right; right; apply Old; now left|]. destruct (Nat.eqb_spec a (rv iang)) as [Z|Z]; [right; symmetry; apply A2; right; right; apply Old; now right|].
          left. rewrite A3. cbn [orb]. rewrite andb_false_r. reflexivity.
        * cbn [seq]. rewrite G2, G1. cbn [lsum]. rewrite Nat.eqb_refl.
          assert (Nn : net_in e din (st_out s') iang = net_in e din (st_out s1) iang).
          { unfold net_in. fold b g. change (rev_ang (n_oct b) iang) with (rv iang). rewrite (flow_ext b 0 iang (st_out s1) (st_out s')), (flow_ext b 0 (rv iang) (st_out s1) (st_out s')); [reflexivity| |]; intros n i k Sx; eapply Keep; eauto. }
          rewrite Nn. rewrite (lsum_ext (fun j => angle_wt e h j * net_in e (if j =? iang then din else ins j) (st_out s') j)%R (fun j => angle_wt e h j * net_in e (ins j) (st_out s') j)%R); [ring|].
          intros j J. apply in_seq in J. destruct (Nat.eqb_spec j iang); [lia|reflexivity].
  Qed.

  (** A plane with a full set of rays. *)
  Definition plane_full (p : PlaneIn) : Prop := length (pi_rays p) = 2 * n_oct b /\ Forall (Forall (fun tr => fst tr < nt)) (pi_rays p) /\
    (forall j rays, nth_error (pi_rays p) j = Some rays -> rays_cover e j (map snd rays)) /\ length (pi_in p) = n_group b * BcProofs.total (sizes b) /\ length (pi_out p) = BcProofs.total (sizes b).
  (** What a sweep does to a plane and [net], what its regions gain: every incoming value of the group comes from the flux leaving the reflected
      angle; those of other groups stay; every sweep along an angle saw the old or the new incoming values. *)
  Definition plane_gain (p : PlaneIn) (d : list R * list R) (net : R) : Prop :=
    (forall a' n i k, slot b g a' n i k -> exists a, refl_n b a' n = Some a /\ nth_error (fst d) k = made b (snd d) a' a n i (nth_error (pi_in p) k)) /\
    (forall g' a' n i k, slot b g' a' n i k -> g' <> g -> nth_error (fst d) k = nth_error (pi_in p) k) /\
    exists ins, (forall j, (me_gs e = false -> ins j = pi_in p) /\ forall a n i k, slot b g a n i k -> nth_error (ins j) k = nth_error (pi_in p) k \/ nth_error (ins j) k = nth_error (fst d) k) /\
      net = lsum (fun j => angle_wt e (pi_height p) j * net_in e (ins j) (snd d) j)%R (seq 0 (2 * n_oct b)).

  Lemma planes_gain : forall ps ts bs ts', Forall plane_full ps -> ts_ok nreg nt ts -> sweep_planes e ps ts = Ok (bs, ts') -> ts_ok nreg nt ts' /\ length bs = length ps /\
    exists nets, Forall2 (fun pd => plane_gain (fst pd) (snd pd)) (combine ps bs) nets /\ (rsum (tot ts') nreg = rsum (tot ts) nreg + lsum (fun v => v) nets)%R.
  Proof.
    induction ps as [|p ps IH]; intros ts bs ts' Fp Ts H; cbn [sweep_planes] in H.
    - injection H as <- <-. split; [exact Ts|]. split; [reflexivity|]. exists []. split; [constructor|]. cbn. ring.
    - apply Forall_cons_iff in Fp. destruct Fp as [(F1 & F2 & F3 & F4 & F5) Fp].
      destruct (sweep_angles e (pi_first p) (pi_height p) 0 (pi_rays p) (pi_in p) (mkSt (pi_out p) ts)) as [[din s]| |] eqn:E1; [|discriminate|discriminate]. cbn [rbind] in H.
      destruct (angles_gain (pi_first p) (pi_height p) (pi_rays p) 0 (pi_in p) (mkSt (pi_out p) ts) din s ltac:(lia) F2 F3 F4 ltac:(split; [exact F5|exact Ts]) E1) as (O1 & L1 & _ & U1 & J1 & ins & I1 & G1).
      destruct (if me_gs e then Ok din else update_group (me_in e) (with_data (me_out e) (st_out s)) (me_group e) din) as [din'| |] eqn:E2; [|discriminate|discriminate]. cbn [rbind] in H.
      destruct (sweep_planes e ps (st_t s)) as [[bs1 ts1]| |] eqn:E3; [|discriminate|discriminate]. cbn [rbind] in H. injection H as <- <-.
      destruct (IH (st_t s) bs1 ts1 Fp ltac:(split; apply O1) E3) as (T1 & Lb & nets & N1 & G2). split; [exact T1|]. split; [cbn; lia|].
      exists (lsum (fun j => angle_wt e (pi_height p) j * net_in e (ins j) (st_out s) j)%R (seq 0 (2 * n_oct b)) :: nets). split; [|cbn [lsum]; rewrite G2, G1; cbn [st_t]; rewrite F1; ring].
      cbn [combine]. constructor; [|exact N1]. cbn [fst snd]. split; [|split].
      + intros a' n i k Sx. assert (Ha : a' < length (sizes b)) by (destruct Sx as (z & o & Gf & _); destruct (get_face_inv _ _ _ _ _ _ Gf) as (w & o' & Ew & _); apply nth_error_Some; congruence).
        cbn [fst snd]. destruct (me_gs e) eqn:Gs.
        * injection E2 as <-. destruct (refl_n_spec b a' n K Ha) as (a & _ & Ra & _). exists a. split; [exact Ra|]. destruct (U1 g a' n i k a Sx Ra) as [A1 _]. apply A1; auto. rewrite F1.
          assert (Hf : 0 < face_size (nth a' (sizes b) (mkSize 0 0 0)) n) by (destruct Sx as (z & o & Gf & Hz & _); destruct (get_face_inv _ _ _ _ _ _ Gf) as (w & o' & Ew & _ & -> & _); rewrite (nth_error_nth _ _ _ Ew); lia).
          destruct (ok_mirror b K a' a n _ (nth_error_nth' _ (mkSize 0 0 0) Ha) Ra Hf) as (w & Ew & _). assert (Hw : a < 4 * n_oct b) by (rewrite <- Len; apply nth_error_Some; congruence).
          destruct (Nat.lt_ge_cases a (2 * n_oct b)) as [C|C]; [exists a; split; [lia|now left]|]. exists (a - 2 * n_oct b). split; [lia|]. right. rewrite rv_small by lia. lia.
        * rewrite (J1 eq_refl) in E2. destruct (update_group_ok b (with_data (me_out e) (st_out s)) g (pi_in p) K So (proj1 O1) Su Hg Ng F4) as (d2 & E4 & _ & _ & P2). fold b g in E2. rewrite E2 in E4. injection E4 as <-.
          destruct (P2 a' n i k Sx) as (a & t & ko & Ra & Ty & (z & o & Gf & Hz & ->) & ->). exists a. split; [exact Ra|]. unfold made. rewrite Ty, Gf. reflexivity.
      + intros g' a' n i k Sx Ne. cbn [fst]. assert (Ha : a' < length (sizes b)) by (destruct Sx as (z & o & Gf & _); destruct (get_face_inv _ _ _ _ _ _ Gf) as (w & o' & Ew & _); apply nth_error_Some; congruence).
        destruct (refl_n_spec b a' n K Ha) as (a & _ & Ra & _). destruct (U1 g' a' n i k a Sx Ra) as [_ A2]. specialize (A2 ltac:(tauto)). destruct (me_gs e); [injection E2 as <-; exact A2|].
        rewrite (J1 eq_refl) in E2. destruct (update_group_ok b (with_data (me_out e) (st_out s)) g (pi_in p) K So (proj1 O1) Su Hg Ng F4) as (d2 & E4 & _ & P1 & _). fold b g in E2. rewrite E2 in E4. injection E4 as <-. apply (P1 _ _ _ _ _ Sx Ne).
      + exists ins. split; [|reflexivity]. intros j. destruct (I1 j) as (_ & I2 & I3). split; [exact I2|]. intros a n i k Sx. destruct (I3 a n i k Sx) as [X|X]; [now left|]. cbn [fst].
        destruct (me_gs e); [injection E2 as <-; now right|]. left. now rewrite I2.
  Qed.
End Balance.

(** C155, a sweep: collisions of the flux less those of the source alone, over all regions, are what comes in less what leaves, plane by plane.
    [plane_gain] says what comes in: the boundary values before the sweep (Jacobi), or those before or after it (Gauss-Seidel). *)
Theorem C155_sweep : forall e nreg nt ps f bs, bc_ok (me_in e) -> sizes (me_out e) = sizes (me_in e) -> all_supported (me_in e) -> Forall no_gap (sizes (me_in e)) -> me_group e < n_group (me_in e) -> length (sizes (me_in e)) = 4 * n_oct (me_in e) ->
  Forall (plane_full e nt) ps -> sweep1g e nt nreg ps = Ok (f, bs) ->
  length bs = length ps /\ exists nets, Forall2 (fun pd => plane_gain e (fst pd) (snd pd)) (combine ps bs) nets /\
    (rsum (fun i => at0 (me_xstr e) i * at0 (me_vol e) i * (at0 f i - 4 * PI * at0 (me_q e 0) i)) nreg = lsum (fun v => v) nets)%R.
Proof.
  intros e nreg nt ps f bs K So Su Ng Hg Len Fp H. unfold sweep1g in H. destruct (sweep_planes e ps (repeat (repeat 0%R nreg) nt)) as [[bs1 ts]| |] eqn:E; [|discriminate|discriminate]. cbn [rbind] in H.
  destruct (finish (sum_threads nreg ts) (me_xstr e) (me_vol e) (me_q e 0)) as [f1|] eqn:Ef; [|discriminate]. cbn [of_opt rbind] in H. injection H as <- <-.
  destruct (planes_gain e nreg nt K So Su Ng Hg Len ps _ _ _ Fp (ts_zero nreg nt) E) as ([T1 T2] & Lb & nets & N & G). split; [exact Lb|]. exists nets. split; [exact N|].
  destruct (sum_threads_spec nreg ts T2) as [Ls As]. destruct (finish_spec _ _ _ _ _ Ef) as [Lf P].
  transitivity (rsum (tot ts) nreg); [|rewrite G, (rsum_ext _ (fun _ => 0%R)) by (intros; apply tot_zero); rewrite rsum_const0; ring].
  apply rsum_ext. intros i Hi. destruct (P i ltac:(lia)) as (x & w & c & Ex & Ew & Ec & Nz & Ev). rewrite As in Ev. unfold at0. rewrite (nth_error_nth _ _ 0%R Ex), (nth_error_nth _ _ 0%R Ew), (nth_error_nth _ _ 0%R Ec), (nth_error_nth _ _ 0%R Ev).
  unfold FPI. field. split; intros Z; apply Nz; rewrite Z; ring.
Qed.
Print Assumptions C155_sweep.

(** ** Through the sides of the core *)
(** An angle and its reverse have the weight of the rays they share. *)
Definition ray_wt (e : MocEnv) (h : R) (a : nat) : R := angle_wt e h (a mod (2 * n_oct (me_in e))).
(** The angle that [a] comes from by reflection on the sides of normal [n]. *)
Definition mirror (b : BC) (a : nat) (n : Normal) : nat := match refl_n b a n with Some j => j | None => a end.
Definition reflects (b : BC) (a : nat) (n : Normal) : bool := match type_at b a n with Some REFLECT => true | _ => false end.
(** What leaves a plane of height [h] through its sides that do not reflect, less what comes in there. *)
Definition side_leak (e : MocEnv) (h : R) (din dout : list R) : R :=
  rsum (fun a => ray_wt e h a * lsum (fun n => if reflects (me_in e) a n then 0 else face_flow (me_in e) 0 (mirror (me_in e) a n) n dout - face_flow (me_in e) (me_group e) a n din) all_normals)%R (4 * n_oct (me_in e)).
(** Angles that are reflections of each other have equal weights. *)
Definition wt_sym (e : MocEnv) : Prop := forall h a n j, a < 4 * n_oct (me_in e) -> j < 4 * n_oct (me_in e) -> refl_n (me_in e) a n = Some j -> ray_wt e h a = ray_wt e h j.

Lemma reindex : forall (w F : nat -> R) (r : nat -> nat) N, (forall a, a < N -> r a < N -> r (r a) = a /\ w a = w (r a)) -> (forall a, a < N -> N <= r a -> F a = 0%R /\ F (r a) = 0%R) ->
  rsum (fun a => w a * F (r a))%R N = rsum (fun a => w a * F a)%R N.
Proof.
  intros w F r N Inv Out. set (r' := fun a => if r a <? N then r a else a).
  rewrite (rsum_ext (fun a => w a * F (r a))%R (fun a => w (r' a) * F (r' a))%R).
  - rewrite !rsum_lsum. rewrite <- (lsum_map (fun a => w a * F a)%R r'). apply lsum_perm. apply NoDup_Permutation_bis.
    + assert (ND : forall l, NoDup l -> (forall a, In a l -> a < N) -> NoDup (map r' l)).
      { induction 1 as [|a l Na ND IH]; intros B; [constructor|]. cbn [map]. constructor; [|apply IH; intros; apply B; now right]. intros I. apply in_map_iff in I. destruct I as (c & Ec & Ic). apply Na.
        assert (Ha := B a (or_introl eq_refl)). assert (Hc := B c (or_intror Ic)). unfold r' in Ec. destruct (Nat.ltb_spec (r c) N) as [C|C]; destruct (Nat.ltb_spec (r a) N) as [A|A].
        - destruct (Inv a Ha A) as [<- _]. destruct (Inv c Hc C) as [<- _]. rewrite <- Ec. destruct (Inv c Hc C) as [-> _]. exact Ic.
        - subst a. destruct (Inv c Hc C) as [X _]. rewrite X in A. lia.
        - subst c. destruct (Inv a Ha A) as [X _]. rewrite X in C. lia.
        - now subst c. }
      apply ND; [apply seq_NoDup|]. intros a I. apply in_seq in I. lia.
    + rewrite map_length. lia.
    + intros c I. apply in_map_iff in I. destruct I as (a & <- & I). apply in_seq in I. apply in_seq. unfold r'. destruct (Nat.ltb_spec (r a) N); lia.
  - intros a Ha. unfold r'. destruct (Nat.ltb_spec (r a) N) as [C|C]; [destruct (Inv a Ha C) as [_ <-]; reflexivity|]. destruct (Out a Ha C) as [-> ->]. reflexivity.
Qed.

Lemma face_flow_nil : forall b g a n d, length (sizes b) <= a -> face_flow b g a n d = 0%R.
Proof. intros b g a n d H. unfold face_flow, get_face. assert (E : nth_error (sizes b) a = None) by (apply nth_error_None; lia). rewrite E. reflexivity. Qed.

Section Sides.
  Variables (e : MocEnv).
  Let b := me_in e.
  Let g := me_group e.
  Hypothesis K : bc_ok b.
  Hypothesis Len : length (sizes b) = 4 * n_oct b.
  Hypothesis Ws : wt_sym e.

  Lemma mirror_spec : forall a n, a < 4 * n_oct b -> refl_n b a n = Some (mirror b a n) /\ refl_n b (mirror b a n) n = Some a.
  Proof. intros a n H. destruct (refl_n_spec b a n K ltac:(lia)) as (j & _ & E1 & E2). unfold mirror. rewrite E1. auto. Qed.
  Lemma face_empty : forall g' a n d, a < 4 * n_oct b -> 4 * n_oct b <= mirror b a n -> face_flow b g' a n d = 0%R.
  Proof.
    intros g' a n d Ha Hm. unfold face_flow. destruct (get_face b g' a n) as [[z o]|] eqn:Gf; [|reflexivity]. destruct (get_face_inv _ _ _ _ _ _ Gf) as (s & o' & Es & _ & -> & _).
    destruct (mirror_spec a n Ha) as [M1 _]. destruct (Nat.eq_dec (face_size s n) 0) as [->|Nz]; [reflexivity|]. destruct (ok_mirror b K a (mirror b a n) n s Es M1 ltac:(lia)) as (s' & Es' & _).
    assert (mirror b a n < length (sizes b)) by (apply nth_error_Some; congruence). lia.
  Qed.
  Lemma face_mirrored : forall a n d o, a < 4 * n_oct b -> (forall i k, slot b g a n i k -> exists a2, refl_n b a n = Some a2 /\ nth_error d k = made b o a a2 n i (nth_error d k)) ->
    reflects b a n = true -> face_flow b g a n d = face_flow b 0 (mirror b a n) n o.
  Proof.
    intros a n d o Ha H Rf. destruct (mirror_spec a n Ha) as [M1 M2]. destruct (Nat.lt_ge_cases (mirror b a n) (4 * n_oct b)) as [C|C]; [|now rewrite face_empty, face_flow_nil by lia].
    unfold face_flow. destruct (get_face_some b g a n ltac:(lia)) as (z & of & Gf). destruct (get_face_some b 0 (mirror b a n) n ltac:(lia)) as (z' & of' & Gf'). rewrite Gf, Gf'.
    destruct (get_face_inv _ _ _ _ _ _ Gf) as (s & x & Es & _ & Z & _). destruct (get_face_inv _ _ _ _ _ _ Gf') as (s' & x' & Es' & _ & Z' & _).
    assert (Ez : z' = z). { subst z z'. destruct (Nat.eq_dec (face_size s n) 0) as [Q|Q]; [|destruct (ok_mirror b K _ _ n s Es M1 ltac:(lia)) as (t & Et & Ft); congruence]. destruct (Nat.eq_dec (face_size s' n) 0) as [Q'|Q']; [congruence|]. destruct (ok_mirror b K _ _ n s' Es' M2 ltac:(lia)) as (t & Et & Ft). congruence. }
    rewrite Ez. apply rsum_ext. intros i Hi. destruct (H i (of + i)) as (a2 & R2 & V); [exists z, of; auto|]. rewrite M1 in R2. injection R2 as <-. unfold made in V. unfold reflects in Rf. rewrite Gf' in V.
    destruct (type_at b a n) as [[]|]; try discriminate. cbn [new_value] in V. unfold at0. destruct (nth_error o (of' + i)) as [v|] eqn:Ev.
    - now rewrite (nth_error_nth _ _ 0%R V), (nth_error_nth _ _ 0%R Ev).
    - apply nth_error_None in V, Ev. now rewrite !nth_overflow by assumption.
  Qed.

  Lemma rsum_double : forall (w F : nat -> R) n, rsum (fun a => w (a mod n) * F a)%R (n + n) = rsum (fun j => w j * (F j + F (j + n)%nat))%R n.
  Proof.
    intros w F n. rewrite rsum_app, <- rsum_plus. apply rsum_ext. intros j Hj. replace ((n + j) mod n) with j; [rewrite Nat.mod_small by lia; rewrite (Nat.add_comm j n); ring|].
    rewrite Nat.add_comm. replace (j + n) with (j + 1 * n) by lia. rewrite Nat.mod_add by lia. now rewrite Nat.mod_small by lia.
  Qed.

  (** C155, at a state that the sweep leaves as it is: what the regions of a plane gain is what comes in through its sides that do not reflect,
      less what leaves there. *)
  Lemma plane_sides : forall p d net, plane_gain e p d net -> (forall a n i k, slot b g a n i k -> nth_error (fst d) k = nth_error (pi_in p) k) ->
    net = (- side_leak e (pi_height p) (pi_in p) (snd d))%R.
  Proof.
    intros p d net (Mi & _ & ins & I & ->) St. set (h := pi_height p). set (din := pi_in p) in *. set (o := snd d) in *.
    rewrite (lsum_ext _ (fun j => angle_wt e h j * ((angle_flow b g j din - angle_flow b 0 j o) + (angle_flow b g (j + 2 * n_oct b) din - angle_flow b 0 (j + 2 * n_oct b) o)))%R).
    2:{ intros j J. apply in_seq in J. change (me_in e) with b in J. destruct (I j) as [_ Ij]. unfold net_in. fold b g. assert (Rv : rev_ang (n_oct b) j = j + 2 * n_oct b) by (unfold rev_ang, reverse2; rewrite Z.mod_small by lia; lia). rewrite Rv.
      rewrite (flow_ext b g j din (ins j)), (flow_ext b g (j + 2 * n_oct b) din (ins j)); [ring| |]; intros n i k Sx; (destruct (Ij _ _ _ _ Sx) as [X|X]; rewrite X; [reflexivity|apply (St _ _ _ _ Sx)]). }
    rewrite <- rsum_lsum. rewrite <- (rsum_double (angle_wt e h) (fun a => angle_flow b g a din - angle_flow b 0 a o)%R). change (me_in e) with b. replace (2 * n_oct b + 2 * n_oct b) with (4 * n_oct b) by lia.
    unfold side_leak. fold b g. set (N := 4 * n_oct b) in *.
    assert (One : forall n, rsum (fun a => ray_wt e h a * (face_flow b g a n din - face_flow b 0 a n o))%R N = (- rsum (fun a => ray_wt e h a * (if reflects b a n then 0 else face_flow b 0 (mirror b a n) n o - face_flow b g a n din)) N)%R).
    { intros n. rewrite (rsum_ext _ (fun a => ray_wt e h a * face_flow b g a n din + ray_wt e h a * (- face_flow b 0 a n o))%R) by (intros; ring). rewrite rsum_plus.
      rewrite <- (reindex (ray_wt e h) (fun a => - face_flow b 0 a n o)%R (fun a => mirror b a n) N).
      - replace (- rsum (fun a => ray_wt e h a * (if reflects b a n then 0 else face_flow b 0 (mirror b a n) n o - face_flow b g a n din)) N)%R with (-1 * rsum (fun a => ray_wt e h a * (if reflects b a n then 0 else face_flow b 0 (mirror b a n) n o - face_flow b g a n din))%R N)%R by ring.
        rewrite <- rsum_scal, <- rsum_plus. apply rsum_ext. intros a Ha. destruct (reflects b a n) eqn:Rf; [|ring]. rewrite (face_mirrored a n din o Ha); [ring| |exact Rf].
        intros i k Sx. destruct (Mi a n i k Sx) as (a2 & R2 & V). exists a2. split; [exact R2|]. rewrite <- (St _ _ _ _ Sx) at 1. exact V.
      - intros a Ha Hm. destruct (mirror_spec a n Ha) as [M1 M2]. split; [unfold mirror at 1; now rewrite M2|]. now apply (Ws h a n).
      - intros a Ha Hm. rewrite face_empty, face_flow_nil by (unfold N in *; lia). split; ring. }
    transitivity (- (rsum (fun a => ray_wt e h a * (if reflects b a X_NORM then 0 else face_flow b 0 (mirror b a X_NORM) X_NORM o - face_flow b g a X_NORM din)) N +
      rsum (fun a => ray_wt e h a * (if reflects b a Y_NORM then 0 else face_flow b 0 (mirror b a Y_NORM) Y_NORM o - face_flow b g a Y_NORM din)) N +
      rsum (fun a => ray_wt e h a * (if reflects b a Z_NORM then 0 else face_flow b 0 (mirror b a Z_NORM) Z_NORM o - face_flow b g a Z_NORM din)) N))%R.
    - rewrite !Ropp_plus_distr, <- !One, <- !rsum_plus. apply rsum_ext. intros a _. rewrite !flow_faces. unfold ray_wt. fold b. ring.
    - f_equal. rewrite <- !rsum_plus. apply rsum_ext. intros a _. cbn [lsum all_normals]. ring.
  Qed.
  (** Nothing leaks if every side reflects. *)
  Lemma leak_closed : (forall s, types b s = REFLECT) -> forall h din dout, side_leak e h din dout = 0%R.
  Proof.
    intros Ty h din dout. unfold side_leak. fold b. rewrite (rsum_ext _ (fun _ => 0%R)); [apply rsum_const0|]. intros a Ha. rewrite lsum_zero; [ring|]. intros n _. unfold reflects, type_at.
    destruct (nth_error (quad b) a) as [an|] eqn:E; [now rewrite Ty|]. apply nth_error_None in E. pose proof (ok_quad b K). lia.
  Qed.
  (** Nothing comes in if no side is prescribed: what leaks cannot be negative. *)
  Lemma leak_open : (forall s, types b s = REFLECT \/ types b s = VACUUM) -> forall h p d net, (0 <= h)%R -> plane_gain e p d net -> (forall a n i k, slot b g a n i k -> nth_error (fst d) k = nth_error (pi_in p) k) ->
    (forall a, 0 <= ray_wt e h a)%R -> (forall a n i k, slot b 0 a n i k -> (0 <= at0 (snd d) k)%R) -> (0 <= side_leak e h (pi_in p) (snd d))%R.
  Proof.
    intros Ty h p d net Hh (Mi & _) St Wn On. unfold side_leak. fold b g. apply rsum_nonneg. intros a Ha. apply Rmult_le_pos; [apply Wn|]. apply lsum_nonneg. intros n _. destruct (reflects b a n) eqn:Rf; [lra|].
    assert (F0 : face_flow b g a n (pi_in p) = 0%R).
    { unfold face_flow. destruct (get_face b g a n) as [[z o]|] eqn:Gf; [|reflexivity]. rewrite (rsum_ext _ (fun _ => 0%R)); [apply rsum_const0|]. intros i Hi. destruct (Mi a n i (o + i)) as (a2 & R2 & V); [exists z, o; auto|]. rewrite (St a n i (o + i)) in V by (exists z, o; auto).
      change (me_in e) with b in V, R2. unfold made in V. unfold reflects in Rf. unfold type_at in Rf, V. destruct (nth_error (quad b) a) as [an|] eqn:E; [|apply nth_error_None in E; pose proof (ok_quad b K); lia].
      destruct (Ty (upwind_surface (adir an) n)) as [T|T]; rewrite T in Rf, V; [discriminate|]. assert (Am : a2 < 4 * n_oct b). { destruct (get_face_inv _ _ _ _ _ _ Gf) as (s & o' & Es & _ & -> & _). destruct (ok_mirror b K a a2 n s Es R2 ltac:(lia)) as (s' & Es' & _). rewrite <- Len. apply nth_error_Some. congruence. }
      destruct (get_face_some b 0 a2 n ltac:(lia)) as (z' & o' & Gf'). rewrite Gf' in V. cbn [new_value] in V. unfold at0. now rewrite (nth_error_nth _ _ 0%R V). }
    rewrite F0. unfold face_flow. destruct (get_face b 0 (mirror b a n) n) as [[z o]|] eqn:Gf; [|lra]. rewrite Rminus_0_r. apply rsum_nonneg. intros i Hi. apply (On (mirror b a n) n i). exists z, o. auto.
  Qed.
End Sides.

(** ** Whole eigenvalue calculations *)
(** The incoming values of group [g], slot by slot, as they are stored. *)
Definition group_in (b : BC) (g : nat) (d : list R) : list (list (list (option R))) :=
  map (fun a => map (fun n => match get_face b g a n with Some (z, o) => map (fun i => nth_error d (o + i)) (seq 0 z) | None => [] end) all_normals) (seq 0 (length (sizes b))).
Definition moc_bnd (m : MocStatic) (g : nat) (s : MocState) : list (list (list (list (option R)))) := map (fun d => group_in (ms_in m) g (fst d)) (mg_bnd s).
(** What leaves the core through the sides that do not reflect, less what comes in there: [outs] leaves, plane by plane. *)
Definition moc_leak (m : MocStatic) (g : nat) (s : MocState) (outs : list (list R)) : R :=
  lsum (fun x => side_leak (env_of m g []) (snd (fst (fst x))) (fst (fst (snd x))) (snd (snd x))) (combine (ms_planes m) (combine (mg_bnd s) outs)).
(** What the balance needs besides [moc_problem]: a full set of rays in every plane, equal weights for angles that are reflections of each other, the cross
    sections of the mesh, and fission neutrons that all appear in some group. *)
Record moc_balanced (m : MocStatic) (ng : nat) : Prop := {
  mb_full : Forall (fun p : nat * R * list (list (nat * Ray)) => length (snd p) = 2 * n_oct (ms_in m)) (ms_planes m);
  mb_sym : wt_sym (env_of m 0 []);
  mb_xs : forall x i g, In x (ms_xs m) -> In i (xr_reg x) -> g < ng -> at0 (ms_xstr m g) i = at0 (xr_tr x) g;
  mb_chi : forall x, In x (ms_xs m) -> rsum (at0 (xr_ch x)) ng = 1%R \/ forall g, g < ng -> at0 (xr_nf x) g = 0%R }.

Lemma group_in_eq : forall b g d d', group_in b g d = group_in b g d' <-> forall a n i k, slot b g a n i k -> nth_error d k = nth_error d' k.
Proof.
  intros b g d d'. unfold group_in. split.
  - intros E a n i k (z & o & Gf & Hi & ->). assert (Ha : a < length (sizes b)) by (destruct (get_face_inv _ _ _ _ _ _ Gf) as (w & o' & Ew & _); apply nth_error_Some; congruence).
    assert (MI : forall {A B} (f f' : A -> B) l x, map f l = map f' l -> In x l -> f x = f' x) by (induction l as [|y l IH]; intros x M []; injection M; intros; subst; auto).
    pose proof (MI _ _ _ _ _ a E ltac:(apply in_seq; lia)) as E1. cbn beta in E1. pose proof (MI _ _ _ _ _ n E1 ltac:(destruct n; cbn; auto)) as E2. cbn beta in E2. rewrite Gf in E2. exact (MI _ _ _ _ _ i E2 ltac:(apply in_seq; lia)).
  - intros H. apply map_ext_in. intros a Ia. apply map_ext_in. intros n _. destruct (get_face b g a n) as [[z o]|] eqn:Gf; [|reflexivity]. apply map_ext_in. intros i Ii. apply in_seq in Ii. apply (H a n i). exists z, o. split; [exact Gf|]. split; [lia|reflexivity].
Qed.

(** C155, any inner iteration: collisions of the new flux are the external source, scattering of the old flux within the group and what comes in
    along the rays less what leaves; the boundary values of other groups stay. *)
Theorem C155_inner : forall m ng sct g src s s', moc_problem m ng sct -> physical (ms_nreg m) ng sct (ms_xs m) -> moc_balanced m ng -> g < ng -> length src = ms_nreg m -> moc_state m ng s -> moc_inner m g src s = Some s' ->
  length (mg_bnd s') = length (ms_planes m) /\ (forall h, h <> g -> moc_bnd m h s' = moc_bnd m h s) /\
  exists q nets, Forall2 (fun pd => plane_gain (env_of m g q) (fst pd) (snd pd)) (combine (map (fun pb => plane_in (fst pb) (snd pb)) (combine (ms_planes m) (mg_bnd s))) (mg_bnd s')) nets /\
  (lsum (fun x => lsum (fun i => at0 (xr_tr x) g * phi (mg_flux s') i g * at0 (ms_vol m) i) (xr_reg x)) (ms_xs m) =
   lsum (fun x => lsum (fun i => (at0 src i + sct x g g * phi (mg_flux s) i g) * at0 (ms_vol m) i) (xr_reg x)) (ms_xs m) + lsum (fun v => v) nets)%R.
Proof.
  intros m ng sct g src s s' P Ph Mb Hg Ls (Ff & Lq & Lb & Fb) E. destruct Ph as (M & D & Cov & _). pose proof PI_RGT_0 as PP. unfold moc_inner in E.
  destruct (self_scatter_ok true (ms_nreg m) ng sct (ms_xs m) (mg_flux s) src g (mg_q s) M D Ff Ls Lq Hg) as (q & Eq & L & Pq & _); [intros _ x I; pose proof (mp_tr m ng sct P x g I Hg); lra|]. rewrite Eq in E.
  set (ps := map (fun pb => plane_in (fst pb) (snd pb)) (combine (ms_planes m) (mg_bnd s))) in *. change (mkME (ms_in m) (ms_out m) g (ms_xstr m g) (ms_vol m) (fun _ => q) (ms_quad m) (ms_space m) (ms_gs m)) with (env_of m g q) in E.
  destruct (sweep1g (env_of m g q) (ms_nt m) (ms_nreg m) ps) as [[f bs]| |] eqn:Es; [|discriminate|discriminate]. destruct (set_col g f (mg_flux s)) as [fl|] eqn:Ec; [|discriminate]. injection E as <-.
  assert (Fp : Forall (plane_full (env_of m g q) (ms_nt m)) ps).
  { apply Forall_forall. intros p I. apply in_map_iff in I. destruct I as ([[[f0 h] rays] d] & <- & I). apply in_combine_l in I as I1. apply in_combine_r in I as I2. cbn [fst snd plane_in].
    destruct (mp_planes m ng sct P f0 h rays I1) as (A1 & A2 & A3 & A4 & A5 & A6 & A7). pose proof (proj1 (Forall_forall _ _) Fb d I2) as (B1 & B2 & B3). pose proof (proj1 (Forall_forall _ _) (mb_full m ng Mb) _ I1) as A8.
    unfold plane_full. cbn [pi_rays pi_in pi_out env_of me_in fst snd]. split; [exact A8|]. split; [exact A5|]. split; [intros j rs Ej; now apply A6|]. auto. }
  destruct (C155_sweep (env_of m g q) (ms_nreg m) (ms_nt m) ps f bs (mp_bc m ng sct P) (mp_out m ng sct P) (mp_sup m ng sct P) (mp_gap m ng sct P)) as (Lbs & nets & N & G); auto.
  { cbn. rewrite (mp_ng m ng sct P). exact Hg. } { exact (mp_len m ng sct P). }
  cbn [mg_bnd mg_flux]. assert (Lps : length ps = length (ms_planes m)) by (unfold ps; rewrite map_length, combine_length; lia). split; [lia|]. split.
  - intros h Nh. unfold moc_bnd. cbn [mg_bnd]. assert (Ed : map pi_in ps = map fst (mg_bnd s)).
    { unfold ps. clear - Lb. revert Lb. generalize (mg_bnd s) as ds. generalize (ms_planes m) as pl. induction pl as [|p pl IH]; intros [|d ds] Lb; try discriminate; [reflexivity|]. cbn [combine map]. rewrite IH by (now injection Lb). reflexivity. }
    assert (X : map (fun d => group_in (ms_in m) h (fst d)) bs = map (fun p => group_in (ms_in m) h (pi_in p)) ps).
    { clear - N Lbs Nh. revert bs nets N Lbs. induction ps as [|p ps IH]; intros [|d bs] nets N Lbs; try discriminate; [reflexivity|]. cbn [combine] in N. inversion N as [|? ? ? ns Pg N']. cbn [map]. rewrite (IH bs ns N') by (now injection Lbs). f_equal.
      destruct Pg as (_ & Oth & _). cbn [fst snd] in Oth. apply group_in_eq. intros a n i k Sx. apply (Oth h a n i k Sx Nh). }
    rewrite X, <- (map_map pi_in (group_in (ms_in m) h)), Ed, map_map. reflexivity.
  - exists q, nets. split; [exact N|]. destruct (set_col_spec _ _ _ _ Ec) as (C1 & C2 & C3 & C4). rewrite <- G.
    rewrite (mesh_sum _ (ms_xs m) (ms_nreg m) M Cov), <- lsum_plus. apply lsum_ext. intros x Ix. rewrite <- lsum_plus. apply lsum_ext. intros i Ii. pose proof (reg_bound _ _ x i M Ix Ii) as Hi.
    cbn [env_of me_xstr me_vol me_q]. rewrite (mb_xs m ng Mb x i g Ix Ii Hg), (Pq x i Ix Ii). pose proof (mp_tr m ng sct P x g Ix Hg) as T. pose proof (proj1 Ff) as Lff. rewrite C4, Nat.eqb_refl by lia. field. split; lra.
Qed.
Print Assumptions C155_inner.

(** The sum over the groups of their balances. *)
Lemma balance_of_groups : forall xs nreg ng sct vol fl k (J : nat -> R), (0 < k)%R -> mesh_fits xs nreg -> data_fits ng sct xs -> (forall x, In x xs -> rsum (at0 (xr_ch x)) ng = 1%R \/ forall g, g < ng -> at0 (xr_nf x) g = 0%R) ->
  (forall g, g < ng -> (J g + lsum (fun x => lsum (fun i => at0 (xr_tr x) g * phi fl i g * at0 vol i) (xr_reg x)) xs =
     lsum (fun x => lsum (fun i => (at0 (xr_ch x) g * (rsum (fun h => at0 (xr_nf x) h * phi fl i h) ng / k) + rsum (fun h => if (h =? g)%nat then 0 else sct x g h * phi fl i h) ng + sct x g g * phi fl i g) * at0 vol i) (xr_reg x)) xs)%R) ->
  (production xs ng fl vol = k * (absorption xs ng fl vol + rsum J ng))%R.
Proof.
  intros xs nreg ng sct vol fl k J K M D Chi Gr.
  assert (Su : (rsum J ng + lsum (fun x => lsum (fun i => rsum (fun g => at0 (xr_tr x) g * phi fl i g * at0 vol i) ng) (xr_reg x)) xs =
    lsum (fun x => lsum (fun i => rsum (fun g => (at0 (xr_ch x) g * (rsum (fun h => at0 (xr_nf x) h * phi fl i h) ng / k) + rsum (fun h => if (h =? g)%nat then 0 else sct x g h * phi fl i h) ng + sct x g g * phi fl i g) * at0 vol i) ng) (xr_reg x)) xs)%R).
  { rewrite (lsum_ext (fun x => lsum (fun i => rsum (fun g => at0 (xr_tr x) g * phi fl i g * at0 vol i)%R ng) (xr_reg x)) (fun x => rsum (fun g => lsum (fun i => at0 (xr_tr x) g * phi fl i g * at0 vol i)%R (xr_reg x)) ng)) by (intros x _; symmetry; apply rsum_into).
    rewrite <- rsum_into, <- rsum_plus. etransitivity; [exact (rsum_ext _ _ _ Gr)|]. rewrite rsum_into. apply lsum_ext. intros x _. apply rsum_into. }
  assert (Rh : forall x i, In x xs -> In i (xr_reg x) -> (rsum (fun g => (at0 (xr_ch x) g * (rsum (fun h => at0 (xr_nf x) h * phi fl i h) ng / k) + rsum (fun h => if (h =? g)%nat then 0 else sct x g h * phi fl i h) ng + sct x g g * phi fl i g) * at0 vol i) ng =
    rsum (fun g => phi fl i g * at0 vol i * at0 (xr_nf x) g) ng * / k + rsum (fun g => at0 (out (xr_sc x)) g * phi fl i g * at0 vol i) ng)%R).
  { intros x i Ix Ii. destruct (D x Ix) as (Cm & Od & _). destruct (C40_balance ng (sct x) (xr_sc x) (fun h => phi fl i h) Cm Od) as (o & _ & Eo & B). rewrite Eo.
    rewrite (rsum_ext _ (fun g => at0 (xr_ch x) g * (rsum (fun h => at0 (xr_nf x) h * phi fl i h) ng / k * at0 vol i) + (rsum (fun h => if (h =? g)%nat then 0 else sct x g h * phi fl i h) ng + sct x g g * phi fl i g) * at0 vol i)%R) by (intros; ring).
    rewrite rsum_plus, !rsum_scal_r, B. f_equal. destruct (Chi x Ix) as [C1|C0].
    - rewrite C1, Rmult_1_l. rewrite (rsum_ext (fun g => phi fl i g * at0 vol i * at0 (xr_nf x) g)%R (fun g => at0 (xr_nf x) g * phi fl i g * at0 vol i)%R) by (intros; ring). rewrite rsum_scal_r. unfold Rdiv. ring.
    - rewrite (rsum_ext (fun h => at0 (xr_nf x) h * phi fl i h)%R (fun _ => 0%R)) by (intros h Hh; rewrite C0 by exact Hh; ring). rewrite (rsum_ext (fun g => phi fl i g * at0 vol i * at0 (xr_nf x) g)%R (fun _ => 0%R)) by (intros h Hh; rewrite C0 by exact Hh; ring). rewrite rsum_const0. unfold Rdiv. ring. }
  assert (Ab : absorption xs ng fl vol = (lsum (fun x => lsum (fun i => rsum (fun g => at0 (xr_tr x) g * phi fl i g * at0 vol i) ng) (xr_reg x)) xs - lsum (fun x => lsum (fun i => rsum (fun g => at0 (out (xr_sc x)) g * phi fl i g * at0 vol i) ng) (xr_reg x)) xs)%R).
  { apply Rplus_eq_reg_r with (r := lsum (fun x => lsum (fun i => rsum (fun g => at0 (out (xr_sc x)) g * phi fl i g * at0 vol i)%R ng) (xr_reg x)) xs). unfold absorption. unfold Rminus at 2. rewrite Rplus_assoc, Rplus_opp_l, Rplus_0_r, <- lsum_plus. apply lsum_ext. intros x Ix. rewrite <- lsum_plus. apply lsum_ext. intros i Ii. rewrite <- rsum_plus. apply rsum_ext. intros g Hg. ring. }
  assert (T : (lsum (fun x => lsum (fun i => rsum (fun g => (at0 (xr_ch x) g * (rsum (fun h => at0 (xr_nf x) h * phi fl i h) ng / k) + rsum (fun h => if (h =? g)%nat then 0 else sct x g h * phi fl i h) ng + sct x g g * phi fl i g) * at0 vol i) ng) (xr_reg x)) xs =
    production xs ng fl vol * / k + lsum (fun x => lsum (fun i => rsum (fun g => at0 (out (xr_sc x)) g * phi fl i g * at0 vol i) ng) (xr_reg x)) xs)%R).
  { unfold production. rewrite <- lsum_scale, <- lsum_plus. apply lsum_ext. intros x Ix. rewrite <- lsum_scale, <- lsum_plus. apply lsum_ext. intros i Ii. now apply Rh. }
  rewrite T in Su. rewrite Ab. assert (Q : production xs ng fl vol = (k * (production xs ng fl vol * / k))%R) by (field; lra). rewrite Q at 1. f_equal. lra.
Qed.

Lemma ray_wt_pos : forall m ng sct g q h a, moc_problem m ng sct -> (0 <= h)%R -> (0 <= ray_wt (env_of m g q) h a)%R.
Proof.
  intros m ng sct g q h a P Hh. unfold ray_wt, angle_wt. cbn [env_of me_quad me_space]. destruct (nth_error (ms_quad m) _) as [an|] eqn:Ea; [|lra]. destruct (nth_error (ms_space m) _) as [sp|] eqn:Es; [|lra].
  pose proof (proj1 (Forall_forall _ _) (mp_quad m ng sct P) an (nth_error_In _ _ Ea)) as (W0 & W1 & W2). pose proof (proj1 (Forall_forall _ _) (proj2 (mp_space m ng sct P)) sp (nth_error_In _ _ Es)) as W3. cbn beta in W3. pose proof PI_RGT_0 as PP.
  assert (Sn : (0 <= sin (theta (adir an)))%R) by (assert (0 < / rsintheta (adir an))%R by (now apply Rinv_0_lt_compat); replace (sin (theta (adir an))) with (/ rsintheta (adir an))%R; [lra|]; apply (Rmult_eq_reg_l (rsintheta (adir an))); [rewrite W2; field; lra|lra]).
  apply Rmult_le_pos; [|lra]. apply Rmult_le_pos; [|exact Sn]. apply Rmult_le_pos; [|exact Hh]. now apply Rmult_le_pos.
Qed.

(** C155, a solution: a flux and boundary values that the iteration leaves as they are.  [outs] is what leaves in each group. *)
Theorem C155_balance : forall m ng sct s s', moc_problem m ng sct -> physical (ms_nreg m) ng sct (ms_xs m) -> moc_balanced m ng -> ms_inner m = 1 ->
  sound mg_flux (moc_state m ng) (ms_nreg m) ng (ms_xs m) (ms_vol m) s -> eigen_step MocState mg_flux (moc_sweep m) (ms_xs m) ng (ms_nreg m) (ms_vol m) s = Some s' ->
  (forall i g, i < ms_nreg m -> g < ng -> phi (mg_flux (e_sw _ s')) i g = phi (mg_flux (e_sw _ s)) i g) -> (forall g, g < ng -> moc_bnd m g (e_sw _ s') = moc_bnd m g (e_sw _ s)) ->
  let leak := fun outs => rsum (fun g => moc_leak m g (e_sw _ s) (outs g)) ng in
  exists outs : nat -> list (list R), (forall g, g < ng -> length (outs g) = length (ms_planes m)) /\ e_k _ s' = e_k _ s /\
    (production (ms_xs m) ng (mg_flux (e_sw _ s')) (ms_vol m) = e_k _ s' * (absorption (ms_xs m) ng (mg_flux (e_sw _ s')) (ms_vol m) + leak outs))%R /\
    ((forall t, types (ms_in m) t = REFLECT) -> leak outs = 0%R) /\ ((forall t, types (ms_in m) t = REFLECT \/ types (ms_in m) t = VACUUM) -> (0 <= leak outs)%R).
Proof.
  intros m ng sct s s' P Ph Mb H1 So E St Sb leak. destruct So as (F & Ls & Lf & K & N & Pp). assert (Ph' := Ph). destruct Ph' as (M & D & Cov & Pos). assert (G := moc_good m ng sct P Ph). assert (Ff := proj1 G _ F).
  destruct (mp_vol m ng sct P) as [Lv Pv0]. assert (Pv : forall i, i < ms_nreg m -> (0 < at0 (ms_vol m) i)%R) by (intros i Hi; rewrite Forall_forall in Pv0; apply Pv0, nth_In; lia).
  set (fl := mg_flux (e_sw MocState s)) in *. set (fl' := mg_flux (e_sw MocState s')) in *. set (xs := ms_xs m) in *. set (nreg := ms_nreg m) in *. set (vol := ms_vol m) in *.
  assert (Pe : production xs ng fl' vol = production xs ng fl vol) by (apply (production_ext xs ng fl' fl vol nreg M); intros i g Hi Hg; apply St; assumption).
  assert (Ab : absorption xs ng fl' vol = absorption xs ng fl vol) by (unfold absorption; apply lsum_ext; intros x Ix; apply lsum_ext; intros i Ii; apply rsum_ext; intros g Hg; rewrite St; auto; now apply (reg_bound xs nreg x)).
  destruct (C51_fission_source nreg ng sct (e_k _ s) xs fl (e_fs _ s) ltac:(lra) M D Ff Lf) as (f1 & E1 & L1 & V1 & _). destruct (prod_source nreg ng sct xs vol Ph Lv Pv fl (e_k _ s) (e_fs _ s) f1 N Pp K Ff Lf E1) as (_ & N1 & _).
  unfold eigen_step in E. fold fl in E. rewrite E1 in E. destruct (fss_groups _ _ _ _ _ _ _ _ _ _) as [[src' sw']|] eqn:E2; [|discriminate].
  assert (Fs' : flux_fits nreg ng (mg_flux sw')).
  { destruct (groups_made mg_flux (moc_sweep m) (moc_state m ng) nreg ng sct xs vol G Ph Lv Pv) with (fs := f1) (cnt := ng) (ig := 0) (src := e_src MocState s) (sw := e_sw MocState s) as (s1 & w1 & Q & _ & Q2 & _); auto. rewrite E2 in Q. injection Q as <- <-. exact (proj1 G _ Q2). }
  rewrite (C51_total_fission nreg ng sct xs (mg_flux sw') vol M D Fs' Lv), (C51_total_fission nreg ng sct xs fl vol M D Ff Lv) in E. destruct (Reqb_spec (production xs ng fl vol) 0) as [|_]; [discriminate|]. cbv zeta in E. destruct (calc_fission_source _ _ _ (mg_flux sw') _) as [f2|]; [|discriminate].
  assert (Es : e_sw _ s' = sw') by (now injection E as <-). assert (Ek : e_k _ s' = e_k _ s). { injection E as <-. cbn [e_k]. unfold fl' in Pe. cbn [e_sw] in Pe. rewrite Pe. field. lra. }
  assert (One : forall src w, moc_sweep m src w = fun st => match moc_inner m src w st with Some x => Some x | None => None end) by (intros; unfold moc_sweep; rewrite H1; reflexivity).
  destruct (groups_trace mg_flux (moc_sweep m) (moc_state m ng) nreg ng sct xs vol G Ph Lv Pv (moc_bnd m)) with (fs := f1) (cnt := ng) (ig := 0) (src := e_src MocState s) (sw := e_sw MocState s) (src' := src') (sw' := sw') as [_ T]; auto.
  { intros h src w w' h' Hh Lsrc Fw Ew Nh. rewrite One in Ew. destruct (moc_inner m h src w) as [w2|] eqn:Ei; [|discriminate]. injection Ew as <-. destruct (C155_inner m ng sct h src w w2 P Ph Mb Hh Lsrc Fw Ei) as (_ & O & _). now apply O. }
  assert (Gr : forall g, exists og : list (list R), g < ng -> length og = length (ms_planes m) /\
    (moc_leak m g (e_sw _ s) og + lsum (fun x => lsum (fun i => at0 (xr_tr x) g * phi fl i g * at0 vol i) (xr_reg x)) xs =
     lsum (fun x => lsum (fun i => (at0 (xr_ch x) g * (rsum (fun h => at0 (xr_nf x) h * phi fl i h) ng / e_k _ s) + rsum (fun h => if (h =? g)%nat then 0 else sct x g h * phi fl i h) ng + sct x g g * phi fl i g) * at0 vol i) (xr_reg x)) xs)%R /\
    ((forall t, types (ms_in m) t = REFLECT) -> moc_leak m g (e_sw _ s) og = 0%R) /\ ((forall t, types (ms_in m) t = REFLECT \/ types (ms_in m) t = VACUUM) -> (0 <= moc_leak m g (e_sw _ s) og)%R)).
  { intros g. destruct (Nat.lt_ge_cases g ng) as [Hg|Hg]; [|exists []; lia]. destruct (T g ltac:(lia)) as (sg & w & w' & Fw & Fw' & Lsg & Ew & Ob & Ob0 & V2 & V3 & Sp).
    rewrite One in Ew. destruct (moc_inner m g sg w) as [w2|] eqn:Ei; [|discriminate]. injection Ew as ->. destruct (C155_inner m ng sct g sg w w' P Ph Mb Hg Lsg Fw Ei) as (Lw' & _ & q & nets & Nt & B).
    assert (Vw : forall i h, i < nreg -> h < ng -> phi (mg_flux w) i h = phi fl i h) by (intros i h Hi Hh; rewrite V3 by exact Hi; destruct (h <? g); [rewrite <- Es; now apply St|reflexivity]).
    assert (Nw : forall i h, i < nreg -> h < ng -> (0 <= phi (mg_flux w) i h)%R) by (intros i h Hi Hh; rewrite Vw by assumption; now apply N).
    assert (Nsg : forall i, i < nreg -> (0 <= at0 sg i)%R).
    { intros i Hi. specialize (Cov i Hi). apply in_concat in Cov. destruct Cov as (r & Ir & Ii). apply in_map_iff in Ir. destruct Ir as (x & <- & Ix). rewrite (Sp x i Ix Ii). destruct (Pos x g Ix Hg) as [Pc _].
      pose proof (Rmult_le_pos _ _ Pc (N1 i Hi)). apply Rplus_le_le_0_compat; [assumption|]. apply rsum_nonneg. intros h Hh. destruct (Nat.eqb_spec h g) as [|Nh]; [lra|]. destruct (D x Ix) as (_ & O & _). apply Rmult_le_pos; [|now apply Nw]. apply O; auto. }
    assert (Out : Forall (out_fine m) (mg_bnd w')). { destruct (moc_inner_made m ng sct P Ph g sg w Hg Lsg Fw Nsg Nw) as (w3 & E3 & _ & _ & _ & O). rewrite Ei in E3. injection E3 as <-. apply O. exact (mb_full m ng Mb). }
    assert (Lw : length (mg_bnd w) = length (ms_planes m)) by apply Fw. assert (Lsw : length (mg_bnd (e_sw _ s)) = length (ms_planes m)) by apply F.
    exists (map snd (mg_bnd w')). intros _. split; [now rewrite map_length|].
    assert (Bs : moc_bnd m g w' = moc_bnd m g (e_sw _ s)) by (rewrite Ob, <- Es; now apply Sb).
    assert (Ls0 : lsum (fun v => v) nets = (- moc_leak m g (e_sw _ s) (map snd (mg_bnd w')))%R /\ ((forall t, types (ms_in m) t = REFLECT) -> moc_leak m g (e_sw _ s) (map snd (mg_bnd w')) = 0%R) /\
      ((forall t, types (ms_in m) t = REFLECT \/ types (ms_in m) t = VACUUM) -> (0 <= moc_leak m g (e_sw _ s) (map snd (mg_bnd w')))%R)).
    { assert (Hp : forall p, In p (ms_planes m) -> (0 <= snd (fst p))%R) by (intros [[f0 h] rays] I; apply (mp_planes m ng sct P f0 h rays I)).
      unfold moc_bnd in Bs, Ob0. assert (Ws : wt_sym (env_of m g q)) by exact (mb_sym m ng Mb). unfold moc_leak. revert Nt Bs Ob0 Out Lw Lw' Lsw Hp. clear - P Ws. revert nets. generalize (mg_bnd w) as dw. generalize (mg_bnd w') as dw'. generalize (mg_bnd (e_sw MocState s)) as ds. generalize (ms_planes m) as pl.
      induction pl as [|p pl IH]; intros [|d ds] [|d' dw'] [|d0 dw] nets Nt Bs Ob0 Out Lw Lw' Lsw Hp; try discriminate; cbn [combine map] in *.
      - inversion Nt. cbn. split; [ring|]. split; [reflexivity|lra].
      - inversion Nt as [|? n ? ns Pg Nt']. injection Bs as Bs1 Bs2. injection Ob0 as Oa Ob. apply Forall_cons_iff in Out. destruct Out as [Oh Out].
        destruct (IH ds dw' dw ns Nt' Bs2 Ob Out) as (I1 & I2 & I3); try (now injection Lw); try (now injection Lw'); try (now injection Lsw); [intros; apply Hp; now right|]. cbn [fst snd] in Pg. cbn [lsum fst snd]. change (fst (combine (map fst [d]) [])) with (fst (combine (map fst [d]) [])) || idtac.
        assert (Sl : forall a n i k, slot (ms_in m) g a n i k -> nth_error (fst d') k = nth_error (fst d0) k). { apply group_in_eq. congruence. }
        assert (Sd : forall a n i k, slot (ms_in m) g a n i k -> nth_error (fst d0) k = nth_error (fst d) k). { apply group_in_eq. congruence. }
        assert (Ls1 := plane_sides (env_of m g q) (mp_bc m ng sct P) (mp_len m ng sct P) Ws (plane_in p d0) d' n Pg Sl). cbn [plane_in pi_height pi_in] in Ls1.
        assert (Eq : side_leak (env_of m g q) (snd (fst p)) (fst d0) (snd d') = side_leak (env_of m g []) (snd (fst p)) (fst d) (snd d')).
        { unfold side_leak. change (me_in (env_of m g q)) with (ms_in m). change (me_in (env_of m g [])) with (ms_in m). change (me_group (env_of m g q)) with g. change (me_group (env_of m g [])) with g. apply rsum_ext. intros a _. f_equal. apply lsum_ext. intros n0 _. destruct (reflects (ms_in m) a n0); [reflexivity|]. f_equal.
          unfold face_flow. destruct (get_face (ms_in m) g a n0) as [[z o]|] eqn:Gf; [|reflexivity]. apply rsum_ext. intros i Hi. specialize (Sd a n0 i (o + i) ltac:(exists z, o; auto)). unfold at0. destruct (nth_error (fst d) (o + i)) as [v|] eqn:Ev; [now rewrite (nth_error_nth _ _ 0%R Sd), (nth_error_nth _ _ 0%R Ev)|]. apply nth_error_None in Sd, Ev. now rewrite !nth_overflow by assumption. }
        split; [rewrite I1, Ls1, Eq; ring|]. split.
        + intros Ty. rewrite (I2 Ty), <- Eq, (leak_closed (env_of m g q) (mp_bc m ng sct P) (mp_len m ng sct P) Ty). ring.
        + intros Ty. apply Rplus_le_le_0_compat; [|exact (I3 Ty)]. rewrite <- Eq. assert (Hh := Hp p (or_introl eq_refl)).
          apply (leak_open (env_of m g q) (mp_bc m ng sct P) (mp_len m ng sct P) Ty (snd (fst p)) (plane_in p d0) d' n Hh Pg Sl); [intros a; now apply (ray_wt_pos m ng sct)|].
          intros a n0 i k Sx. destruct (Oh a n0 i k Sx) as (v & Ev & Nv). unfold at0. now rewrite (nth_error_nth _ _ 0%R Ev). }
    destruct Ls0 as (Ln & Lc & Lo). split; [|split; [exact Lc|exact Lo]].
    rewrite Ln in B. assert (Bl : lsum (fun x => lsum (fun i => at0 (xr_tr x) g * phi (mg_flux w') i g * at0 vol i)%R (xr_reg x)) xs = lsum (fun x => lsum (fun i => at0 (xr_tr x) g * phi fl i g * at0 vol i)%R (xr_reg x)) xs).
    { apply lsum_ext. intros x Ix. apply lsum_ext. intros i Ii. pose proof (reg_bound xs nreg x i M Ix Ii) as Hi. rewrite V2 by exact Hi. rewrite <- Es. change (mg_flux (e_sw MocState s')) with fl'. now rewrite St. }
    fold xs vol in B. rewrite Bl in B. rewrite B. rewrite (lsum_ext (fun x => lsum (fun i => (at0 sg i + sct x g g * phi (mg_flux w) i g) * at0 vol i)%R (xr_reg x)) (fun x => lsum (fun i => (at0 (xr_ch x) g * (rsum (fun h => at0 (xr_nf x) h * phi fl i h) ng / e_k _ s) + rsum (fun h => if (h =? g)%nat then 0 else sct x g h * phi fl i h) ng + sct x g g * phi fl i g) * at0 vol i)%R (xr_reg x))); [ring|].
    intros x Ix. apply lsum_ext. intros i Ii. pose proof (reg_bound xs nreg x i M Ix Ii) as Hi. rewrite (Sp x i Ix Ii), (V1 x i Ix Ii), (Vw i g Hi Hg). f_equal. f_equal. f_equal. apply rsum_ext. intros h Hh. destruct (h =? g); [reflexivity|]. now rewrite Vw. }
  assert (Ch : exists outs : nat -> list (list R), forall g, g < ng -> length (outs g) = length (ms_planes m) /\
    (moc_leak m g (e_sw _ s) (outs g) + lsum (fun x => lsum (fun i => at0 (xr_tr x) g * phi fl i g * at0 vol i) (xr_reg x)) xs =
     lsum (fun x => lsum (fun i => (at0 (xr_ch x) g * (rsum (fun h => at0 (xr_nf x) h * phi fl i h) ng / e_k _ s) + rsum (fun h => if (h =? g)%nat then 0 else sct x g h * phi fl i h) ng + sct x g g * phi fl i g) * at0 vol i) (xr_reg x)) xs)%R /\
    ((forall t, types (ms_in m) t = REFLECT) -> moc_leak m g (e_sw _ s) (outs g) = 0%R) /\ ((forall t, types (ms_in m) t = REFLECT \/ types (ms_in m) t = VACUUM) -> (0 <= moc_leak m g (e_sw _ s) (outs g))%R)).
  { clear - Gr. revert Gr. generalize (e_sw MocState s) as w. intros w Gr.
    assert (Up : forall n, exists outs : nat -> list (list R), forall g, g < n -> g < ng -> length (outs g) = length (ms_planes m) /\
    (moc_leak m g w (outs g) + lsum (fun x => lsum (fun i => at0 (xr_tr x) g * phi fl i g * at0 vol i) (xr_reg x)) xs =
     lsum (fun x => lsum (fun i => (at0 (xr_ch x) g * (rsum (fun h => at0 (xr_nf x) h * phi fl i h) ng / e_k _ s) + rsum (fun h => if (h =? g)%nat then 0 else sct x g h * phi fl i h) ng + sct x g g * phi fl i g) * at0 vol i) (xr_reg x)) xs)%R /\
    ((forall t, types (ms_in m) t = REFLECT) -> moc_leak m g w (outs g) = 0%R) /\ ((forall t, types (ms_in m) t = REFLECT \/ types (ms_in m) t = VACUUM) -> (0 <= moc_leak m g w (outs g))%R)).
    { induction n as [|n (outs & IH)]; [exists (fun _ => []); lia|]. destruct (Gr n) as (og & Hog). exists (fun g => if g =? n then og else outs g). intros g H1 H2. destruct (Nat.eqb_spec g n) as [->|Nn]; [now apply Hog|]. apply IH; lia. }
    destruct (Up ng) as (outs & H). exists outs. intros g Hg. now apply H. }
  destruct Ch as (outs & Ho). exists outs. split; [intros g Hg; apply (Ho g Hg)|]. split; [exact Ek|]. rewrite Ek, Pe, Ab. split; [|split].
  - apply (balance_of_groups xs nreg ng sct vol fl (e_k _ s) (fun g => moc_leak m g (e_sw _ s) (outs g)) K M D (mb_chi m ng Mb)). intros g Hg. apply (Ho g Hg).
  - intros Ty. unfold leak. rewrite (rsum_ext _ (fun _ => 0%R)); [apply rsum_const0|]. intros g Hg. now apply (Ho g Hg).
  - intros Ty. unfold leak. apply rsum_nonneg. intros g Hg. now apply (Ho g Hg).
Qed.
Print Assumptions C155_balance.

(** C155, nothing leaks: with mirrors all round the eigenvalue is the production over the absorption. *)
Theorem C155_closed : forall m ng sct s s', moc_problem m ng sct -> physical (ms_nreg m) ng sct (ms_xs m) -> moc_balanced m ng -> ms_inner m = 1 -> (forall t, types (ms_in m) t = REFLECT) ->
  sound mg_flux (moc_state m ng) (ms_nreg m) ng (ms_xs m) (ms_vol m) s -> eigen_step MocState mg_flux (moc_sweep m) (ms_xs m) ng (ms_nreg m) (ms_vol m) s = Some s' ->
  (forall i g, i < ms_nreg m -> g < ng -> phi (mg_flux (e_sw _ s')) i g = phi (mg_flux (e_sw _ s)) i g) -> (forall g, g < ng -> moc_bnd m g (e_sw _ s') = moc_bnd m g (e_sw _ s)) ->
  e_k _ s' = e_k _ s /\ (production (ms_xs m) ng (mg_flux (e_sw _ s')) (ms_vol m) = e_k _ s' * absorption (ms_xs m) ng (mg_flux (e_sw _ s')) (ms_vol m))%R.
Proof. intros m ng sct s s' P Ph Mb H1 Ty So E St Sb. destruct (C155_balance m ng sct s s' P Ph Mb H1 So E St Sb) as (outs & _ & K & B & Cl & _). split; [exact K|]. rewrite B, (Cl Ty), Rplus_0_r. reflexivity. Qed.
Print Assumptions C155_closed.
(** C155, nothing comes in: the eigenvalue is at most the production over the absorption. *)
Theorem C155_open : forall m ng sct s s', moc_problem m ng sct -> physical (ms_nreg m) ng sct (ms_xs m) -> moc_balanced m ng -> ms_inner m = 1 -> (forall t, types (ms_in m) t = REFLECT \/ types (ms_in m) t = VACUUM) ->
  sound mg_flux (moc_state m ng) (ms_nreg m) ng (ms_xs m) (ms_vol m) s -> eigen_step MocState mg_flux (moc_sweep m) (ms_xs m) ng (ms_nreg m) (ms_vol m) s = Some s' ->
  (forall i g, i < ms_nreg m -> g < ng -> phi (mg_flux (e_sw _ s')) i g = phi (mg_flux (e_sw _ s)) i g) -> (forall g, g < ng -> moc_bnd m g (e_sw _ s') = moc_bnd m g (e_sw _ s)) ->
  (e_k _ s' * absorption (ms_xs m) ng (mg_flux (e_sw _ s')) (ms_vol m) <= production (ms_xs m) ng (mg_flux (e_sw _ s')) (ms_vol m))%R.
Proof.
  intros m ng sct s s' P Ph Mb H1 Ty So E St Sb. destruct (C155_balance m ng sct s s' P Ph Mb H1 So E St Sb) as (outs & _ & K & B & _ & Op). rewrite B, Rmult_plus_distr_l. destruct So as (_ & _ & _ & K0 & _). rewrite K. pose proof (Rmult_le_pos _ _ (Rlt_le _ _ K0) (Op Ty)). lra.
Qed.
Print Assumptions C155_open.

(** The mirrors of [C156_instance]: a stationary flux, and an eigenvalue of 3/2 for a production of 3 and an absorption of 2. *)
Lemma mf_balanced : forall gs, moc_balanced (mf_static gs) 1.
Proof.
  intros gs. constructor.
  - repeat constructor.
  - intros h a n j Ha Hj _. cbn in Ha, Hj. unfold ray_wt, angle_wt. cbn [env_of me_in me_quad me_space mf_static ms_in ms_quad ms_space mf_bc n_oct]. assert (W : forall b, b < 2 -> (match nth_error mf_quad b, nth_error [1; 1]%R b with Some ang, Some sp => weight ang * sp * h * sin (theta (adir ang)) * PI | _, _ => 0 end = 1 * 1 * h * sin (PI / 2) * PI)%R) by (intros [|[|b]] Hb; [reflexivity|reflexivity|lia]).
    change (2 * 1) with 2. rewrite !W by (apply Nat.mod_upper_bound; lia). reflexivity.
  - intros x i g [<-|[<-|[]]] Ii Hg; cbn in Ii; destruct Ii as [<-|[]]; assert (g = 0) by lia; subst; reflexivity.
  - intros x [<-|[<-|[]]]; left; cbn; ring.
Qed.
Example C155_instance : forall gs, moc_problem (mf_static gs) 1 (fun _ => mo_sc) /\ physical 2 1 (fun _ => mo_sc) [mf_x0; mf_x1] /\ moc_balanced (mf_static gs) 1 /\ ms_inner (mf_static gs) = 1 /\ (forall t, types (ms_in (mf_static gs)) t = REFLECT) /\
  sound mg_flux (moc_state (mf_static gs) 1) 2 1 [mf_x0; mf_x1] [1; 1]%R mf_s /\
  exists s', eigen_step MocState mg_flux (moc_sweep (mf_static gs)) [mf_x0; mf_x1] 1 2 [1; 1]%R mf_s = Some s' /\ (forall i g, i < 2 -> g < 1 -> phi (mg_flux (e_sw _ s')) i g = phi (mg_flux (e_sw _ mf_s)) i g) /\
    (forall g, g < 1 -> moc_bnd (mf_static gs) g (e_sw _ s') = moc_bnd (mf_static gs) g (e_sw _ mf_s)) /\ (e_k _ s' * absorption [mf_x0; mf_x1] 1 (mg_flux (e_sw _ s')) [1; 1] = 3)%R.
Proof.
  intros gs. destruct (C156_instance gs) as (P & Ph & Nv & Md & So & Fl & _). split; [exact P|]. split; [exact Ph|]. split; [apply mf_balanced|]. split; [reflexivity|]. split; [reflexivity|]. split; [exact So|].
  destruct (C156_moc (mf_static gs) 1 (fun _ => mo_sc) (fun _ => 1%R) mf_s 1 P Ph Nv Md So Fl) as (s2 & E & Fl2 & K & _). cbn [steps] in E.
  change (ms_xs (mf_static gs)) with [mf_x0; mf_x1] in E. change (ms_nreg (mf_static gs)) with 2 in E. change (ms_vol (mf_static gs)) with [1; 1]%R in E. destruct (eigen_iter _ _ _ _ _ _ _ mf_s) as [s3| |] eqn:E3; [|discriminate|discriminate]. injection E as ->.
  assert (S2 : sound mg_flux (moc_state (mf_static gs) 1) 2 1 [mf_x0; mf_x1] [1; 1]%R s2).
  { destruct (step_made mg_flux (moc_sweep (mf_static gs)) (moc_state (mf_static gs) 1) 2 1 (fun _ => mo_sc) [mf_x0; mf_x1] [1; 1]%R (moc_good _ _ _ P Ph) Ph eq_refl) with (s := mf_s) as [[_ X]|[_ (x & X & Sx & _)]]; [intros [|[|i]] Hi; cbn; lra || lia|exact So|rewrite E3 in X; discriminate|]. rewrite E3 in X. now injection X as <-. }
  unfold eigen_iter in E3. destruct (eigen_step _ _ _ _ _ _ _ mf_s) as [s'|] eqn:E1; [|discriminate]. exists s'. split; [reflexivity|].
  assert (Es : e_sw _ s2 = e_sw _ s'). { destruct (normalize (e_fs _ s')) as [[f c]|]; [|discriminate]. destruct (normalize (e_fsp _ s')) as [[f' c']|]; [|discriminate]. destruct (sum_sq _ _ _); [|discriminate]. destruct (_ =? 0); [discriminate|]. injection E3 as <-. reflexivity. }
  rewrite Es in Fl2. destruct Fl2 as [F1 F2]. assert (St : forall i g, i < 2 -> g < 1 -> phi (mg_flux (e_sw _ s')) i g = phi (mg_flux (e_sw _ mf_s)) i g) by (intros i g Hi Hg; rewrite (F1 i g Hi Hg); symmetry; now apply (proj1 Fl)). split; [exact St|].
  assert (Lb : length (mg_bnd (e_sw _ s')) = 1) by (rewrite <- Es; apply S2).
  assert (Sb : forall g, g < 1 -> moc_bnd (mf_static gs) g (e_sw _ s') = moc_bnd (mf_static gs) g (e_sw _ mf_s)).
  { intros g Hg. unfold moc_bnd. destruct (mg_bnd (e_sw _ s')) as [|d [|d2 ds]]; try discriminate. apply Forall_cons_iff in F2. destruct F2 as [F2 _]. cbn [map mf_s e_sw mf_start mg_bnd fst]. f_equal. apply group_in_eq. intros a n i k Sx. rewrite (F2 g a n i k Hg Sx). symmetry. apply (mf_slots _ _ _ _ _ _ Sx Hg). }
  split; [exact Sb|]. destruct (C155_closed (mf_static gs) 1 (fun _ => mo_sc) mf_s s' P Ph (mf_balanced gs) eq_refl (fun _ => eq_refl) So E1 St Sb) as [Ek B]. change (ms_xs (mf_static gs)) with [mf_x0; mf_x1] in B. change (ms_vol (mf_static gs)) with [1; 1]%R in B. rewrite <- B.
  unfold production. cbn [lsum mf_x0 mf_x1 xr_reg rsum xr_nf]. rewrite !St by lia. unfold phi, at0; cbn. lra.
Qed.
