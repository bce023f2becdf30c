(** Property theorems for directions and angular quadratures: C14, C15, C16, C71, C72. *)
From Coq Require Import ZArith List Lia Bool Permutation Reals Lra.
From Verif Require Import RUtil MeshModel AngModel AngProofs.
Import ListNotations.
Open Scope R_scope.

(** C14: for any quadrature whose octants 2-8 are the images of a first octant. *)
Theorem C14_reflect_flips_one_cosine : forall l k norm, Forall first_octant l ->
  (0 <= k < Z.of_nat (length (expand l)))%Z ->
  exists j a b, reflect (Z.of_nat (length l)) k norm = Some j /\ (0 <= j < Z.of_nat (length (expand l)))%Z /\
    nth_error (expand l) (Z.to_nat k) = Some a /\ nth_error (expand l) (Z.to_nat j) = Some b /\
    cosine (adir b) norm = - cosine (adir a) norm /\ (forall m, m <> norm -> cosine (adir b) m = cosine (adir a) m) /\
    weight b = weight a /\ reflect (Z.of_nat (length l)) j norm = Some k.
Proof. exact reflect_ok. Qed.
Print Assumptions C14_reflect_flips_one_cosine.

Theorem C14_reflections_commute : forall n k m1 m2, (0 < n)%Z -> (0 <= k < 8 * n)%Z ->
  exists j1 j2 j, reflect n k m1 = Some j1 /\ reflect n k m2 = Some j2 /\
    reflect n j1 m2 = Some j /\ reflect n j2 m1 = Some j.
Proof. exact reflect_comm. Qed.
Print Assumptions C14_reflections_commute.

(** Reflecting off a surface is reflecting along that surface's normal. *)
Theorem C14_reflect_surface : forall n k s, reflect_surf n k s = reflect n k (surface_to_normal s).
Proof. intros n k []; reflexivity. Qed.
Print Assumptions C14_reflect_surface.

(** Replacing a first-octant angle keeps the layout, so the above still applies afterwards. *)
Theorem C14_modify_angle_keeps_layout : forall l l' i a, upd l i a = Some l' ->
  modify_angle (length l) i a (expand l) = Some (expand l').
Proof. exact modify_angle_ok. Qed.
Print Assumptions C14_modify_angle_keeps_layout.

Definition ang1 : Angle := mkAngle (dir_cosines (1/3) (2/3) (2/3)) (3/4).
Definition ang2 : Angle := mkAngle (dir_cosines (2/3) (1/3) (2/3)) (1/4).

Example C14_instance : Forall first_octant [ang1; ang2] /\ length (expand [ang1; ang2]) = 16%nat /\
  reflect 2 5 X_NORM = Some 7%Z /\ reflect 2 5 Z_NORM = Some 13%Z /\ exists l', upd [ang1; ang2] 1 ang1 = Some l'.
Proof.
  split.
  - constructor; [|constructor; [|constructor]]; intros []; unfold ang1, ang2, dir_cosines; cbn [cosine adir ox oy oz]; lra.
  - repeat split. eexists; reflexivity.
Qed.

(** C15, two dimensions. *)
Theorem C15_reverse_2d : forall l k, Forall first_octant l -> (0 <= k < Z.of_nat (length (expand l)))%Z ->
  exists a b, nth_error (expand l) (Z.to_nat k) = Some a /\
    nth_error (expand l) (Z.to_nat (reverse2 (Z.of_nat (length l)) k)) = Some b /\
    ox (adir b) = - ox (adir a) /\ oy (adir b) = - oy (adir a) /\ oz (adir b) = Rabs (oz (adir a)) /\
    weight b = weight a /\
    ((k < 4 * Z.of_nat (length l))%Z -> reverse2 (Z.of_nat (length l)) (reverse2 (Z.of_nat (length l)) k) = k).
Proof. exact reverse2_ok. Qed.
Print Assumptions C15_reverse_2d.

(** Three dimensions: the full claim (all three cosines negated) holds in octants 1, 2, 5, 6 only.  This is
    the exact behaviour in every octant ([o] is 0-based). *)
Theorem C15_reverse_3d_partial : forall l o i, Forall first_octant l -> (o < 8)%nat ->
  (0 <= i < Z.of_nat (length l))%Z ->
  exists a b, nth_error (expand l) (Z.to_nat (Z.of_nat o * Z.of_nat (length l) + i)) = Some a /\
    nth_error (expand l) (Z.to_nat (reverse3 (Z.of_nat (length l)) (Z.of_nat o * Z.of_nat (length l) + i))) = Some b /\
    ox (adir b) = - ox (adir a) /\ oy (adir b) = - oy (adir a) /\ weight b = weight a /\
    oz (adir b) = (if existsb (Nat.eqb o) [0; 1; 4; 5]%nat then - oz (adir a) else oz (adir a)).
Proof. exact reverse3_cos. Qed.
Print Assumptions C15_reverse_3d_partial.

(** reverse(., 3) is not the opposite direction for a third-octant angle of a real quadrature, and it is not an
    involution either. *)
Theorem C15_reverse_3d_refuted : exists l k a b, Forall first_octant l /\
  (0 <= k < Z.of_nat (length (expand l)))%Z /\ nth_error (expand l) (Z.to_nat k) = Some a /\
  nth_error (expand l) (Z.to_nat (reverse3 (Z.of_nat (length l)) k)) = Some b /\ oz (adir b) <> - oz (adir a) /\
  reverse3 (Z.of_nat (length l)) (reverse3 (Z.of_nat (length l)) k) <> k.
Proof.
  destruct (reverse3_cos [ang1; ang2] 2 1) as (a & b & E1 & E2 & _ & _ & _ & Z).
  - apply C14_instance.
  - lia.
  - cbn; lia.
  - exists [ang1; ang2], 5%Z, a, b. split; [apply C14_instance|]. split; [rewrite expand_length; cbn; lia|].
    split; [exact E1|]. split; [exact E2|]. split.
    + cbn [existsb Nat.eqb orb] in Z. rewrite Z. cbn in E1. injection E1 as <-.
      cbn [adir oz dir_cosines ang2]. rewrite Rabs_right; lra.
    + vm_compute. discriminate.
Qed.
Print Assumptions C15_reverse_3d_refuted.

Example C15_instance : Forall first_octant [ang1; ang2] /\ reverse2 2 5 = 1%Z /\ reverse3 2 1 = 13%Z.
Proof. split; [apply C14_instance|split; reflexivity]. Qed.

(** C16: every octant GenSn returns has N(N+2)/8 distinct ordinates whose cosine indices add up to N/2-1. *)
Theorem C16_ordinates : forall order l, gen_sn order = SnOk l ->
  length l = Z.to_nat (order * (order + 2) / 8) /\
  NoDup (map (fun o => (ix o, iy o, iz o)) l) /\
  forall o, In o l -> (ix o + iy o + iz o + 1 = Z.to_nat (order / 2))%nat /\ (iw o < w_unique_size)%nat.
Proof.
  intros order l H. destruct (sn_tables order l H) as [T D]. cbn zeta in T.
  pose proof (sn_orders _ _ H) as I. cbn in I.
  split; [|split].
  - destruct I as [<-|[<-|[<-|[<-|[<-|[<-|[<-|[]]]]]]]]; vm_compute in H; injection H as <-; reflexivity.
  - now apply distinct_sound.
  - unfold triples_ok in T. apply andb_prop in T. destruct T as [_ T]. rewrite forallb_forall in T.
    intros o Io. specialize (T o Io). apply Nat.eqb_eq in T.
    assert (W : forallb (fun o => iw o <? w_unique_size)%nat l = true).
    { destruct I as [<-|[<-|[<-|[<-|[<-|[<-|[<-|[]]]]]]]]; vm_compute in H; injection H as <-; reflexivity. }
    rewrite forallb_forall in W. specialize (W o Io). apply Nat.ltb_lt in W. split; [|exact W].
    assert (1 <= Z.to_nat (order / 2))%nat.
    { destruct I as [<-|[<-|[<-|[<-|[<-|[<-|[<-|[]]]]]]]]; vm_compute; lia. }
    lia.
Qed.
Print Assumptions C16_ordinates.

(** Every ordinate of order 4 and above is a unit vector (exactly, over the reals). *)
Theorem C16_unit_vectors : forall order l o, gen_sn order = SnOk l -> (order <> 2)%Z -> In o l ->
  let n := Z.to_nat (order / 2) in
  mu n (ix o) * mu n (ix o) + mu n (iy o) * mu n (iy o) + mu n (iz o) * mu n (iz o) = 1.
Proof.
  intros order l o H N Io n. destruct (C16_ordinates order l H) as (_ & _ & S).
  destruct (S o Io) as [E _]. fold n in E. apply sn_unit.
  - pose proof (sn_orders _ _ H) as I. cbn in I. unfold n.
    destruct I as [<-|[<-|[<-|[<-|[<-|[<-|[<-|[]]]]]]]]; try congruence; vm_compute; lia.
  - lia.
Qed.
Print Assumptions C16_unit_vectors.

(** Up to S10 ordinates that differ only by a permutation of their cosines share one weight.  The full claim
    (all accepted orders) is false, see below. *)
Theorem C16_weights_level_symmetric_partial : forall order l, gen_sn order = SnOk l -> (order <= 10)%Z ->
  level_symmetric l.
Proof.
  intros order l H B. apply sn_symmetric_sound. pose proof (sn_orders _ _ H) as I. cbn in I.
  destruct I as [<-|[<-|[<-|[<-|[<-|[<-|[<-|[]]]]]]]]; try lia; vm_compute in H; injection H as <-; reflexivity.
Qed.
Print Assumptions C16_weights_level_symmetric_partial.

(** S12 and S14 read the weight map of another order, so the sets are not level symmetric; S14 even takes a
    weight from the S16 set; S16 (and every even order below 2) reads outside the tables. *)
Theorem C16_weights_refuted :
  (exists l, gen_sn 12 = SnOk l /\ ~ level_symmetric l) /\
  (exists l o, gen_sn 14 = SnOk l /\ ~ level_symmetric l /\ In o l /\ iw o = 23%nat) /\
  gen_sn 16 = SnUB /\ (forall order, (order <= 0)%Z -> Z.rem order 2 = 0%Z -> gen_sn order = SnUB).
Proof.
  split; [|split; [|split]].
  - eexists. split; [vm_compute; reflexivity|]. intros S.
    assert (P : forall x y z : nat, Permutation [x; y; z] [z; y; x]).
    { intros. apply (Permutation_rev [x; y; z]). }
    specialize (S (mkOrd 5 0 0 12) (mkOrd 0 0 5 11)).
    assert (X : 12%nat = 11%nat); [|discriminate]. apply S; cbn; try tauto. apply P.
  - eexists. exists (mkOrd 2 2 2 23). split; [vm_compute; reflexivity|]. split.
    + intros S.
      assert (P : forall x y z : nat, Permutation [x; y; z] [z; y; x]).
      { intros. apply (Permutation_rev [x; y; z]). }
      specialize (S (mkOrd 6 0 0 17) (mkOrd 0 0 6 16)).
      assert (X : 17%nat = 16%nat); [|discriminate]. apply S; cbn; try tauto. apply P.
    + split; [cbn; tauto|reflexivity].
  - vm_compute; reflexivity.
  - intros order H R. unfold gen_sn. rewrite R. cbn [Z.eqb negb].
    destruct (Z.ltb_spec 16 order); [lia|]. destruct (Z.ltb_spec (Z.quot order 2) 1); [reflexivity|].
    assert (Z.quot order 2 <= 0)%Z; [|lia].
    pose proof (Z.quot_rem order 2 ltac:(lia)). lia.
Qed.
Print Assumptions C16_weights_refuted.

Example C16_instance : exists l, gen_sn 8 = SnOk l /\ length l = 10%nat /\ In (mkOrd 1 1 1 6) l.
Proof. eexists; split; [vm_compute; reflexivity|split; [reflexivity|cbn; tauto]]. Qed.

(** C71: product quadratures and the weight update after modularisation. *)
Theorem C71_product_weights_sum : forall azi pol, sumw azi * sumw pol <> 0 ->
  wsum (gen_product azi pol) = 1 /\ wsum (expand (gen_product azi pol)) = 8.
Proof. intros azi pol H. rewrite expand_wsum, gen_product_sum by exact H. lra. Qed.
Print Assumptions C71_product_weights_sum.

(** The update succeeds for any non-empty list of azimuthal angles, keeps them, and its weights over all
    octants sum to 8. *)
Theorem C71_update_weights : forall azi pol, azi <> [] -> sumw pol <> 0 ->
  exists l, update_chebyshev azi pol = Some l /\ wsum l = 8.
Proof.
  intros azi pol H P. unfold update_chebyshev, azi_bounds.
  destruct (wedge_ok azi 0 H) as (w & E & _ & S). rewrite E. eexists. split; [reflexivity|].
  apply C71_product_weights_sum. rewrite S. pose proof PI_RGT_0.
  replace ((PI / 2 - 0) / (PI / 2)) with 1 by (field; lra). lra.
Qed.
Print Assumptions C71_update_weights.

(** For increasing azimuthal angles inside the first quadrant each azimuthal weight is positive, they sum to
    one and belong to the given angles in order. *)
Theorem C71_azimuthal_weights : forall azi, azi <> [] -> rising 0 azi -> Forall (fun a => a < PI / 2) azi ->
  exists w, wedge azi (azi_bounds azi) = Some w /\ map fst w = azi /\ sumw w = 1 /\ Forall (fun aw => 0 < snd aw) w.
Proof.
  intros azi H R F. destruct (wedge_ok azi 0 H) as (w & E & M & S). exists w. split; [exact E|]. split; [exact M|].
  split.
  - rewrite S. pose proof PI_RGT_0. field. lra.
  - eapply wedge_positive; eauto.
Qed.
Print Assumptions C71_azimuthal_weights.

Example C71_instance : [0.3; 0.7; 1.1] <> [] /\ rising 0 [0.3; 0.7; 1.1] /\ sumw gen_yamamoto = 1.
Proof. split; [discriminate|]. split; [cbn; lra|]. unfold sumw, gen_yamamoto; cbn; lra. Qed.

(** C72: the angles stored with a direction agree with its cosines. *)
Theorem C72_direction_consistent : forall x y z, x * x + y * y + z * z = 1 -> -1 < z < 1 ->
  let d := dir_cosines x y z in
  sin (theta d) * cos (alpha d) = x /\ sin (theta d) * sin (alpha d) = y /\ cos (theta d) = z /\
  0 < sin (theta d) /\ 0 <= alpha d < 2 * PI /\ 0 < theta d < PI /\ rsintheta d * sin (theta d) = 1.
Proof. exact dir_cosines_consistent. Qed.
Print Assumptions C72_direction_consistent.

Theorem C72_direction_unit : forall a t, let d := dir_angles a t in
  ox d * ox d + oy d * oy d + oz d * oz d = 1.
Proof. exact dir_angles_unit. Qed.
Print Assumptions C72_direction_unit.

(** Reflecting a direction off a face twice restores its cosines; it flips the component along the face's normal. *)
Theorem C72_direction_reflect : forall d s n,
  cosine (dir_reflect d s) n = (if match n, surface_to_normal s with X_NORM, X_NORM | Y_NORM, Y_NORM | Z_NORM, Z_NORM => true | _, _ => false end
                                then - cosine d n else cosine d n) /\
  cosine (dir_reflect (dir_reflect d s) s) n = cosine d n.
Proof. intros d [] []; cbn; rewrite ?Ropp_involutive; auto. Qed.
Print Assumptions C72_direction_reflect.

Example C72_instance : 1/3 * (1/3) + -2/3 * (-2/3) + 2/3 * (2/3) = 1 /\ -1 < 2/3 < 1.
Proof. lra. Qed.
