(** C26: rays and boundary slots. *)
From Coq Require Import List Lia Bool Reals ZArith Lra Permutation.
From Verif Require Import RUtil MeshModel GeomModel AngModel McModel StdAlg MatModel CoreModel CoreProofs EquivProps LatProps RayModel RayProofs.
Import ListNotations.
Open Scope R_scope.

Lemma outs_perm : forall n (out : Z -> Z), (forall k, (0 <= k < n)%Z -> (0 <= out k < n)%Z) ->
  (forall k l, (0 <= k < n)%Z -> (0 <= l < n)%Z -> out k = out l -> k = l) -> Permutation (map out (zrange n)) (zrange n).
Proof.
  intros n out Rg Inj. assert (ND : NoDup (zrange n)). { unfold zrange. apply FinFun.Injective_map_NoDup; [intros a b; lia|apply seq_NoDup]. }
  assert (IN : forall k, In k (zrange n) <-> (0 <= k < n)%Z).
  { intros k. unfold zrange. rewrite in_map_iff. split; [intros (i & <- & I); apply in_seq in I; lia|]. intros H. exists (Z.to_nat k). split; [lia|apply in_seq; lia]. }
  apply NoDup_Permutation_bis.
  - assert (forall l, NoDup l -> (forall k, In k l -> (0 <= k < n)%Z) -> NoDup (map out l)) as G.
    { induction l as [|a l IH]; intros D B; cbn; [constructor|]. inversion D; subst. constructor.
      - intros I. apply in_map_iff in I. destruct I as (b & E & Ib). apply Inj in E; [subst; contradiction| |]; apply B; [now right|now left].
      - apply IH; auto. intros k K. apply B. now right. }
    apply G; auto. intros k. apply IN.
  - now rewrite map_length.
  - intros k I. apply in_map_iff in I. destruct I as (j & <- & J). apply IN. apply Rg. now apply IN.
Qed.

(** Specification: a set of rays connects the boundary slots of its entry faces ([e_in] and y = 0) to those of its exit
    faces ([e_out] and y = hy) one-to-one, each ray running from the middle of its entry slot to the middle of its exit
    slot, and rays are stored by entry slot. *)
Definition connects (hx hy : R) (Nx Ny : Z) (e_in e_out : R) (rays : list RayEnds) : Prop :=
  map re_in rays = zrange (Nx + Ny) /\ Permutation (map re_out rays) (zrange (Nx + Ny)) /\
  forall r, In r rays -> re_p1 r = slot_point hx hy Nx Ny e_in 0 (re_in r) /\ re_p2 r = slot_point hx hy Nx Ny e_out hy (re_out r).

(** C26.  For every domain, every pair of ray counts and every polar angle, the rays laid out for the modularised angle
    of octant 1 and for its image in octant 2 connect entry slots to exit slots one-to-one. *)
Theorem C26_ray_layout : forall ulp hx hy Nx Ny theta, ulp_sound ulp -> 0 < hx -> 0 < hy -> (1 <= Nx)%Z -> (1 <= Ny)%Z -> resolved hx hy Nx Ny -> 0 < sin theta ->
  exists d2 r1 r2, dir_octant (mod_dir hx hy Nx Ny theta) 1 = Some d2 /\
    angle_rays ulp hx hy Nx Ny (mod_space hx hy Nx Ny) (mod_dir hx hy Nx Ny theta) = Some r1 /\ connects hx hy Nx Ny 0 hx r1 /\
    angle_rays ulp hx hy Nx Ny (mod_space hx hy Nx Ny) d2 = Some r2 /\ connects hx hy Nx Ny hx 0 r2.
Proof.
  intros ulp hx hy Nx Ny theta Hu Hx Hy HNx HNy Hr Hs.
  destruct (octant2_alpha hx hy Nx Ny Hx Hy HNx HNy theta Hs) as (d2 & E2 & A2 & O2 & _).
  destruct (alpha_facts hx hy Nx Ny Hx Hy HNx HNy) as (A1 & C1 & _).
  assert (G : forall e_in e_out out, (forall k, (0 <= k < Nx + Ny)%Z -> (0 <= out k < Nx + Ny)%Z) ->
    (forall k l, (0 <= k < Nx + Ny)%Z -> (0 <= l < Nx + Ny)%Z -> out k = out l -> k = l) ->
    connects hx hy Nx Ny e_in e_out (map (fun k => mkRE (slot_point hx hy Nx Ny e_in 0 k) (slot_point hx hy Nx Ny e_out hy (out k)) k (out k)) (zrange (Nx + Ny)))).
  { intros e_in e_out out Rg Inj. split; [rewrite map_map; apply map_id|]. split.
    - rewrite map_map. cbn [re_out]. now apply outs_perm.
    - intros r I. apply in_map_iff in I. destruct I as (k & <- & _). auto. }
  do 3 eexists. split; [exact E2|]. split; [|split; [|split]].
  - apply (rays_of ulp hx hy Nx Ny Hu Hx Hy HNx HNy Hr _ 0 hx (out1 Nx Ny)); auto.
    + cbn [mod_dir dir_angles ox]. unfold mod_dir, dir_angles. cbn [ox]. rewrite Rltb_true; auto. nra.
    + apply out1_range; auto.
    + intros k K. apply (exit1 hx hy Nx Ny Hx Hy HNx HNy Hr k K).
  - apply G; [apply out1_range; auto|apply out1_inj; auto].
  - apply (rays_of ulp hx hy Nx Ny Hu Hx Hy HNx HNy Hr _ hx 0 (out2 Nx Ny)); auto.
    + rewrite Rltb_false by lra. auto.
    + apply out2_range; auto.
    + rewrite A2. intros k K. apply (exit2 hx hy Nx Ny Hx Hy HNx HNy Hr k K).
  - apply G; [apply out2_range; auto|apply out2_inj; auto].
Qed.
Print Assumptions C26_ray_layout.

(** A 3 x 2 domain with 5 and 4 rays meets the hypotheses. *)
Example C26_instance : ulp_sound Reqb /\ resolved 3 2 5 4 /\ 0 < sin 1.
Proof.
  split; [|split].
  - split; [intros a; destruct (Reqb_spec a a); auto|]. intros a b E. destruct (Reqb_spec a b); [|discriminate]. subst. replace (b - b) with 0 by ring.
    rewrite Rabs_R0. pose proof fuzz_pos. pose proof (Rabs_pos b). nra.
  - unfold resolved, tol. rewrite !Rabs_right, !Rmax_right by lra. unfold REAL_FUZZ. lra.
  - apply sin_gt_0; [lra|]. pose proof PI2_1. lra.
Qed.

(** C26 needs the resolution hypothesis: with rays closer than the comparison tolerance, rays ending on the north face
    near its east end are given slots of the east face. *)
Theorem C26_tolerance_refuted : exists hx hy Nx Ny k, 0 < hx /\ 0 < hy /\ (1 <= Nx)%Z /\ (1 <= Ny)%Z /\ (Ny <= k < Nx + Ny)%Z /\
  exit_slot Reqb hx hy (hx / IZR Nx) (hy / IZR Ny) Ny (slot_point hx hy Nx Ny hx hy k) <> Some k.
Proof.
  exists (/ 2 ^ 46), 1, 2%Z, 1%Z, 2%Z. split; [lra|]. split; [lra|]. split; [lia|]. split; [lia|]. split; [lia|].
  unfold slot_point, exit_slot. destruct (Z.ltb_spec 2 1); [lia|]. cbn [ptx pty].
  assert (fp_equiv Reqb ((IZR (2 - 1) + 1 / 2) * (/ 2 ^ 46 / 2)) (/ 2 ^ 46) = true) as ->.
  { unfold fp_equiv, fp_equiv_abs. rewrite Rltb_true; auto. change (2 - 1)%Z with 1%Z. unfold REAL_FUZZ. rewrite Rabs_left by lra. lra. }
  intros [= E]. revert E. replace (1 / (1 / 1)) with 1 by field. unfold trunc. rewrite Rltb_false by lra. rewrite (Int_part_spec 1 1) by lra.
  intros E. discriminate.
Qed.
Print Assumptions C26_tolerance_refuted.
