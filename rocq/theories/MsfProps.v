(** Surface fluxes of a MoC sweep: C123. *)
From Coq Require Import List Lia Bool Reals ZArith Lra Psatz.
From Verif Require Import RUtil ListUtil McModel MeshModel MeshSpec MeshProofs StdAlg AngModel BcModel CoreModel CoreProofs MocModel MocProofs CurModel CurProofs CurProps SnModel CorwModel CorwProofs CorwProps BcProofs SnProps MsfModel.
Import ListNotations.
Open Scope Z_scope.

(** ** Specification *)
(** The faces a flight crosses after its entry, each with the flux there. *)
Fixpoint faces (psi : list R) (dir : Z) (steps : list (Z * Surface)) (q : Position) (i : Z) : list (Normal * Position * R) :=
  match steps with [] => [] | (n, s) :: r => (face_of q s, psi_z psi (i + dir * n)) :: faces psi dir r (move q s) (i + dir * n) end.
(** All faces a ray crosses in both directions, entries included. *)
Definition ray_faces (m : Mesh) (plane : Z) (psi1 psi2 : list R) (ray : CRay) (sf sb : Surface) : list (Normal * Position * R) :=
  (face_of (lift plane (start_fw m ray)) sf, psi_z psi1 0) :: (face_of (lift plane (start_bw m ray)) sb, psi_z psi2 (cr_nseg ray)) ::
  faces psi1 1 (fw_steps (cr_recs ray)) (lift plane (start_fw m ray)) 0 ++ faces psi2 (-1) (bw_steps (cr_recs ray)) (lift plane (start_bw m ray)) (cr_nseg ray).
(** What crossing a face contributes to surface [k]. *)
Definition share (m : Mesh) (fx fy : R) (k : Z) (x : Normal * Position * R) : R :=
  if face_index m (fst x) =? k then (snd x * match fst (fst x) with X_NORM => fx | Y_NORM => fy | Z_NORM => 0 end)%R else 0%R.

(** ** Proofs *)
Lemma tally_inv : forall m fx fy psi i q s flx flx', mesh_ok m -> in_mesh m q -> in_plane s -> tally fx fy 1 psi i (surface_to_normal s) (face_index m (face_of q s)) flx = Some flx' ->
  length flx' = length flx /\ forall k, 0 <= k -> atz flx' k = (atz flx k + share m fx fy k (face_of q s, psi_z psi i))%R.
Proof.
  intros m fx fy psi i q s flx flx' M Q I T. unfold tally in T. destruct (psi_at psi i) as [p|] eqn:Ep; [|discriminate]. destruct (weight_at fx fy _) as [w|] eqn:Ew; [|discriminate].
  destruct (add_z_inv _ _ _ _ T) as (_ & L & K). split; [exact L|]. intros k Hk. rewrite K by exact Hk. unfold share. cbn [fst snd].
  assert (P : psi_z psi i = p) by (unfold psi_at in Ep; unfold psi_z; destruct (i <? 0); [discriminate|]; now apply nth_error_nth).
  assert (W : match fst (face_of q s) with X_NORM => fx | Y_NORM => fy | Z_NORM => 0%R end = w) by (destruct s; try contradiction; cbn in *; congruence).
  rewrite P, W. rewrite Z.eqb_sym. destruct (face_index m (face_of q s) =? k); lra.
Qed.

Lemma cross_inv : forall m fx fy sx W nseg psi dir cell i q s n steps flx i' flx', mesh_ok m -> at_cell m cell q (head_step s n ++ steps) -> path_ok m sx 1 W nseg dir (head_step s n ++ steps) q i -> (s = None -> steps = []) ->
  cross m fx fy 1 psi dir cell i s n flx = Some (i', flx') ->
  exists q', at_cell m (next_cell m cell s) q' steps /\ path_ok m sx 1 W nseg dir steps q' i' /\ length flx' = length flx /\
    forall k, 0 <= k -> (atz flx' k + lsum (share m fx fy k) (faces psi dir steps q' i') = atz flx k + lsum (share m fx fy k) (faces psi dir (head_step s n ++ steps) q i))%R.
Proof.
  intros m fx fy sx W nseg psi dir cell i q s n steps flx i' flx' M A P N H. unfold cross in H. destruct s as [t|].
  - cbn [head_step app path_ok] in *. destruct P as (Q & I & _ & B & P). destruct A as [A|A]; [discriminate|]. subst cell. rewrite coarse_surf_correct in H by auto.
    destruct (tally _ _ _ _ _ _ _ _) as [c|] eqn:T; [|discriminate]. injection H as <- <-. destruct (tally_inv m fx fy psi _ q t flx c M Q I T) as (L & K). exists (move q t). split.
    + destruct steps as [|[n' t'] steps]; [now left|]. right. destruct P as (Q' & _). unfold next_cell. pose proof (coarse_cell_bounds m q Q). destruct (Z.ltb_spec (coarse_cell m q) 0); [lia|]. rewrite coarse_neighbor_spec by auto. now apply cell_or_none_in.
    + split; [exact P|]. split; [exact L|]. intros k Hk. rewrite (K k Hk). cbn [faces lsum]. lra.
  - injection H as <- <-. rewrite (N eq_refl) in *. cbn [head_step app] in *. exists q. split; [now left|]. split; [exact P|]. split; [reflexivity|]. intros; reflexivity.
Qed.
Lemma plain_walk_inv : forall m fx fy sx nseg psi1 psi2 recs cf cb qf qb jf jb flx flx', mesh_ok m -> noop_last recs -> at_cell m cf qf (fw_steps recs) -> at_cell m cb qb (bw_steps recs) ->
  path_ok m sx 1 1 nseg 1 (fw_steps recs) qf jf -> path_ok m sx 1 (- (1)) nseg (-1) (bw_steps recs) qb jb -> plain_walk m fx fy psi1 psi2 recs cf cb jf jb flx = Some flx' ->
  length flx' = length flx /\ forall k, 0 <= k -> atz flx' k = (atz flx k + lsum (share m fx fy k) (faces psi1 1 (fw_steps recs) qf jf) + lsum (share m fx fy k) (faces psi2 (-1) (bw_steps recs) qb jb))%R.
Proof.
  intros m fx fy sx nseg psi1 psi2. induction recs as [|r recs IH]; intros cf cb qf qb jf jb flx flx' M N Af Ab Pf Pb H; cbn [plain_walk] in H.
  - injection H as <-. split; [reflexivity|]. intros. cbn. lra.
  - change (fw_steps (r :: recs)) with (head_step (rc_fw r) (rc_nfw r) ++ fw_steps recs) in *. change (bw_steps (r :: recs)) with (head_step (rc_bw r) (rc_nbw r) ++ bw_steps recs) in *. destruct N as (N1 & N2 & N).
    destruct (cross m fx fy 1 psi1 1 _ _ _ _ _) as [[j1 f1]|] eqn:E1; [|discriminate]. destruct (cross m fx fy 1 psi2 (-1) _ _ _ _ _) as [[j2 f2]|] eqn:E2; [|discriminate].
    destruct (cross_inv _ _ _ _ _ _ _ _ _ _ _ _ _ _ _ _ _ M Af Pf N1 E1) as (q1 & A1 & P1 & L1 & K1). destruct (cross_inv _ _ _ _ _ _ _ _ _ _ _ _ _ _ _ _ _ M Ab Pb N2 E2) as (q2 & A2 & P2 & L2 & K2).
    destruct (IH _ _ _ _ _ _ _ _ M N A1 A2 P1 P2 H) as (L & K). split; [congruence|]. intros k Hk. rewrite (K k Hk). specialize (K1 k Hk). specialize (K2 k Hk). lra.
Qed.

(** A path in the bottom plane is a path in any plane. *)
Lemma path_lift : forall m sx W nseg dir plane steps q i, 0 <= plane < nz m -> path_ok m sx 1 W nseg dir steps q i -> pz q = 0 -> 0 < nz m -> path_ok m sx 1 W nseg dir steps (lift plane q) i.
Proof.
  intros m sx W nseg dir plane. induction steps as [|[n s] steps IH]; intros q i K P Z0 Zp; cbn [path_ok] in *.
  - intros Q. apply P. unfold in_mesh, lift in *. cbn [px py pz] in Q. lia.
  - destruct P as (Q & I & F & B & P). split; [now apply lift_in|]. split; [exact I|]. split; [exact F|]. split; [exact B|]. rewrite lift_move by exact I. apply IH; auto. rewrite pz_move; auto.
Qed.

(** ** C123 *)
(** A ray adds to every surface the fluxes with which it crosses it, in either direction, times the weight for the surface's
    normal. *)
Theorem C123_ray : forall m plane fx fy psi1 psi2 sx ray flx flx', mesh_ok m -> 0 <= plane < nz m -> ray_fits m sx ray -> plain_flux m plane fx fy psi1 psi2 ray flx = Some flx' ->
  exists sf sb, entry_ok m sx 1 1 (cr_cell_fw ray) (cr_surf_fw ray) (start_fw m ray) sf /\ entry_ok m sx 1 (- (1)) (cr_cell_bw ray) (cr_surf_bw ray) (start_bw m ray) sb /\
    length flx' = length flx /\ forall k, 0 <= k -> atz flx' k = (atz flx k + lsum (share m fx fy k) (ray_faces m plane psi1 psi2 ray sf sb))%R.
Proof.
  intros m plane fx fy psi1 psi2 sx ray flx flx' M K (Hn & Nl & Fc & (sf & Ef) & (sb & Eb) & Pf & Pb) H. exists sf, sb. split; [exact Ef|]. split; [exact Eb|]. unfold plain_flux in H. cbn zeta in H.
  destruct (lift_entry m _ _ _ _ _ _ _ plane M K Ef) as (Qf & Cf & Sf & Nf & _). destruct (lift_entry m _ _ _ _ _ _ _ plane M K Eb) as (Qb & Cb & Sb & Nb & _). rewrite Nf, Nb, Sf, Sb in H.
  destruct Ef as (_ & If & _ & _ & Zf & _). destruct Eb as (_ & Ib & _ & _ & Zb & _).
  destruct (tally fx fy 1 psi1 _ _ _ _) as [c1|] eqn:T1; [|discriminate]. destruct (tally fx fy 1 psi2 _ _ _ _) as [c2|] eqn:T2; [|discriminate].
  destruct (tally_inv _ _ _ _ _ _ _ _ _ M Qf If T1) as (L1 & K1). destruct (tally_inv _ _ _ _ _ _ _ _ _ M Qb Ib T2) as (L2 & K2).
  destruct (plain_walk_inv m fx fy sx (cr_nseg ray) psi1 psi2 _ _ _ (lift plane (start_fw m ray)) (lift plane (start_bw m ray)) _ _ _ _ M Nl (or_intror Cf) (or_intror Cb) (path_lift _ _ _ _ _ _ _ _ _ K Pf Zf ltac:(lia)) (path_lift _ _ _ _ _ _ _ _ _ K Pb Zb ltac:(lia)) H) as (L3 & K3).
  split; [congruence|]. intros k Hk. rewrite (K3 k Hk), (K2 k Hk), (K1 k Hk). unfold ray_faces. cbn [lsum]. rewrite lsum_app. lra.
Qed.
Print Assumptions C123_ray.

(** The weights: when [n] rays of this spacing cross a face of length [len] (they are spacing over cosine apart along it) with flux one, the surface flux
    after the division by the area is the angle's weight times pi, whatever angle, spacing and height; and a current is the surface flux times the
    direction cosine along the face's normal. *)
Theorem C123_weights : forall a spacing dz len n, (0 < weight a)%R -> (0 < spacing)%R -> (0 < dz)%R -> (0 < len)%R ->
  (cos (alpha (adir a)) <> 0 -> 0 < flux_weight_x a spacing dz /\ current_weight_x a spacing dz = ox (adir a) * flux_weight_x a spacing dz
    /\ (INR n * spacing = len * Rabs (cos (alpha (adir a))) -> INR n * flux_weight_x a spacing dz / (len * dz) = weight a * PI))%R
  /\ (sin (alpha (adir a)) <> 0 -> 0 < flux_weight_y a spacing dz /\ current_weight_y a spacing dz = oy (adir a) * flux_weight_y a spacing dz
    /\ (INR n * spacing = len * Rabs (sin (alpha (adir a))) -> INR n * flux_weight_y a spacing dz / (len * dz) = weight a * PI))%R.
Proof.
  intros a spacing dz len n W P D L. pose proof PI_RGT_0 as Pi.
  assert (K : forall c, c <> 0%R -> (0 < weight a * PI * spacing / Rabs c * dz)%R /\ (INR n * spacing = len * Rabs c -> INR n * (weight a * PI * spacing / Rabs c * dz) / (len * dz) = weight a * PI)%R).
  { intros c C. pose proof (Rabs_pos_lt c C) as Q. split; [apply Rmult_lt_0_compat; [|exact D]; apply Rdiv_lt_0_compat; [|exact Q]; apply Rmult_lt_0_compat; [apply Rmult_lt_0_compat|]; assumption|].
    intros E. apply (Rmult_eq_reg_r (len * dz * Rabs c)%R); [|repeat apply Rmult_integral_contrapositive_currified; lra]. replace (INR n * (weight a * PI * spacing / Rabs c * dz) / (len * dz) * (len * dz * Rabs c))%R with (weight a * PI * dz * (INR n * spacing))%R by (field; lra). rewrite E. ring. }
  split; intros C; destruct (K _ C) as [A B]; (split; [exact A|split; [|exact B]]); unfold current_weight_x, flux_weight_x, current_weight_y, flux_weight_y; field; apply Rabs_no_R0; exact C.
Qed.
Print Assumptions C123_weights.
(** Two rays half apart cross a face of length one when they come at right angles. *)
Example C123_weights_instance : let a := mkAngle (mkDir 1 0 0 0 (PI / 2) 1) 1 in (0 < weight a /\ cos (alpha (adir a)) <> 0 /\ INR 2 * (1 / 2) = 1 * Rabs (cos (alpha (adir a))))%R.
Proof. cbn [weight adir alpha]. rewrite cos_0, Rabs_R1. cbn [INR]. lra. Qed.

Lemma sum_nonneg : forall {A} (f : A -> R) l, (forall a, In a l -> (0 <= f a)%R) -> (0 <= lsum f l)%R.
Proof. intros A f. induction l as [|a l IH]; intros H; cbn [lsum]; [lra|]. pose proof (H a (or_introl eq_refl)). pose proof (IH (fun x I => H x (or_intror I))). lra. Qed.
(** Hence surface fluxes made of fluxes that are not negative are not negative. *)
Theorem C123_positive : forall m plane fx fy sx rays flx flx', mesh_ok m -> 0 <= plane < nz m -> (0 <= fx)%R -> (0 <= fy)%R ->
  Forall (fun r => ray_fits m sx (snd r) /\ Forall (fun x => 0 <= x)%R (fst (fst r)) /\ Forall (fun x => 0 <= x)%R (snd (fst r))) rays -> Forall (fun x => 0 <= x)%R flx ->
  plain_rays m plane fx fy rays flx = Some flx' -> Forall (fun x => 0 <= x)%R flx'.
Proof.
  intros m plane fx fy sx rays flx flx' M K Hx Hy. revert flx. induction rays as [|[[p1 p2] ray] rays IH]; intros flx F P H; cbn [plain_rays] in H; [congruence|].
  destruct (plain_flux _ _ _ _ _ _ _ _) as [f|] eqn:E; [|discriminate]. inversion F as [|? ? (F1 & F2 & F3) F4]; subst. cbn [fst snd] in *. apply (IH f F4); [|exact H].
  destruct (C123_ray _ _ _ _ _ _ _ _ _ _ M K F1 E) as (sf & sb & _ & _ & L & A).
  assert (Z1 : forall psi i, Forall (fun x => 0 <= x)%R psi -> (0 <= psi_z psi i)%R). { intros psi i Fp. unfold psi_z. destruct (le_lt_dec (length psi) (Z.to_nat i)); [rewrite nth_overflow by lia; lra|]. rewrite Forall_forall in Fp. apply Fp. now apply nth_In. }
  assert (Z2 : forall k x, (0 <= snd x)%R -> (0 <= share m fx fy k x)%R). { intros k [[nm p] v] V. unfold share. cbn [fst snd] in *. destruct (_ =? _); [|lra]. destruct nm; nra. }
  assert (Z3 : forall psi dir, Forall (fun x => 0 <= x)%R psi -> forall steps q i, Forall (fun x => 0 <= snd x)%R (faces psi dir steps q i)) by (intros psi dir Fp; induction steps as [|[n s] steps IHs]; intros q i; cbn [faces]; constructor; [apply Z1; exact Fp|apply IHs]).
  apply Forall_forall. intros y Iy. destruct (In_nth _ _ 0%R Iy) as (i & Hi & <-). assert (B := A (Z.of_nat i) ltac:(lia)). unfold atz in B. rewrite Nat2Z.id in B. unfold at0 in B. rewrite B.
  assert (0 <= nth i flx 0)%R by (rewrite Forall_forall in P; apply P; apply nth_In; lia). apply Rplus_le_le_0_compat; [exact H0|].
  apply sum_nonneg. intros x I. apply Z2. unfold ray_faces in I. destruct I as [<-|[<-|I]]; [apply Z1; exact F2|apply Z1; exact F3|]. apply in_app_or in I.
  destruct I as [I|I]; [pose proof (Z3 p1 1 F2 (fw_steps (cr_recs ray)) (lift plane (start_fw m ray)) 0) as G|pose proof (Z3 p2 (-1) F3 (bw_steps (cr_recs ray)) (lift plane (start_bw m ray)) (cr_nseg ray)) as G]; rewrite Forall_forall in G; exact (G x I).
Qed.
Print Assumptions C123_positive.

Lemma norm_surfs_inv : forall area surfs l l', NoDup surfs -> norm_surfs area surfs l = Some l' -> length l' = length l /\ (forall k, In k surfs -> 0 <= k /\ area k <> 0%R /\ exists v, at_z l k = Some v /\ at_z l' k = Some (v / area k)%R) /\
  (forall k, 0 <= k -> ~ In k surfs -> at_z l' k = at_z l k).
Proof.
  intros area. induction surfs as [|s surfs IH]; intros l l' N H; cbn [norm_surfs] in H.
  - injection H as <-. split; [reflexivity|]. split; [intros ? []|reflexivity].
  - inversion N as [|? ? N1 N2]; subst. destruct (Z.ltb_spec s 0) as [|Hs]; [discriminate|]. destruct (nth_error l (Z.to_nat s)) as [v|] eqn:Ev; [|discriminate]. destruct (rdiv v (area s)) as [q|] eqn:Eq; [|discriminate]. destruct (set_nth l (Z.to_nat s) q) as [l1|] eqn:E1; [|discriminate].
    destruct (set_nth_spec _ _ _ _ E1) as (L1 & B1 & K1). destruct (IH _ _ N2 H) as (L & A & B). destruct (rdiv_inv _ _ _ Eq) as (Q1 & Q2). split; [congruence|]. split.
    + intros k [<-|I].
      * split; [exact Hs|]. split; [exact Q1|]. exists v. split; [exact Ev|]. rewrite B by assumption. unfold at_z. rewrite K1, Nat.eqb_refl. congruence.
      * destruct (A k I) as (A1 & A2 & w & A3 & A4). split; [exact A1|]. split; [exact A2|]. exists w. split; [|exact A4]. unfold at_z in *. rewrite K1 in A3. destruct (Nat.eqb_spec (Z.to_nat k) (Z.to_nat s)); [exfalso; apply N1; assert (k = s) by lia; now subst|exact A3].
    + intros k Hk I. rewrite B by (auto; intros J; apply I; now right). unfold at_z. rewrite K1. destruct (Nat.eqb_spec (Z.to_nat k) (Z.to_nat s)); [exfalso; apply I; left; lia|reflexivity].
Qed.
Lemma nodup_flat : forall {A B} (f : A -> list B) l, NoDup l -> (forall a, In a l -> NoDup (f a)) -> (forall a b x, In a l -> In b l -> In x (f a) -> In x (f b) -> a = b) -> NoDup (flat_map f l).
Proof.
  intros A B f. induction l as [|a l IH]; intros N F D; cbn [flat_map]; [constructor|]. inversion N as [|? ? N1 N2]; subst. apply NoDup_app'; [apply F; now left|apply IH; auto; [intros b I; apply F; now right|intros b c x I J; apply D; now right]|].
  intros x I J. apply in_flat_map in J. destruct J as (b & J1 & J2). assert (a = b) by (apply (D a b x); auto; [now left|now right]). now subst.
Qed.
Lemma zrange_nodup : forall n, NoDup (zrange n).
Proof. intros n. unfold zrange. apply FinFun.Injective_map_NoDup; [intros a b; lia|apply seq_NoDup]. Qed.
Lemma radial_nodup : forall m, mesh_ok m -> NoDup (radial_surfs m).
Proof.
  intros m M. unfold radial_surfs. apply nodup_flat; [apply zrange_nodup|intros p _; apply FinFun.Injective_map_NoDup; [intros a b; lia|apply zrange_nodup]|].
  intros a b x Ia Ib Xa Xb. apply in_map_iff in Xa, Xb. destruct Xa as (j & <- & J), Xb as (k & E & K). apply in_zrange in J, K, Ia, Ib. unfold plane_surf_end, plane_surf_xy_begin in *. assert (1 <= nx m * ny m) by (destruct M as (? & ? & ?); nia). nia.
Qed.
Lemma radial_in : forall m iz s, mesh_ok m -> 0 <= iz < nz m -> nx m * ny m <= s < n_surf_plane m -> In (n_surf_plane m * iz + s) (radial_surfs m).
Proof.
  intros m iz s M Z0 H. unfold radial_surfs. apply in_flat_map. exists iz. split; [now apply in_zrange|]. apply in_map_iff. exists (s - nx m * ny m). unfold plane_surf_end, plane_surf_xy_begin. split; [ring|]. apply in_zrange. lia.
Qed.

(** After the sweep the currents of a plane are those tallied for its macroplane and the surface fluxes those tallied for the
    plane, both over the surface's area. *)
Theorem C123_after : forall m mi area cur flx cur' flx', mesh_ok m -> grouping mi -> Z.of_nat (length mi) = nz m -> length cur = Z.to_nat (n_surf m) -> post_sweep m mi area cur flx = Some (cur', flx') ->
  forall iz ip s, nth_error mi iz = Some ip -> nx m * ny m <= s < n_surf_plane m -> let k := n_surf_plane m * Z.of_nat iz + s in
    area k <> 0%R /\ (exists v, at_z cur (n_surf_plane m * ip + s) = Some v /\ at_z cur' k = Some (v / area k)%R) /\ (exists v, at_z flx k = Some v /\ at_z flx' k = Some (v / area k)%R).
Proof.
  intros m mi area cur flx cur' flx' M G Ln L H iz ip s Hi Hs k. unfold post_sweep in H. destruct (C32_expand m mi cur M G Ln L) as (c & E & _ & S & _). rewrite E in H.
  destruct (norm_surfs area (radial_surfs m) c) as [c'|] eqn:E1; [|discriminate]. destruct (norm_surfs area (radial_surfs m) flx) as [f'|] eqn:E2; [|discriminate]. injection H as -> ->.
  assert (I : In k (radial_surfs m)). { apply radial_in; auto. assert (iz < length mi)%nat by (apply nth_error_Some; congruence). lia. }
  destruct (norm_surfs_inv _ _ _ _ (radial_nodup m M) E1) as (_ & A & _). destruct (norm_surfs_inv _ _ _ _ (radial_nodup m M) E2) as (_ & B & _). destruct (A k I) as (_ & Ar & v & V1 & V2). destruct (B k I) as (_ & _ & w & W1 & W2).
  split; [exact Ar|]. split; [exists v; split; [rewrite <- V1; symmetry; exact (S iz ip s Hi Hs)|exact V2]|exists w; auto].
Qed.
Print Assumptions C123_after.

(** Surface fluxes are not spread over the planes of a macroplane: planes that are no macroplane's own index keep what the
    sweep left there, which is zero. *)
Theorem C123_subplane_refuted : exists m mi area cur flx cur' flx' iz ip s, mesh_ok m /\ grouping mi /\ Z.of_nat (length mi) = nz m /\ (forall k, area k = 1%R) /\ nth_error mi iz = Some ip /\ nx m * ny m <= s < n_surf_plane m /\
  (forall jp t, In jp mi -> nx m * ny m <= t < n_surf_plane m -> at_z flx (n_surf_plane m * jp + t) = Some 1%R /\ at_z cur (n_surf_plane m * jp + t) = Some 1%R) /\
  post_sweep m mi area cur flx = Some (cur', flx') /\ at_z cur' (n_surf_plane m * Z.of_nat iz + s) = Some 1%R /\ at_z flx' (n_surf_plane m * Z.of_nat iz + s) = Some 0%R.
Proof.
  set (l := repeat 1%R 32 ++ repeat 0%R 20). set (area := fun _ : Z => 1%R).
  assert (D : forall surfs l, (forall k, In k surfs -> 0 <= k < Z.of_nat (length l)) -> exists l', norm_surfs area surfs l = Some l').
  { clear. induction surfs as [|s surfs IH]; intros l H; cbn [norm_surfs]; [eauto|]. pose proof (H s (or_introl eq_refl)). destruct (Z.ltb_spec s 0); [lia|]. destruct (nth_error l (Z.to_nat s)) as [v|] eqn:E; [|apply nth_error_None in E; lia]. unfold area. rewrite rdiv_some by lra.
    destruct (set_nth l (Z.to_nat s) (v / 1)%R) as [l1|] eqn:E1; [|exfalso; destruct (SnProps.set_nth_def l (Z.to_nat s) (v / 1)%R ltac:(lia)) as (x & X & _); congruence]. destruct (set_nth_spec _ _ _ _ E1) as (L1 & _). apply IH. intros k I. rewrite L1. apply H. now right. }
  destruct C32_instance as (M & G & Ln & _). destruct (C32_expand cm2 mi3 l M G Ln eq_refl) as (c & E & Lc & _).
  assert (Rs : forall k, In k (radial_surfs cm2) -> 0 <= k < 52) by (intros k I; vm_compute in I; repeat (destruct I as [<-|I]; [lia|]); contradiction).
  destruct (D (radial_surfs cm2) c) as (c' & E1); [rewrite Lc; exact Rs|]. destruct (D (radial_surfs cm2) l Rs) as (f' & E2).
  assert (P : post_sweep cm2 mi3 area l l = Some (c', f')) by (unfold post_sweep; now rewrite E, E1, E2).
  destruct (C123_after cm2 mi3 area l l c' f' M G Ln eq_refl P 2%nat 1 5 eq_refl ltac:(cbn; lia)) as (_ & (v & V1 & V2) & w & W1 & W2).
  exists cm2, mi3, area, l, l, c', f', 2%nat, 1, 5. split; [exact M|]. split; [exact G|]. split; [exact Ln|]. split; [reflexivity|]. split; [reflexivity|]. split; [cbn; lia|]. split.
  - intros jp t Ij Ht. assert (at_z l (n_surf_plane cm2 * jp + t) = Some 1%R); [|auto]. change (n_surf_plane cm2) with 16 in *. change (nx cm2 * ny cm2) with 4 in Ht. assert (0 <= jp <= 1) by (cbn in Ij; lia).
    unfold at_z, l. rewrite nth_error_app1 by (rewrite repeat_length; lia). apply nth_error_repeat. lia.
  - split; [exact P|]. cbn in V1, W1. injection V1 as <-. injection W1 as <-. rewrite V2, W2. unfold area. split; f_equal; field.
Qed.
Print Assumptions C123_subplane_refuted.

(** The ray of C119 in plane 2, all fluxes one, weights one and two: every face it crosses is crossed both ways. *)
Example C123_instance : exists flx', let psi := repeat 1%R 7 in mesh_ok cm2 /\ 0 <= 2 < nz cm2 /\ ray_fits cm2 1 cray /\ plain_flux cm2 2 1 2 psi psi cray (repeat 0%R 52) = Some flx' /\
  coarse_surf cm2 8 EAST = Some 37 /\ nth 37 flx' 0%R = 2%R /\ coarse_surf cm2 9 NORTH = Some 46 /\ nth 46 flx' 0%R = 4%R /\ nth 38 flx' 0%R = 0%R.
Proof.
  destruct C122_instance as (? & ? & ? & ? & ? & M & Z2 & F & _). eexists. cbn zeta. split; [exact M|]. split; [exact Z2|]. split; [exact F|]. split; [cbv -[Rplus Rmult Ropp IZR]; reflexivity|]. cbn [nth]. split; [reflexivity|]. split; [lra|]. split; [reflexivity|]. split; [lra|]. reflexivity.
Qed.
