(** Properties C17, C18 and C73: boundary-condition storage, update and initialisation. *)
From Coq Require Import ZArith List Lia Bool Reals Lra.
From Verif Require Import RUtil MeshModel AngModel AngProofs BcModel BcProofs.
Import ListNotations.
Open Scope nat_scope.

(** ** C17 *)

Theorem C17_slices_inside : forall b g a n size off, get_face b g a n = Some (size, off) -> g < n_group b ->
  off + size <= n_group b * bc_per_group (sizes b).
Proof.
  intros b g a n size off F Hg. rewrite bc_per_group_total.
  destruct (get_face_inv _ _ _ _ _ _ F) as (s & o & Es & Eo & -> & ->).
  destruct (offsets_bounds _ _ _ _ _ n Es Eo) as [_ B]. cbn [plus] in B.
  pose proof (Nat.mul_le_mono_r (g + 1) (n_group b) (total (sizes b)) ltac:(lia)). lia.
Qed.
Print Assumptions C17_slices_inside.

Theorem C17_slices_disjoint : forall b g a n size off g' a' n' size' off' k,
  get_face b g a n = Some (size, off) -> get_face b g' a' n' = Some (size', off') ->
  off <= k < off + size -> off' <= k < off' + size' -> g = g' /\ a = a' /\ n = n'.
Proof.
  intros b g a n size off g' a' n' size' off' k F F' H H'.
  destruct (slot_inj b g a n (k - off) k g' a' n' (k - off')) as (-> & -> & -> & _); auto.
  - exists size, off. repeat split; auto; lia.
  - exists size', off'. repeat split; auto; lia.
Qed.
Print Assumptions C17_slices_disjoint.

Theorem C17_slices_cover : forall b k, k < n_group b * bc_per_group (sizes b) ->
  exists g a n size off, g < n_group b /\ a < length (sizes b) /\ get_face b g a n = Some (size, off) /\
    off <= k < off + size.
Proof.
  intros b k H. rewrite bc_per_group_total in H.
  destruct (slot_cover b k H) as (g & a & n & i & Hg & Ha & size & off & F & Hi & ->).
  exists g, a, n, size, off. repeat split; auto; lia.
Qed.
Print Assumptions C17_slices_cover.

(** get_boundary returns exactly the three faces of the angle, in the order X, Y, Z. *)
Theorem C17_boundary_is_three_faces : forall b g a size off, get_boundary b g a = Some (size, off) ->
  exists nx ny nz, get_face b g a X_NORM = Some (nx, off) /\ get_face b g a Y_NORM = Some (ny, off + nx) /\
    get_face b g a Z_NORM = Some (nz, off + nx + ny) /\ size = nx + ny + nz.
Proof.
  intros b g a size off H. unfold get_boundary in H. unfold get_face.
  destruct (nth_error (sizes b) a) as [s|] eqn:Es; [|discriminate].
  destruct (nth_error (offsets 0 (sizes b)) a) as [o|] eqn:Eo; [|discriminate].
  injection H as <- <-.
  assert (G : forall l k a s o, nth_error l a = Some s -> nth_error (offsets k l) a = Some o -> sy o = sx o + sx s /\ sz o = sx o + sx s + sy s).
  { induction l as [|t l IH]; intros k [|a'] s' o' H1 H2; try discriminate; cbn in H1, H2.
    - injection H1 as <-. injection H2 as <-. auto.
    - eauto. }
  destruct (G _ _ _ _ _ Es Eo) as [G1 G2]. exists (sx s), (sy s), (sz s). cbn [face_size]. rewrite G1, G2.
  repeat split; f_equal; f_equal; lia.
Qed.
Print Assumptions C17_boundary_is_three_faces.

Definition bc_ex : BC := mkBC 2 [mkSize 2 3 0; mkSize 1 0 4] (fun _ => REFLECT) 1 [] [].
Example C17_instance : get_face bc_ex 1 0 Y_NORM = Some (3, 12) /\ get_face bc_ex 1 1 Z_NORM = Some (4, 16) /\
  get_boundary bc_ex 1 1 = Some (5, 15) /\ n_group bc_ex * bc_per_group (sizes bc_ex) = 20.
Proof. repeat split. Qed.

(** ** C18 *)

(** One angle.  Position [k] holds value [i] of face [n'] of angle [a'] in group [g']; [ko] is the corresponding
    position in the one-group outgoing container. *)
Theorem C18_update_angle_partial : forall b out group angle d,
  bc_ok b -> sizes out = sizes b -> length (data out) = bc_per_group (sizes b) -> all_supported b ->
  angle < length (sizes b) -> group < n_group b -> length d = n_group b * bc_per_group (sizes b) ->
  Forall no_gap (sizes b) ->
  exists d', update_angle b out group angle d = Ok d' /\ length d' = length d /\
    (forall g' a' n' i k, slot b g' a' n' i k -> ~ (g' = group /\ refl_n b angle n' = Some a') ->
       nth_error d' k = nth_error d k) /\
    (forall a' n' i k ko t, slot b group a' n' i k -> refl_n b angle n' = Some a' -> slot b 0 angle n' i ko ->
       type_at b a' n' = Some t ->
       nth_error d' k = match t with
                        | VACUUM => Some 0%R
                        | REFLECT => nth_error (data out) ko
                        | _ => nth_error d k
                        end).
Proof.
  intros b out group angle d K So Lo Su Ha Hg Ld Ng. rewrite bc_per_group_total in Lo, Ld.
  destruct (update_angle_ok b out group angle d K So Lo Su Ha Hg Ld Ng) as (d' & E & L & P).
  exists d'. split; [exact E|]. split; [exact L|]. split.
  - intros g' a' n' i k Sl N. rewrite (P _ _ _ _ _ Sl). unfold updated.
    destruct (Nat.eqb_spec g' group) as [->|]; cbn [andb]; auto.
    destruct (refl_n b angle n') as [j|] eqn:Ej; auto. destruct (Nat.eqb_spec a' j) as [->|]; auto.
    exfalso. auto.
  - intros a' n' i k ko t Sl Ra (size & off & F & Hi & ->) T. rewrite (P _ _ _ _ _ Sl). unfold updated.
    rewrite Ra, !Nat.eqb_refl, T, F. cbn [andb]. reflexivity.
Qed.
Print Assumptions C18_update_angle_partial.

(** All angles of a group: every incoming value is determined by its own boundary condition and the outgoing value
    of the mirrored angle; other groups keep their contents. *)
Theorem C18_update_group_partial : forall b out group d,
  bc_ok b -> sizes out = sizes b -> length (data out) = bc_per_group (sizes b) -> all_supported b ->
  group < n_group b -> length d = n_group b * bc_per_group (sizes b) -> Forall no_gap (sizes b) ->
  exists d', update_group b out group d = Ok d' /\ length d' = length d /\
    (forall g' a' n' i k, slot b g' a' n' i k -> g' <> group -> nth_error d' k = nth_error d k) /\
    (forall a' n' i k, slot b group a' n' i k ->
      exists a t ko, refl_n b a' n' = Some a /\ type_at b a' n' = Some t /\ slot b 0 a n' i ko /\
        nth_error d' k = match t with
                         | VACUUM => Some 0%R
                         | REFLECT => nth_error (data out) ko
                         | _ => nth_error d k
                         end).
Proof.
  intros b out group d K So Lo Su Hg Ld Ng. rewrite bc_per_group_total in Lo, Ld.
  exact (update_group_ok b out group d K So Lo Su Hg Ng Ld).
Qed.
Print Assumptions C18_update_group_partial.

(** An unsupported condition is reported, never silently ignored, when a non-empty face needs it. *)
Theorem C18_unsupported_throws : forall b out group angle d s j a, bc_ok b -> sizes out = sizes b ->
  nth_error (sizes b) angle = Some s -> 0 < sx s -> refl_n b angle X_NORM = Some j -> nth_error (quad b) j = Some a ->
  ~ supported (types b (upwind_surface (adir a) X_NORM)) ->
  update_angle b out group angle d = Throw.
Proof.
  intros b out group angle d s j a K So Es Hs Rj Ea Ns.
  assert (Ha : angle < length (sizes b)) by (apply nth_error_Some; congruence).
  unfold update_angle, all_normals. cbn [update_faces]. rewrite Es.
  destruct (refl_n_spec b angle X_NORM K Ha) as (j' & R1 & R2 & _). rewrite R1, Nat2Z.id.
  rewrite Rj in R2. injection R2 as <-. cbn [face_size]. destruct (Nat.eqb_spec (sx s) 0); [lia|].
  rewrite Ea, So.
  destruct (ok_mirror b K angle j X_NORM s Es Rj Hs) as (s' & Es' & _).
  destruct (nth_error (offsets 0 (sizes b)) j) as [o1|] eqn:E1.
  2:{ apply nth_error_None in E1. rewrite offsets_length in E1. assert (j < length (sizes b)) by (apply nth_error_Some; congruence). lia. }
  destruct (nth_error (offsets 0 (sizes b)) angle) as [o2|] eqn:E2.
  2:{ apply nth_error_None in E2. rewrite offsets_length in E2. lia. }
  unfold apply_face. unfold supported in Ns. destruct (types b (upwind_surface (adir a) X_NORM)); auto; exfalso; apply Ns; auto.
Qed.
Print Assumptions C18_unsupported_throws.

(** The unrestricted statement is false: with no conditions on the x faces, the y faces of a vacuum problem keep
    their stale incoming values. *)
Definition a0 : Angle := mkAngle (dir_cosines (1/3) (2/3) (2/3)) 1.
Definition gap_bc : BC := mkBC 1 (repeat (mkSize 0 1 0) 8) (fun _ => VACUUM) 1 (expand [a0]) (repeat 1%R 8).

Theorem C18_update_refuted : exists b out group d d',
  bc_ok b /\ sizes out = sizes b /\ length (data out) = bc_per_group (sizes b) /\ all_supported b /\
  group < n_group b /\ length d = n_group b * bc_per_group (sizes b) /\
  update_group b out group d = Ok d' /\
  exists a n i k, slot b group a n i k /\ type_at b a n = Some VACUUM /\ nth_error d' k <> Some 0%R.
Proof.
  exists gap_bc, gap_bc, 0, (repeat 1%R 8), (repeat 1%R 8).
  split; [|split; [reflexivity|split; [reflexivity|split; [now left|split; [cbn; lia|split; [reflexivity|split; [reflexivity|]]]]]]].
  - constructor; [cbn; lia|cbn; lia|cbn; lia|].
    intros a a' n s Es R H. assert (La : a < 8) by (apply (nth_error_Some (sizes gap_bc)); congruence).
    do 8 (destruct a as [|a]; [destruct n; cbn in Es, R, H; injection Es as <-; injection R as <-; cbn in H; try lia;
      eexists; split; reflexivity|]). lia.
  - exists 0, Y_NORM, 0, 0. split; [|split].
    + exists 1, 0. repeat split; auto.
    + reflexivity.
    + cbn. intros E. injection E as E. lra.
Qed.
Print Assumptions C18_update_refuted.

Definition ok_bc : BC := mkBC 2 (repeat (mkSize 2 1 0) 8)
  (fun s => match s with EAST => VACUUM | NORTH => PRESCRIBED | _ => REFLECT end) 1 (expand [a0]) (repeat 1%R 48).
Example C18_instance : bc_ok ok_bc /\ all_supported ok_bc /\ Forall no_gap (sizes ok_bc) /\ bc_per_group (sizes ok_bc) = 24 /\
  slot ok_bc 1 3 Y_NORM 0 35 /\ refl_n ok_bc 0 Y_NORM = Some 3 /\ type_at ok_bc 3 Y_NORM = Some PRESCRIBED /\
  type_at ok_bc 0 Y_NORM = Some REFLECT /\
  exists b out, bc_ok b /\ sizes out = sizes b /\ ~ supported (types b (upwind_surface (adir a0) X_NORM)) /\
    refl_n b 1 X_NORM = Some 0 /\ nth_error (quad b) 0 = Some a0.
Proof.
  assert (K : forall ng ty d, bc_ok (mkBC ng (repeat (mkSize 2 1 0) 8) ty 1 (expand [a0]) d)).
  { intros ng ty d. constructor; [cbn; lia|cbn; lia|cbn; lia|].
    intros a a' n s Es R H. assert (La : a < 8) by (apply (nth_error_Some (repeat (mkSize 2 1 0) 8)); cbn in Es; cbn; congruence).
    do 8 (destruct a as [|a]; [destruct n; cbn in Es, R, H; injection Es as <-; injection R as <-; cbn in H; try lia;
      eexists; split; reflexivity|]). lia. }
  split; [apply K|]. split; [intros []; unfold supported; cbn; auto|].
  split; [apply Forall_forall; intros s Hs; apply repeat_spec in Hs; subst; split; cbn; lia|].
  split; [reflexivity|]. split; [exists 1, 35; repeat split; auto|]. split; [reflexivity|].
  split; [|split].
  - unfold type_at. cbn. unfold upwind_surface. cbn. rewrite Rltb_false; [reflexivity|]. pose proof (Rabs_pos (2 / 3)). lra.
  - unfold type_at. cbn. unfold upwind_surface. cbn. rewrite Rltb_true; [reflexivity|]. rewrite ?Rabs_pos_eq; lra.
  - exists (mkBC 1 (repeat (mkSize 2 1 0) 8) (fun _ => PERIODIC) 1 (expand [a0]) []),
      (mkBC 1 (repeat (mkSize 2 1 0) 8) (fun _ => PERIODIC) 1 (expand [a0]) []).
    split; [apply K|]. split; [reflexivity|]. split; [intros [H|[H|H]]; discriminate|]. split; reflexivity.
Qed.

(** ** C73 *)

Theorem C73_initialize_scalar : forall b val presc, length (sizes b) <= length (quad b) ->
  length (data b) = n_group b * bc_per_group (sizes b) ->
  exists d', initialize_scalar b val presc = Ok d' /\ length d' = length (data b) /\
    forall g a n i k, slot b g a n i k -> g < n_group b ->
      exists ang, nth_error (quad b) a = Some ang /\
        nth_error d' k = Some (match types b (upwind_surface (adir ang) n) with
                               | VACUUM | INVALID => 0%R
                               | PRESCRIBED => presc
                               | REFLECT | PERIODIC | PARALLEL => val
                               end).
Proof.
  intros b val presc Lq Ld. rewrite bc_per_group_total in Ld.
  destruct (initialize_scalar_ok b val presc Lq Ld) as (d' & E & L & P). exists d'. repeat split; auto.
  intros g a n i k Sl Hg. destruct (P _ _ _ _ _ Sl Hg) as (t & T & V). unfold type_at in T.
  destruct (nth_error (quad b) a) as [ang|]; [|discriminate]. injection T as <-.
  exists ang. split; auto. rewrite V. now destruct (types b _).
Qed.
Print Assumptions C73_initialize_scalar.

Example C73_instance : length (sizes ok_bc) <= length (quad ok_bc) /\
  length (data ok_bc) = n_group ok_bc * bc_per_group (sizes ok_bc) /\ slot ok_bc 1 7 X_NORM 1 46.
Proof. split; [cbn; lia|]. split; [reflexivity|]. exists 2, 45. repeat split; auto. Qed.
