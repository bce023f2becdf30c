(** Property theorems for the structured mesh: C06-C10, C12, C66. *)
From Coq Require Import ZArith List Lia Bool.
From Verif Require Import MeshModel MeshSpec MeshProofs.
Import ListNotations.
Open Scope Z_scope.

Definition m342 : Mesh := {| nx := 3; ny := 4; nz := 2 |}.
Definition pos210 : Position := {| px := 2; py := 1; pz := 0 |}.

(** C06: cell index and position are inverse bijections. *)
Theorem C06_position_of_cell_index : forall m p, in_mesh m p ->
  0 <= coarse_cell m p < n_pin m /\ coarse_position m (coarse_cell m p) = p.
Proof. intros; split; [now apply coarse_cell_bounds | now apply position_of_cell]. Qed.
Print Assumptions C06_position_of_cell_index.

Theorem C06_cell_index_of_position : forall m c, mesh_ok m -> 0 <= c < n_pin m ->
  in_mesh m (coarse_position m c) /\ coarse_cell m (coarse_position m c) = c.
Proof. exact cell_of_position. Qed.
Print Assumptions C06_cell_index_of_position.

Example C06_instance : mesh_ok m342 /\ in_mesh m342 pos210 /\ coarse_cell m342 pos210 = 5 /\ n_pin m342 = 24
  /\ coarse_position m342 17 = {| px := 2; py := 1; pz := 1 |}.
Proof. unfold mesh_ok, in_mesh; vm_compute; repeat split; discriminate. Qed.

(** C07: surface numbers are in range, each is used, and two cell faces carry the same number exactly when
    they are the same geometric face. *)
Theorem C07_surface_in_range : forall m p s, mesh_ok m -> in_mesh m p ->
  exists k, coarse_surf m (coarse_cell m p) s = Some k /\ 0 <= k < n_surf m.
Proof.
  intros m p s M P. exists (face_index m (face_of p s)); split.
  - now apply coarse_surf_correct.
  - apply face_index_bounds; auto using face_of_ok.
Qed.
Print Assumptions C07_surface_in_range.

Theorem C07_surface_used : forall m k, mesh_ok m -> 0 <= k < n_surf m ->
  exists p s, in_mesh m p /\ coarse_surf m (coarse_cell m p) s = Some k.
Proof.
  intros m k M K. destruct (face_index_onto m k M K) as (f & F & <-).
  apply mesh_face_ok in F; auto. destruct F as (p & s & P & ->).
  exists p, s; split; auto using coarse_surf_correct.
Qed.
Print Assumptions C07_surface_used.

Theorem C07_surface_shared_iff_same_face : forall m p q s t, mesh_ok m -> in_mesh m p -> in_mesh m q ->
  (coarse_surf m (coarse_cell m p) s = coarse_surf m (coarse_cell m q) t <->
   (p = q /\ s = t) \/ (q = move p s /\ t = opposite s)).
Proof.
  intros m p q s t M P Q. rewrite !coarse_surf_correct by auto. split.
  - intros E. injection E as E. apply face_index_inj in E; auto using face_of_ok.
    destruct p as [x y z], q as [x' y' z']; destruct s, t; cbn in E; injection E; intros;
      try discriminate; subst; cbn; (left; split; [f_equal; lia | reflexivity]) ||
      (right; split; [f_equal; lia | reflexivity]).
  - intros [[-> ->]|[-> ->]]; [reflexivity|]. now rewrite face_shared.
Qed.
Print Assumptions C07_surface_shared_iff_same_face.

Example C07_instance : mesh_ok m342 /\ in_mesh m342 pos210 /\ in_mesh m342 (move pos210 NORTH) /\
  coarse_surf m342 (coarse_cell m342 pos210) NORTH = Some 40 /\
  coarse_surf m342 (coarse_cell m342 (move pos210 NORTH)) SOUTH = Some 40 /\ n_surf m342 = 98.
Proof. unfold mesh_ok, in_mesh; vm_compute; repeat split; discriminate. Qed.

(** C08: coarse_neigh_cells inverts the numbering.  [high s] says that [s] is the high-side face of a cell. *)
Definition high (s : Surface) : bool := match s with EAST | NORTH | TOP => true | _ => false end.

Theorem C08_neigh_cells_of_face : forall m p s k, mesh_ok m -> in_mesh m p ->
  coarse_surf m (coarse_cell m p) s = Some k ->
  coarse_neigh_cells m k =
    let other := coarse_neighbor m (coarse_cell m p) s in
    if high s then (coarse_cell m p, other) else (other, coarse_cell m p).
Proof.
  intros m p s k M P E. rewrite coarse_surf_correct in E by auto. injection E as <-.
  rewrite coarse_neigh_cells_face by auto using face_of_ok.
  rewrite coarse_neighbor_spec by auto. cbn zeta.
  rewrite <- (cell_or_none_in m p P).
  destruct p as [x y z]; destruct s; cbn; repeat f_equal; lia.
Qed.
Print Assumptions C08_neigh_cells_of_face.

Theorem C08_neigh_cells_sound : forall m k, mesh_ok m -> 0 <= k < n_surf m ->
  let ab := coarse_neigh_cells m k in
  (0 <= fst ab \/ 0 <= snd ab) /\
  (0 <= fst ab -> fst ab < n_pin m /\ exists s, high s = true /\ coarse_surf m (fst ab) s = Some k) /\
  (0 <= snd ab -> snd ab < n_pin m /\ exists s, high s = false /\ coarse_surf m (snd ab) s = Some k) /\
  (fst ab < 0 -> fst ab = -1 /\
     forall p s, in_mesh m p -> high s = true -> coarse_surf m (coarse_cell m p) s <> Some k) /\
  (snd ab < 0 -> snd ab = -1 /\
     forall p s, in_mesh m p -> high s = false -> coarse_surf m (coarse_cell m p) s <> Some k).
Proof.
  intros m k M K. destruct (face_index_onto m k M K) as (f & F & <-).
  cbn zeta. rewrite coarse_neigh_cells_face by auto. cbn [fst snd].
  assert (LO : forall p s, in_mesh m p -> high s = true -> face_of p s = f -> p = low_side f).
  { intros [x y z] s _ H <-; destruct s; try discriminate; cbn; f_equal; lia. }
  assert (HI : forall p s, in_mesh m p -> high s = false -> face_of p s = f -> p = snd f).
  { intros [x y z] s _ H <-; destruct s; try discriminate; reflexivity. }
  assert (LX : exists s, high s = true /\ face_of (low_side f) s = f).
  { destruct f as [[] [x y z]]; [exists EAST | exists NORTH | exists TOP]; split; auto; cbn;
      repeat f_equal; lia. }
  assert (HX : exists s, high s = false /\ face_of (snd f) s = f).
  { destruct f as [[] [x y z]]; [exists WEST | exists SOUTH | exists BOTTOM]; split; auto. }
  assert (NS : forall p s, in_mesh m p -> coarse_surf m (coarse_cell m p) s = Some (face_index m f) ->
               face_of p s = f).
  { intros p s P E. rewrite coarse_surf_correct in E by auto. injection E as E.
    apply face_index_inj in E; auto using face_of_ok. }
  split; [|split; [|split; [|split]]].
  - apply mesh_face_ok in F; auto. destruct F as (p & s & P & E).
    pose proof (coarse_cell_bounds m p P) as B.
    destruct (high s) eqn:H.
    + left. rewrite <- (LO p s) by auto. now rewrite cell_or_none_in.
    + right. rewrite <- (HI p s) by auto. now rewrite cell_or_none_in.
  - intros B. destruct (in_mesh_dec m (low_side f)) as [I|I].
    + rewrite cell_or_none_in in * by auto. split; [now apply coarse_cell_bounds|].
      destruct LX as (s & H & E). exists s; split; auto. rewrite coarse_surf_correct by auto. now rewrite E.
    + rewrite cell_or_none_out in B by auto; lia.
  - intros B. destruct (in_mesh_dec m (snd f)) as [I|I].
    + rewrite cell_or_none_in in * by auto. split; [now apply coarse_cell_bounds|].
      destruct HX as (s & H & E). exists s; split; auto. rewrite coarse_surf_correct by auto. now rewrite E.
    + rewrite cell_or_none_out in B by auto; lia.
  - intros B. destruct (in_mesh_dec m (low_side f)) as [I|I].
    + rewrite cell_or_none_in in B by auto. pose proof (coarse_cell_bounds _ _ I); lia.
    + split; [now apply cell_or_none_out|]. intros p s P H E.
      apply I. rewrite <- (LO p s); auto.
  - intros B. destruct (in_mesh_dec m (snd f)) as [I|I].
    + rewrite cell_or_none_in in B by auto. pose proof (coarse_cell_bounds _ _ I); lia.
    + split; [now apply cell_or_none_out|]. intros p s P H E.
      apply I. rewrite <- (HI p s); auto.
Qed.
Print Assumptions C08_neigh_cells_sound.

Example C08_instance : mesh_ok m342 /\ in_mesh m342 pos210 /\
  coarse_surf m342 (coarse_cell m342 pos210) EAST = Some 19 /\ coarse_neigh_cells m342 19 = (5, -1) /\
  coarse_neigh_cells m342 40 = (5, 8) /\ coarse_neigh_cells m342 97 = (23, -1).
Proof. unfold mesh_ok, in_mesh; vm_compute; repeat split; discriminate. Qed.

(** C09: the normal of a numbered surface. *)
Theorem C09_surface_normal : forall m p s k, mesh_ok m -> in_mesh m p ->
  coarse_surf m (coarse_cell m p) s = Some k ->
  surface_normal m k = match s with EAST | WEST => X_NORM | NORTH | SOUTH => Y_NORM | TOP | BOTTOM => Z_NORM end.
Proof.
  intros m p s k M P E. rewrite coarse_surf_correct in E by auto. injection E as <-.
  rewrite surface_normal_face by auto using face_of_ok. now destruct s.
Qed.
Print Assumptions C09_surface_normal.

Example C09_instance : mesh_ok m342 /\ in_mesh m342 pos210 /\
  coarse_surf m342 (coarse_cell m342 pos210) TOP = Some 48 /\ surface_normal m342 48 = Z_NORM.
Proof. unfold mesh_ok, in_mesh; vm_compute; repeat split; discriminate. Qed.

(** C10: neighbours and interfaces. *)
Theorem C10_neighbor_is_adjacent : forall m p s, mesh_ok m -> in_mesh m p ->
  (in_mesh m (move p s) -> coarse_neighbor m (coarse_cell m p) s = coarse_cell m (move p s)) /\
  (coarse_neighbor m (coarse_cell m p) s = -1 <-> ~ in_mesh m (move p s)).
Proof.
  intros m p s M P. rewrite coarse_neighbor_spec by auto. split; [apply cell_or_none_in|].
  split; [|apply cell_or_none_out]. intros E I. rewrite cell_or_none_in in E by auto.
  pose proof (coarse_cell_bounds _ _ I); lia.
Qed.
Print Assumptions C10_neighbor_is_adjacent.

Theorem C10_step_and_back : forall m c s, mesh_ok m -> 0 <= c < n_pin m ->
  coarse_neighbor m c s <> -1 ->
  0 <= coarse_neighbor m c s < n_pin m /\ coarse_neighbor m (coarse_neighbor m c s) (opposite s) = c.
Proof.
  intros m c s M C. destruct (cell_of_position m c M C) as [P E]. rewrite <- E.
  set (p := coarse_position m c) in *. clearbody p. clear E C. rewrite coarse_neighbor_spec by auto.
  destruct (in_mesh_dec m (move p s)) as [I|I].
  - rewrite cell_or_none_in by auto. intros _. split; [now apply coarse_cell_bounds|].
    rewrite coarse_neighbor_spec by auto.
    replace (move (move p s) (opposite s)) with p; [now apply cell_or_none_in|].
    destruct p, s; cbn; f_equal; lia.
  - rewrite cell_or_none_out by auto. congruence.
Qed.
Print Assumptions C10_step_and_back.

Theorem C10_interface_of_neighbors : forall m p s, mesh_ok m -> in_mesh m p -> in_mesh m (move p s) ->
  exists k, coarse_interface m (coarse_cell m p) (coarse_cell m (move p s)) = Found k s /\
    coarse_surf m (coarse_cell m p) s = Some k /\
    coarse_surf m (coarse_cell m (move p s)) (opposite s) = Some k.
Proof.
  intros m p s M P Q. exists (face_index m (face_of p s)).
  rewrite !coarse_surf_correct by auto. rewrite face_shared. repeat split.
  now apply interface_found.
Qed.
Print Assumptions C10_interface_of_neighbors.

Theorem C10_interface_rejects_non_neighbors : forall m p q, mesh_ok m -> in_mesh m p -> in_mesh m q ->
  (forall s, q <> move p s) ->
  coarse_interface m (coarse_cell m p) (coarse_cell m q) = NotNeighbors.
Proof. exact interface_not_found. Qed.
Print Assumptions C10_interface_rejects_non_neighbors.

Example C10_instance : mesh_ok m342 /\ in_mesh m342 pos210 /\ in_mesh m342 (move pos210 WEST) /\
  coarse_neighbor m342 5 WEST = 4 /\ coarse_neighbor m342 5 EAST = -1 /\
  coarse_interface m342 5 4 = Found 18 WEST /\ coarse_interface m342 5 7 = NotNeighbors /\
  (forall s, {| px := 1; py := 2; pz := 0 |} <> move pos210 s).
Proof.
  do 7 (split; [unfold mesh_ok, in_mesh; vm_compute; repeat split; discriminate|]).
  intros []; discriminate.
Qed.

(** C12: plane ranges. *)
Theorem C12_plane_cells : forall m p P, mesh_ok m -> in_mesh m p ->
  (plane_cell_begin m P <= coarse_cell m p < plane_cell_end m P <-> pz p = P).
Proof. exact plane_cells. Qed.
Print Assumptions C12_plane_cells.

Theorem C12_plane_ranges_contiguous : forall m P,
  plane_cell_begin m 0 = 0 /\ plane_cell_end m P = plane_cell_begin m (P + 1) /\
  plane_cell_end m (nz m - 1) = n_pin m /\
  plane_surf_begin m 0 = 0 /\ plane_surf_end m P = plane_surf_begin m (P + 1) /\
  plane_surf_end m (nz m - 1) + nx m * ny m = n_surf m.
Proof.
  intros; unfold plane_cell_begin, plane_cell_end, plane_surf_begin, plane_surf_end, n_pin, n_surf,
    n_surf_plane; repeat split; ring.
Qed.
Print Assumptions C12_plane_ranges_contiguous.

(** The block of plane P holds the side faces and the bottom faces of the cells of plane P; its tail from
    plane_surf_xy_begin holds exactly the side faces; the top faces of the last plane come after all blocks. *)
Theorem C12_plane_surfaces : forall m p s P k, mesh_ok m -> in_mesh m p ->
  coarse_surf m (coarse_cell m p) s = Some k ->
  (plane_surf_begin m P <= k < plane_surf_end m P <->
     pz p = match s with TOP => P - 1 | _ => P end) /\
  (plane_surf_xy_begin m P <= k < plane_surf_end m P <-> s <> TOP /\ s <> BOTTOM /\ pz p = P) /\
  (plane_surf_end m (nz m - 1) <= k <-> s = TOP /\ pz p = nz m - 1).
Proof.
  intros m p s P k M I E. rewrite coarse_surf_correct in E by auto. injection E as <-.
  pose proof (face_of_ok m p s I) as F.
  assert (B : pz (snd (face_of p s)) = match s with TOP => pz p + 1 | _ => pz p end)
    by (destruct p, s; reflexivity).
  split; [|split].
  - rewrite plane_surfs_range by auto. rewrite B. destruct s; lia.
  - rewrite plane_xy_surfs by auto. rewrite B. destruct s; cbn; split; intros H; repeat split; try discriminate; try tauto;
      destruct H as [H1 H2]; try (destruct H2); congruence.
  - unfold plane_surf_end.
    destruct (face_off_bounds m _ M F) as [O _]. rewrite face_index_off, B.
    destruct I as (X & Y & Z0).
    assert (Q : 0 < n_surf_plane m) by lia.
    destruct s; split; intros H; try (destruct H; discriminate); try split; try reflexivity; try nia.
Qed.
Print Assumptions C12_plane_surfaces.

Example C12_instance : mesh_ok m342 /\ in_mesh m342 pos210 /\
  plane_surf_xy_begin m342 0 = 12 /\ plane_surf_end m342 0 = 43 /\ plane_cell_end m342 0 = 12 /\
  coarse_surf m342 (coarse_cell m342 pos210) NORTH = Some 40 /\
  coarse_surf m342 (coarse_cell m342 pos210) TOP = Some 48.
Proof. unfold mesh_ok, in_mesh; vm_compute; repeat split; discriminate. Qed.

(** C66: zero_data_radial. *)
Theorem C66_zero_radial : forall (A : Type) m (zero : A) zp g d p s k g', mesh_ok m -> in_mesh m p ->
  coarse_surf m (coarse_cell m p) s = Some k ->
  let d' := zero_data_radial m zero zp g d in
  let radial := match s with TOP | BOTTOM => false | _ => true end in
  (radial = true -> g' = g ->
     current d' k g' = zero /\ surface_flux d' k g' = zero /\
     partial_current d' k g' = if zp then (zero, zero) else partial_current d k g') /\
  (radial = false \/ g' <> g ->
     current d' k g' = current d k g' /\ surface_flux d' k g' = surface_flux d k g' /\
     partial_current d' k g' = partial_current d k g').
Proof.
  intros A m zero zp g d p s k g' M P E. rewrite coarse_surf_correct in E by auto. injection E as <-.
  cbn zeta. unfold zero_data_radial.
  destruct (fold_zero zero zp g (radial_surfs m) d (face_index m (face_of p s)) g') as (E1 & E2 & E3).
  rewrite E1, E2, E3.
  assert (IFF : In (face_index m (face_of p s)) (radial_surfs m) <->
                match s with TOP | BOTTOM => false | _ => true end = true).
  { rewrite radial_surfs_face by auto using face_of_ok. destruct s; cbn; split; congruence. }
  destruct (in_dec Z.eq_dec (face_index m (face_of p s)) (radial_surfs m)) as [I|I].
  - apply IFF in I. rewrite I. split.
    + intros _ ->. rewrite Z.eqb_refl. cbn. destruct zp; auto.
    + intros [|N]; [discriminate|]. destruct (Z.eqb_spec g' g); [contradiction|auto].
  - split; auto. intros R. exfalso; apply I, IFF, R.
Qed.
Print Assumptions C66_zero_radial.

Example C66_instance : mesh_ok m342 /\ in_mesh m342 pos210 /\
  coarse_surf m342 (coarse_cell m342 pos210) NORTH = Some 40 /\
  let d := {| current := fun s g => s + g; surface_flux := fun s g => 7; partial_current := fun s g => (1, 2) |} in
  let d' := zero_data_radial m342 0 true 3 d in
  current d' 40 3 = 0 /\ current d' 40 2 = 42 /\ current d' 48 3 = 51 /\ partial_current d' 40 3 = (0, 0).
Proof. unfold mesh_ok, in_mesh; vm_compute; repeat split; discriminate. Qed.
