(** Lemmas for the structured mesh model. *)
From Coq Require Import ZArith List Lia Bool.
From Verif Require Import MeshModel MeshSpec.
Import ListNotations.
Open Scope Z_scope.

(** ** Loops as lists *)

Lemma zrange_length : forall n, length (zrange n) = Z.to_nat n.
Proof. intros; unfold zrange; now rewrite map_length, seq_length. Qed.

Lemma zrange_nth : forall n i, 0 <= i < n -> nth_error (zrange n) (Z.to_nat i) = Some i.
Proof.
  intros n i H; unfold zrange. rewrite nth_error_map.
  assert (E : nth_error (seq 0 (Z.to_nat n)) (Z.to_nat i) = Some (Z.to_nat i)).
  { rewrite (nth_error_nth' _ 0%nat) by (rewrite seq_length; lia).
    now rewrite seq_nth by lia. }
  rewrite E; cbn; f_equal; lia.
Qed.

Lemma in_zrange : forall n i, In i (zrange n) <-> 0 <= i < n.
Proof.
  intros; unfold zrange; rewrite in_map_iff; split.
  - intros (k & <- & K); apply in_seq in K; lia.
  - intros H; exists (Z.to_nat i); split; [lia|]; apply in_seq; lia.
Qed.

Lemma flat_map_length_const : forall {A B} (f : A -> list B) k l,
  (forall x, In x l -> length (f x) = k) -> length (flat_map f l) = (length l * k)%nat.
Proof.
  induction l; intros H; cbn; [reflexivity|].
  rewrite app_length, IHl, H; [lia | now left | intros; apply H; now right].
Qed.

Lemma flat_map_nth : forall {A B} (f : A -> list B) k l i j x,
  (forall x, In x l -> length (f x) = k) -> nth_error l i = Some x -> (j < k)%nat ->
  nth_error (flat_map f l) (i * k + j) = nth_error (f x) j.
Proof.
  induction l as [|a l IH]; intros i j x H Hn Hj; [destruct i; discriminate|].
  destruct i; cbn [flat_map Nat.mul].
  - injection Hn as ->. cbn. rewrite nth_error_app1; auto.
    rewrite H by now left. lia.
  - cbn in Hn. rewrite nth_error_app2 by (rewrite H by (now left); lia).
    rewrite (H a) by now left.
    replace (k + i * k + j - k)%nat with (i * k + j)%nat by lia.
    apply IH; auto. intros; apply H; now right.
Qed.

(** ** Closed form of the table *)

Definition face_index (m : Mesh) (f : Normal * Position) : Z :=
  let p := snd f in
  match fst f with
  | X_NORM => pz p * n_surf_plane m + (nx m * ny m + (nx m + 1) * py p + px p)
  | Y_NORM => pz p * n_surf_plane m + (nx m * ny m + (nx m + 1) * ny m + (ny m + 1) * px p + py p)
  | Z_NORM => pz p * n_surf_plane m + (nx m * py p + px p)
  end.

Lemma cell_surfs_length : forall m o x y, length (cell_surfs m o x y) = 6%nat.
Proof. reflexivity. Qed.

Lemma plane_surfs_length : forall m o,
  length (plane_surfs m o) = (Z.to_nat (ny m) * (Z.to_nat (nx m) * 6))%nat.
Proof.
  intros; unfold plane_surfs.
  rewrite (flat_map_length_const _ (Z.to_nat (nx m) * 6)); [now rewrite zrange_length|].
  intros; rewrite (flat_map_length_const _ 6); [now rewrite zrange_length|].
  intros; apply cell_surfs_length.
Qed.

Lemma plane_surfs_nth : forall m o x y j, 0 <= x < nx m -> 0 <= y < ny m -> (j < 6)%nat ->
  nth_error (plane_surfs m o) ((Z.to_nat y * Z.to_nat (nx m) + Z.to_nat x) * 6 + j) =
  nth_error (cell_surfs m o x y) j.
Proof.
  intros m o x y j Hx Hy Hj; unfold plane_surfs.
  replace ((Z.to_nat y * Z.to_nat (nx m) + Z.to_nat x) * 6 + j)%nat with
    (Z.to_nat y * (Z.to_nat (nx m) * 6) + (Z.to_nat x * 6 + j))%nat by lia.
  rewrite (flat_map_nth _ _ _ _ _ y).
  - apply (flat_map_nth (fun ix => cell_surfs m o ix y) 6); auto using zrange_nth.
  - intros; rewrite (flat_map_length_const _ 6); [now rewrite zrange_length|].
    intros; apply cell_surfs_length.
  - now apply zrange_nth.
  - assert (Z.to_nat x < Z.to_nat (nx m))%nat by lia. nia.
Qed.

Lemma surf_planes_nth : forall m n o z k, (z < n)%nat ->
  (k < Z.to_nat (ny m) * (Z.to_nat (nx m) * 6))%nat ->
  nth_error (surf_planes m o n) (z * (Z.to_nat (ny m) * (Z.to_nat (nx m) * 6)) + k) =
  nth_error (plane_surfs m (o + Z.of_nat z * n_surf_plane m)) k.
Proof.
  induction n; intros o z k Hz Hk; [lia|].
  cbn [surf_planes]. destruct z.
  - cbn [Nat.mul Nat.add]. rewrite nth_error_app1 by (rewrite plane_surfs_length; lia).
    f_equal; f_equal; lia.
  - rewrite nth_error_app2 by (rewrite plane_surfs_length; lia).
    rewrite plane_surfs_length.
    replace (S z * (Z.to_nat (ny m) * (Z.to_nat (nx m) * 6)) + k -
             Z.to_nat (ny m) * (Z.to_nat (nx m) * 6))%nat with
      (z * (Z.to_nat (ny m) * (Z.to_nat (nx m) * 6)) + k)%nat by lia.
    rewrite IHn by lia. f_equal; f_equal. unfold n_surf_plane. lia.
Qed.

Lemma coarse_cell_nat : forall m p, in_mesh m p ->
  Z.to_nat (coarse_cell m p) =
  ((Z.to_nat (pz p) * Z.to_nat (ny m) + Z.to_nat (py p)) * Z.to_nat (nx m) + Z.to_nat (px p))%nat.
Proof.
  intros m p (X & Y & Z0); unfold coarse_cell.
  assert (0 <= pz p * nx m) by nia. assert (0 <= pz p * nx m * ny m) by nia.
  assert (0 <= py p * nx m) by nia.
  rewrite Z2Nat.inj_add, Z2Nat.inj_add by lia.
  rewrite !Z2Nat.inj_mul by lia. lia.
Qed.

Lemma coarse_cell_bounds : forall m p, in_mesh m p -> 0 <= coarse_cell m p < n_pin m.
Proof.
  intros m p (X & Y & Z0); unfold coarse_cell, n_pin.
  assert (py p * nx m + px p < ny m * nx m) by nia.
  assert (0 <= py p * nx m + px p) by nia.
  split; nia.
Qed.

Lemma coarse_surf_correct : forall m p s, in_mesh m p ->
  coarse_surf m (coarse_cell m p) s = Some (face_index m (face_of p s)).
Proof.
  intros m p s H. unfold coarse_surf.
  pose proof (coarse_cell_bounds m p H) as B.
  destruct (Z.ltb_spec (coarse_cell m p) 0); [lia|].
  rewrite coarse_cell_nat by auto. destruct H as (X & Y & Z0). unfold prepare_surfaces.
  replace (((Z.to_nat (pz p) * Z.to_nat (ny m) + Z.to_nat (py p)) * Z.to_nat (nx m) +
            Z.to_nat (px p)) * 6 + surf_code s)%nat with
    (Z.to_nat (pz p) * (Z.to_nat (ny m) * (Z.to_nat (nx m) * 6)) +
     ((Z.to_nat (py p) * Z.to_nat (nx m) + Z.to_nat (px p)) * 6 + surf_code s))%nat by lia.
  assert (C : (surf_code s < 6)%nat) by (destruct s; cbn; lia).
  rewrite surf_planes_nth.
  - rewrite plane_surfs_nth by auto. rewrite Z2Nat.id by lia.
    destruct s; cbn; f_equal; unfold n_surf_plane; ring.
  - lia.
  - assert (Z.to_nat (px p) + 1 <= Z.to_nat (nx m))%nat by lia.
    assert (Z.to_nat (py p) + 1 <= Z.to_nat (ny m))%nat by lia.
    nia.
Qed.

(** ** Cells and positions *)

Lemma div_mod_of : forall a b q r, a = q * b + r -> 0 <= r < b -> a / b = q /\ a mod b = r.
Proof.
  intros a b q r -> H; split.
  - rewrite Z.div_add_l by lia. rewrite Z.div_small by lia. lia.
  - rewrite Z.add_comm, Z.mod_add by lia. now apply Z.mod_small.
Qed.

Lemma position_of_cell : forall m p, in_mesh m p -> coarse_position m (coarse_cell m p) = p.
Proof.
  intros m p H; pose proof H as (X & Y & Z0). destruct p as [x y z]; cbn in *.
  unfold coarse_position, coarse_cell; cbn.
  assert (B : 0 <= y * nx m + x < nx m * ny m) by nia.
  destruct (div_mod_of (z * nx m * ny m + y * nx m + x) (nx m * ny m) z (y * nx m + x)) as [E1 E2];
    [ring | auto |].
  destruct (div_mod_of (y * nx m + x) (nx m) y x) as [E3 E4]; [ring | auto |].
  destruct (div_mod_of (z * nx m * ny m + y * nx m + x) (nx m) (z * ny m + y) x) as [E5 E6];
    [ring | auto |].
  now rewrite E1, E2, E3, E6.
Qed.

Lemma cell_of_position : forall m c, mesh_ok m -> 0 <= c < n_pin m ->
  in_mesh m (coarse_position m c) /\ coarse_cell m (coarse_position m c) = c.
Proof.
  intros m c (X & Y & Z0) H; unfold n_pin in H.
  unfold coarse_position, coarse_cell, in_mesh; cbn.
  assert (P : 0 < nx m * ny m) by nia.
  pose proof (Z.mod_pos_bound c (nx m) X) as B1.
  pose proof (Z.mod_pos_bound c (nx m * ny m) P) as B2.
  pose proof (Z.div_mod c (nx m * ny m) ltac:(lia)) as D1.
  pose proof (Z.div_mod (c mod (nx m * ny m)) (nx m) ltac:(lia)) as D2.
  assert (D3 : (c mod (nx m * ny m)) mod (nx m) = c mod nx m).
  { pose proof (Z.mod_pos_bound (c mod (nx m * ny m)) (nx m) X) as B3.
    destruct (div_mod_of c (nx m) (c / (nx m * ny m) * ny m + c mod (nx m * ny m) / nx m)
                (c mod (nx m * ny m) mod nx m)) as [_ E]; [lia | auto | auto]. }
  rewrite D3 in D2.
  assert (0 <= c mod (nx m * ny m) / nx m < ny m).
  { split; [apply Z.div_pos; lia|]. apply Z.div_lt_upper_bound; lia. }
  assert (0 <= c / (nx m * ny m) < nz m).
  { split; [apply Z.div_pos; lia|]. apply Z.div_lt_upper_bound; nia. }
  split; [auto|]. nia.
Qed.

Lemma coarse_cell_inj : forall m p q, in_mesh m p -> in_mesh m q ->
  coarse_cell m p = coarse_cell m q -> p = q.
Proof.
  intros m p q P Q E. rewrite <- (position_of_cell m p P), <- (position_of_cell m q Q). now rewrite E.
Qed.

(** ** Faces *)

Definition face_ok (m : Mesh) (f : Normal * Position) : Prop :=
  let p := snd f in
  match fst f with
  | X_NORM => 0 <= px p <= nx m /\ 0 <= py p < ny m /\ 0 <= pz p < nz m
  | Y_NORM => 0 <= px p < nx m /\ 0 <= py p <= ny m /\ 0 <= pz p < nz m
  | Z_NORM => 0 <= px p < nx m /\ 0 <= py p < ny m /\ 0 <= pz p <= nz m
  end.

Lemma face_of_ok : forall m p s, in_mesh m p -> face_ok m (face_of p s).
Proof. intros m p s (X & Y & Z0); destruct s; cbn; lia. Qed.

Lemma mesh_face_ok : forall m f, mesh_ok m -> (mesh_face m f <-> face_ok m f).
Proof.
  intros m [n [x y z]] (X & Y & Z0); split.
  - intros (p & s & H & ->); now apply face_of_ok.
  - destruct n; cbn; intros H.
    + destruct (Z.eq_dec x (nx m)).
      * exists {| px := x - 1; py := y; pz := z |}, EAST; unfold in_mesh; cbn; split; [lia|].
        repeat f_equal; lia.
      * exists {| px := x; py := y; pz := z |}, WEST; unfold in_mesh; cbn; split; [lia|reflexivity].
    + destruct (Z.eq_dec y (ny m)).
      * exists {| px := x; py := y - 1; pz := z |}, NORTH; unfold in_mesh; cbn; split; [lia|].
        repeat f_equal; lia.
      * exists {| px := x; py := y; pz := z |}, SOUTH; unfold in_mesh; cbn; split; [lia|reflexivity].
    + destruct (Z.eq_dec z (nz m)).
      * exists {| px := x; py := y; pz := z - 1 |}, TOP; unfold in_mesh; cbn; split; [lia|].
        repeat f_equal; lia.
      * exists {| px := x; py := y; pz := z |}, BOTTOM; unfold in_mesh; cbn; split; [lia|reflexivity].
Qed.

(** Offset of a face inside its plane block. *)
Definition face_off (m : Mesh) (f : Normal * Position) : Z :=
  let p := snd f in
  match fst f with
  | X_NORM => nx m * ny m + (nx m + 1) * py p + px p
  | Y_NORM => nx m * ny m + (nx m + 1) * ny m + (ny m + 1) * px p + py p
  | Z_NORM => nx m * py p + px p
  end.

Lemma face_index_off : forall m f, face_index m f = pz (snd f) * n_surf_plane m + face_off m f.
Proof. intros m [[] p]; reflexivity. Qed.

Lemma face_off_bounds : forall m f, mesh_ok m -> face_ok m f ->
  0 <= face_off m f < n_surf_plane m /\
  match fst f with
  | X_NORM => nx m * ny m <= face_off m f < nx m * ny m + (nx m + 1) * ny m
  | Y_NORM => nx m * ny m + (nx m + 1) * ny m <= face_off m f
  | Z_NORM => face_off m f < nx m * ny m
  end.
Proof.
  intros m [n [x y z]] (X & Y & Z0); unfold face_ok, face_off, n_surf_plane; destruct n; cbn; intros H;
    nia.
Qed.

Lemma face_index_div : forall m f, mesh_ok m -> face_ok m f ->
  face_index m f / n_surf_plane m = pz (snd f) /\ face_index m f mod n_surf_plane m = face_off m f.
Proof.
  intros m f M F. destruct (face_off_bounds m f M F) as [B _].
  apply div_mod_of; auto. apply face_index_off.
Qed.

Lemma surface_normal_face : forall m f, mesh_ok m -> face_ok m f ->
  surface_normal m (face_index m f) = fst f.
Proof.
  intros m f M F. destruct (face_index_div m f M F) as [_ E].
  destruct (face_off_bounds m f M F) as [_ B].
  unfold surface_normal.
  replace (nx m * ny m + (nx m + 1) * ny m + (ny m + 1) * nx m) with (n_surf_plane m)
    by (unfold n_surf_plane; ring).
  rewrite E. destruct f as [[] p]; cbn [fst] in *.
  - destruct (Z.ltb_spec (face_off m (X_NORM, p)) (nx m * ny m)); [lia|].
    destruct (Z.ltb_spec (face_off m (X_NORM, p)) (nx m * ny m + (nx m + 1) * ny m)); [auto|lia].
  - destruct M as (X & Y & _).
    destruct (Z.ltb_spec (face_off m (Y_NORM, p)) (nx m * ny m)); [nia|].
    destruct (Z.ltb_spec (face_off m (Y_NORM, p)) (nx m * ny m + (nx m + 1) * ny m)); [lia|auto].
  - destruct (Z.ltb_spec (face_off m (Z_NORM, p)) (nx m * ny m)); [auto|lia].
Qed.

(** The cell on each side of a face, or -1. *)
Definition cell_or_none (m : Mesh) (p : Position) : Z :=
  if (0 <=? px p) && (px p <? nx m) && (0 <=? py p) && (py p <? ny m) && (0 <=? pz p) && (pz p <? nz m)
  then coarse_cell m p else -1.

Definition low_side (f : Normal * Position) : Position :=
  match fst f with
  | X_NORM => move (snd f) WEST | Y_NORM => move (snd f) SOUTH | Z_NORM => move (snd f) BOTTOM
  end.

Ltac bdec := repeat match goal with
  | |- context [?a <? ?b] => destruct (Z.ltb_spec a b)
  | |- context [?a <=? ?b] => destruct (Z.leb_spec a b)
  end; cbn [andb]; try reflexivity; try lia.

Lemma coarse_neigh_cells_face : forall m f, mesh_ok m -> face_ok m f ->
  coarse_neigh_cells m (face_index m f) = (cell_or_none m (low_side f), cell_or_none m (snd f)).
Proof.
  intros m f M F. unfold coarse_neigh_cells. rewrite surface_normal_face by auto.
  destruct (face_index_div m f M F) as [E1 _]. rewrite E1.
  replace (face_index m f - pz (snd f) * n_surf_plane m) with (face_off m f)
    by (rewrite face_index_off; ring).
  destruct f as [n [x y z]]; destruct M as (X & Y & Z0); destruct n;
    unfold face_ok, face_off, cell_or_none, low_side in *; cbn [fst snd px py pz move] in *.
  - destruct (div_mod_of (nx m * ny m + (nx m + 1) * y + x - nx m * ny m) (nx m + 1) y x) as [D1 D2];
      [ring | lia |]. rewrite D1, D2. bdec.
  - destruct (div_mod_of (nx m * ny m + (nx m + 1) * ny m + (ny m + 1) * x + y -
      (nx m * ny m + (nx m + 1) * ny m)) (ny m + 1) x y) as [D1 D2];
      [ring | lia |]. rewrite D1, D2. bdec.
  - destruct (div_mod_of (nx m * y + x) (nx m) y x) as [D1 D2];
      [ring | lia |]. rewrite D1, D2. bdec.
Qed.

Lemma face_off_inj : forall m n p q, face_ok m (n, p) -> face_ok m (n, q) -> mesh_ok m ->
  face_off m (n, p) = face_off m (n, q) -> px p = px q /\ py p = py q \/ False.
Proof.
  intros m n [x y z] [x' y' z'] P Q (X & Y & Z0) E; left; destruct n; unfold face_off, face_ok in *; cbn in *.
  - destruct (div_mod_of (nx m * ny m + (nx m + 1) * y + x - nx m * ny m) (nx m + 1) y x) as [D1 D2];
      [ring | lia |].
    destruct (div_mod_of (nx m * ny m + (nx m + 1) * y' + x' - nx m * ny m) (nx m + 1) y' x') as [D3 D4];
      [ring | lia |]. rewrite E in *. split; congruence.
  - destruct (div_mod_of ((ny m + 1) * x + y) (ny m + 1) x y) as [D1 D2]; [ring | lia |].
    destruct (div_mod_of ((ny m + 1) * x' + y') (ny m + 1) x' y') as [D3 D4]; [ring | lia |].
    replace ((ny m + 1) * x + y) with ((ny m + 1) * x' + y') in * by lia. split; congruence.
  - destruct (div_mod_of (nx m * y + x) (nx m) y x) as [D1 D2]; [ring | lia |].
    destruct (div_mod_of (nx m * y' + x') (nx m) y' x') as [D3 D4]; [ring | lia |].
    rewrite E in *. split; congruence.
Qed.

Lemma face_index_inj : forall m f g, mesh_ok m -> face_ok m f -> face_ok m g ->
  face_index m f = face_index m g -> f = g.
Proof.
  intros m f g M F G E.
  pose proof (surface_normal_face m f M F) as N1. pose proof (surface_normal_face m g M G) as N2.
  rewrite E in N1.
  destruct (face_index_div m f M F) as [A1 A2]. destruct (face_index_div m g M G) as [B1 B2].
  rewrite E in *. destruct f as [n p], g as [n' q]. cbn [fst snd] in *.
  assert (n = n') by congruence. subst n'.
  destruct (face_off_inj m n p q F G M) as [[H1 H2]|[]]; [congruence|].
  f_equal. destruct p, q; cbn in *; f_equal; congruence.
Qed.

Lemma n_surf_split : forall m, n_surf m = nz m * n_surf_plane m + nx m * ny m.
Proof. intros; unfold n_surf, n_surf_plane; ring. Qed.

Lemma face_index_bounds : forall m f, mesh_ok m -> face_ok m f -> 0 <= face_index m f < n_surf m.
Proof.
  intros m f M F. destruct (face_off_bounds m f M F) as [B1 B2].
  rewrite n_surf_split, face_index_off.
  assert (P : 0 < nx m * ny m) by (destruct M; nia).
  destruct f as [n [x y z]]; destruct n; cbn [fst snd px py pz] in *; unfold face_ok in F;
    cbn [fst snd px py pz] in F.
  - assert (z * n_surf_plane m + n_surf_plane m <= nz m * n_surf_plane m) by nia. nia.
  - assert (z * n_surf_plane m + n_surf_plane m <= nz m * n_surf_plane m) by nia. nia.
  - assert (z * n_surf_plane m <= nz m * n_surf_plane m) by nia. nia.
Qed.

Lemma face_index_onto : forall m k, mesh_ok m -> 0 <= k < n_surf m ->
  exists f, face_ok m f /\ face_index m f = k.
Proof.
  intros m k M H. rewrite n_surf_split in H.
  destruct M as (X & Y & Z0).
  assert (P : 0 < n_surf_plane m) by (unfold n_surf_plane; nia).
  assert (Q : 0 < nx m * ny m) by nia.
  assert (Q2 : nx m * ny m < n_surf_plane m) by (unfold n_surf_plane; nia).
  pose proof (Z.mod_pos_bound k _ P) as R.
  pose proof (Z.div_mod k (n_surf_plane m) ltac:(lia)) as D.
  set (r := k mod n_surf_plane m) in *. set (z := k / n_surf_plane m) in *.
  assert (Bz : 0 <= z) by (apply Z.div_pos; lia).
  assert (Bz2 : z <= nz m) by nia.
  destruct (Z.lt_ge_cases r (nx m * ny m)).
  - exists (Z_NORM, {| px := r mod nx m; py := r / nx m; pz := z |}).
    unfold face_ok, face_index; cbn.
    pose proof (Z.mod_pos_bound r _ X). pose proof (Z.div_mod r (nx m) ltac:(lia)).
    assert (0 <= r / nx m < ny m) by (split; [apply Z.div_pos; lia | apply Z.div_lt_upper_bound; lia]).
    lia.
  - assert (z < nz m) by nia.
    destruct (Z.lt_ge_cases r (nx m * ny m + (nx m + 1) * ny m)).
    + set (q := r - nx m * ny m).
      exists (X_NORM, {| px := q mod (nx m + 1); py := q / (nx m + 1); pz := z |}).
      unfold face_ok, face_index; cbn.
      pose proof (Z.mod_pos_bound q (nx m + 1) ltac:(lia)). pose proof (Z.div_mod q (nx m + 1) ltac:(lia)).
      assert (0 <= q / (nx m + 1) < ny m)
        by (split; [apply Z.div_pos; lia | apply Z.div_lt_upper_bound; lia]).
      lia.
    + set (q := r - (nx m * ny m + (nx m + 1) * ny m)).
      exists (Y_NORM, {| px := q / (ny m + 1); py := q mod (ny m + 1); pz := z |}).
      unfold face_ok, face_index; cbn.
      pose proof (Z.mod_pos_bound q (ny m + 1) ltac:(lia)). pose proof (Z.div_mod q (ny m + 1) ltac:(lia)).
      assert (0 <= q / (ny m + 1) < nx m).
      { split; [apply Z.div_pos; lia | apply Z.div_lt_upper_bound; [lia|]].
        unfold n_surf_plane in R. lia. }
      lia.
Qed.

(** ** Neighbours *)

Lemma coarse_neighbor_spec : forall m p s, mesh_ok m -> in_mesh m p ->
  coarse_neighbor m (coarse_cell m p) s = cell_or_none m (move p s).
Proof.
  intros m p s M H. unfold coarse_neighbor. rewrite position_of_cell by auto.
  destruct p as [x y z]; destruct H as (X & Y & Z0); cbn [px py pz] in *.
  destruct s; unfold cell_or_none, coarse_cell; cbn [move px py pz]; bdec; ring.
Qed.

Lemma cell_or_none_in : forall m p, in_mesh m p -> cell_or_none m p = coarse_cell m p.
Proof. intros m p (X & Y & Z0); unfold cell_or_none; bdec. Qed.

Lemma cell_or_none_out : forall m p, ~ in_mesh m p -> cell_or_none m p = -1.
Proof. intros m p N; unfold cell_or_none, in_mesh in *; bdec; exfalso; apply N; lia. Qed.

Lemma in_mesh_dec : forall m p, {in_mesh m p} + {~ in_mesh m p}.
Proof.
  intros m p; unfold in_mesh.
  destruct (Z_le_dec 0 (px p)), (Z_lt_dec (px p) (nx m)), (Z_le_dec 0 (py p)), (Z_lt_dec (py p) (ny m)),
    (Z_le_dec 0 (pz p)), (Z_lt_dec (pz p) (nz m)); (left; lia) || (right; lia).
Qed.

Lemma move_inj_dir : forall p s t, move p s = move p t -> s = t.
Proof. intros [x y z] [] []; cbn; intros E; try reflexivity; injection E; lia. Qed.

Lemma neighbor_is : forall m p q s, mesh_ok m -> in_mesh m p -> in_mesh m q ->
  (coarse_neighbor m (coarse_cell m p) s = coarse_cell m q <-> q = move p s).
Proof.
  intros m p q s M P Q. rewrite coarse_neighbor_spec by auto.
  destruct (in_mesh_dec m (move p s)) as [I|I].
  - rewrite cell_or_none_in by auto. split.
    + intros E. symmetry; eapply coarse_cell_inj; eauto.
    + now intros ->.
  - rewrite cell_or_none_out by auto. pose proof (coarse_cell_bounds m q Q). split; [lia|].
    intros ->; contradiction.
Qed.

Lemma interface_found : forall m p q s, mesh_ok m -> in_mesh m p -> in_mesh m q -> q = move p s ->
  coarse_interface m (coarse_cell m p) (coarse_cell m q) = Found (face_index m (face_of p s)) s.
Proof.
  intros m p q s M P Q E. unfold coarse_interface, AllSurfaces.
  assert (S : forall l, In s l -> interface_search m (coarse_cell m p) (coarse_cell m q) l =
                                  Found (face_index m (face_of p s)) s).
  { induction l as [|t l IH]; [intros []|]. intros I. cbn [interface_search].
    destruct (Z.eqb_spec (coarse_neighbor m (coarse_cell m p) t) (coarse_cell m q)) as [E2|E2].
    - apply neighbor_is in E2; auto. rewrite E in E2. apply move_inj_dir in E2. subst t.
      now rewrite coarse_surf_correct.
    - destruct I as [->|I]; [|auto]. exfalso; apply E2. now apply neighbor_is. }
  apply S. destruct s; cbn; tauto.
Qed.

Lemma interface_not_found : forall m p q, mesh_ok m -> in_mesh m p -> in_mesh m q ->
  (forall s, q <> move p s) ->
  coarse_interface m (coarse_cell m p) (coarse_cell m q) = NotNeighbors.
Proof.
  intros m p q M P Q H. unfold coarse_interface. generalize AllSurfaces as l.
  induction l as [|t l IH]; [reflexivity|]. cbn [interface_search].
  destruct (Z.eqb_spec (coarse_neighbor m (coarse_cell m p) t) (coarse_cell m q)) as [E2|E2]; auto.
  apply neighbor_is in E2; auto. now apply H in E2.
Qed.

Lemma face_shared : forall p s, face_of (move p s) (opposite s) = face_of p s.
Proof. intros [x y z] []; cbn; repeat f_equal; lia. Qed.

(** ** Plane ranges *)

Lemma plane_cells : forall m p P, mesh_ok m -> in_mesh m p -> 
  (plane_cell_begin m P <= coarse_cell m p < plane_cell_end m P <-> pz p = P).
Proof.
  intros m p P (X & Y & Z0) (A & B & C). unfold plane_cell_begin, plane_cell_end, coarse_cell.
  assert (H : 0 <= py p * nx m + px p < nx m * ny m) by nia.
  split; [|intros <-; nia]. intros [L U].
  assert (Q : 0 < nx m * ny m) by nia.
  assert (pz p < P + 1) by nia. assert (P < pz p + 1) by nia. lia.
Qed.

Lemma plane_xy_surfs : forall m f P, mesh_ok m -> face_ok m f ->
  (plane_surf_xy_begin m P <= face_index m f < plane_surf_end m P <->
   fst f <> Z_NORM /\ pz (snd f) = P).
Proof.
  intros m f P M F. destruct (face_off_bounds m f M F) as [B1 B2].
  unfold plane_surf_xy_begin, plane_surf_end. rewrite face_index_off.
  assert (Q : 0 < nx m * ny m) by (destruct M; nia).
  split.
  - intros [L U].
    assert (pz (snd f) < P + 1) by nia.
    assert (P < pz (snd f) + 1) by nia.
    split; [|lia]. intros E; rewrite E in B2. assert (pz (snd f) = P) by lia. subst P. lia.
  - intros [N <-]. destruct (fst f); try congruence; destruct M; nia.
Qed.

Lemma plane_surfs_range : forall m f P, mesh_ok m -> face_ok m f ->
  (plane_surf_begin m P <= face_index m f < plane_surf_end m P <-> pz (snd f) = P).
Proof.
  intros m f P M F. destruct (face_off_bounds m f M F) as [B1 _].
  unfold plane_surf_begin, plane_surf_end. rewrite face_index_off.
  split; [|intros <-; nia]. intros [L U].
  assert (pz (snd f) < P + 1) by nia. assert (P < pz (snd f) + 1) by nia. lia.
Qed.

(** ** zero_data_radial *)

Lemma in_radial_surfs : forall m k, In k (radial_surfs m) <->
  exists P, 0 <= P < nz m /\ plane_surf_xy_begin m P <= k < plane_surf_end m P.
Proof.
  intros; unfold radial_surfs; rewrite in_flat_map; split.
  - intros (P & A & B). apply in_zrange in A. exists P; split; auto.
    apply in_map_iff in B. destruct B as (j & <- & J). apply in_zrange in J. lia.
  - intros (P & A & B). exists P; split; [now apply in_zrange|].
    apply in_map_iff. exists (k - plane_surf_xy_begin m P); split; [lia|]. apply in_zrange; lia.
Qed.

Lemma radial_surfs_face : forall m f, mesh_ok m -> face_ok m f ->
  (In (face_index m f) (radial_surfs m) <-> fst f <> Z_NORM).
Proof.
  intros m f M F. rewrite in_radial_surfs. split.
  - intros (P & _ & B). now apply plane_xy_surfs in B.
  - intros N. exists (pz (snd f)). split; [|now apply plane_xy_surfs].
    destruct f as [[] p]; unfold face_ok in F; cbn in *; [lia | lia | congruence].
Qed.

Lemma upd2_same : forall {A} (f : Z -> Z -> A) i j v, upd2 f i j v i j = v.
Proof. intros; unfold upd2; now rewrite !Z.eqb_refl. Qed.

Lemma fold_zero : forall {A} (zero : A) zp g l d k g',
  let d' := fold_left (zero_surf zero zp g) l d in
  current d' k g' = (if in_dec Z.eq_dec k l then if g' =? g then zero else current d k g'
                     else current d k g') /\
  surface_flux d' k g' = (if in_dec Z.eq_dec k l then if g' =? g then zero else surface_flux d k g'
                     else surface_flux d k g') /\
  partial_current d' k g' = (if in_dec Z.eq_dec k l then
       if (g' =? g) && zp then (zero, zero) else partial_current d k g'
                     else partial_current d k g').
Proof.
  intros A zero zp g l; induction l as [|a l IH]; intros d k g'; [cbn; auto|].
  cbn [fold_left]. specialize (IH (zero_surf zero zp g d a) k g'). cbn zeta in *.
  destruct IH as (I1 & I2 & I3). rewrite I1, I2, I3.
  assert (U : forall {B} (f : Z -> Z -> B) v, upd2 f a g v k g' =
     if in_dec Z.eq_dec k [a] then if g' =? g then v else f k g' else f k g').
  { intros; unfold upd2. destruct (in_dec Z.eq_dec k [a]) as [[->|[]]|N].
    - now rewrite Z.eqb_refl.
    - destruct (Z.eqb_spec k a); [subst; exfalso; apply N; now left|reflexivity]. }
  unfold zero_surf; cbn [current surface_flux partial_current].
  destruct (in_dec Z.eq_dec k (a :: l)) as [J|J].
  - destruct (in_dec Z.eq_dec k l) as [K|K].
    + destruct zp; rewrite ?U; destruct (Z.eqb_spec g' g); cbn [andb]; repeat split; auto;
        destruct (in_dec Z.eq_dec k [a]); auto.
    + destruct J as [<-|J]; [|contradiction].
      destruct zp; rewrite ?U; destruct (in_dec Z.eq_dec a [a]) as [_|N];
        try (exfalso; apply N; now left); rewrite ?andb_true_r, ?andb_false_r; auto.
  - assert (K : ~ In k l) by (intros K; apply J; now right).
    destruct (in_dec Z.eq_dec k l); [contradiction|].
    destruct zp; rewrite ?U; destruct (in_dec Z.eq_dec k [a]) as [[->|[]]|N];
      try (exfalso; apply J; now left); auto.
Qed.
