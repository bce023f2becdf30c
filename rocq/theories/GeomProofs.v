(** Lemmas for the mesh geometry model. *)
From Coq Require Import Reals List ZArith Lra Lia Bool Psatz.
From Verif Require Import RUtil MeshModel MeshSpec MeshProofs GeomModel.
Import ListNotations.
Open Scope R_scope.

(** ** Sums *)

Definition Rsum (l : list R) : R := fold_right Rplus 0 l.

Lemma Rsum_app : forall l1 l2, Rsum (l1 ++ l2) = Rsum l1 + Rsum l2.
Proof. induction l1; intros; unfold Rsum in *; cbn; [lra|]. rewrite IHl1; lra. Qed.

Lemma Rsum_map_mul_l : forall (A : Type) (f : A -> R) c l,
  Rsum (map (fun x => c * f x) l) = c * Rsum (map f l).
Proof. induction l; unfold Rsum in *; cbn; [lra|]. rewrite IHl; lra. Qed.

Lemma Rsum_map_mul_r : forall (A : Type) (f : A -> R) c l,
  Rsum (map (fun x => f x * c) l) = Rsum (map f l) * c.
Proof. induction l; unfold Rsum in *; cbn; [lra|]. rewrite IHl; lra. Qed.

Lemma Rsum_flat_map : forall (A : Type) (f : A -> list R) l,
  Rsum (flat_map f l) = Rsum (map (fun x => Rsum (f x)) l).
Proof. induction l; cbn; [reflexivity|]. rewrite Rsum_app, IHl; reflexivity. Qed.

Lemma Rsum_map_ext : forall (A : Type) (f g : A -> R) l, (forall x, In x l -> f x = g x) ->
  Rsum (map f l) = Rsum (map g l).
Proof.
  induction l; intros H; cbn; [reflexivity|]. unfold Rsum in *; cbn.
  rewrite H by now left. rewrite IHl; [reflexivity|]. intros; apply H; now right.
Qed.

(** ** Differences *)

Lemma diffs_length : forall l, length (diffs l) = (length l - 1)%nat.
Proof.
  induction l as [|a l IH]; [reflexivity|]. destruct l as [|b l]; [reflexivity|].
  change (diffs (a :: b :: l)) with ((b - a) :: diffs (b :: l)). cbn [length] in *. lia.
Qed.

Lemma diffs_sum : forall a l, Rsum (diffs (a :: l)) = last (a :: l) 0 - a.
Proof.
  intros a l; revert a; induction l as [|b l IH]; intros a; [cbn; lra|].
  change (diffs (a :: b :: l)) with ((b - a) :: diffs (b :: l)).
  change (last (a :: b :: l) 0) with (last (b :: l) 0).
  unfold Rsum in *; cbn [fold_right]. rewrite IH. lra.
Qed.

Definition gmesh_ok (g : GMesh) : Prop :=
  (2 <= length (xv g))%nat /\ (2 <= length (yv g))%nat /\ (2 <= length (zv g))%nat.

Lemma gmesh_mesh_ok : forall g, gmesh_ok g -> mesh_ok (dims g).
Proof. intros g (X & Y & Z0); unfold mesh_ok, dims; cbn; lia. Qed.

Definition rget (l : list R) (i : Z) : R := nth (Z.to_nat i) l 0.

Lemma rd_some : forall l i, (0 <= i < Z.of_nat (length l))%Z -> rd l i = Some (rget l i).
Proof.
  intros l i H; unfold rd, rget. destruct (Z.ltb_spec i 0); [lia|].
  apply nth_error_nth'. lia.
Qed.

Lemma dv_get : forall g p, gmesh_ok g -> in_mesh (dims g) p ->
  rd (dxv g) (px p) = Some (rget (dxv g) (px p)) /\
  rd (dyv g) (py p) = Some (rget (dyv g) (py p)) /\
  rd (dzv g) (pz p) = Some (rget (dzv g) (pz p)).
Proof.
  intros g p (X & Y & Z0) (A & B & C); unfold dims in *; cbn in *; unfold dxv, dyv, dzv.
  repeat split; apply rd_some; rewrite diffs_length; lia.
Qed.

Lemma area_surf_cell : forall g p s k, gmesh_ok g -> in_mesh (dims g) p ->
  coarse_surf (dims g) (coarse_cell (dims g) p) s = Some k ->
  coarse_area_surf g k = coarse_area_cell g (coarse_cell (dims g) p) s.
Proof.
  intros g p s k G P E. pose proof (gmesh_mesh_ok g G) as M.
  rewrite coarse_surf_correct in E by auto. injection E as <-.
  unfold coarse_area_surf, coarse_area_cell. rewrite position_of_cell by auto.
  pose proof (face_of_ok _ p s P) as F.
  rewrite surface_normal_face by auto.
  destruct (face_index_div _ _ M F) as [D _]. rewrite D.
  set (m := dims g) in *.
  replace (face_index m (face_of p s) - pz (snd (face_of p s)) * n_surf_plane m)%Z
    with (face_off m (face_of p s)) by (rewrite face_index_off; ring).
  destruct p as [x y z]; destruct M as (X & Y & Z0); destruct P as (PX & PY & PZ);
    cbn [px py pz] in *; clear D F.
  destruct s; cbn [face_of fst snd surface_to_normal move px py pz]; unfold face_off;
    cbn [fst snd px py pz].
  - destruct (div_mod_of (nx m * ny m + (nx m + 1) * y + (x + 1) - nx m * ny m) (nx m + 1) y (x + 1))
      as [D _]; [ring | lia | now rewrite D].
  - destruct (div_mod_of (nx m * ny m + (nx m + 1) * ny m + (ny m + 1) * x + (y + 1) -
      (nx m * ny m + (nx m + 1) * ny m)) (ny m + 1) x (y + 1)) as [D _]; [ring | lia | now rewrite D].
  - destruct (div_mod_of (nx m * ny m + (nx m + 1) * y + x - nx m * ny m) (nx m + 1) y x)
      as [D _]; [ring | lia | now rewrite D].
  - destruct (div_mod_of (nx m * ny m + (nx m + 1) * ny m + (ny m + 1) * x + y -
      (nx m * ny m + (nx m + 1) * ny m)) (ny m + 1) x y) as [D _]; [ring | lia | now rewrite D].
  - destruct (div_mod_of (nx m * y + x) (nx m) y x) as [D1 D2]; [ring | lia | now rewrite D1, D2].
  - destruct (div_mod_of (nx m * y + x) (nx m) y x) as [D1 D2]; [ring | lia | now rewrite D1, D2].
Qed.

Lemma area_thickness_volume : forall g p s, gmesh_ok g -> in_mesh (dims g) p ->
  exists a h v, coarse_area_cell g (coarse_cell (dims g) p) s = Some a /\
    cell_thickness g (coarse_cell (dims g) p) (surface_to_normal s) = Some h /\
    cell_volume g (coarse_cell (dims g) p) = Some v /\ a * h = v.
Proof.
  intros g p s G P. destruct (dv_get g p G P) as (X & Y & Z0).
  unfold coarse_area_cell, cell_thickness, cell_volume. rewrite position_of_cell by auto.
  rewrite X, Y, Z0.
  destruct s; cbn; eexists _, _, _; repeat split; ring.
Qed.

(** ** Sum of volumes *)

Lemma zrange_app_nat : forall a b,
  map Z.of_nat (seq 0 (a + b)) = map Z.of_nat (seq 0 a) ++ map (fun k => Z.of_nat (a + k)) (seq 0 b).
Proof.
  intros; rewrite seq_app, map_app; f_equal. cbn.
  rewrite <- (Nat.add_0_r a) at 1. generalize 0%nat as o. intros o; revert o; induction b; intros o; [reflexivity|].
  cbn. f_equal. rewrite <- IHb. now rewrite Nat.add_succ_r.
Qed.

(** Rows of a rectangular index range. *)
Lemma zrange_mul : forall a b, (0 <= a)%Z -> (0 <= b)%Z ->
  zrange (a * b) = flat_map (fun i => map (fun j => (i * b + j)%Z) (zrange b)) (zrange a).
Proof.
  intros a b Ha Hb. rewrite <- (Z2Nat.id a), <- (Z2Nat.id b) by lia.
  generalize (Z.to_nat a) as n, (Z.to_nat b) as k. intros n k. clear.
  unfold zrange. rewrite <- Nat2Z.inj_mul, !Nat2Z.id.
  induction n; [reflexivity|].
  rewrite seq_S, map_app, flat_map_app, <- IHn.
  replace (S n * k)%nat with (n * k + k)%nat by lia. rewrite zrange_app_nat. f_equal.
  cbn [map flat_map]. rewrite app_nil_r, !map_map. apply map_ext. intros; lia.
Qed.

Lemma flat_map_flat_map : forall {A B C} (f : B -> list C) (g : A -> list B) l,
  flat_map f (flat_map g l) = flat_map (fun x => flat_map f (g x)) l.
Proof. induction l; cbn; [reflexivity|]. now rewrite flat_map_app, IHl. Qed.

Lemma flat_map_map : forall {A B C} (f : B -> list C) (g : A -> B) l,
  flat_map f (map g l) = flat_map (fun x => f (g x)) l.
Proof. induction l; cbn; [reflexivity|]. now rewrite IHl. Qed.

Lemma map_flat_map : forall {A B C} (f : B -> C) (g : A -> list B) l,
  map f (flat_map g l) = flat_map (fun x => map f (g x)) l.
Proof. induction l; cbn; [reflexivity|]. now rewrite map_app, IHl. Qed.

Lemma flat_map_ext_in : forall {A B} (f g : A -> list B) l, (forall x, In x l -> f x = g x) ->
  flat_map f l = flat_map g l.
Proof.
  induction l; intros H; cbn; [reflexivity|]. rewrite H by now left. f_equal. apply IHl.
  intros; apply H; now right.
Qed.

(** All cells are visited in order z, y, x. *)
Lemma cells_enum : forall m, mesh_ok m ->
  zrange (n_pin m) =
  flat_map (fun z => flat_map (fun y => map (fun x => coarse_cell m {| px := x; py := y; pz := z |})
                                            (zrange (nx m))) (zrange (ny m))) (zrange (nz m)).
Proof.
  intros m (X & Y & Z0). unfold n_pin.
  replace (nx m * ny m * nz m)%Z with (nz m * (ny m * nx m))%Z by ring.
  rewrite zrange_mul by nia. apply flat_map_ext_in. intros z _.
  rewrite zrange_mul by lia. rewrite map_flat_map. apply flat_map_ext_in. intros y _.
  rewrite map_map. apply map_ext. intros x. unfold coarse_cell; cbn. ring.
Qed.

Lemma Rsum_zrange : forall l n, n = Z.of_nat (length l) -> Rsum (map (rget l) (zrange n)) = Rsum l.
Proof.
  intros l n ->. unfold zrange, rget. rewrite Nat2Z.id, map_map. f_equal.
  rewrite (map_ext _ (fun i => nth i l 0)) by (intros; now rewrite Nat2Z.id).
  induction l as [|a l IH]; [reflexivity|]. cbn [length seq map nth]. f_equal.
  rewrite <- IH at 2. rewrite <- seq_shift, map_map. reflexivity.
Qed.

Definition oget (o : option R) : R := match o with Some x => x | None => 0 end.

Lemma volume_sum : forall g, gmesh_ok g ->
  Forall (fun v => v <> None) (coarse_volume g) /\
  Rsum (map oget (coarse_volume g)) = Rsum (dxv g) * Rsum (dyv g) * Rsum (dzv g).
Proof.
  intros g G. pose proof (gmesh_mesh_ok g G) as M. split.
  - apply Forall_forall. intros v I. unfold coarse_volume in I. apply in_map_iff in I.
    destruct I as (i & <- & I). apply in_zrange in I.
    destruct (cell_of_position _ _ M I) as [P E].
    destruct (area_thickness_volume g (coarse_position (dims g) i) EAST G P) as (a & h & v & _ & _ & V & _).
    rewrite E in V. congruence.
  - unfold coarse_volume. rewrite cells_enum by auto.
    rewrite map_map, map_flat_map, Rsum_flat_map.
    rewrite (Rsum_map_ext _ _ (fun z => rget (dzv g) z * (Rsum (dxv g) * Rsum (dyv g)))).
    + rewrite Rsum_map_mul_r. rewrite Rsum_zrange.
      * ring.
      * unfold dzv; rewrite diffs_length. destruct G as (_ & _ & ?). cbn; lia.
    + intros z Hz. apply in_zrange in Hz. rewrite map_flat_map, Rsum_flat_map.
      rewrite (Rsum_map_ext _ _ (fun y => rget (dyv g) y * (Rsum (dxv g) * rget (dzv g) z))).
      * rewrite Rsum_map_mul_r, Rsum_zrange; [ring|].
        unfold dyv; rewrite diffs_length. destruct G as (_ & ? & _). cbn; lia.
      * intros y Hy. apply in_zrange in Hy. rewrite map_map.
        rewrite (Rsum_map_ext _ _ (fun x => rget (dxv g) x * (rget (dyv g) y * rget (dzv g) z))).
        -- rewrite Rsum_map_mul_r, Rsum_zrange; [ring|].
           unfold dxv; rewrite diffs_length. destruct G as (? & _ & _). cbn; lia.
        -- intros x Hx. apply in_zrange in Hx.
           assert (P : in_mesh (dims g) {| px := x; py := y; pz := z |}) by (unfold in_mesh; cbn in *; lia).
           unfold cell_volume. rewrite position_of_cell by auto.
           destruct (dv_get g _ G P) as (E1 & E2 & E3). rewrite E1, E2, E3. cbn. ring.
Qed.

(** ** Line-line intersection *)

(** [q] is the point at parameter [t] of the segment. *)
Definition at_param (l : Line) (t : R) (q : Point2) : Prop :=
  ptx q = ptx (p1 l) + t * (ptx (p2 l) - ptx (p1 l)) /\
  pty q = pty (p1 l) + t * (pty (p2 l) - pty (p1 l)).

Definition on_segment (l : Line) (q : Point2) : Prop := exists t, 0 <= t <= 1 /\ at_param l t q.

Definition cross (l1 l2 : Line) : R :=
  (ptx (p2 l1) - ptx (p1 l1)) * (pty (p2 l2) - pty (p1 l2)) -
  (pty (p2 l1) - pty (p1 l1)) * (ptx (p2 l2) - ptx (p1 l2)).

Lemma intersect_ll_sound : forall l1 l2 q, intersect_ll l1 l2 = Some q -> on_segment l1 q /\ on_segment l2 q.
Proof.
  intros [[ax ay] [bx by0]] [[cx cy] [dx dy]] q. unfold intersect_ll; cbn [p1 p2 ptx pty].
  destruct (Reqb_spec ((bx - ax) * (dy - cy) - (by0 - ay) * (dx - cx)) 0) as [E|E]; [discriminate|].
  set (d := (bx - ax) * (dy - cy) - (by0 - ay) * (dx - cx)) in *.
  set (s := ((dx - cx) * (ay - cy) - (dy - cy) * (ax - cx)) / d).
  set (t := ((bx - ax) * (ay - cy) - (by0 - ay) * (ax - cx)) / d).
  rdec; cbn [andb]; try discriminate.
  intros Q; injection Q as <-.
  split; [exists s | exists t]; (split; [lra|]); unfold at_param; cbn; (split; [|]); try lra.
  - unfold s, t. apply (Rmult_eq_reg_l d); [|exact E]. unfold d. field. exact E.
  - unfold s, t. apply (Rmult_eq_reg_l d); [|exact E]. unfold d. field. exact E.
Qed.

Lemma intersect_ll_complete : forall l1 l2 q, cross l1 l2 <> 0 -> on_segment l1 q -> on_segment l2 q ->
  intersect_ll l1 l2 = Some q.
Proof.
  intros [[ax ay] [bx by0]] [[cx cy] [dx dy]] [qx qy] D (s & S & S1 & S2) (t & T & T1 & T2).
  unfold cross in D; unfold intersect_ll; cbn [p1 p2 ptx pty] in *.
  destruct (Reqb_spec ((bx - ax) * (dy - cy) - (by0 - ay) * (dx - cx)) 0) as [E|E]; [lra|].
  assert (ES : ((dx - cx) * (ay - cy) - (dy - cy) * (ax - cx)) /
               ((bx - ax) * (dy - cy) - (by0 - ay) * (dx - cx)) = s).
  { apply (Rmult_eq_reg_r ((bx - ax) * (dy - cy) - (by0 - ay) * (dx - cx))); [|exact E].
    unfold Rdiv. rewrite Rmult_assoc, Rinv_l by exact E.
    assert (F1 : ax - cx = t * (dx - cx) - s * (bx - ax)) by lra.
    assert (F2 : ay - cy = t * (dy - cy) - s * (by0 - ay)) by lra.
    rewrite F1, F2. ring. }
  assert (ET : ((bx - ax) * (ay - cy) - (by0 - ay) * (ax - cx)) /
               ((bx - ax) * (dy - cy) - (by0 - ay) * (dx - cx)) = t).
  { apply (Rmult_eq_reg_r ((bx - ax) * (dy - cy) - (by0 - ay) * (dx - cx))); [|exact E].
    unfold Rdiv. rewrite Rmult_assoc, Rinv_l by exact E.
    assert (F1 : ax - cx = t * (dx - cx) - s * (bx - ax)) by lra.
    assert (F2 : ay - cy = t * (dy - cy) - s * (by0 - ay)) by lra.
    rewrite F1, F2. ring. }
  rewrite ES, ET. rdec; cbn [andb]; try lra. now rewrite S1, S2.
Qed.

(** ** Mesh lines *)

Lemma trace_points_in : forall ls l q, In q (trace_points ls l) <->
  exists li, In li ls /\ intersect_ll li l = Some q.
Proof.
  intros; unfold trace_points; rewrite in_flat_map; split.
  - intros (li & I & J). exists li; split; auto. destruct (intersect_ll li l); [|destruct J].
    destruct J as [->|[]]; reflexivity.
  - intros (li & I & E). exists li; split; auto. rewrite E. now left.
Qed.

Lemma vertical_found : forall xs ys hx l q xi, In xi (interior xs) -> 0 < hx -> on_segment l q ->
  ptx q = xi -> 0 <= pty q <= hx -> ptx (p1 l) <> ptx (p2 l) ->
  In q (trace_points (mesh_lines xs ys hx) l).
Proof.
  intros xs ys hx l q xi I H L X Y N. apply trace_points_in.
  exists {| p1 := {| ptx := xi; pty := 0 |}; p2 := {| ptx := xi; pty := hx |} |}. split.
  - unfold mesh_lines. apply in_or_app; left. apply in_map_iff. eauto.
  - apply intersect_ll_complete; auto.
    + unfold cross; cbn. intros E. assert (hx * (ptx (p2 l) - ptx (p1 l)) = 0) by lra.
      apply Rmult_integral in H0. lra.
    + exists (pty q / hx). split.
      * split; [apply Rmult_le_pos; [lra|]; left; now apply Rinv_0_lt_compat|].
        apply (Rmult_le_reg_r hx); auto. unfold Rdiv. rewrite Rmult_assoc, Rinv_l by lra. lra.
      * unfold at_param; cbn. split; [lra|]. field. lra.
Qed.

Lemma horizontal_found : forall xs ys hx l q yi, In yi (interior ys) -> 0 < hx -> on_segment l q ->
  pty q = yi -> 0 <= ptx q <= hx -> pty (p1 l) <> pty (p2 l) ->
  In q (trace_points (mesh_lines xs ys hx) l).
Proof.
  intros xs ys hx l q yi I H L X Y N. apply trace_points_in.
  exists {| p1 := {| ptx := 0; pty := yi |}; p2 := {| ptx := hx; pty := yi |} |}. split.
  - unfold mesh_lines. apply in_or_app; right. apply in_map_iff. eauto.
  - apply intersect_ll_complete; auto.
    + unfold cross; cbn. intros E. assert (hx * (pty (p2 l) - pty (p1 l)) = 0) by lra.
      apply Rmult_integral in H0. lra.
    + exists (ptx q / hx). split.
      * split; [apply Rmult_le_pos; [lra|]; left; now apply Rinv_0_lt_compat|].
        apply (Rmult_le_reg_r hx); auto. unfold Rdiv. rewrite Rmult_assoc, Rinv_l by lra. lra.
      * unfold at_param; cbn. split; [|lra]. field. lra.
Qed.

Lemma trace_points_sound : forall xs ys hx l q, 0 <= hx -> In q (trace_points (mesh_lines xs ys hx) l) ->
  on_segment l q /\ ((In (ptx q) (interior xs) /\ 0 <= pty q <= hx) \/
                     (In (pty q) (interior ys) /\ 0 <= ptx q <= hx)).
Proof.
  intros xs ys hx l q H I. apply trace_points_in in I. destruct I as (li & I & E).
  apply intersect_ll_sound in E. destruct E as [(t & T & T1 & T2) S]. split; auto.
  unfold mesh_lines in I. apply in_app_or in I.
  destruct I as [I|I]; apply in_map_iff in I; destruct I as (v & <- & V); cbn in *; [left|right].
  - replace (ptx q) with v by lra. split; auto. nra.
  - replace (pty q) with v by lra. split; auto. nra.
Qed.

(** ** Line-circle intersection *)

Definition power (c : Circle) (q : Point2) : R :=
  (ptx q - ptx (cc c)) * (ptx q - ptx (cc c)) + (pty q - pty (cc c)) * (pty q - pty (cc c)) - cr c * cr c.

Definition on_circle (c : Circle) (q : Point2) : Prop := power c q = 0.
Definition outside (c : Circle) (q : Point2) : Prop := 0 < power c q.

Lemma intersect_lc_spec : forall l c, outside c (p1 l) -> outside c (p2 l) -> p1 l <> p2 l ->
  (intersect_lc l c = CNone /\ forall q, on_segment l q -> ~ on_circle c q) \/
  (exists p q, intersect_lc l c = CTwo p q /\
     (forall z, on_segment l z /\ on_circle c z <-> z = p \/ z = q) /\
     exists s t, 0 < s <= t /\ t < 1 /\ at_param l s p /\ at_param l t q).
Proof.
  intros [[ax ay] [bx by0]] [[cx cy] r] O1 O2 N.
  unfold outside, power in O1, O2; cbn in O1, O2.
  unfold intersect_lc; cbn [p1 p2 ptx pty cc cr].
  set (u1 := bx - ax) in *. set (u2 := by0 - ay) in *. set (w1 := ax - cx) in *. set (w2 := ay - cy) in *.
  set (b := w1 * u1 + w2 * u2). set (c := w1 * w1 + w2 * w2 - r * r). set (a := u1 * u1 + u2 * u2).
  assert (C : 0 < c) by exact O1.
  assert (F1 : 0 < a + 2 * b + c).
  { unfold a, b, c. replace (bx - cx) with (w1 + u1) in O2 by (unfold w1, u1; ring).
    replace (by0 - cy) with (w2 + u2) in O2 by (unfold w2, u2; ring). lra. }
  assert (A : 0 < a).
  { unfold a. destruct (Req_dec u1 0) as [U1|U1]; [|pose proof (Rsqr_pos_lt u1 U1) as S1; unfold Rsqr in S1; nra].
    destruct (Req_dec u2 0) as [U2|U2]; [|pose proof (Rsqr_pos_lt u2 U2) as S2; unfold Rsqr in S2; nra].
    exfalso; apply N; cbn. f_equal; unfold u1, u2 in *; lra. }
  assert (POW : forall t, power {| cc := {| ptx := cx; pty := cy |}; cr := r |}
     {| ptx := ax + t * u1; pty := ay + t * u2 |} = a * t * t + 2 * b * t + c).
  { intros t; unfold power, a, b, c; cbn. 
    replace (ax + t * u1 - cx) with (w1 + t * u1) by (unfold w1; ring).
    replace (ay + t * u2 - cy) with (w2 + t * u2) by (unfold w2; ring). ring. }
  assert (SEG : forall q t, at_param {| p1 := {| ptx := ax; pty := ay |}; p2 := {| ptx := bx; pty := by0 |} |} t q ->
     q = {| ptx := ax + t * u1; pty := ay + t * u2 |}).
  { intros [qx qy] t [H1 H2]; cbn in H1, H2. now rewrite H1, H2. }
  destruct (Rltb_spec 0 c); [|lra]. cbn [andb].
  destruct (Rltb_spec 0 b) as [B|B].
  { left; split; auto. intros q (t & T & P) O. apply SEG in P. subst q.
    unfold on_circle in O. rewrite POW in O. assert (0 <= b * t) by nra.
    assert (0 <= a * t) by nra. assert (0 <= a * t * t) by nra. lra. }
  destruct (Rltb_spec (b * b - a * c) 0) as [D|D].
  { left; split; auto. intros q (t & T & P) O. apply SEG in P. subst q.
    unfold on_circle in O. rewrite POW in O.
    pose proof (Rle_0_sqr (a * t + b)) as S0. unfold Rsqr in S0.
    assert (a * (a * t * t + 2 * b * t + c) = (a * t + b) * (a * t + b) - (b * b - a * c)) by ring.
    rewrite O in H. lra. }
  destruct (Reqb_spec a 0) as [|_]; [lra|].
  set (disc := b * b - a * c) in *. set (sq := sqrt disc).
  assert (SQ : sq * sq = disc) by (apply sqrt_sqrt; lra).
  assert (SP : 0 <= sq) by apply sqrt_pos.
  assert (SB : sq < - b).
  { destruct (Rle_lt_dec (- b) sq); auto. exfalso.
    assert (b * b <= sq * sq) by nra. unfold disc in SQ. assert (0 < a * c) by nra. lra. }
  set (t1 := (- b - sq) * (1 / a)). set (t2 := (- b + sq) * (1 / a)).
  assert (T1 : a * t1 = - b - sq) by (unfold t1; field; lra).
  assert (T2 : a * t2 = - b + sq) by (unfold t2; field; lra).
  assert (FAC : forall t, a * t * t + 2 * b * t + c = a * ((t - t1) * (t - t2))).
  { intros t. apply (Rmult_eq_reg_l a); [|lra].
    replace (a * (a * ((t - t1) * (t - t2)))) with ((a * t - a * t1) * (a * t - a * t2)) by ring.
    rewrite T1, T2. replace ((a * t - (- b - sq)) * (a * t - (- b + sq)))
      with ((a * t + b) * (a * t + b) - sq * sq) by ring. rewrite SQ. unfold disc. ring. }
  assert (P1 : 0 < t1) by nra.
  assert (P12 : t1 <= t2) by nra.
  assert (Q1 : 0 < (1 - t1) * (1 - t2)).
  { specialize (FAC 1). replace (a * 1 * 1 + 2 * b * 1 + c) with (a + 2 * b + c) in FAC by ring.
    rewrite FAC in F1. nra. }
  assert (ROOT : forall t, a * t * t + 2 * b * t + c = 0 -> t = t1 \/ t = t2).
  { intros t H. rewrite FAC in H. apply Rmult_integral in H. destruct H as [|H]; [lra|].
    apply Rmult_integral in H. lra. }
  destruct (Rltb_spec 0 t1); [|lra]. destruct (Rltb_spec 0 t2); [|lra]. cbn [andb].
  destruct (Rltb_spec t1 1) as [L1|L1], (Rltb_spec t2 1) as [L2|L2]; try (exfalso; nra).
  - right. eexists _, _. split; [reflexivity|]. split.
    + intros z; split.
      * intros [(t & T & P) O]. apply SEG in P. subst z. unfold on_circle in O. rewrite POW in O.
        apply ROOT in O. destruct O as [-> | ->]; [left|right]; f_equal; ring.
      * intros [-> | ->].
        -- replace (u1 * t1) with (t1 * u1) by ring. replace (u2 * t1) with (t1 * u2) by ring. split.
           ++ exists t1; split; [lra|]. split; reflexivity.
           ++ unfold on_circle. rewrite POW, FAC. ring.
        -- replace (u1 * t2) with (t2 * u1) by ring. replace (u2 * t2) with (t2 * u2) by ring. split.
           ++ exists t2; split; [lra|]. split; reflexivity.
           ++ unfold on_circle. rewrite POW, FAC. ring.
    + exists t1, t2. split; [lra|]. split; [lra|]. unfold at_param; cbn. unfold u1, u2. repeat split; ring.
  - left; split; auto. intros q (t & T & P) O. apply SEG in P. subst q.
    unfold on_circle in O. rewrite POW in O. apply ROOT in O. destruct O; subst t; nra.
Qed.
