(** Property theorems for mesh geometry: C11, C13, C68, C69. *)
From Coq Require Import Reals List ZArith Lra Lia Bool.
From Verif Require Import RUtil MeshModel MeshSpec MeshProofs GeomModel GeomProofs.
Import ListNotations.
Open Scope R_scope.

Definition g231 : GMesh := {| xv := [0; 1; 3]; yv := [0; 2; 3; 5]; zv := [0; 4] |}.

(** C11: areas, thicknesses and volumes.  Every value is defined (no out-of-range read) and the area read
    through the surface number equals the area read through either adjoining cell. *)
Theorem C11_area_agrees : forall g p s k, gmesh_ok g -> in_mesh (dims g) p ->
  coarse_surf (dims g) (coarse_cell (dims g) p) s = Some k ->
  exists a, coarse_area_surf g k = Some a /\ coarse_area_cell g (coarse_cell (dims g) p) s = Some a /\
    (in_mesh (dims g) (move p s) ->
       coarse_area_cell g (coarse_cell (dims g) (move p s)) (opposite s) = Some a).
Proof.
  intros g p s k G P E.
  destruct (area_thickness_volume g p s G P) as (a & h & v & A & _ & _ & _).
  exists a. split; [|split].
  - rewrite (area_surf_cell g p s k G P E). exact A.
  - exact A.
  - intros Q. rewrite <- A. rewrite <- (area_surf_cell g p s k G P E). symmetry.
    apply area_surf_cell; auto.
    rewrite <- E. rewrite !coarse_surf_correct by auto. now rewrite face_shared.
Qed.
Print Assumptions C11_area_agrees.

Theorem C11_area_times_thickness : forall g p s, gmesh_ok g -> in_mesh (dims g) p ->
  exists a h v, coarse_area_cell g (coarse_cell (dims g) p) s = Some a /\
    cell_thickness g (coarse_cell (dims g) p) (surface_to_normal s) = Some h /\
    cell_volume g (coarse_cell (dims g) p) = Some v /\ a * h = v.
Proof. exact area_thickness_volume. Qed.
Print Assumptions C11_area_times_thickness.

Theorem C11_volumes_sum : forall g x0 xs y0 ys z0 zs, gmesh_ok g ->
  xv g = x0 :: xs -> yv g = y0 :: ys -> zv g = z0 :: zs ->
  Forall (fun v => v <> None) (coarse_volume g) /\
  Rsum (map oget (coarse_volume g)) =
    (last (xv g) 0 - x0) * (last (yv g) 0 - y0) * (last (zv g) 0 - z0).
Proof.
  intros g x0 xs y0 ys z0 zs G X Y Z0. destruct (volume_sum g G) as [V S]. split; auto.
  rewrite S. unfold dxv, dyv, dzv. rewrite X, Y, Z0, !diffs_sum. reflexivity.
Qed.
Print Assumptions C11_volumes_sum.

Example C11_instance : gmesh_ok g231 /\ in_mesh (dims g231) {| px := 1; py := 1; pz := 0 |} /\
  coarse_surf (dims g231) (coarse_cell (dims g231) {| px := 1; py := 1; pz := 0 |}) SOUTH = Some 20%Z /\
  in_mesh (dims g231) (move {| px := 1; py := 1; pz := 0 |} SOUTH).
Proof. unfold gmesh_ok, in_mesh; cbn. repeat split; lia. Qed.

(** C13: the mesh lines used by the ray tracer.  In a domain no taller than it is wide every crossing of an
    interior pin boundary inside the domain is found, and nothing else. *)
Theorem C13_crossings_found_partial : forall g l q, 0 < last (xv g) 0 -> last (yv g) 0 <= last (xv g) 0 ->
  on_segment l q -> 0 <= ptx q <= last (xv g) 0 -> 0 <= pty q <= last (yv g) 0 ->
  (In (ptx q) (interior (xv g)) /\ ptx (p1 l) <> ptx (p2 l)) \/
  (In (pty q) (interior (yv g)) /\ pty (p1 l) <> pty (p2 l)) ->
  In q (trace_points (lines g) l).
Proof.
  intros g l q H W S X Y [[I N]|[I N]]; unfold lines.
  - apply vertical_found with (xi := ptx q); auto; lra.
  - apply horizontal_found with (yi := pty q); auto; lra.
Qed.
Print Assumptions C13_crossings_found_partial.

Theorem C13_found_are_crossings : forall g l q, 0 <= last (xv g) 0 ->
  In q (trace_points (lines g) l) ->
  on_segment l q /\ (In (ptx q) (interior (xv g)) \/ In (pty q) (interior (yv g))).
Proof.
  intros g l q H I. destruct (trace_points_sound _ _ _ _ _ H I) as [S [[A _]|[A _]]]; auto.
Qed.
Print Assumptions C13_found_are_crossings.

(** Two pins side by side, each 1 wide and 5 tall: the ray from (0,3) to (2,5) crosses the pin boundary x=1 at
    (1,4), inside the domain, and the crossing is missed. *)
Theorem C13_crossings_found_refuted : exists g l q, gmesh_ok g /\
  on_segment l q /\ In (ptx q) (interior (xv g)) /\ ptx (p1 l) < ptx q < ptx (p2 l) /\
  0 < ptx q < last (xv g) 0 /\ 0 < pty q < last (yv g) 0 /\
  ~ In q (trace_points (lines g) l).
Proof.
  exists {| xv := [0; 1; 2]; yv := [0; 5]; zv := [0; 1] |},
    {| p1 := {| ptx := 0; pty := 3 |}; p2 := {| ptx := 2; pty := 5 |} |}, {| ptx := 1; pty := 4 |}.
  split; [unfold gmesh_ok; cbn; lia|]. split; [exists (1/2); unfold at_param; cbn; lra|].
  cbn [xv yv interior tl removelast last ptx pty p1 p2 In]. repeat split; try lra; auto.
  intros I. unfold lines in I. apply trace_points_sound in I; [|cbn; lra].
  destruct I as [_ [[_ I]|[I _]]]; cbn in I; lra.
Qed.
Print Assumptions C13_crossings_found_refuted.

Example C13_instance : let g := {| xv := [0; 1; 3]; yv := [0; 1; 2]; zv := [0; 1] |} in
  let l := {| p1 := {| ptx := 0; pty := 1/2 |}; p2 := {| ptx := 2; pty := 2 |} |} in
  let q := {| ptx := 1; pty := 5/4 |} in
  0 < last (xv g) 0 /\ last (yv g) 0 <= last (xv g) 0 /\ on_segment l q /\
  In (ptx q) (interior (xv g)) /\ ptx (p1 l) <> ptx (p2 l).
Proof.
  cbn. repeat split; try lra; auto. exists (1/2); unfold at_param; cbn; lra.
Qed.

(** C68: intersection of two segments. *)
Theorem C68_segment_intersection : forall l1 l2 q, cross l1 l2 <> 0 ->
  (intersect_ll l1 l2 = Some q <-> on_segment l1 q /\ on_segment l2 q).
Proof.
  intros l1 l2 q D; split; [apply intersect_ll_sound|].
  intros [A B]; now apply intersect_ll_complete.
Qed.
Print Assumptions C68_segment_intersection.

Theorem C68_parallel_not_reported : forall l1 l2, cross l1 l2 = 0 -> intersect_ll l1 l2 = None.
Proof.
  intros l1 l2 D; unfold intersect_ll, cross in *. destruct (Reqb_spec
    ((ptx (p2 l1) - ptx (p1 l1)) * (pty (p2 l2) - pty (p1 l2)) -
     (pty (p2 l1) - pty (p1 l1)) * (ptx (p2 l2) - ptx (p1 l2))) 0); [reflexivity|contradiction].
Qed.
Print Assumptions C68_parallel_not_reported.

Example C68_instance :
  cross {| p1 := {| ptx := 0; pty := 0 |}; p2 := {| ptx := 2; pty := 2 |} |}
        {| p1 := {| ptx := 0; pty := 2 |}; p2 := {| ptx := 2; pty := 0 |} |} <> 0 /\
  on_segment {| p1 := {| ptx := 0; pty := 0 |}; p2 := {| ptx := 2; pty := 2 |} |} {| ptx := 1; pty := 1 |} /\
  on_segment {| p1 := {| ptx := 0; pty := 2 |}; p2 := {| ptx := 2; pty := 0 |} |} {| ptx := 1; pty := 1 |}.
Proof.
  unfold cross; cbn. split; [lra|]. split; exists (1/2); unfold at_param; cbn; lra.
Qed.

(** C69: intersection of a segment that starts and ends outside a circle with that circle. *)
Theorem C69_circle_intersection : forall l c, outside c (p1 l) -> outside c (p2 l) -> p1 l <> p2 l ->
  (intersect_lc l c = CNone /\ forall q, on_segment l q -> ~ on_circle c q) \/
  (exists p q, intersect_lc l c = CTwo p q /\
     (forall z, on_segment l z /\ on_circle c z <-> z = p \/ z = q) /\
     exists s t, 0 < s <= t /\ t < 1 /\ at_param l s p /\ at_param l t q).
Proof. exact intersect_lc_spec. Qed.
Print Assumptions C69_circle_intersection.

(** A tangent segment is reported as two (equal) intersections: the tangent test in the code cannot fire. *)
Theorem C69_tangent_reported : exists l c p, outside c (p1 l) /\ outside c (p2 l) /\
  intersect_lc l c = CTwo p p.
Proof.
  exists {| p1 := {| ptx := -1; pty := 1 |}; p2 := {| ptx := 1; pty := 1 |} |},
    {| cc := {| ptx := 0; pty := 0 |}; cr := 1 |}, {| ptx := 0; pty := 1 |}.
  assert (O1 : outside {| cc := {| ptx := 0; pty := 0 |}; cr := 1 |} {| ptx := -1; pty := 1 |})
    by (unfold outside, power; cbn; lra).
  assert (O2 : outside {| cc := {| ptx := 0; pty := 0 |}; cr := 1 |} {| ptx := 1; pty := 1 |})
    by (unfold outside, power; cbn; lra).
  split; [exact O1|]. split; [exact O2|].
  destruct (intersect_lc_spec {| p1 := {| ptx := -1; pty := 1 |}; p2 := {| ptx := 1; pty := 1 |} |}
    {| cc := {| ptx := 0; pty := 0 |}; cr := 1 |} O1 O2) as [[_ H]|(p & q & E & H & _)].
  - cbn. intros E; injection E; lra.
  - exfalso. apply (H {| ptx := 0; pty := 1 |}).
    + exists (1/2); unfold at_param; cbn; lra.
    + unfold on_circle, power; cbn; lra.
  - assert (Z0 : forall z, z = p \/ z = q -> z = {| ptx := 0; pty := 1 |}).
    { intros [zx zy] Z. apply H in Z. destruct Z as [(t & T & T1 & T2) O].
      unfold on_circle, power in O; cbn in *. assert (zy = 1) by lra. subst zy.
      assert (ZZ : zx * zx = 0) by lra. apply Rmult_integral in ZZ. f_equal; lra. }
    rewrite E. rewrite (Z0 p), (Z0 q) by auto. reflexivity.
Qed.
Print Assumptions C69_tangent_reported.

Example C69_instance :
  let l := {| p1 := {| ptx := -2; pty := 0 |}; p2 := {| ptx := 2; pty := 0 |} |} in
  let c := {| cc := {| ptx := 0; pty := 0 |}; cr := 1 |} in
  outside c (p1 l) /\ outside c (p2 l) /\ p1 l <> p2 l /\
  on_segment l {| ptx := 1; pty := 0 |} /\ on_circle c {| ptx := 1; pty := 0 |}.
Proof.
  cbn. unfold outside, on_circle, power; cbn. repeat split; try lra.
  - intros E; injection E; lra.
  - exists (3/4); unfold at_param; cbn; lra.
Qed.
