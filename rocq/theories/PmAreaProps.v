(** C97: areas of the sectors of a square pin. *)
From Coq Require Import Reals ZArith List Bool Lra Lia Psatz.
From Verif Require Import RUtil GeomModel GeomProofs PmModel PmProps.
Import ListNotations.
Local Open Scope R_scope.

(** Area of a polygon (vertices in order), by triangles from its first vertex. *)
Definition tri (o p q : Point2) : R := ((ptx p - ptx o) * (pty q - pty o) - (pty p - pty o) * (ptx q - ptx o)) / 2.
Fixpoint fan (o : Point2) (l : list Point2) : R := match l with p :: (q :: _) as r => tri o p q + fan o r | _ => 0 end.
Definition polygon_area (l : list Point2) : R := match l with [] => 0 | o :: r => fan o r end.
Definition pt (x y : R) : Point2 := {| ptx := x; pty := y |}.
(** The part of the square of half-width [h] in sector [i] of [n]: the centre, the edge point of the lower boundary, the
    corners passed, and the edge point of the upper boundary. *)
Definition sector_polygon (n i : nat) (h : R) : list Point2 :=
  let o := pt 0 0 in let e := h / sqrt 3 in
  match n, i with
  | 2, 0 => [o; pt h 0; pt h h; pt (- h) h; pt (- h) 0]
  | 2, 1 => [o; pt (- h) 0; pt (- h) (- h); pt h (- h); pt h 0]
  | 4, 0 => [o; pt h 0; pt h h; pt 0 h]
  | 4, 1 => [o; pt 0 h; pt (- h) h; pt (- h) 0]
  | 4, 2 => [o; pt (- h) 0; pt (- h) (- h); pt 0 (- h)]
  | 4, 3 => [o; pt 0 (- h); pt h (- h); pt h 0]
  | 6, 0 => [o; pt h 0; pt h h; pt e h]
  | 6, 1 => [o; pt e h; pt (- e) h]
  | 6, 2 => [o; pt (- e) h; pt (- h) h; pt (- h) 0]
  | 6, 3 => [o; pt (- h) 0; pt (- h) (- h); pt (- e) (- h)]
  | 6, 4 => [o; pt (- e) (- h); pt e (- h)]
  | 6, 5 => [o; pt e (- h); pt h (- h); pt h 0]
  | 8, 0 => [o; pt h 0; pt h h]
  | 8, 1 => [o; pt h h; pt 0 h]
  | 8, 2 => [o; pt 0 h; pt (- h) h]
  | 8, 3 => [o; pt (- h) h; pt (- h) 0]
  | 8, 4 => [o; pt (- h) 0; pt (- h) (- h)]
  | 8, 5 => [o; pt (- h) (- h); pt 0 (- h)]
  | 8, 6 => [o; pt 0 (- h); pt h (- h)]
  | 8, 7 => [o; pt h (- h); pt h 0]
  | _, _ => []
  end.
(** The corners and edge points lie on the directions that bound the sector (six sectors: 60 degrees). *)
Lemma sector_edge : forall h, 0 < h -> h / sqrt 3 * sin (PI / 3) - h * cos (PI / 3) = 0.
Proof. intros h H. rewrite sin_PI3, cos_PI3. assert (0 < sqrt 3) by (apply sqrt_lt_R0; lra). assert (sqrt 3 * sqrt 3 = 3) by (apply sqrt_sqrt; lra). field. lra. Qed.

(** What the constructor reports for the region outside the rings in sector [i]. *)
Definition outer_area (pm : CylPin) (i : nat) : option R := nth_error (cp_areas pm) (length (cp_radii pm) * Z.to_nat (cp_azi pm) + i).

Lemma ring_areas_length : forall radii prev azi, length (ring_areas radii prev azi) = (length radii * Z.to_nat azi)%nat.
Proof. induction radii as [|r t IH]; intros prev azi; [reflexivity|]. cbn [ring_areas length]. rewrite app_length, repeat_length, IH. lia. Qed.
Lemma nth_error_repeat' : forall (A : Type) (x : A) n i, (i < n)%nat -> nth_error (repeat x n) i = Some x.
Proof. intros A x n. induction n as [|n IH]; intros i H; [lia|]. destruct i; [reflexivity|]. cbn. apply IH. lia. Qed.
Lemma outer_area_value : forall id pitch xs azi sub pm i, cyl_ctor id pitch xs azi sub = PVal pm -> growing 0 xs -> Forall (fun k => (1 <= k)%Z) sub -> (Z.of_nat i < azi)%Z ->
  outer_area pm i = Some ((pitch * pitch - PI * last xs 0 * last xs 0) / IZR azi) /\ cp_azi pm = azi.
Proof.
  intros id pitch xs azi sub pm i H G K Hi.
  unfold cyl_ctor, base_ctor in H. destruct (Z.ltb_spec id 0); [discriminate|]. destruct (Rleb_spec pitch 0) as [P|P]; [discriminate|]. cbn [pbind] in H. destruct xs as [|x0 xs]; [discriminate|].
  set (xs' := x0 :: xs) in *. destruct (negb (ordered xs')); [discriminate|]. destruct (Rltb_spec (pitch * 0.5) (last xs' 0)); [discriminate|].
  destruct (negb (Z.rem azi 2 =? 0)%Z || (8 <? azi)%Z); [discriminate|]. destruct (Nat.eqb_spec (length sub) (length xs')) as [L|L]; [|discriminate]. cbn [negb] in H.
  destruct (mesh_radii xs' sub 0 0) as [radii| |] eqn:M; try discriminate. cbn [pbind] in H. assert (EP : pm = mkCyl pitch xs' azi sub radii (azi_lines pitch azi) (ring_areas radii 0 azi ++ repeat ((pitch * pitch - PI * last radii 0 * last radii 0) / IZR azi) (Z.to_nat azi))) by (destruct radii; [discriminate|]; congruence). clear H. subst pm.
  destruct (mesh_radii_spec xs' sub 0 azi (Rle_refl 0) G L K ltac:(lia)) as [rr [E [_ [E2 [E3 _]]]]]. rewrite M in E. injection E as <-.
  unfold outer_area. cbn [cp_areas cp_radii cp_azi]. split; [|reflexivity]. rewrite nth_error_app2 by (rewrite ring_areas_length; lia). rewrite ring_areas_length.
  replace (length radii * Z.to_nat azi + i - length radii * Z.to_nat azi)%nat with i by lia. rewrite nth_error_repeat' by lia. rewrite E2. reflexivity.
Qed.

(** With two, four or eight sectors the area reported outside the rings is that of the sector of the square less the
    circular sector. *)
Theorem C97_outer : forall id pitch xs azi sub pm i, cyl_ctor id pitch xs azi sub = PVal pm -> growing 0 xs -> Forall (fun k => (1 <= k)%Z) sub ->
  In azi [2; 4; 8]%Z -> (Z.of_nat i < azi)%Z ->
  outer_area pm i = Some (polygon_area (sector_polygon (Z.to_nat azi) i (pitch / 2)) - last xs 0 * last xs 0 * (2 * PI / IZR azi) / 2).
Proof.
  intros id pitch xs azi sub pm i H G K A Hi. destruct (outer_area_value id pitch xs azi sub pm i H G K Hi) as [E _]. rewrite E. f_equal.
  cbn in A. destruct A as [<-|[<-|[<-|[]]]]; [change (Z.to_nat 2) with 2%nat|change (Z.to_nat 4) with 4%nat|change (Z.to_nat 8) with 8%nat];
    (do 8 (destruct i as [|i]; [try lia; cbn [sector_polygon polygon_area fan]; unfold tri, pt; cbn [ptx pty]; field|])); lia.
Qed.
Print Assumptions C97_outer.
(** With six sectors it is not: the sectors that hold a corner of the square are larger than those that do not. *)
Theorem C97_six_refuted : forall id pitch xs sub pm, cyl_ctor id pitch xs 6 sub = PVal pm -> growing 0 xs -> Forall (fun k => (1 <= k)%Z) sub ->
  outer_area pm 0 = outer_area pm 1
  /\ polygon_area (sector_polygon 6 1 (pitch / 2)) < polygon_area (sector_polygon 6 0 (pitch / 2))
  /\ Rsum (map (fun i => polygon_area (sector_polygon 6 i (pitch / 2))) (seq 0 6)) = pitch * pitch.
Proof.
  intros id pitch xs sub pm H G K. destruct (outer_area_value id pitch xs 6 sub pm 0 H G K ltac:(lia)) as [E0 _]. destruct (outer_area_value id pitch xs 6 sub pm 1 H G K ltac:(lia)) as [E1 _].
  assert (P : 0 < pitch).
  { unfold cyl_ctor, base_ctor in H. destruct (Z.ltb_spec id 0); [discriminate|]. destruct (Rleb_spec pitch 0) as [P|P]; [discriminate|lra]. }
  split; [congruence|]. assert (S0 : 0 < sqrt 3) by (apply sqrt_lt_R0; lra). assert (S3 : sqrt 3 * sqrt 3 = 3) by (apply sqrt_sqrt; lra). assert (S1 : 3/2 < sqrt 3) by nra.
  split.
  - cbn [sector_polygon polygon_area fan]. unfold tri, pt. cbn [ptx pty]. set (h := pitch / 2). assert (Hh : 0 < h) by (unfold h; lra).
    set (e := h / sqrt 3). assert (HE : e * sqrt 3 = h) by (unfold e; field; lra). assert (0 < e) by (apply Rdiv_lt_0_compat; lra). assert (e < 2/3 * h) by nra. nra.
  - cbn [seq map sector_polygon polygon_area fan]. unfold Rsum, tri, pt. cbn [ptx pty fold_right]. field. lra.
Qed.
Print Assumptions C97_six_refuted.
Example C97_instance : exists pm, cyl_ctor 0 2 [1/2] 4 [1%Z] = PVal pm /\ outer_area pm 2 = Some (1 - 1/4 * (PI / 4)).
Proof.
  destruct (C59_cyl 0 2 [1/2] 4 [1%Z]) as [pm [E _]]; [lia|lra|discriminate|cbn; lra|cbn; lra|reflexivity|repeat constructor; lia|cbn; auto|].
  exists pm. split; [exact E|]. rewrite (C97_outer 0 2 [1/2] 4 [1%Z] pm 2 E); [|cbn; lra|repeat constructor; lia|cbn; auto|lia].
  f_equal. change (Z.to_nat 4) with 4%nat. cbn [sector_polygon polygon_area fan last]. unfold tri, pt. cbn [ptx pty]. field.
Qed.
