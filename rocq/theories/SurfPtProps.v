(** Property theorems for the surfaces met at a point: C196. *)
From Coq Require Import Reals ZArith List Bool Lia Lra Psatz.
From Verif Require Import RUtil ListUtil GeomModel MeshModel MeshSpec MeshProofs CoreModel CoreProofs EquivProps RayCmModel RayCmProps SurfPtModel.
Import ListNotations.
Local Open Scope Z_scope.

(** ** Specification *)
(** The grid: lines growing, one more than there are cells. *)
Definition grid (m : Mesh) (xs ys : list R) : Prop := mesh_ok m /\ CoreProofs.increasing xs /\ CoreProofs.increasing ys /\ Z.of_nat (length xs) = nx m + 1 /\ Z.of_nat (length ys) = ny m + 1.
(** The point is a corner of cell [c]: its eastern or western, northern or southern. *)
Definition at_corner (xs ys : list R) (c : Position) (ux uy : bool) (p : Point2) : Prop :=
  nth_error xs (Z.to_nat (if ux then px c + 1 else px c)) = Some (ptx p) /\ nth_error ys (Z.to_nat (if uy then py c + 1 else py c)) = Some (pty p).
(** The surfaces crossed on the way from a cell through the sides [ss] in turn; only the last step may leave the mesh. *)
Inductive way (m : Mesh) : Position -> list Surface -> list Z -> Prop :=
  | way_nil : forall p, way m p [] []
  | way_step : forall p s ss k ks, in_mesh m p -> coarse_surf m (coarse_cell m p) s = Some k -> way m (move p s) ss ks -> way m p (s :: ss) (k :: ks).
Definition ex (u : bool) : Surface := if u then EAST else WEST.
Definition ey (u : bool) : Surface := if u then NORTH else SOUTH.
(** The same surfaces [z] planes higher. *)
Definition higher (m : Mesh) (z : Z) (o : SOut) : SOut := match o with SSurf l => SSurf (map (fun k => k + z * n_surf_plane m) l) | _ => o end.

(** ** Proofs *)
Section Point.
Variables (ulp : R -> R -> bool) (m : Mesh) (xs ys : list R).
Hypothesis U : ulp_sound ulp.
Hypothesis G : grid m xs ys.
Notation eqv := (fp_equiv ulp).
Notation point := (surf_point eqv m xs ys).

Lemma corner_lines : forall c ux uy p, in_mesh m c -> sharp xs (ptx p) -> sharp ys (pty p) -> at_corner xs ys c ux uy p ->
  point p (coarse_cell m c) = corner_surfs m (if ux then px c + 1 else px c) (if uy then py c + 1 else py c) (coarse_cell m c).
Proof.
  intros c ux uy p I Sx Sy [Ax Ay]. destruct G as (M & Ix & Iy & _). destruct (fp_equiv_sound ulp U) as [E1 E2]. destruct I as (X & Y & _). unfold surf_point.
  rewrite (line_index_on eqv E1 E2 xs _ _ 0 Ix Sx Ax), (line_index_on eqv E1 E2 ys _ _ 0 Iy Sy Ay). cbn [andb negb]. rewrite !Z2Nat.id by (destruct ux, uy; lia). reflexivity.
Qed.
Lemma surf_at : forall c s, in_mesh m c -> coarse_surf m (coarse_cell m c) s = Some (face_index m (face_of c s)).
Proof. intros. now apply coarse_surf_correct. Qed.
Lemma neigh_in : forall c s, in_mesh m c -> in_mesh m (move c s) -> coarse_neighbor m (coarse_cell m c) s = coarse_cell m (move c s).
Proof. intros c s I J. destruct G as [M _]. rewrite coarse_neighbor_spec by auto. now apply cell_or_none_in. Qed.
Lemma neigh_out : forall c s, in_mesh m c -> ~ in_mesh m (move c s) -> coarse_neighbor m (coarse_cell m c) s = -1.
Proof. intros c s I J. destruct G as [M _]. rewrite coarse_neighbor_spec by auto. now apply cell_or_none_out. Qed.
Lemma way1 : forall c s k, in_mesh m c -> coarse_surf m (coarse_cell m c) s = Some k -> way m c [s] [k].
Proof. intros. econstructor; eauto. constructor. Qed.
Lemma way2 : forall c s t k j, in_mesh m c -> in_mesh m (move c s) -> coarse_surf m (coarse_cell m c) s = Some k -> coarse_surf m (coarse_cell m (move c s)) t = Some j -> way m c [s; t] [k; j].
Proof. intros. econstructor; eauto. now apply way1. Qed.

(** Which corner is being looked at: the tests of the code, decided. *)
Lemma corner_value : forall c (ux uy : bool), in_mesh m c ->
  corner_surfs m (if ux then px c + 1 else px c) (if uy then py c + 1 else py c) (coarse_cell m c) =
  if in_mesh_dec m (move c (ex ux)) then
    if in_mesh_dec m (move c (ey uy)) then SSurf [face_index m (face_of c (ex ux)); face_index m (face_of (move c (ex ux)) (ey uy))]
    else if Bool.eqb ux uy then SSurf [face_index m (face_of (move c (ex ux)) (ey uy)); face_index m (face_of c (ex ux))]
    else SSurf [face_index m (face_of c (ey uy))]
  else if uy then SSurf [face_index m (face_of c (ex ux))]
  else if in_mesh_dec m (move c SOUTH) then SSurf [face_index m (face_of (move c SOUTH) (ex ux)); face_index m (face_of c SOUTH)]
  else SRead.
Proof.
  intros c ux uy I. destruct G as [M _]. unfold corner_surfs. rewrite position_of_cell by auto.
  assert (T : forall a b, (a =? b) = if Z.eq_dec a b then true else false) by (intros a b; destruct (Z.eq_dec a b) as [->|N]; [apply Z.eqb_refl|now apply Z.eqb_neq]).
  assert (I' := I). destruct I' as (X & Y & Zz).
  destruct ux, uy; rewrite ?T; repeat (match goal with |- context [if Z.eq_dec ?a ?b then _ else _] => destruct (Z.eq_dec a b); try lia end); cbn [ex ey] in *.
  all: repeat (match goal with |- context [in_mesh_dec m ?q] => destruct (in_mesh_dec m q) as [?|?] end); cbn [ex ey Bool.eqb] in *.
  all: try (exfalso; unfold in_mesh in *; cbn [move px py pz] in *; lia).
  all: repeat (rewrite neigh_in by assumption); repeat (rewrite neigh_out by assumption); rewrite ?surf_at by assumption; try reflexivity.
Qed.

(** C196: a point strictly inside a cell meets no surface. *)
Theorem C196_inside : forall p cell i j x0 x1 y0 y1, sharp xs (ptx p) -> sharp ys (pty p) -> nth_error xs i = Some x0 -> nth_error xs (S i) = Some x1 -> nth_error ys j = Some y0 -> nth_error ys (S j) = Some y1 ->
  (x0 < ptx p < x1)%R -> (y0 < pty p < y1)%R -> point p cell = SSurf [].
Proof.
  intros p cell i j x0 x1 y0 y1 Sx Sy A B C D Hx Hy. destruct G as (M & Ix & Iy & _). destruct (fp_equiv_sound ulp U) as [E1 E2]. unfold surf_point.
  rewrite (line_index_in eqv E1 E2 xs _ _ 0 _ _ Ix Sx A B Hx), (line_index_in eqv E1 E2 ys _ _ 0 _ _ Iy Sy C D Hy). reflexivity.
Qed.
(** C196: a corner of the grid that is no corner of the cell named is refused. *)
Theorem C196_elsewhere : forall p c i j, in_mesh m c -> sharp xs (ptx p) -> sharp ys (pty p) -> nth_error xs i = Some (ptx p) -> nth_error ys j = Some (pty p) ->
  (forall ux uy, ~ at_corner xs ys c ux uy p) -> point p (coarse_cell m c) = SAssert.
Proof.
  intros p c i j I Sx Sy Ax Ay N. destruct G as (M & Ix & Iy & _). destruct (fp_equiv_sound ulp U) as [E1 E2]. unfold surf_point.
  rewrite (line_index_on eqv E1 E2 xs _ _ 0 Ix Sx Ax), (line_index_on eqv E1 E2 ys _ _ 0 Iy Sy Ay). cbn [andb negb]. unfold corner_surfs. rewrite position_of_cell by auto.
  assert (Q : forall u v, Z.of_nat i = (if u : bool then px c + 1 else px c) -> Z.of_nat j = (if v : bool then py c + 1 else py c) -> False).
  { intros u v Hu Hv. apply (N u v). unfold at_corner. rewrite <- Hu, <- Hv, !Nat2Z.id. now split. }
  rewrite ?Z.add_0_l. destruct (Z.eqb_spec (Z.of_nat i) (px c)) as [a|a]; destruct (Z.eqb_spec (Z.of_nat j) (py c)) as [b|b]; [exfalso; now apply (Q false false)| | |].
  - destruct (Z.eqb_spec (Z.of_nat j) (py c + 1)) as [d|d]; [exfalso; now apply (Q false true)|reflexivity].
  - destruct (Z.eqb_spec (Z.of_nat i) (px c + 1)) as [d|d]; [exfalso; now apply (Q true false)|reflexivity].
  - destruct (Z.eqb_spec (Z.of_nat i) (px c + 1)) as [d|d]; [|reflexivity]. destruct (Z.eqb_spec (Z.of_nat j) (py c + 1)) as [e|e]; [exfalso; now apply (Q true true)|reflexivity].
Qed.
(** C196: a point inside a side of a cell [c] of the bottom plane gives the surface of that side, whichever cell was named. *)
Theorem C196_side : forall p cell c (u : bool), in_mesh m c -> pz c = 0 -> sharp xs (ptx p) -> sharp ys (pty p) ->
  (forall y0 y1, nth_error xs (Z.to_nat (if u then px c + 1 else px c)) = Some (ptx p) -> nth_error ys (Z.to_nat (py c)) = Some y0 -> nth_error ys (S (Z.to_nat (py c))) = Some y1 -> (y0 < pty p < y1)%R ->
     exists k, point p cell = SSurf [k] /\ coarse_surf m (coarse_cell m c) (ex u) = Some k) /\
  (forall x0 x1, nth_error ys (Z.to_nat (if u then py c + 1 else py c)) = Some (pty p) -> nth_error xs (Z.to_nat (px c)) = Some x0 -> nth_error xs (S (Z.to_nat (px c))) = Some x1 -> (x0 < ptx p < x1)%R ->
     exists k, point p cell = SSurf [k] /\ coarse_surf m (coarse_cell m c) (ey u) = Some k).
Proof.
  intros p cell c u I Z0 Sx Sy. destruct G as (M & Ix & Iy & _). destruct (fp_equiv_sound ulp U) as [E1 E2]. assert (I' := I). destruct I' as (X & Y & _). split.
  - intros y0 y1 A C D H. eexists. split; [|apply surf_at; exact I]. unfold surf_point. rewrite (line_index_on eqv E1 E2 xs _ _ 0 Ix Sx A), (line_index_in eqv E1 E2 ys _ _ 0 _ _ Iy Sy C D H). cbn [andb negb]. rewrite !Z2Nat.id by (destruct u; lia). do 2 f_equal. destruct u; unfold face_index; cbn [ex face_of surface_to_normal move fst snd px py pz]; lia.
  - intros y0 y1 A C D H. eexists. split; [|apply surf_at; exact I]. unfold surf_point. rewrite (line_index_on eqv E1 E2 ys _ _ 0 Iy Sy A), (line_index_in eqv E1 E2 xs _ _ 0 _ _ Ix Sx C D H). cbn [andb negb]. rewrite !Z2Nat.id by (destruct u; lia). do 2 f_equal. destruct u; unfold face_index; cbn [ey face_of surface_to_normal move fst snd px py pz]; lia.
Qed.
(** C196: at a corner inside the domain, the two surfaces on the way into the neighbour in x and from there into the diagonal one. *)
Theorem C196_corner : forall p c ux uy, in_mesh m c -> sharp xs (ptx p) -> sharp ys (pty p) -> at_corner xs ys c ux uy p -> in_mesh m (move c (ex ux)) -> in_mesh m (move c (ey uy)) ->
  exists k j, point p (coarse_cell m c) = SSurf [k; j] /\ way m c [ex ux; ey uy] [k; j].
Proof.
  intros p c ux uy I Sx Sy A Jx Jy. rewrite (corner_lines c ux uy p I Sx Sy A), (corner_value c ux uy I). destruct (in_mesh_dec m (move c (ex ux))) as [_|]; [|contradiction]. destruct (in_mesh_dec m (move c (ey uy))) as [_|]; [|contradiction].
  eexists _, _. split; [reflexivity|]. apply way2; auto; apply surf_at; auto.
Qed.
(** C196: at a corner on the western or eastern side of the domain, the way out of it: straight from the cell below the point, and
    through the cell below, in reverse order, from the cell above.  Below the lowest cells the table is read outside. *)
Theorem C196_west_east : forall p c ux uy, in_mesh m c -> sharp xs (ptx p) -> sharp ys (pty p) -> at_corner xs ys c ux uy p -> ~ in_mesh m (move c (ex ux)) ->
  (uy = true -> exists k, point p (coarse_cell m c) = SSurf [k] /\ way m c [ex ux] [k]) /\
  (uy = false -> in_mesh m (move c SOUTH) -> exists k j, point p (coarse_cell m c) = SSurf [k; j] /\ way m c [SOUTH; ex ux] [j; k]) /\
  (uy = false -> ~ in_mesh m (move c SOUTH) -> point p (coarse_cell m c) = SRead).
Proof.
  intros p c ux uy I Sx Sy A Jx. rewrite (corner_lines c ux uy p I Sx Sy A), (corner_value c ux uy I). destruct (in_mesh_dec m (move c (ex ux))) as [|_]; [contradiction|]. split; [|split]; intros ->.
  - eexists. split; [reflexivity|]. apply way1; auto. now apply surf_at.
  - intros J. destruct (in_mesh_dec m (move c SOUTH)) as [_|]; [|contradiction]. eexists _, _. split; [reflexivity|]. apply way2; auto; now apply surf_at.
  - intros J. destruct (in_mesh_dec m (move c SOUTH)) as [|_]; [contradiction|]. reflexivity.
Qed.
(** C196: at a corner on the southern or northern side (not a corner of the domain), the way out of it: straight from the cell to
    the west of the point on the southern side and to the east of it on the northern, else through that cell, in reverse order. *)
Theorem C196_south_north : forall p c ux uy, in_mesh m c -> sharp xs (ptx p) -> sharp ys (pty p) -> at_corner xs ys c ux uy p -> in_mesh m (move c (ex ux)) -> ~ in_mesh m (move c (ey uy)) ->
  (ux <> uy -> exists k, point p (coarse_cell m c) = SSurf [k] /\ way m c [ey uy] [k]) /\
  (ux = uy -> exists k j, point p (coarse_cell m c) = SSurf [k; j] /\ way m c [ex ux; ey uy] [j; k]).
Proof.
  intros p c ux uy I Sx Sy A Jx Jy. rewrite (corner_lines c ux uy p I Sx Sy A), (corner_value c ux uy I). destruct (in_mesh_dec m (move c (ex ux))) as [_|]; [|contradiction]. destruct (in_mesh_dec m (move c (ey uy))) as [|_]; [contradiction|]. split.
  - intros N. destruct (Bool.eqb_spec ux uy); [contradiction|]. eexists. split; [reflexivity|]. apply way1; auto. now apply surf_at.
  - intros N. destruct (Bool.eqb_spec ux uy); [|contradiction]. eexists _, _. split; [reflexivity|]. apply way2; auto; now apply surf_at.
Qed.
(** C196: a cell [z] planes up gives the surfaces [z] planes up (the declaration says those of the bottom plane). *)
Theorem C196_plane : forall p c ux uy, in_mesh m c -> sharp xs (ptx p) -> sharp ys (pty p) -> at_corner xs ys c ux uy p ->
  point p (coarse_cell m c) = higher m (pz c) (point p (coarse_cell m {| px := px c; py := py c; pz := 0 |})).
Proof.
  intros p c ux uy I Sx Sy A. set (c0 := {| px := px c; py := py c; pz := 0 |}). assert (I0 : in_mesh m c0) by (destruct I as (X & Y & Zz); destruct G as [(_ & _ & M) _]; unfold in_mesh, c0; cbn; lia).
  rewrite (corner_lines c ux uy p I Sx Sy A), (corner_lines c0 ux uy p I0 Sx Sy A), (corner_value c ux uy I). rewrite (corner_value c0 ux uy I0).
  assert (Q : forall s, s <> TOP -> s <> BOTTOM -> (in_mesh m (move c0 s) <-> in_mesh m (move c s))) by (intros s N1 N2; destruct I as (_ & _ & Zz); destruct G as [(_ & _ & M) _]; destruct s; try congruence; unfold in_mesh, c0; cbn; lia).
  assert (Qx := Q (ex ux) ltac:(destruct ux; discriminate) ltac:(destruct ux; discriminate)). assert (Qy := Q (ey uy) ltac:(destruct uy; discriminate) ltac:(destruct uy; discriminate)). assert (Qs := Q SOUTH ltac:(discriminate) ltac:(discriminate)). clear Q.
  assert (F : forall s, face_index m (face_of c s) = face_index m (face_of c0 s) + pz c * n_surf_plane m \/ s = TOP \/ s = BOTTOM) by (intros s; destruct s; auto; left; unfold face_index, c0; cbn [face_of surface_to_normal move fst snd px py pz]; ring).
  assert (F2 : forall s t, s = EAST \/ s = WEST \/ s = SOUTH -> t <> TOP -> t <> BOTTOM -> face_index m (face_of (move c s) t) = face_index m (face_of (move c0 s) t) + pz c * n_surf_plane m) by (intros s t [->|[->| ->]] T1 T2; destruct t; try congruence; unfold face_index, c0; cbn [face_of surface_to_normal move fst snd px py pz]; ring).
  assert (F1 : forall s, s <> TOP -> s <> BOTTOM -> face_index m (face_of c s) = face_index m (face_of c0 s) + pz c * n_surf_plane m) by (intros s T1 T2; destruct (F s) as [H|[H|H]]; [exact H|contradiction|contradiction]). clear F.
  destruct (in_mesh_dec m (move c (ex ux))) as [a|a], (in_mesh_dec m (move c0 (ex ux))) as [b|b]; try (exfalso; tauto); destruct (in_mesh_dec m (move c (ey uy))) as [a1|a1], (in_mesh_dec m (move c0 (ey uy))) as [b1|b1]; try (exfalso; tauto); destruct (in_mesh_dec m (move c SOUTH)) as [a2|a2], (in_mesh_dec m (move c0 SOUTH)) as [b2|b2]; try (exfalso; tauto);
    destruct ux, uy; cbn [Bool.eqb higher map ex ey]; rewrite ?F1, ?F2 by (discriminate || auto); reflexivity.
Qed.
End Point.

(** C196: the ways through a corner inside the domain from a cell and from its diagonal neighbour share no surface. *)
Theorem C196_back : forall ulp m xs ys p c ux uy k j k' j', ulp_sound ulp -> grid m xs ys -> in_mesh m c -> sharp xs (ptx p) -> sharp ys (pty p) -> at_corner xs ys c ux uy p -> in_mesh m (move c (ex ux)) -> in_mesh m (move c (ey uy)) ->
  surf_point (fp_equiv ulp) m xs ys p (coarse_cell m c) = SSurf [k; j] -> surf_point (fp_equiv ulp) m xs ys p (coarse_cell m (move (move c (ex ux)) (ey uy))) = SSurf [k'; j'] -> forall s, In s [k; j] -> ~ In s [k'; j'].
Proof.
  intros ulp m xs ys p c ux uy k j k' j' U G I Sx Sy A Jx Jy E E'. set (d := move (move c (ex ux)) (ey uy)) in *. assert (Id : in_mesh m d) by (unfold d; clear - I Jx Jy; destruct I, Jx as (X & _), Jy as (_ & Y & _); destruct ux, uy; unfold in_mesh in *; cbn [ex ey move px py pz] in *; lia).
  assert (B : at_corner xs ys d (negb ux) (negb uy) p) by (destruct A as [Ax Ay]; unfold at_corner, d; split; [rewrite <- Ax|rewrite <- Ay]; f_equal; f_equal; destruct ux, uy; cbn; lia).
  assert (Dx : in_mesh m (move d (ex (negb ux)))) by (clear - I Jx Jy; unfold d; destruct I, Jx as (X & _), Jy as (_ & Y & _); destruct ux, uy; unfold in_mesh in *; cbn [negb ex ey move px py pz] in *; lia).
  assert (Dy : in_mesh m (move d (ey (negb uy)))) by (clear - I Jx Jy; unfold d; destruct I, Jx as (X & _), Jy as (_ & Y & _); destruct ux, uy; unfold in_mesh in *; cbn [negb ex ey move px py pz] in *; lia).
  rewrite (corner_lines ulp m xs ys U G c ux uy p I Sx Sy A), (corner_value m xs ys G c ux uy I) in E. rewrite (corner_lines ulp m xs ys U G d _ _ p Id Sx Sy B), (corner_value m xs ys G d _ _ Id) in E'.
  destruct (in_mesh_dec m (move c (ex ux))) as [_|]; [|contradiction]. destruct (in_mesh_dec m (move c (ey uy))) as [_|]; [|contradiction]. destruct (in_mesh_dec m (move d (ex (negb ux)))) as [_|]; [|contradiction]. destruct (in_mesh_dec m (move d (ey (negb uy)))) as [_|]; [|contradiction]. injection E as <- <-. injection E' as <- <-.
  assert (M := proj1 G). assert (Fq : forall q1 s1 q2 s2, in_mesh m q1 -> in_mesh m q2 -> face_index m (face_of q1 s1) = face_index m (face_of q2 s2) -> face_of q1 s1 = face_of q2 s2) by (intros q1 s1 q2 s2 H1 H2 E; apply (face_index_inj m); auto; now apply face_of_ok).
  intros s [<-|[<-|[]]] [H|[H|[]]]; apply Fq in H; auto; unfold d in H; revert H; clear; destruct c as [cx cy cz]; destruct ux, uy; cbn [negb ex ey face_of surface_to_normal move px py pz]; intros H; try discriminate; injection H; intros; lia.
Qed.
Print Assumptions C196_elsewhere.
Print Assumptions C196_inside.
Print Assumptions C196_side.
Print Assumptions C196_corner.
Print Assumptions C196_west_east.
Print Assumptions C196_south_north.
Print Assumptions C196_plane.
Print Assumptions C196_back.

(** Two by two cells of side 2, two planes: the middle corner seen from the lowest cell, the same in the upper plane, a point on a
    side, and the two lower corners of the domain. *)
Example C196_instance : forall ulp, ulp_sound ulp -> let m := {| nx := 2; ny := 2; nz := 2 |} in let vs := [0; 2; 4]%R in let point := surf_point (fp_equiv ulp) m vs vs in grid m vs vs /\ (forall v, In v [0; 1; 2; 4]%R -> sharp vs v) /\
  point {| ptx := 2; pty := 2 |}%R 0 = SSurf [5; 14] /\ point {| ptx := 2; pty := 2 |}%R 3 = SSurf [8; 11] /\ point {| ptx := 2; pty := 2 |}%R 4 = SSurf [21; 30] /\ point {| ptx := 2; pty := 1 |}%R 4 = SSurf [5] /\ point {| ptx := 1; pty := 1 |}%R 0 = SSurf [] /\
  point {| ptx := 0; pty := 2 |}%R 2 = SSurf [4; 11] /\ point {| ptx := 0; pty := 2 |}%R 0 = SSurf [4] /\ point {| ptx := 0; pty := 0 |}%R 0 = SRead /\ point {| ptx := 4; pty := 0 |}%R 1 = SRead /\ point {| ptx := 0; pty := 4 |}%R 2 = SSurf [7].
Proof.
  intros ulp U m vs point. destruct (fp_equiv_sound ulp U) as [E1 E2].
  assert (Iv : CoreProofs.increasing vs) by (intros i j a b L A B; destruct i as [|[|[|i]]], j as [|[|[|j]]]; cbn in A, B; try lia; try discriminate; try (destruct i; discriminate); try (destruct j; discriminate); injection A as <-; injection B as <-; lra).
  assert (Sv : forall v, In v [0; 1; 2; 4]%R -> sharp vs v) by (intros v [<-|[<-|[<-|[<-|[]]]]]; (apply sharp_by; [lra|]; intros e [<-|[<-|[<-|[]]]]; lra)).
  assert (L0 : line_index (fp_equiv ulp) 0 vs 0 = (0, true)) by (apply (line_index_on _ E1 E2 vs 0%R 0%nat 0 Iv); [apply Sv; cbn; auto|reflexivity]).
  assert (L1 : line_index (fp_equiv ulp) 1 vs 0 = (0, false)) by (apply (line_index_in _ E1 E2 vs 1%R 0%nat 0 0%R 2%R Iv); [apply Sv; cbn; auto|reflexivity|reflexivity|lra]).
  assert (L2 : line_index (fp_equiv ulp) 2 vs 0 = (1, true)) by (apply (line_index_on _ E1 E2 vs 2%R 1%nat 0 Iv); [apply Sv; cbn; auto|reflexivity]).
  assert (L4 : line_index (fp_equiv ulp) 4 vs 0 = (2, true)) by (apply (line_index_on _ E1 E2 vs 4%R 2%nat 0 Iv); [apply Sv; cbn; auto|reflexivity]).
  split; [split; [unfold mesh_ok; cbn; lia|]; split; [exact Iv|]; split; [exact Iv|]; split; reflexivity|]. split; [exact Sv|].
  unfold point, surf_point. cbn [ptx pty]. rewrite L0, L1, L2, L4. repeat split; vm_compute; reflexivity.
Qed.
(** The far corner of four cells is no corner of the first. *)
Example C196_elsewhere_instance : let m := {| nx := 2; ny := 2; nz := 2 |} in let vs := [0; 2; 4]%R in let c := {| px := 0; py := 0; pz := 0 |} in let p := {| ptx := 4; pty := 4 |} in
  in_mesh m c /\ nth_error vs 2 = Some (ptx p) /\ nth_error vs 2 = Some (pty p) /\ forall ux uy, ~ at_corner vs vs c ux uy p.
Proof.
  cbn zeta. split; [unfold in_mesh; cbn; lia|]. split; [reflexivity|]. split; [reflexivity|]. intros ux uy [A _]. destruct ux; unfold at_corner in A; cbn in A; injection A as A; lra.
Qed.
