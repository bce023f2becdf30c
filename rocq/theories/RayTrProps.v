(** Property theorem for the segments of a ray: C110. *)
From Coq Require Import Reals ZArith List Bool Lia Lra Psatz.
From Verif Require Import RUtil McModel McProofs ListUtil StdAlg StdAlgProofs GeomModel GeomProofs TallyProofs MeshModel MatModel MatProps CoreModel CoreProofs BcProofs LatProps PlaneProps EquivProps AsmModel AsmProps CoreMapProps BcModel AngModel MacroProps HistModel LocProps PmModel PmProps PmTraceProps PmCylTrace PmCylChord RayTrModel.
Import ListNotations.
Local Open Scope R_scope.

(** ** Specification *)
(** A plane as the core builds it (see C58), whose lattices line up. *)
Record good_plane (ulp : R -> R -> bool) (ls : list Lattice) (nx ny : nat) (P : Plane) : Prop := {
  gp_nx : (1 <= nx)%nat; gp_ny : (1 <= ny)%nat; gp_len : length ls = (nx * ny)%nat; gp_zx : (Z.of_nat nx < 2 ^ 32 - 1)%Z; gp_zy : (Z.of_nat ny < 2 ^ 32 - 1)%Z;
  gp_lat : forall L, In L ls -> wf_lat L /\ wide L /\ 0 <= lat_hx L /\ 0 <= lat_hy L /\ (Z.of_nat (lat_nx L) < 2 ^ 32 - 1)%Z /\ (Z.of_nat (lat_ny L) < 2 ^ 32 - 1)%Z;
  gp_ulp : ulp_sound ulp; gp_made : make_plane ulp ls nx ny = Got P; gp_wide : wide_plane P;
  gp_up : forall X Y L A B, pl_at P X Y = Some L -> pl_at P X 0 = Some A -> pl_at P 0 Y = Some B -> (X < nx)%nat -> (Y < ny)%nat -> lat_hxv L = lat_hxv A /\ lat_hyv L = lat_hyv B }.
(** The coordinates of the pin boundaries. *)
Record grid (P : Plane) (xs ys : list R) : Prop := {
  gr_x : CoreProofs.increasing xs; gr_y : CoreProofs.increasing ys; gr_x0 : nth_error xs 0 = Some 0; gr_y0 : nth_error ys 0 = Some 0;
  gr_nx : length xs = (list_sum (colpins P) + 1)%nat; gr_ny : length ys = (list_sum (rowpins P) + 1)%nat;
  gr_ex : forall X Y L i, (X < pl_nx P)%nat -> (Y < pl_ny P)%nat -> pl_at P X Y = Some L -> (i <= lat_nx L)%nat -> nth_error xs (before (colpins P) X + i) = Some (lat_left P X + col_start L i);
  gr_ey : forall X Y L i, (X < pl_nx P)%nat -> (Y < pl_ny P)%nat -> pl_at P X Y = Some L -> (i <= lat_ny L)%nat -> nth_error ys (before (rowpins P) Y + i) = Some (lat_bottom P Y + row_start L i) }.
(** [v] is further from every boundary than the comparisons can tell. *)
Definition clear (vs : list R) (v : R) : Prop := forall e, In e vs -> tol v < Rabs (v - e).
(** The comparison of points tells the points apart. *)
Definition told (eqp : Point2 -> Point2 -> bool) (pts : list Point2) : Prop := forall p q, In p pts -> In q pts -> eqp p q = true -> p = q.
(** The number of regions of a pin mesh. *)
Definition geo_regs (g : Geo) : Z := match g with GRect r => Z.of_nat (rp_nx r * rp_ny r) | GCyl c => ((Z.of_nat (length (cp_radii c)) + 1) * cp_azi c)%Z end.
(** A pin's mesh is the one its record describes: square, with its number of regions, made by its constructor; a cylindrical one has 2, 4 or 6 sectors and
    rings within the pin. *)
Definition geo_ok (pm : PinMesh) (g : Geo) : Prop :=
  pm_py pm = pm_px pm /\ Z.of_nat (pm_nreg pm) = geo_regs g /\
  match g with
  | GRect r => exists id nx ny, rect_ctor id (pm_px pm) nx ny = PVal r
  | GCyl c => exists id xs azi sub, cyl_ctor id (pm_px pm) xs azi sub = PVal c /\ growing 0 xs /\ Forall (fun k => (1 <= k)%Z) sub /\ In azi [2; 4; 6]%Z /\ last xs 0 < pm_px pm / 2 /\ REAL_FUZZ < pm_px pm / 2 /\ pm_px pm / 2 < 10 ^ 11
  end.
(** A point of a pin is in the region: cells of rectangular pins, rings and sectors of cylindrical ones (see C93, C94). *)
Definition geo_in (pm : PinMesh) (g : Geo) : Point2 -> Reg -> Prop :=
  match g with GRect r => in_cell (pm_px pm) (rp_nx r) (rp_ny r) | GCyl c => in_zone (cp_radii c) (cp_azi c) end.
Definition on_border (xs ys : list R) (p : Point2) : Prop := 0 <= ptx p <= last xs 0 /\ 0 <= pty p <= last ys 0 /\ (ptx p = 0 \/ ptx p = last xs 0 \/ pty p = 0 \/ pty p = last ys 0).
Definition in_box (x0 y0 w h : R) (p : Point2) : Prop := x0 <= ptx p <= x0 + w /\ y0 <= pty p <= y0 + h.

(** ** Proofs *)
Lemma cell_find : forall l v a, nth_error l 0 = Some a -> a < v < last l 0 -> ~ In v l -> exists i lo hi, nth_error l i = Some lo /\ nth_error l (S i) = Some hi /\ lo < v < hi.
Proof.
  induction l as [|x l IH]; intros v a E H N; [discriminate|]. injection E as ->. destruct l as [|y l]; [cbn in H; lra|]. destruct (Rlt_dec v y) as [L|L].
  - exists 0%nat, a, y. split; [reflexivity|]. split; [reflexivity|]. lra.
  - destruct (Req_dec v y) as [->|D]; [exfalso; apply N; right; now left|]. destruct (IH v y eq_refl) as (i & lo & hi & A & B & C).
    + change (last (a :: y :: l) 0) with (last (y :: l) 0) in H. lra.
    + intros I. apply N. now right.
    + exists (S i), lo, hi. auto.
Qed.
Lemma interior_in : forall (l : list R) i v, nth_error l (S i) = Some v -> (S (S i) < length l)%nat -> In v (interior l).
Proof.
  intros [|x l] i v E H; [discriminate|]. unfold interior. cbn [tl]. cbn [nth_error] in E. cbn [length] in H.
  assert (G : forall (l : list R) i, nth_error l i = Some v -> (S i < length l)%nat -> In v (removelast l)).
  { induction l0 as [|y l0 IH]; intros k Q Z; [destruct k; discriminate|]. destruct l0 as [|z l0]; [cbn in Z; lia|]. change (In v (y :: removelast (z :: l0))). destruct k as [|k]; [left; now injection Q|]. right. apply (IH k); [exact Q|cbn in *; lia]. }
  apply (G l i E). lia.
Qed.
Lemma interior_incl : forall (l : list R) v, In v (interior l) -> In v l.
Proof.
  intros [|x l] v I; [destruct I|]. unfold interior in I. cbn [tl] in I. right. revert I. clear x. induction l as [|y l IH]; [intros []|]. destruct l as [|z l]; [intros []|]. change (In v (y :: removelast (z :: l)) -> In v (y :: z :: l)). intros [<-|I]; [now left|right; auto].
Qed.
Lemma last_nth : forall (l : list R) d, l <> [] -> nth_error l (length l - 1) = Some (last l d).
Proof.
  induction l as [|x l IH]; intros d N; [contradiction|]. destruct l as [|y l]; [reflexivity|]. change (last (x :: y :: l) d) with (last (y :: l) d). rewrite <- (IH d) by discriminate. cbn [length]. replace (S (S (length l)) - 1)%nat with (S (S (length l) - 1)) by lia. reflexivity.
Qed.
Lemma on_mix : forall l p q t, on_segment l p -> on_segment l q -> 0 <= t <= 1 -> on_segment l {| ptx := ptx p + t * (ptx q - ptx p); pty := pty p + t * (pty q - pty p) |}.
Proof.
  intros l p q t (u & Hu & U1 & U2) (v & Hv & V1 & V2) Ht. exists (u + t * (v - u)). split; [nra|]. unfold at_param. cbn [ptx pty]. rewrite U1, U2, V1, V2. split; ring.
Qed.

Section Mesh.
Variables (xs ys : list R) (a b : Point2).
Hypothesis IX : CoreProofs.increasing xs.
Hypothesis IY : CoreProofs.increasing ys.
Hypothesis X0 : nth_error xs 0 = Some 0.
Hypothesis Y0 : nth_error ys 0 = Some 0.
Hypothesis flat : last ys 0 <= last xs 0.
Hypothesis rise : pty a < pty b.
Hypothesis Ba : on_border xs ys a.
Hypothesis Bb : on_border xs ys b.
Let l : Line := {| p1 := a; p2 := b |}.
Let pts := trace_points (mesh_lines xs ys (last xs 0)) l.

Lemma pts_on_chord : Forall (on_segment l) pts.
Proof. apply Forall_forall. intros z I. unfold pts in I. apply trace_points_in in I. destruct I as (li & _ & E). apply intersect_ll_sound in E. apply E. Qed.
Lemma dom : forall p, on_segment l p -> 0 <= ptx p <= last xs 0 /\ 0 <= pty p <= last ys 0.
Proof.
  intros p (t & Ht & E1 & E2). unfold l in E1, E2. cbn [p1 p2] in E1, E2. destruct Ba as (A1 & A2 & _). destruct Bb as (B1 & B2 & _). rewrite E1, E2. split; split; nra.
Qed.
Lemma in_last : forall (vs : list R) v i, CoreProofs.increasing vs -> nth_error vs i = Some v -> v < last vs 0 -> (S i < length vs)%nat.
Proof.
  intros vs v i I E L. assert (i < length vs)%nat as H by (apply nth_error_Some; congruence). destruct (Nat.eq_dec (S i) (length vs)) as [Q|Q]; [|lia]. exfalso. assert (N : vs <> []) by (intros ->; cbn in H; lia). pose proof (last_nth vs 0 N) as E'. replace (length vs - 1)%nat with i in E' by lia. rewrite E in E'. injection E' as E'. lra.
Qed.
Section Piece.
Variables (y1 y2 : R).
Hypothesis gap : forall z, In z pts -> y1 < pty z < y2 -> False.
Variable m : Point2.
Hypothesis Sm : on_segment l m.
Hypothesis Hm : y1 < pty m < y2.
Lemma no_cross_x : forall e v i, on_segment l e -> y1 <= pty e <= y2 -> nth_error xs i = Some v -> (ptx e < v < ptx m \/ ptx m < v < ptx e) -> False.
Proof.
  intros e v i Se He Ev B. assert (Lx := dom e Se). assert (Lm := dom m Sm). destruct Lx as [Lx _]. destruct Lm as [Lm _].
  assert (Hi : i <> 0%nat) by (intros ->; rewrite X0 in Ev; injection Ev as <-; destruct B; lra). destruct i as [|i]; [contradiction|].
  assert (Iv : In v (interior xs)) by (apply (interior_in xs i v Ev), (in_last xs v (S i) IX Ev); destruct B; lra).
  set (t := (v - ptx m) / (ptx e - ptx m)). assert (D : ptx e - ptx m <> 0) by (destruct B; lra).
  assert (T : 0 < t < 1).
  { unfold t. destruct B as [B|B].
    - replace ((v - ptx m) / (ptx e - ptx m)) with ((ptx m - v) / (ptx m - ptx e)) by (field; lra). split; [apply Rdiv_lt_0_compat; lra|]. apply (Rmult_lt_reg_r (ptx m - ptx e)); [lra|]. replace ((ptx m - v) / (ptx m - ptx e) * (ptx m - ptx e)) with (ptx m - v) by (field; lra). lra.
    - split; [apply Rdiv_lt_0_compat; lra|]. apply (Rmult_lt_reg_r (ptx e - ptx m)); [lra|]. replace ((v - ptx m) / (ptx e - ptx m) * (ptx e - ptx m)) with (v - ptx m) by (field; lra). lra. }
  pose proof (on_mix l m e t Sm Se ltac:(lra)) as Sz. set (z := {| ptx := _; pty := _ |}) in Sz. assert (Ez : ptx z = v) by (unfold z, t; cbn [ptx]; field; exact D).
  apply (gap z).
  - unfold pts. pose proof (dom z Sz) as [D1 D2]. apply (vertical_found xs ys (last xs 0) l z v Iv); [lra|exact Sz|exact Ez|lra|].
    unfold l. cbn [p1 p2]. intros Q. destruct Sm as (t1 & _ & M1 & _). destruct Se as (t2 & _ & E1 & _). unfold l in M1, E1. cbn [p1 p2] in M1, E1. rewrite Q in M1, E1. apply D. rewrite M1, E1. ring.
  - unfold z. cbn [pty]. nra.
Qed.
Lemma no_cross_y : forall e v i, on_segment l e -> y1 <= pty e <= y2 -> nth_error ys i = Some v -> (pty e < v < pty m \/ pty m < v < pty e) -> False.
Proof.
  intros e v i Se He Ev B. assert (Lx := dom e Se). assert (Lm := dom m Sm). destruct Lx as [_ Lx]. destruct Lm as [_ Lm].
  assert (Hi : i <> 0%nat) by (intros ->; rewrite Y0 in Ev; injection Ev as <-; destruct B; lra). destruct i as [|i]; [contradiction|].
  assert (Iv : In v (interior ys)) by (apply (interior_in ys i v Ev), (in_last ys v (S i) IY Ev); destruct B; lra).
  destruct (chord_at a b rise v) as (z & Sz & Ez).
  { pose proof (chord_y a b rise m Sm). pose proof (chord_y a b rise e Se). destruct B; lra. }
  apply (gap z); [|lra]. pose proof (dom z Sz) as [D1 D2]. unfold pts. apply (horizontal_found xs ys (last xs 0) l z v Iv); [|exact Sz|exact Ez|lra|unfold l; cbn [p1 p2]; lra].
  destruct Ba as (_ & A2 & _). destruct Bb as (_ & B2 & _). lra.
Qed.
End Piece.
(** Consecutive cuts lie in the cell of their midpoint. *)
Lemma piece_cell : forall eqp u x y, sort_gives (a :: b :: pts) u -> told eqp (a :: b :: pts) -> adjacent x y (unique eqp u) ->
  clear xs (ptx (midpoint y x)) -> clear ys (pty (midpoint y x)) ->
  exists i j x0 x1 y0 y1, nth_error xs i = Some x0 /\ nth_error xs (S i) = Some x1 /\ nth_error ys j = Some y0 /\ nth_error ys (S j) = Some y1 /\ pty x < pty y /\
  x0 < ptx (midpoint y x) < x1 /\ y0 < pty (midpoint y x) < y1 /\ (x0 <= ptx x <= x1 /\ y0 <= pty x <= y1) /\ (x0 <= ptx y <= x1 /\ y0 <= pty y <= y1) /\
  (ptx x = x0 \/ ptx x = x1 \/ pty x = y0 \/ pty x = y1) /\ (ptx y = x0 \/ ptx y = x1 \/ pty y = y0 \/ pty y = y1).
Proof.
  intros eqp u x y S T A Cx Cy. pose proof pts_on_chord as F. destruct (adjacent_on a b rise eqp pts u x y S F A) as [Sx Sy]. pose proof (adjacent_le a b rise eqp pts u x y S F A) as Le.
  assert (Tu : forall p q, In p u -> In q u -> eqp p q = true -> p = q) by (intros p q Hp Hq; apply T; apply (Permutation.Permutation_in _ (Permutation.Permutation_sym (proj1 S))); assumption).
  set (m := midpoint y x) in *. assert (Sm : on_segment l m) by (apply midpoint_on; assumption).
  (* every cut is on the grid *)
  assert (G : forall z, In z (unique eqp u) -> In (ptx z) xs \/ In (pty z) ys).
  { intros z Iz. assert (In z u) as Iu. { destruct (unique_sorted a b rise eqp pts u S F) as (r & Eu & _ & _ & Uq). rewrite Uq in Iz. apply uniq_in in Iz. now rewrite Eu. }
    apply (Permutation.Permutation_in _ (Permutation.Permutation_sym (proj1 S))) in Iu.
    assert (NX : xs <> []) by (intros Q; rewrite Q in X0; discriminate). assert (NY : ys <> []) by (intros Q; rewrite Q in Y0; discriminate).
    assert (Lx : In (last xs 0) xs) by (eapply nth_error_In, last_nth, NX). assert (Ly : In (last ys 0) ys) by (eapply nth_error_In, last_nth, NY).
    assert (Bd : forall p, on_border xs ys p -> In (ptx p) xs \/ In (pty p) ys) by (intros p (_ & _ & [Q|[Q|[Q|Q]]]); rewrite Q; [left; eapply nth_error_In; eauto|now left|right; eapply nth_error_In; eauto|now right]).
    destruct Iu as [<-|[<-|Iu]]; [now apply Bd|now apply Bd|]. unfold pts in Iu. apply trace_points_sound in Iu; [|destruct Ba; lra]. destruct Iu as [_ [[Iu _]|[Iu _]]]; [left|right]; now apply interior_incl. }
  destruct (adjacent_in _ _ _ A) as [Ix Iy].
  assert (Ex : ptx m = 0.5 * (ptx y + ptx x)) by reflexivity. assert (Ey : pty m = 0.5 * (pty y + pty x)) by reflexivity.
  pose proof FUZZ_pos as FZ. assert (Tp : forall v, 0 < tol v) by (intro v; unfold tol; pose proof (Rmax_l 1 (Rabs v)); nra).
  assert (Ncx : ~ In (ptx m) xs) by (intros I; specialize (Cx _ I); rewrite Rminus_diag_eq, Rabs_R0 in Cx by reflexivity; pose proof (Tp (ptx m)); lra).
  assert (Ncy : ~ In (pty m) ys) by (intros I; specialize (Cy _ I); rewrite Rminus_diag_eq, Rabs_R0 in Cy by reflexivity; pose proof (Tp (pty m)); lra).
  assert (Lt : pty x < pty y).
  { destruct Le as [Lt|E]; [exact Lt|]. exfalso. assert (x = y) as Q by (apply (chord_inj a b rise); assumption). assert (ptx m = ptx x /\ pty m = pty x) as [Q1 Q2] by (rewrite Ex, Ey, Q; lra). destruct (G x Ix) as [I|I]; [rewrite <- Q1 in I|rewrite <- Q2 in I]; contradiction. }
  assert (Hm : pty x < pty m < pty y) by lra.
  pose proof (dom m Sm) as [Dmx Dmy]. pose proof (dom x Sx) as [Dxx Dxy]. pose proof (dom y Sy) as [Dyx Dyy].
  assert (In0x : In 0 xs) by (eapply nth_error_In; eauto). assert (In0y : In 0 ys) by (eapply nth_error_In; eauto).
  assert (InLx : In (last xs 0) xs) by (eapply nth_error_In, last_nth; intros Q; rewrite Q in X0; discriminate). assert (InLy : In (last ys 0) ys) by (eapply nth_error_In, last_nth; intros Q; rewrite Q in Y0; discriminate).
  assert (forall v w (vs : list R), In w vs -> ~ In v vs -> v <> w) as NE by (intros v w vs I N ->; contradiction).
  pose proof (NE _ _ _ In0x Ncx). pose proof (NE _ _ _ InLx Ncx). pose proof (NE _ _ _ In0y Ncy). pose proof (NE _ _ _ InLy Ncy).
  destruct (cell_find xs (ptx m) 0 X0 ltac:(lra) Ncx) as (i & x0 & x1 & Ei & Ei' & Bi). destruct (cell_find ys (pty m) 0 Y0 ltac:(lra) Ncy) as (j & y0 & y1 & Ej & Ej' & Bj).
  assert (gap : forall z, In z pts -> pty x < pty z < pty y -> False) by (intros z Iz Hz; exact (no_point_inside a b rise eqp pts u x y z S F Tu A Iz Hz)).
  assert (CX : forall e, on_segment l e -> pty x <= pty e <= pty y -> x0 <= ptx e <= x1).
  { intros e Se He. destruct (Rlt_dec (ptx e) x0); [exfalso; apply (no_cross_x (pty x) (pty y) gap m Sm Hm e x0 i Se He Ei); lra|]. destruct (Rlt_dec x1 (ptx e)); [exfalso; apply (no_cross_x (pty x) (pty y) gap m Sm Hm e x1 (Datatypes.S i) Se He Ei'); lra|]. lra. }
  assert (CY : forall e, on_segment l e -> pty x <= pty e <= pty y -> y0 <= pty e <= y1).
  { intros e Se He. destruct (Rlt_dec (pty e) y0); [exfalso; apply (no_cross_y (pty x) (pty y) gap m Sm Hm e y0 j Se He Ej); lra|]. destruct (Rlt_dec y1 (pty e)); [exfalso; apply (no_cross_y (pty x) (pty y) gap m Sm Hm e y1 (Datatypes.S j) Se He Ej'); lra|]. lra. }
  assert (ND : forall vs k lo hi v, CoreProofs.increasing vs -> nth_error vs k = Some lo -> nth_error vs (Datatypes.S k) = Some hi -> In v vs -> lo <= v <= hi -> v = lo \/ v = hi).
  { intros vs k lo hi v I K1 K2 Iv Bv. apply In_nth_error in Iv. destruct Iv as [q Eq]. destruct (Nat.le_gt_cases q k) as [C|C].
    - left. pose proof (increasing_le vs q k v lo I C Eq K1). lra.
    - right. pose proof (increasing_le vs (Datatypes.S k) q hi v I ltac:(lia) K2 Eq). lra. }
  exists i, j, x0, x1, y0, y1. pose proof (CX x Sx ltac:(lra)) as X1. pose proof (CY x Sx ltac:(lra)) as Y1. pose proof (CX y Sy ltac:(lra)) as X2. pose proof (CY y Sy ltac:(lra)) as Y2.
  split; [exact Ei|]. split; [exact Ei'|]. split; [exact Ej|]. split; [exact Ej'|]. split; [exact Lt|]. split; [exact Bi|]. split; [exact Bj|]. split; [split; assumption|]. split; [split; assumption|]. split.
  - destruct (G x Ix) as [I|I]; [destruct (ND xs i x0 x1 _ IX Ei Ei' I X1); auto|destruct (ND ys j y0 y1 _ IY Ej Ej' I Y1); auto].
  - destruct (G y Iy) as [I|I]; [destruct (ND xs i x0 x1 _ IX Ei Ei' I X2); auto|destruct (ND ys j y0 y1 _ IY Ej Ej' I Y2); auto].
Qed.
End Mesh.

(** The pin of a cell of the grid, and its lookup by a point clear of the boundaries. *)
Lemma cell_pin : forall ulp ls nx ny P xs ys, good_plane ulp ls nx ny P -> grid P xs ys -> forall i j x0 x1 y0 y1, nth_error xs i = Some x0 -> nth_error xs (S i) = Some x1 -> nth_error ys j = Some y0 -> nth_error ys (S j) = Some y1 ->
  exists k p, nth_error (flat_map lat_pins ls) k = Some p /\ pin_position P k = Some (i, j) /\ x1 = x0 + pm_px (pin_mesh p) /\ y1 = y0 + pm_py (pin_mesh p) /\
  forall m, x0 < ptx m < x1 -> y0 < pty m < y1 -> clear xs (ptx m) -> clear ys (pty m) ->
  get_pin ulp P m = Some (pin_mesh p, {| ptx := x0 + pm_px (pin_mesh p) / 2; pty := y0 + pm_py (pin_mesh p) / 2 |}, regions_before (flat_map lat_pins ls) k).
Proof.
  intros ulp ls nx ny P xs ys GP G i j x0 x1 y0 y1 Ei Ei' Ej Ej'. destruct GP as [Nx Ny Ll Zx Zy HL U EP WP UP].
  destruct (made_plane ulp ls nx ny P Nx Ny Ll (fun l I => proj1 (HL l I)) EP) as (W & Ls & PNx & PNy).
  assert (Hi : (i < list_sum (colpins P))%nat) by (assert (S i < length xs)%nat by (apply nth_error_Some; congruence); rewrite (gr_nx P xs ys G) in H; lia).
  assert (Hj : (j < list_sum (rowpins P))%nat) by (assert (S j < length ys)%nat by (apply nth_error_Some; congruence); rewrite (gr_ny P xs ys G) in H; lia).
  destruct (before_find _ _ Hi) as (X & cx & x & EX & Hx & ->). destruct (before_find _ _ Hj) as (Y & cy & y & EY & Hy & ->).
  assert (HX : (X < nx)%nat) by (rewrite <- PNx; assert (X < length (colpins P))%nat by (apply nth_error_Some; congruence); unfold colpins in H; rewrite map_length, seq_length in H; exact H).
  assert (HY : (Y < ny)%nat) by (rewrite <- PNy; assert (Y < length (rowpins P))%nat by (apply nth_error_Some; congruence); unfold rowpins in H; rewrite map_length, seq_length in H; exact H).
  destruct (pl_at_ex P W X Y ltac:(lia) ltac:(lia)) as (L & EL & WL). destruct (pl_at_ex P W X 0 ltac:(lia) ltac:(lia)) as (A & EA & WA). destruct (pl_at_ex P W 0 Y ltac:(lia) ltac:(lia)) as (B & EB & WB).
  destruct (UP X Y L A B EL EA EB HX HY) as [LX LY].
  assert (cx = lat_nx A). { unfold colpins in EX. rewrite nth_error_map, nth_seq in EX by lia. cbn [option_map Nat.add] in EX. rewrite EA in EX. congruence. } subst cx.
  assert (cy = lat_ny B). { unfold rowpins in EY. rewrite nth_error_map, nth_seq in EY by lia. cbn [option_map Nat.add] in EY. rewrite EB in EY. congruence. } subst cy.
  assert (NA : lat_nx A = lat_nx L) by (rewrite <- (wl_hxl A WA), <- LX; apply wl_hxl, WL). assert (NB : lat_ny B = lat_ny L) by (rewrite <- (wl_hyl B WB), <- LY; apply wl_hyl, WL). rewrite NA in Hx. rewrite NB in Hy.
  assert (exists p, lat_at L x y = Some p) as [p Ep].
  { unfold lat_at. destruct (nth_error (lat_pins L) (y * lat_nx L + x)) as [p|] eqn:E; [eauto|]. apply nth_error_None in E. rewrite (wl_len L WL) in E. nia. }
  destruct (starts_succ L WL x y p Hx Hy Ep) as [SX SY].
  pose proof (gr_ex P xs ys G X Y L x ltac:(lia) ltac:(lia) EL ltac:(lia)) as E0. rewrite Ei in E0. injection E0 as ->.
  pose proof (gr_ex P xs ys G X Y L (x + 1)%nat ltac:(lia) ltac:(lia) EL ltac:(lia)) as E1. replace (before (colpins P) X + (x + 1))%nat with (S (before (colpins P) X + x)) in E1 by lia. rewrite Ei', SX in E1. injection E1 as ->.
  pose proof (gr_ey P xs ys G X Y L y ltac:(lia) ltac:(lia) EL ltac:(lia)) as F0. rewrite Ej in F0. injection F0 as ->.
  pose proof (gr_ey P xs ys G X Y L (y + 1)%nat ltac:(lia) ltac:(lia) EL ltac:(lia)) as F1. replace (before (rowpins P) Y + (y + 1))%nat with (S (before (rowpins P) Y + y)) in F1 by lia. rewrite Ej', SY in F1. injection F1 as ->.
  (* the sides of the lattice are on the grid as well *)
  pose proof (gr_ex P xs ys G X Y L 0%nat ltac:(lia) ltac:(lia) EL ltac:(lia)) as L0. pose proof (gr_ex P xs ys G X Y L (lat_nx L) ltac:(lia) ltac:(lia) EL ltac:(lia)) as L1.
  pose proof (gr_ey P xs ys G X Y L 0%nat ltac:(lia) ltac:(lia) EL ltac:(lia)) as M0. pose proof (gr_ey P xs ys G X Y L (lat_ny L) ltac:(lia) ltac:(lia) EL ltac:(lia)) as M1.
  assert (FS : forall hv n, length hv = n -> rsum (fun k => nth k hv 0) n = fold_left Rplus hv 0).
  { intros hv n <-. rewrite fold_sum. ring. }
  assert (HXA : col_start L (lat_nx L) = lat_hx A) by (rewrite (col_start_spec L _ WL) by lia; rewrite (wl_hx A WA), <- LX; apply FS, wl_hxl, WL).
  assert (HYB : row_start L (lat_ny L) = lat_hy B) by (rewrite (row_start_spec L _ WL) by lia; rewrite (wl_hy B WB), <- LY; apply FS, wl_hyl, WL).
  rewrite HXA in L1. rewrite HYB in M1. assert (C0 : col_start L 0 = 0) by reflexivity. assert (R0 : row_start L 0 = 0) by reflexivity. rewrite C0 in L0. rewrite R0 in M0.
  set (x0 := lat_left P X + col_start L x) in *. set (y0 := lat_bottom P Y + row_start L y) in *.
  assert (KEY : forall mx my, x0 < mx < x0 + pm_px (pin_mesh p) -> y0 < my < y0 + pm_py (pin_mesh p) -> clear xs mx -> clear ys my ->
    LatProps.inside (lat_left P X) (lat_hx A) mx true /\ LatProps.inside (lat_bottom P Y) (lat_hy B) my true /\ LatProps.inside (col_start L x) (pm_px (pin_mesh p)) (mx - lat_left P X) true /\ LatProps.inside (row_start L y) (pm_py (pin_mesh p)) (my - lat_bottom P Y) true).
  { intros mx my Bx By Cx Cy.
    assert (Z : forall vs k v, CoreProofs.increasing vs -> nth_error vs 0 = Some 0 -> nth_error vs k = Some v -> 0 <= v) by (intros vs k v I Z0 K; apply (increasing_le vs 0 k 0 v I ltac:(lia) Z0 K)).
    pose proof (Z xs _ _ (gr_x P xs ys G) (gr_x0 P xs ys G) L0) as Zl. pose proof (Z ys _ _ (gr_y P xs ys G) (gr_y0 P xs ys G) M0) as Zb. rewrite Rplus_0_r in Zl, Zb.
    assert (IL : forall vs i j a b, CoreProofs.increasing vs -> nth_error vs i = Some a -> nth_error vs j = Some b -> (i <= j)%nat -> a <= b) by (intros vs i j a b I A1 B1 Le; exact (increasing_le vs i j a b I Le A1 B1)).
    pose proof (IL xs _ _ _ _ (gr_x P xs ys G) L0 Ei ltac:(lia)) as O1. pose proof (IL xs _ _ _ _ (gr_x P xs ys G) Ei' L1 ltac:(lia)) as O2.
    pose proof (IL ys _ _ _ _ (gr_y P xs ys G) M0 Ej ltac:(lia)) as O3. pose proof (IL ys _ _ _ _ (gr_y P xs ys G) Ej' M1 ltac:(lia)) as O4. rewrite Rplus_0_r in O1, O3.
    pose proof (nth_error_In _ _ Ei) as I1. pose proof (nth_error_In _ _ Ei') as I2. pose proof (nth_error_In _ _ L0) as I3. pose proof (nth_error_In _ _ L1) as I4.
    pose proof (nth_error_In _ _ Ej) as J1. pose proof (nth_error_In _ _ Ej') as J2. pose proof (nth_error_In _ _ M0) as J3. pose proof (nth_error_In _ _ M1) as J4.
    apply Cx in I1. apply Cx in I2. apply Cx in I3. apply Cx in I4. apply Cy in J1. apply Cy in J2. apply Cy in J3. apply Cy in J4.
    assert (TM : forall v o, 0 <= o -> o <= v -> tol (v - o) <= tol v) by (intros v o O V; unfold tol; pose proof FUZZ_pos; rewrite !Rabs_pos_eq by lra; assert (Rmax 1 (v - o) <= Rmax 1 v) by (apply Rle_max_compat_l; lra); nra).
    pose proof (TM mx (lat_left P X) Zl ltac:(lra)) as T1. pose proof (TM my (lat_bottom P Y) Zb ltac:(lra)) as T2.
    replace (x0 + pm_px (pin_mesh p)) with (lat_left P X + (col_start L x + pm_px (pin_mesh p))) in * by (unfold x0; ring). replace (y0 + pm_py (pin_mesh p)) with (lat_bottom P Y + (row_start L y + pm_py (pin_mesh p))) in * by (unfold y0; ring).
    subst x0 y0.
    rewrite Rabs_pos_eq in I1 by lra. rewrite Rabs_left in I2 by lra. rewrite Rabs_pos_eq in I3 by lra. rewrite Rabs_left in I4 by lra.
    rewrite Rabs_pos_eq in J1 by lra. rewrite Rabs_left in J2 by lra. rewrite Rabs_pos_eq in J3 by lra. rewrite Rabs_left in J4 by lra.
    repeat split; left; split; lra. }
  (* which pin it is does not depend on the point *)
  destruct (position_of P W X Y L x y ltac:(lia) ltac:(lia) EL Hx Hy) as (K1 & K2 & K3). rewrite Ls in *. set (k := (before (lens ls) (X + pl_nx P * Y) + (y * lat_nx L + x))%nat) in *.
  exists k, p. split; [rewrite K2; exact Ep|]. split; [exact K3|]. split; [unfold x0; ring|]. split; [unfold y0; ring|].
  intros m Bx By Cx Cy. destruct (KEY (ptx m) (pty m) ltac:(unfold x0 in *; split; lra) ltac:(unfold y0 in *; split; lra) Cx Cy) as (I1 & I2 & I3 & I4).
  destruct (C58_plane_lookup ulp ls nx ny P Nx Ny Ll Zx Zy HL U EP WP X Y L A B x y p (ptx m) (pty m) 0%nat true true HX HY EL EA EB Ep Hx Hy I1 I2 I3 I4) as (k' & mx & my & K1' & K2' & K3' & K4 & Mx & My).
  assert (CF : conforming P).
  { intros X1 Y1 L1' M1' N1' HX1 HY1 E1 E2 E3. destruct (UP X1 Y1 L1' M1' N1' E1 E2 E3 ltac:(lia) ltac:(lia)) as [U1 U2].
    assert (W1 : forall a b Q, pl_at P a b = Some Q -> wf_lat Q) by (intros a b Q EQ; apply (wp_lat P W); unfold pl_at, lats_at in EQ; eapply nth_error_In; eauto).
    rewrite <- (wl_hxl L1' (W1 _ _ _ E1)), <- (wl_hyl L1' (W1 _ _ _ E1)), <- (wl_hxl M1' (W1 _ _ _ E2)), <- (wl_hyl N1' (W1 _ _ _ E3)), U1, U2. auto. }
  destruct (C58_position_bijection ulp ls nx ny P Nx Ny Ll (fun l I => proj1 (HL l I)) EP CF) as (_ & UQ & _).
  assert (k' = k) as -> by (apply UQ; [exact K1'|exact K1|congruence]).
  unfold get_pin. rewrite K4, Mx, My. reflexivity.
Qed.

Lemma cyl_ctor_inv : forall id pitch xs azi sub pm, cyl_ctor id pitch xs azi sub = PVal pm -> growing 0 xs -> Forall (fun k => (1 <= k)%Z) sub -> (1 <= azi)%Z -> cp_azi pm = azi /\ growing 0 (cp_radii pm).
Proof.
  intros id pitch xs azi sub pm H G K A. unfold cyl_ctor, base_ctor in H. destruct (Z.ltb_spec id 0); [discriminate|]. destruct (Rleb_spec pitch 0) as [P|P]; [discriminate|]. cbn [pbind] in H. destruct xs as [|x0 xs]; [discriminate|].
  set (xs' := x0 :: xs) in *. destruct (negb (ordered xs')); [discriminate|]. destruct (Rltb_spec (pitch * 0.5) (last xs' 0)); [discriminate|].
  destruct (negb (Z.rem azi 2 =? 0)%Z || (8 <? azi)%Z); [discriminate|]. destruct (Nat.eqb_spec (length sub) (length xs')) as [L|L]; [|discriminate]. cbn [negb] in H.
  destruct (mesh_radii xs' sub 0 0) as [radii| |] eqn:M; try discriminate. cbn [pbind] in H. destruct radii as [|q0 radii]; [discriminate|]. injection H as <-.
  destruct (mesh_radii_spec xs' sub 0 azi (Rle_refl 0) G L K ltac:(lia)) as [rr [E [_ [E2 [E3 _]]]]]. rewrite M in E. injection E as <-. cbn [cp_azi cp_radii]. auto.
Qed.
(** A pin traced between two points of its border. *)
Definition at_rim (pitch : R) (p : Point2) : Prop := inside pitch p /\ (Rabs (ptx p) = pitch / 2 \/ Rabs (pty p) = pitch / 2).
Lemma pin_piece : forall srt eqp pm g a b first, (forall l, sort_gives l (srt l)) -> geo_ok pm g -> pty a < pty b -> at_rim (pm_px pm) a -> at_rim (pm_px pm) b ->
  (forall pts, pin_points g a b = Some pts -> told eqp pts) ->
  exists loc cuts, pin_trace srt eqp g a b first = Some (map (fun sr => (fst sr, shift first (snd sr))) loc) /\ describes a b (geo_in pm g) cuts loc /\ Rsum (map fst loc) = dist2 b a.
Proof.
  intros srt eqp pm g a b first S (_ & _ & G) Rise [Ia Ra] [Ib Rb] T. unfold pin_trace. destruct g as [r|c]; cbn [pin_points pin_find geo_in] in *.
  - destruct G as (id & nx & ny & G). destruct (C93_rect id (pm_px pm) nx ny r eqp a b (srt (rect_points r a b)) G Rise Ia Ib (T _ eq_refl) (S _)) as (cuts & D & Q).
    destruct (rect_ctor_inv _ _ _ _ _ G) as (_ & _ & _ & _ & N1 & N2 & _). rewrite N1, N2. eexists _, cuts. split; [reflexivity|]. split; [exact D|exact Q].
  - destruct G as (id & xs & azi & sub & G & Gr & K & A & Lr & F1 & F2).
    assert (FAR : forall p, (Rabs (ptx p) = pm_px pm / 2 \/ Rabs (pty p) = pm_px pm / 2) -> last xs 0 < dist2 p origin).
    { intros p Rp. apply Rlt_le_trans with (pm_px pm / 2); [exact Lr|]. unfold dist2, origin. cbn [ptx pty]. rewrite !Rminus_0_r.
      destruct Rp as [Rp|Rp]; rewrite <- Rp, <- sqrt_Rsqr_abs; apply sqrt_le_1_alt; unfold Rsqr; nra. }
    destruct (C93_cyl id (pm_px pm) xs azi sub c eqp a b G Gr K A F1 F2 Rise Ia Ib (FAR a Ra) (FAR b Rb)) as (pts & Ep & Q). rewrite Ep in *. destruct (Q (T pts eq_refl) (srt pts) (S pts)) as (cuts & D & E).
    destruct (cyl_ctor_inv _ _ _ _ _ _ G Gr K) as [EA _]; [cbn in A; destruct A as [<-|[<-|[<-|[]]]]; lia|].
    rewrite EA. eexists _, cuts. split; [reflexivity|]. split; [exact D|exact E].
Qed.
Lemma ray_pins_ok : forall ulp P geo srt eqp (good : Point2 -> Point2 -> list (R * Reg) -> Prop) ps prev,
  (forall x y, adjacent x y (prev :: ps) -> exists pm c first s, get_pin ulp P (midpoint y x) = Some (pm, c, first) /\ pin_trace srt eqp (geo pm) (minus x c) (minus y c) first = Some s /\ good x y s) ->
  exists segs, ray_pins ulp P geo srt eqp prev ps = Some segs /\ length segs = length ps /\
  forall k s, nth_error segs k = Some s -> exists x y, nth_error (prev :: ps) k = Some x /\ nth_error (prev :: ps) (S k) = Some y /\ good x y s.
Proof.
  intros ulp P geo srt eqp good. induction ps as [|p ps IH]; intros prev H; [exists []; split; [reflexivity|]; split; [reflexivity|]; intros [|k] s E; discriminate|].
  destruct (H prev p) as (pm & c & first & s & E1 & E2 & E3); [left; auto|]. destruct (IH p) as (segs & E4 & E5 & E6); [intros x y A; apply H; right; exact A|].
  cbn [ray_pins]. rewrite E1, E2, E4. exists (s :: segs). split; [reflexivity|]. split; [cbn; now rewrite E5|]. intros [|k] s' E.
  - injection E as <-. exists prev, p. auto.
  - destruct (E6 k s' E) as (x & y & X & Y & Z). exists x, y. auto.
Qed.
Lemma seg_total : forall (segs : list (list (R * Reg))) ps prev, length segs = length ps ->
  (forall k s, nth_error segs k = Some s -> exists x y, nth_error (prev :: ps) k = Some x /\ nth_error (prev :: ps) (S k) = Some y /\ Rsum (map fst s) = dist2 y x) ->
  Rsum (map fst (concat segs)) = Rsum (map fst (segments (prev :: ps))).
Proof.
  induction segs as [|s segs IH]; intros [|p ps] prev L H; try discriminate; [reflexivity|]. cbn [concat]. rewrite map_app, Rsum_app. change (segments (prev :: p :: ps)) with ((dist2 p prev, midpoint p prev) :: segments (p :: ps)). cbn [map fst].
  change (Rsum (dist2 p prev :: map fst (segments (p :: ps)))) with (dist2 p prev + Rsum (map fst (segments (p :: ps)))). f_equal.
  - destruct (H 0%nat s eq_refl) as (x & y & X & Y & Z). injection X as <-. injection Y as <-. exact Z.
  - apply IH; [now injection L|]. intros k s' E. apply (H (S k) s' E).
Qed.

Lemma regions_S : forall l k p, nth_error l k = Some p -> regions_before l (S k) = (regions_before l k + pm_nreg (pin_mesh p))%nat.
Proof.
  unfold regions_before. induction l as [|q l IH]; intros [|k] p E; try discriminate.
  - injection E as ->. cbn. lia.
  - cbn [map firstn list_sum fold_right]. cbn [nth_error] in E. specialize (IH k p E). cbn [map firstn] in IH. change (fold_right Init.Nat.add 0%nat) with list_sum in *. lia.
Qed.
Lemma cell_of : forall pitch n v, 0 < pitch -> (1 <= n)%nat -> - (pitch / 2) < v <= pitch / 2 -> exists i, (i < n)%nat /\ edge pitch n i < v <= edge pitch n (S i).
Proof.
  intros pitch n v Hp Hn Hv. assert (N : 0 < INR n) by (apply lt_0_INR; lia).
  assert (E0 : edge pitch n 0 = - (pitch / 2)) by (unfold edge; cbn [INR]; field; lra). assert (EN : edge pitch n n = pitch / 2) by (unfold edge; field; lra).
  assert (Q : forall k, (k <= n)%nat -> v <= edge pitch n k -> exists i, (i < n)%nat /\ edge pitch n i < v <= edge pitch n (S i)).
  { induction k as [|k IH]; intros K L; [lra|]. destruct (Rle_dec v (edge pitch n k)) as [D|D]; [apply IH; [lia|exact D]|]. exists k. split; [lia|]. lra. }
  apply (Q n); [lia|]. lra.
Qed.
Lemma seg_range : forall pm g a b cuts loc, geo_ok pm g -> pty a < pty b -> inside (pm_px pm) a -> inside (pm_px pm) b -> - (pm_px pm / 2) < ptx (midpoint b a) -> describes a b (geo_in pm g) cuts loc ->
  forall k s r, nth_error loc k = Some (s, r) -> 0 < s -> exists n, r = RIdx n /\ (0 <= n < geo_regs g)%Z.
Proof.
  intros pm g a b cuts loc (_ & _ & G) Rise Ia Ib Mx D k s r E Hs. destruct D as (_ & _ & D). destruct (D k s r E) as (x & y & _ & _ & Es & Sx & Sy & Le & IR).
  assert (Lt : pty x < pty y). { destruct Le as [L|L]; [exact L|]. exfalso. assert (x = y) as Q by (apply (chord_inj a b Rise); assumption). rewrite Es, Q in Hs. unfold dist2 in Hs. replace ((ptx y - ptx y) * (ptx y - ptx y) + (pty y - pty y) * (pty y - pty y)) with 0 in Hs by ring. rewrite sqrt_0 in Hs. lra. }
  pose proof (chord_y a b Rise x Sx) as Yx. pose proof (chord_y a b Rise y Sy) as Yy.
  (* a point of the piece off the axis *)
  assert (exists v, pty x < v < pty y /\ v <> 0) as (v & Hv & Nv).
  { destruct (Req_dec ((pty x + pty y) / 2) 0) as [Q|Q]; [exists ((pty x + 3 * pty y) / 4); split; lra|exists ((pty x + pty y) / 2); split; [lra|exact Q]]. }
  destruct (chord_at a b Rise v ltac:(lra)) as (p & Sp & Ep). assert (Hp : pty x < pty p < pty y) by lra. specialize (IR p Sp Hp).
  pose proof (chord_inside (pm_px pm) a b p Ia Ib Sp) as Ip. apply inside_bounds in Ip. apply inside_bounds in Ia. apply inside_bounds in Ib.
  destruct g as [rp|cp]; cbn [geo_in geo_regs] in *.
  - destruct G as (id & nx & ny & G). destruct (rect_ctor_inv _ _ _ _ _ G) as (HP & HX & HY & _ & N1 & N2 & _).
    assert (Px : - (pm_px pm / 2) < ptx p).
    { destruct (Rle_lt_or_eq_dec _ _ (proj1 (proj1 Ip))) as [Q|Q]; [exact Q|]. exfalso. destruct Sp as (t & Ht & T1 & T2). cbn [GeomModel.p1 GeomModel.p2] in T1, T2.
      assert (0 < t < 1) by (split; [destruct (Rle_lt_or_eq_dec _ _ (proj1 Ht)) as [Z|Z]; [exact Z|rewrite <- Z in T2; lra]|destruct (Rle_lt_or_eq_dec _ _ (proj2 Ht)) as [Z|Z]; [exact Z|rewrite Z in T2; lra]]).
      unfold midpoint in Mx. cbn [ptx] in Mx. assert (Q1 : (1 - t) * (ptx a + pm_px pm / 2) + t * (ptx b + pm_px pm / 2) = 0) by lra.
      assert (0 <= (1 - t) * (ptx a + pm_px pm / 2)) by (apply Rmult_le_pos; lra). assert (0 <= t * (ptx b + pm_px pm / 2)) by (apply Rmult_le_pos; lra).
      assert (A1 : (1 - t) * (ptx a + pm_px pm / 2) = 0) by lra. assert (A2 : t * (ptx b + pm_px pm / 2) = 0) by lra. apply Rmult_integral in A1. apply Rmult_integral in A2. lra. }
    destruct (cell_of (pm_px pm) (rp_nx rp) (ptx p) HP ltac:(lia) ltac:(lra)) as (i & Hi & Ci). destruct (cell_of (pm_px pm) (rp_ny rp) (pty p) HP ltac:(lia) ltac:(lra)) as (j & Hj & Cj).
    exists (Z.of_nat j * Z.of_nat (rp_nx rp) + Z.of_nat i)%Z. split; [exact (IR i j Hi Hj Ci Cj)|]. nia.
  - destruct G as (id & xs & azi & sub & G & Gr & K & A & Lr & F1 & F2).
    destruct (cyl_ctor_inv _ _ _ _ _ _ G Gr K) as [EA EG]; [cbn in A; destruct A as [<-|[<-|[<-|[]]]]; lia|].
    assert (An : (1 <= azi)%Z) by (cbn in A; destruct A as [<-|[<-|[<-|[]]]]; lia). rewrite EA in *.
    destruct (C70_alpha p) as [Pp _]; [lra|].
    destruct (C94_cyl_total (cp_radii cp) (sqrt (ptx p * ptx p + pty p * pty p)) azi (alpha p) EG (sqrt_pos _) An (proj1 Pp)) as [[ir Hr] [ia Hi]].
    destruct (polar_sector azi ia (alpha p) An (proj1 Pp) Hi) as [Bi _]. exists (Z.of_nat ir * azi + ia)%Z. split; [exact (IR ir ia (alpha p) Hr Pp Hi)|]. destruct Hr as [Hr _]. nia.
Qed.

(** ** The property *)
(** C110: a ray that rises between two points of the outline of a core no taller than wide, whose crossings the comparisons tell
    apart and whose pieces do not run along a boundary: every piece is given to the pin it crosses, the segments of the piece
    are the pin's own (each in the region reported, see C93) with the numbers of the regions before the pin added, and the
    lengths add up to the ray. *)
Theorem C110_segments : forall ulp ls nx ny P xs ys geo srt eqp p1 p2, good_plane ulp ls nx ny P -> grid P xs ys -> last ys 0 <= last xs 0 ->
  (forall p, In p (flat_map lat_pins ls) -> geo_ok (pin_mesh p) (geo (pin_mesh p))) -> (forall l, sort_gives l (srt l)) ->
  pty p1 < pty p2 -> on_border xs ys p1 -> on_border xs ys p2 ->
  let lines := mesh_lines xs ys (last xs 0) in
  told eqp (p1 :: p2 :: trace_points lines {| GeomModel.p1 := p1; GeomModel.p2 := p2 |}) ->
  let cuts := mesh_trace srt eqp lines p1 p2 in
  (forall x y, adjacent x y cuts -> clear xs (ptx (midpoint y x)) /\ clear ys (pty (midpoint y x)) /\
     forall pm c first pts, get_pin ulp P (midpoint y x) = Some (pm, c, first) -> pin_points (geo pm) (minus x c) (minus y c) = Some pts -> told eqp pts) ->
  exists segs, ray_segs ulp P geo srt eqp cuts = Some segs /\ length cuts = S (length segs) /\ hd_error cuts = Some p1 /\ last cuts p1 = p2 /\ Rsum (map fst (concat segs)) = dist2 p2 p1 /\
  forall k s, nth_error segs k = Some s -> exists x y, nth_error cuts k = Some x /\ nth_error cuts (S k) = Some y /\
    exists i pin gx gy x0 x1 y0 y1 loc lcuts, nth_error (flat_map lat_pins ls) i = Some pin /\ pin_position P i = Some (gx, gy) /\
    nth_error xs gx = Some x0 /\ nth_error xs (S gx) = Some x1 /\ nth_error ys gy = Some y0 /\ nth_error ys (S gy) = Some y1 /\
    (forall q t, 0 <= t <= 1 -> q = {| ptx := ptx x + t * (ptx y - ptx x); pty := pty x + t * (pty y - pty x) |} -> x0 <= ptx q <= x1 /\ y0 <= pty q <= y1) /\
    s = map (fun sr => (fst sr, shift (regions_before (flat_map lat_pins ls) i) (snd sr))) loc /\
    Rsum (map fst loc) = dist2 y x /\
    (forall m len reg, nth_error s m = Some (len, reg) -> 0 < len -> exists n, reg = RIdx (Z.of_nat n) /\ (regions_before (flat_map lat_pins ls) i <= n < regions_before (flat_map lat_pins ls) (S i))%nat) /\
    let c := {| ptx := (x0 + x1) / 2; pty := (y0 + y1) / 2 |} in describes (minus x c) (minus y c) (geo_in (pin_mesh pin) (geo (pin_mesh pin))) lcuts loc.
Proof.
  intros ulp ls nx ny P xs ys geo srt eqp a b GP G Fl GO S Rise Ba Bb lines T cuts H.
  set (pts := trace_points lines {| GeomModel.p1 := a; GeomModel.p2 := b |}) in *. pose proof (S (a :: b :: pts)) as Su.
  pose proof (pts_on_chord xs ys a b) as F. fold lines pts in F.
  assert (Eo : cuts = unique eqp (srt (a :: b :: pts))) by reflexivity.
  destruct (unique_sorted a b Rise eqp pts _ Su F) as (r & Eu & Lr & Fr & Uq).
  assert (Tu : forall p q, In p (srt (a :: b :: pts)) -> In q (srt (a :: b :: pts)) -> eqp p q = true -> p = q) by (intros p q Hp Hq; apply T; apply (Permutation.Permutation_in _ (Permutation.Permutation_sym (proj1 Su))); assumption).
  destruct (describe a b eqp (fun _ => RAssert) (fun _ _ => True) pts _ Rise Su F T (fun _ _ _ _ _ _ _ _ _ _ _ => I)) as (cc & _ & Tot).
  assert (TS : Rsum (map fst (segments cuts)) = dist2 b a) by (unfold trace_result in Tot; rewrite map_map in Tot; cbn [fst] in Tot; rewrite Eo; exact Tot).
  set (good := fun (x y : Point2) (s : list (R * Reg)) => exists i pin gx gy x0 x1 y0 y1 loc lcuts, nth_error (flat_map lat_pins ls) i = Some pin /\ pin_position P i = Some (gx, gy) /\
    nth_error xs gx = Some x0 /\ nth_error xs (Datatypes.S gx) = Some x1 /\ nth_error ys gy = Some y0 /\ nth_error ys (Datatypes.S gy) = Some y1 /\
    (forall q t, 0 <= t <= 1 -> q = {| ptx := ptx x + t * (ptx y - ptx x); pty := pty x + t * (pty y - pty x) |} -> x0 <= ptx q <= x1 /\ y0 <= pty q <= y1) /\
    s = map (fun sr => (fst sr, shift (regions_before (flat_map lat_pins ls) i) (snd sr))) loc /\
    Rsum (map fst loc) = dist2 y x /\
    (forall m len reg, nth_error s m = Some (len, reg) -> 0 < len -> exists n, reg = RIdx (Z.of_nat n) /\ (regions_before (flat_map lat_pins ls) i <= n < regions_before (flat_map lat_pins ls) (Datatypes.S i))%nat) /\
    let c := {| ptx := (x0 + x1) / 2; pty := (y0 + y1) / 2 |} in describes (minus x c) (minus y c) (geo_in (pin_mesh pin) (geo (pin_mesh pin))) lcuts loc).
  assert (GD : forall x y, adjacent x y cuts -> exists pm c first s, get_pin ulp P (midpoint y x) = Some (pm, c, first) /\ pin_trace srt eqp (geo pm) (minus x c) (minus y c) first = Some s /\ good x y s).
  { intros x y A. destruct (H x y A) as (Cx & Cy & Tp). rewrite Eo in A.
    destruct (piece_cell xs ys a b (gr_x P xs ys G) (gr_y P xs ys G) (gr_x0 P xs ys G) (gr_y0 P xs ys G) Fl Rise Ba Bb eqp _ x y Su T A Cx Cy)
      as (i & j & x0 & x1 & y0 & y1 & Ei & Ei' & Ej & Ej' & Lt & Mx & My & Bx & By & Rx & Ry).
    destruct (cell_pin ulp ls nx ny P xs ys GP G i j x0 x1 y0 y1 Ei Ei' Ej Ej') as (k & p & Ek & Ep & Ex1 & Ey1 & GPn).
    specialize (GPn (midpoint y x) Mx My Cx Cy). set (pm := pin_mesh p) in *. set (c := {| ptx := x0 + pm_px pm / 2; pty := y0 + pm_py pm / 2 |}) in *.
    assert (GOp := GO p (nth_error_In _ _ Ek)). fold pm in GOp. pose proof (proj1 GOp) as Sq.
    assert (RM : forall z, (x0 <= ptx z <= x1 /\ y0 <= pty z <= y1) -> (ptx z = x0 \/ ptx z = x1 \/ pty z = y0 \/ pty z = y1) -> at_rim (pm_px pm) (minus z c)).
    { intros z Bz Rz. unfold c. rewrite Sq in *. split; [apply inside_bounds; unfold minus; cbn [ptx pty]; rewrite Ex1, Ey1 in Bz; lra|]. unfold minus. cbn [ptx pty].
      assert (0 <= pm_px pm) by lra. destruct Rz as [Q|[Q|[Q|Q]]]; [left|left|right|right]; rewrite Q; try (rewrite Rabs_left1; lra); rewrite Rabs_pos_eq; lra. }
    destruct (pin_piece srt eqp pm (geo pm) (minus x c) (minus y c) (regions_before (flat_map lat_pins ls) k) S GOp) as (loc & lc & E1 & E2 & E3); [unfold minus; cbn [pty]; lra|apply RM; assumption|apply RM; assumption|intros q Eq; eapply Tp; eauto|].
    exists pm, c, (regions_before (flat_map lat_pins ls) k). eexists. split; [exact GPn|]. split; [exact E1|].
    exists k, p, i, j, x0, x1, y0, y1, loc, lc. do 6 (split; [assumption|]). split; [|split; [reflexivity|split; [|split]]].
    - intros q t Ht ->. cbn [ptx pty]. split; split; nra.
    - rewrite E3. unfold dist2, minus. cbn [ptx pty]. f_equal. ring.
    - intros m len reg Em Hl. rewrite nth_error_map in Em. destruct (nth_error loc m) as [[s0 r0]|] eqn:Eloc; [|discriminate]. cbn [option_map fst snd] in Em. injection Em as <- <-.
      assert (Gm : - (pm_px pm / 2) < ptx (midpoint (minus y c) (minus x c))) by (unfold midpoint, minus, c in *; cbn [ptx pty] in *; lra).
      destruct (seg_range pm (geo pm) (minus x c) (minus y c) lc loc GOp) with (k := m) (s := s0) (r := r0) as (n & -> & Bn); auto; [unfold minus; cbn [pty]; lra|apply RM; assumption|apply RM; assumption|].
      destruct GOp as (_ & NR & _). rewrite <- NR in Bn. exists (regions_before (flat_map lat_pins ls) k + Z.to_nat n)%nat. cbn [shift]. split; [f_equal; lia|].
      rewrite (regions_S _ _ _ Ek). fold pm. lia.
    - replace ((x0 + x1) / 2) with (x0 + pm_px pm / 2) by (rewrite Ex1; lra). replace ((y0 + y1) / 2) with (y0 + pm_py pm / 2) by (rewrite Ey1; lra). exact E2. }
  assert (EC : exists w, cuts = a :: w /\ last w a = b).
  { rewrite Eo, Uq. destruct (uniq_head eqp r a) as [w W]. exists w. split; [exact W|].
    assert (LQ : last (uniq eqp a r) a = last w a) by (rewrite W; apply last_cons'). rewrite <- LQ.
    assert (NL : forall (l : list Point2) d, l <> [] -> In (last l d) l).
    { induction l as [|q l IH]; intros d N; [contradiction|]. destruct l as [|q' l]; [now left|]. right. apply IH. discriminate. }
    destruct (uniq_last eqp r a a) as [Q|Q]; rewrite Lr in Q; [exact Q|]. apply Tu; [|rewrite Eu, <- Lr|exact Q].
    - rewrite Eu. apply (uniq_in eqp). apply NL. rewrite W. discriminate.
    - rewrite <- last_cons' with (d := a). apply NL. discriminate. }
  destruct EC as (w & EC & LW). rewrite EC in *. destruct (ray_pins_ok ulp P geo srt eqp good w a GD) as (segs & E1 & E2 & E3).
  exists segs. cbn [ray_segs]. split; [exact E1|]. split; [cbn [length]; now rewrite E2|]. split; [reflexivity|]. split; [rewrite last_cons'; exact LW|]. split.
  - rewrite (seg_total segs w a E2); [exact TS|]. intros k s E. destruct (E3 k s E) as (x & y & X & Y & (i & pin & gx & gy & x0 & x1 & y0 & y1 & loc & lc & _ & _ & _ & _ & _ & _ & _ & -> & Q & _ & _)). exists x, y. split; [exact X|]. split; [exact Y|]. rewrite map_map. cbn [fst]. exact Q.
  - exact E3.
Qed.
Print Assumptions C110_segments.

(** The boundaries held by the core mesh are those of every one of its planes. *)
Lemma core_grid : forall ulp C A0 M, wf_core ulp C -> nth_error (co_asys C) 0 = Some A0 -> make_core_mesh ulp C = Got M ->
  forall iz ls P, (iz < as_nz A0)%nat -> plane_lats (co_asys C) iz = Some ls -> good_plane ulp ls (co_nx C) (co_ny C) P -> grid P (cm_xv M) (cm_yv M).
Proof.
  intros ulp C A0 M W F0 E iz ls P Hz EL GP. destruct GP as [Nx Ny LL _ _ HL _ EP _ UP].
  unfold make_core_mesh in E. destruct (co_asys C) as [|a0 rest] eqn:Ea; [discriminate|]. rewrite <- Ea in *. assert (a0 = A0) by (rewrite Ea in F0; cbn in F0; congruence). subst a0.
  destruct (reads (co_asys C) as_hx _) as [wx|]; [|discriminate]. destruct (reads (co_asys C) as_hy _) as [wy|]; [|discriminate].
  destruct (scan_planes ulp C (as_nz A0)) as [s| |] eqn:Es; try discriminate.
  destruct (row_widths C) as [dx|] eqn:RW; [|discriminate]. destruct (col_heights C) as [dy|] eqn:CH; [|discriminate]. destruct (macro_heights _ _) as [hh|]; [|discriminate].
  destruct (make_macros _ _ _ _ _ _ _) as [ms|]; [|discriminate]. destruct (macro_index _ _ _) as [mi|]; [|discriminate]. injection E as <-. cbn [cm_xv cm_yv] in *.
  assert (WL : forall l, In l ls -> wf_lat l) by (intros l I; apply HL, I).
  destruct (made_plane ulp ls (co_nx C) (co_ny C) P Nx Ny LL WL EP) as (WPl & Ls & PNx & PNy).
  assert (E2 : forall k, nth_error ls k = match nth_error (co_asys C) k with Some a => nth_error (as_lats a) iz | None => None end).
  { destruct (plane_lats_ex ulp C W A0 F0 iz Hz) as (ls' & E1' & _ & _ & _ & Q). assert (ls' = ls) by congruence. subst ls'. exact Q. }
  assert (GR : forall k l, nth_error ls k = Some l -> exists a l0 r, nth_error (co_asys C) k = Some a /\ as_lats a = l0 :: r /\ lat_hxv l0 = lat_hxv l /\ lat_hyv l0 = lat_hyv l).
  { intros k l K. rewrite E2 in K. destruct (nth_error (co_asys C) k) as [a|] eqn:Ka; [|discriminate]. pose proof (wc_asy ulp C W a (nth_error_In _ _ Ka)) as Wa.
    destruct (as_lats a) as [|l0 r] eqn:Q0; [destruct iz; discriminate|]. exists a, l0, r. split; [reflexivity|]. split; [exact Q0|]. rewrite <- Q0 in K. destruct (wa_grid a Wa l0 l) as ((_ & _ & G1 & G2) & _); [rewrite Q0; now left|exact (nth_error_In _ _ K)|]. auto. }
  unfold row_widths in RW. unfold col_heights in CH. destruct (all_some (map (fun ix => _) (seq 0 (co_nx C)))) as [ddx|] eqn:DX; [|discriminate]. cbn [option_map] in RW. injection RW as <-.
  destruct (all_some (map (fun iy => _) (seq 0 (co_ny C)))) as [ddy|] eqn:DY; [|discriminate]. cbn [option_map] in CH. injection CH as <-.
  assert (PLX : forall k, pl_at P k 0 = nth_error ls k) by (intro k; unfold pl_at, lats_at; rewrite Ls, PNx; f_equal; lia).
  assert (PLY : forall k, pl_at P 0 k = nth_error ls (k * co_nx C)) by (intro k; unfold pl_at, lats_at; rewrite Ls, PNx; f_equal; lia).
  destruct (all_some_row _ (fun k => pl_at P k 0) lat_hxv _ _ DX) as (row & Lr & Nr & ->).
  { intros k K. destruct (pl_at_ex P WPl k 0 ltac:(lia) ltac:(lia)) as (l & Kl & _). exists l. split; [exact Kl|]. rewrite PLX in Kl. destruct (GR k l Kl) as (a & l0 & r & -> & -> & -> & _). reflexivity. }
  destruct (all_some_row _ (fun k => pl_at P 0 k) lat_hyv _ _ DY) as (col & Lc & Nc & ->).
  { intros k K. destruct (pl_at_ex P WPl 0 k ltac:(lia) ltac:(lia)) as (l & Kl & _). exists l. split; [exact Kl|]. rewrite PLY in Kl. destruct (GR _ l Kl) as (a & l0 & r & -> & -> & _ & ->). reflexivity. }
  assert (INr : forall l, In l row -> In l ls) by (intros l I; apply In_nth_error in I; destruct I as [k K]; assert (k < co_nx C)%nat as Hk by (rewrite <- Lr; apply nth_error_Some; congruence); rewrite (Nr k Hk), PLX in K; eapply nth_error_In; eauto).
  assert (INc : forall l, In l col -> In l ls) by (intros l I; apply In_nth_error in I; destruct I as [k K]; assert (k < co_ny C)%nat as Hk by (rewrite <- Lc; apply nth_error_Some; congruence); rewrite (Nc k Hk), PLY in K; eapply nth_error_In; eauto).
  assert (CP : colpins P = map lat_nx row).
  { unfold colpins. rewrite PNx. apply list_eq_nth; [rewrite !map_length, seq_length; auto|]. intros k a K. assert (k < co_nx C)%nat as Hk by (rewrite <- (seq_length (co_nx C) 0), <- (map_length (fun X => match pl_at P X 0 with Some l => lat_nx l | None => 0%nat end)); apply nth_error_Some; congruence).
    rewrite nth_error_map, nth_seq in K by exact Hk. rewrite nth_error_map, (Nr k Hk). destruct (pl_at_ex P WPl k 0 ltac:(lia) ltac:(lia)) as (l & Kl & _). cbn in K. rewrite Kl in *. exact K. }
  assert (RP : rowpins P = map lat_ny col).
  { unfold rowpins. rewrite PNy. apply list_eq_nth; [rewrite !map_length, seq_length; auto|]. intros k a K. assert (k < co_ny C)%nat as Hk by (rewrite <- (seq_length (co_ny C) 0), <- (map_length (fun Y => match pl_at P 0 Y with Some l => lat_ny l | None => 0%nat end)); apply nth_error_Some; congruence).
    rewrite nth_error_map, nth_seq in K by exact Hk. rewrite nth_error_map, (Nc k Hk). destruct (pl_at_ex P WPl 0 k ltac:(lia) ltac:(lia)) as (l & Kl & _). cbn [option_map Nat.add] in K. rewrite Kl in *. exact K. }
  assert (LC : forall (f : Lattice -> list R) (g : Lattice -> nat) l, (forall q, In q l -> length (f q) = g q) -> length (concat (map f l)) = list_sum (map g l)).
  { intros f g. induction l as [|q l IH]; intros Hq; [reflexivity|]. cbn [map concat]. rewrite app_length, (Hq q (or_introl eq_refl)), IH by (intros q' I'; apply Hq; now right). reflexivity. }
  constructor.
  - apply psums_increasing. intros v I. apply in_concat in I. destruct I as (hv & I & Iv). apply in_map_iff in I. destruct I as (l & <- & Il). pose proof (INr l Il) as Ils. destruct (HL l Ils) as (_ & Wd & Hh & _). pose proof (WL l Ils) as Wl. pose proof FUZZ_pos as FZ.
    apply In_nth_error in Iv. destruct Iv as [k K]. assert (Hk : (k < lat_nx l)%nat) by (rewrite <- (wl_hxl l Wl); apply nth_error_Some; congruence). pose proof (wl_ny l Wl). destruct (nth_error (lat_pins l) (0 * lat_nx l + k)) as [q|] eqn:Eq; [|apply nth_error_None in Eq; rewrite (wl_len l Wl) in Eq; nia].
    destruct (wl_pitch l Wl k 0 q Hk ltac:(lia) Eq) as [Pq _]. rewrite K in Pq. injection Pq as ->. destruct (Wd k 0%nat q Hk ltac:(lia) Eq) as [W1 _]. nra.
  - apply psums_increasing. intros v I. apply in_concat in I. destruct I as (hv & I & Iv). apply in_map_iff in I. destruct I as (l & <- & Il). pose proof (INc l Il) as Ils. destruct (HL l Ils) as (_ & Wd & _ & Hh & _). pose proof (WL l Ils) as Wl. pose proof FUZZ_pos as FZ.
    apply In_nth_error in Iv. destruct Iv as [k K]. assert (Hk : (k < lat_ny l)%nat) by (rewrite <- (wl_hyl l Wl); apply nth_error_Some; congruence). pose proof (wl_nx l Wl). destruct (nth_error (lat_pins l) (k * lat_nx l + 0)) as [q|] eqn:Eq; [|apply nth_error_None in Eq; rewrite (wl_len l Wl) in Eq; nia].
    destruct (wl_pitch l Wl 0 k q ltac:(lia) Hk Eq) as [_ Pq]. rewrite K in Pq. injection Pq as ->. destruct (Wd 0%nat k q ltac:(lia) Hk Eq) as [_ W1]. nra.
  - destruct (concat (map lat_hxv row)); reflexivity.
  - destruct (concat (map lat_hyv col)); reflexivity.
  - rewrite psums_length, CP, (LC lat_hxv lat_nx); [lia|]. intros q Iq. apply wl_hxl, WL, INr, Iq.
  - rewrite psums_length, RP, (LC lat_hyv lat_ny); [lia|]. intros q Iq. apply wl_hyl, WL, INc, Iq.
  - intros X Y L i HX HY PL Hi. destruct (pl_at_ex P WPl X 0 ltac:(lia) ltac:(lia)) as (A & PA & WA). destruct (pl_at_ex P WPl 0 Y ltac:(lia) ltac:(lia)) as (B & PB & WB). destruct (UP X Y L A B PL PA PB ltac:(lia) ltac:(lia)) as [GX GY].
    assert (IL : In L ls) by (rewrite <- Ls; unfold pl_at, lats_at in PL; eapply nth_error_In; eauto). assert (NXA : lat_nx A = lat_nx L) by (rewrite <- (wl_hxl A WA), <- GX; apply wl_hxl, WL, IL).
    assert (LXS : rsum (fun k => nth k (map lat_hx row) 0%R) X = lat_left P X).
    { unfold lat_left. apply rsum_ext. intros k K. destruct (pl_at_ex P WPl k 0 ltac:(lia) ltac:(lia)) as (l & Kl & _). rewrite Kl. apply nth_error_nth. rewrite nth_error_map, (Nr k ltac:(lia)), Kl. reflexivity. }
    rewrite CP, (psums_concat lat_hxv lat_nx lat_hx row X A i 0%R); [|intros l I; split; [apply wl_hxl|apply wl_hx]; apply WL, INr, I|rewrite (Nr X ltac:(lia)); exact PA|lia]. rewrite LXS, <- GX, <- col_start_spec by (auto; lia). f_equal. lra.
  - intros X Y L i HX HY PL Hi. destruct (pl_at_ex P WPl X 0 ltac:(lia) ltac:(lia)) as (A & PA & WA). destruct (pl_at_ex P WPl 0 Y ltac:(lia) ltac:(lia)) as (B & PB & WB). destruct (UP X Y L A B PL PA PB ltac:(lia) ltac:(lia)) as [GX GY].
    assert (IL : In L ls) by (rewrite <- Ls; unfold pl_at, lats_at in PL; eapply nth_error_In; eauto). assert (NYB : lat_ny B = lat_ny L) by (rewrite <- (wl_hyl B WB), <- GY; apply wl_hyl, WL, IL).
    assert (LYS : rsum (fun k => nth k (map lat_hy col) 0%R) Y = lat_bottom P Y).
    { unfold lat_bottom. apply rsum_ext. intros k K. destruct (pl_at_ex P WPl 0 k ltac:(lia) ltac:(lia)) as (l & Kl & _). rewrite Kl. apply nth_error_nth. rewrite nth_error_map, (Nc k ltac:(lia)), Kl. reflexivity. }
    rewrite RP, (psums_concat lat_hyv lat_ny lat_hy col Y B i 0%R); [|intros l I; split; [apply wl_hyl|apply wl_hy]; apply WL, INc, I|rewrite (Nc Y ltac:(lia)); exact PB|lia]. rewrite LYS, <- GY, <- row_start_spec by (auto; lia). f_equal. lra.
Qed.

Lemma regions_le : forall l k, (regions_before l k <= list_sum (map (fun p => pm_nreg (pin_mesh p)) l))%nat.
Proof. intros l k. unfold regions_before. rewrite <- (firstn_skipn k (map (fun p => pm_nreg (pin_mesh p)) l)) at 2. rewrite list_sum_app. lia. Qed.
Lemma nreg_flat : forall ls, (forall l, In l ls -> wf_lat l) -> list_sum (map (fun p => pm_nreg (pin_mesh p)) (flat_map lat_pins ls)) = list_sum (map lat_nreg ls).
Proof.
  induction ls as [|l ls IH]; intros H; [reflexivity|]. cbn [flat_map map]. rewrite map_app, list_sum_app, IH by (intros q I; apply H; now right). rewrite <- (wl_nreg l (H l (or_introl eq_refl))). reflexivity.
Qed.
(** C110 for a plane of the core: the lines are those of the core mesh. *)
Theorem C110_core : forall ulp C A0 M, wf_core ulp C -> nth_error (co_asys C) 0 = Some A0 -> make_core_mesh ulp C = Got M ->
  forall iz ls P, (iz < as_nz A0)%nat -> plane_lats (co_asys C) iz = Some ls -> good_plane ulp ls (co_nx C) (co_ny C) P ->
  let xs := cm_xv M in let ys := cm_yv M in last ys 0 <= last xs 0 ->
  forall geo srt eqp p1 p2, (forall p, In p (flat_map lat_pins ls) -> geo_ok (pin_mesh p) (geo (pin_mesh p))) -> (forall l, sort_gives l (srt l)) ->
  pty p1 < pty p2 -> on_border xs ys p1 -> on_border xs ys p2 ->
  let lines := mesh_lines xs ys (last xs 0) in
  told eqp (p1 :: p2 :: trace_points lines {| GeomModel.p1 := p1; GeomModel.p2 := p2 |}) ->
  let cuts := mesh_trace srt eqp lines p1 p2 in
  (forall x y, adjacent x y cuts -> clear xs (ptx (midpoint y x)) /\ clear ys (pty (midpoint y x)) /\
     forall pm c first pts, get_pin ulp P (midpoint y x) = Some (pm, c, first) -> pin_points (geo pm) (minus x c) (minus y c) = Some pts -> told eqp pts) ->
  exists segs, ray_segs ulp P geo srt eqp cuts = Some segs /\ length cuts = S (length segs) /\ Rsum (map fst (concat segs)) = dist2 p2 p1 /\
  forall s len reg, In s segs -> In (len, reg) s -> 0 < len -> exists n, reg = RIdx (Z.of_nat n) /\ (n < regs_of C iz)%nat.
Proof.
  intros ulp C A0 M W F0 E iz ls P Hz EL GP xs ys Fl geo srt eqp p1 p2 GO S Rise B1 B2 lines T cuts H.
  pose proof (core_grid ulp C A0 M W F0 E iz ls P Hz EL GP) as G.
  destruct (C110_segments ulp ls (co_nx C) (co_ny C) P xs ys geo srt eqp p1 p2 GP G Fl GO S Rise B1 B2 T H) as (segs & Q1 & Q2 & Q3 & Q4 & Q5 & Q6).
  exists segs. split; [exact Q1|]. split; [exact Q2|]. split; [exact Q5|]. intros s len reg Is Il Hl. apply In_nth_error in Is. destruct Is as [k K].
  destruct (Q6 k s K) as (x & y & _ & _ & i & pin & gx & gy & x0 & x1 & y0 & y1 & loc & lc & Ei & _ & _ & _ & _ & _ & _ & _ & _ & R1 & _).
  apply In_nth_error in Il. destruct Il as [m Em]. destruct (R1 m len reg Em Hl) as (n & -> & B). exists n. split; [reflexivity|].
  eapply Nat.lt_le_trans; [apply B|]. unfold regs_of. rewrite EL. rewrite <- (nreg_flat ls) by (intros l I; apply (gp_lat _ _ _ _ _ GP), I). apply regions_le.
Qed.
Print Assumptions C110_core.

(** A sort by height. *)
Fixpoint put_in (x : Point2) (l : list Point2) : list Point2 := match l with [] => [x] | y :: r => if Rleb (pty x) (pty y) then x :: l else y :: put_in x r end.
Definition by_height (l : list Point2) : list Point2 := fold_right put_in [] l.
Lemma by_height_sorts : forall l, sort_gives l (by_height l).
Proof.
  assert (PP : forall x l, Permutation.Permutation (x :: l) (put_in x l)).
  { intros x. induction l as [|y l IH]; [reflexivity|]. cbn [put_in]. destruct (Rleb (pty x) (pty y)); [reflexivity|]. rewrite Permutation.perm_swap. now constructor. }
  assert (PA : forall x l, ascending l -> ascending (put_in x l)).
  { intros x. induction l as [|y l IH]; intros A; [exact I|]. cbn [put_in]. destruct (Rleb_spec (pty x) (pty y)) as [D|D]; [split; assumption|].
    specialize (IH (ascending_tl _ _ A)). destruct l as [|z l]; [cbn; split; [lra|exact I]|]. cbn [put_in] in *. destruct A as [A1 A2]. destruct (Rleb (pty x) (pty z)); split; try assumption; lra. }
  induction l as [|x l [IH1 IH2]]; [split; [reflexivity|exact I]|]. change (by_height (x :: l)) with (put_in x (by_height l)). split; [eapply Permutation.perm_trans; [apply Permutation.perm_skip, IH1|apply PP]|apply PA, IH2].
Qed.
(** A ray through the two pins of the core of C107. *)
Example C110_instance : exists M rp, make_core_mesh Reqb coreN = Got M /\ rect_ctor 1 2 1 1 = PVal rp /\
  let p := {| ptx := 0; pty := 1/2 |} in let q := {| ptx := 4; pty := 3/2 |} in let m := {| ptx := 2; pty := 1 |} in
  let xs := cm_xv M in let ys := cm_yv M in let lines := mesh_lines xs ys (last xs 0) in let geo := fun _ : PinMesh => GRect rp in
  wf_core Reqb coreN /\ good_plane Reqb [latA; latA] 2 1 PN /\ last ys 0 <= last xs 0 /\ (forall p, In p (flat_map lat_pins [latA; latA]) -> geo_ok (pin_mesh p) (geo (pin_mesh p))) /\
  on_border xs ys p /\ on_border xs ys q /\ told exact_eq (p :: q :: trace_points lines {| GeomModel.p1 := p; GeomModel.p2 := q |}) /\
  mesh_trace by_height exact_eq lines p q = [p; m; q] /\
  (forall x y, adjacent x y [p; m; q] -> clear xs (ptx (midpoint y x)) /\ clear ys (pty (midpoint y x)) /\
     forall pm c first pts, get_pin Reqb PN (midpoint y x) = Some (pm, c, first) -> pin_points (geo pm) (minus x c) (minus y c) = Some pts -> told exact_eq pts).
Proof.
  destruct meshN as (M & E & EX & EY & _). destruct (rect_ctor 1 2 1 1) as [rp| |] eqn:ER; [|exfalso; revert ER; unfold rect_ctor, base_ctor; cbn [Z.ltb Z.compare]; destruct (Rleb_spec 2 0); [lra|]; discriminate|exfalso; revert ER; unfold rect_ctor, base_ctor; cbn [Z.ltb Z.compare]; destruct (Rleb_spec 2 0); [lra|]; discriminate].
  exists M, rp. split; [exact E|]. split; [reflexivity|]. cbv zeta. rewrite EX, EY. cbn [psums last]. pose proof FUZZ_pos as F. destruct wideN as [WP WL].
  set (p := {| ptx := 0; pty := 1/2 |}). set (q := {| ptx := 4; pty := 3/2 |}). set (m := {| ptx := 2; pty := 1 |}).
  assert (TP : trace_points (mesh_lines [0; 0 + 2; 0 + 2 + 2] [0; 0 + 2] (0 + 2 + 2)) {| GeomModel.p1 := p; GeomModel.p2 := q |} = [m]).
  { unfold mesh_lines, interior, trace_points. cbn [tl removelast map app flat_map]. rewrite (intersect_ll_complete _ _ m); [reflexivity| | |].
    - unfold cross, p, q. cbn. lra.
    - exists (1/4). unfold at_param, m. cbn. lra.
    - exists (1/2). unfold at_param, m, p, q. cbn. lra. }
  assert (TE : forall l, told exact_eq l) by (intros l a b _ _ H; now apply exact_eq_spec).
  rewrite TP. split; [apply coreN_ok|]. split.
  { constructor; auto using Reqb_sound, planeN; try lia; try reflexivity.
    - intros l Il. assert (l = latA) as -> by (destruct Il as [<-|[<-|[]]]; reflexivity). split; [apply wf_A|]. split; [exact WL|]. split; [cbn; lra|]. split; [cbn; lra|]. split; reflexivity.
    - intros X Y L A B E1 E2 E3 _ _. assert (Q : forall a b Z, pl_at PN a b = Some Z -> Z = latA).
      { intros a b Z EZ. unfold pl_at, lats_at in EZ. apply nth_error_In in EZ. cbn in EZ. destruct EZ as [<-|[<-|[]]]; reflexivity. }
      now rewrite (Q _ _ _ E1), (Q _ _ _ E2), (Q _ _ _ E3). }
  split; [lra|]. split.
  { intros r Ir. assert (r = pin2) as -> by (destruct Ir as [<-|[<-|[]]]; reflexivity). destruct (rect_ctor_inv _ _ _ _ _ ER) as (_ & _ & _ & _ & N1 & N2 & _). split; [reflexivity|]. split; [cbn [geo_regs]; rewrite N1, N2; reflexivity|]. exists 1%Z, 1%Z, 1%Z. exact ER. }
  split; [unfold on_border, p; cbn; lra|]. split; [unfold on_border, q; cbn; lra|]. split; [apply TE|]. split.
  - unfold mesh_trace. rewrite TP. unfold by_height. cbn [fold_right put_in]. unfold p, q, m. cbn [pty ptx].
    destruct (Rleb_spec (3/2) 1); [lra|]. cbn [put_in pty]. destruct (Rleb_spec (1/2) 1); [|lra]. cbn [unique uniq].
    assert (N1 : exact_eq {| ptx := 0; pty := 1 / 2 |} {| ptx := 2; pty := 1 |} = false) by (apply not_true_is_false; intro Q; apply exact_eq_spec in Q; injection Q as Q _; lra).
    assert (N2 : exact_eq {| ptx := 2; pty := 1 |} {| ptx := 4; pty := 3 / 2 |} = false) by (apply not_true_is_false; intro Q; apply exact_eq_spec in Q; injection Q as Q _; lra).
    rewrite N1, N2. reflexivity.
  - assert (T : forall v, 0 <= v <= 4 -> tol v <= 1/8) by (intros v V; unfold tol; rewrite Rabs_pos_eq by lra; unfold Rmax; destruct (Rle_dec 1 v); nra).
    assert (CL : forall vs v, 0 <= v <= 4 -> (forall e, In e vs -> v - e <= - (1/4) \/ 1/4 <= v - e) -> clear vs v).
    { intros vs v V H e Ie. pose proof (T v V). destruct (H e Ie) as [Q|Q]; [rewrite Rabs_left by lra|rewrite Rabs_pos_eq by lra]; lra. }
    intros x y A. split; [|split; [|intros pm c first pts _ _; apply TE]].
    + destruct A as [[<- <-]|[[<- <-]|[]]]; unfold midpoint, p, q, m; cbn [ptx pty]; apply CL; try lra; intros e [<-|[<-|[<-|[]]]]; lra.
    + destruct A as [[<- <-]|[[<- <-]|[]]]; unfold midpoint, p, q, m; cbn [ptx pty]; apply CL; try lra; intros e [<-|[<-|[]]]; lra.
Qed.

(** In a core taller than wide the lines between columns stop at the height of the core's width: a ray above that is not cut where
    it crosses from one column of pins to the next, so the pins it crosses share one piece. *)
Theorem C110_tall_refuted : exists xs ys p q v, CoreProofs.increasing xs /\ CoreProofs.increasing ys /\ nth_error xs 0 = Some 0 /\ nth_error ys 0 = Some 0 /\ on_border xs ys p /\ on_border xs ys q /\ pty p < pty q /\
  In v xs /\ ptx p < v < ptx q /\ mesh_trace by_height exact_eq (mesh_lines xs ys (last xs 0)) p q = [p; q].
Proof.
  exists (psums 0 [2; 2]), (psums 0 [2; 2; 2]), {| ptx := 0; pty := 9/2 |}, {| ptx := 4; pty := 11/2 |}, (0 + 2).
  split; [apply psums_increasing; intros v [<-|[<-|[]]]; lra|]. split; [apply psums_increasing; intros v [<-|[<-|[<-|[]]]]; lra|]. split; [reflexivity|]. split; [reflexivity|].
  cbn [psums last]. split; [unfold on_border; cbn; lra|]. split; [unfold on_border; cbn; lra|]. cbn [ptx pty]. split; [lra|]. split; [right; now left|]. split; [lra|].
  set (p := {| ptx := 0; pty := 9/2 |}). set (q := {| ptx := 4; pty := 11/2 |}).
  assert (TP : trace_points (mesh_lines [0; 0 + 2; 0 + 2 + 2] [0; 0 + 2; 0 + 2 + 2; 0 + 2 + 2 + 2] (0 + 2 + 2)) {| GeomModel.p1 := p; GeomModel.p2 := q |} = []).
  { destruct (trace_points _ _) as [|z r] eqn:E; [reflexivity|]. exfalso. assert (I : In z (z :: r)) by now left. rewrite <- E in I. apply trace_points_in in I. destruct I as (li & Il & Ei). apply intersect_ll_sound in Ei. destruct Ei as [(t & Ht & T1 & T2) (u & Hu & U1 & U2)].
    unfold mesh_lines, interior in Il. cbn [tl removelast map app] in Il. unfold p, q in *. cbn [ptx pty GeomModel.p1 GeomModel.p2] in *. destruct Il as [<-|[<-|[<-|[]]]]; cbn [ptx pty GeomModel.p1 GeomModel.p2] in *; nra. }
  unfold mesh_trace. rewrite TP. unfold by_height. cbn [fold_right put_in]. unfold p, q. cbn [pty ptx]. destruct (Rleb_spec (9/2) (11/2)); [|lra]. cbn [unique uniq].
  assert (N1 : exact_eq {| ptx := 0; pty := 9 / 2 |} {| ptx := 4; pty := 11 / 2 |} = false) by (apply not_true_is_false; intro Q; apply exact_eq_spec in Q; injection Q as Q _; lra). rewrite N1. reflexivity.
Qed.
Print Assumptions C110_tall_refuted.
