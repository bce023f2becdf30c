(** C89: the currents of an Sn sweep are the face fluxes of its solution and satisfy the balance of every coarse cell. *)
From Coq Require Import List Lia Bool Reals ZArith Arith Permutation Lra.
From Verif Require Import RUtil ListUtil McModel MeshModel MeshSpec MeshProofs MeshProps AngModel BcModel BcProofs StdAlg CoreModel ExpModel MocModel MocProofs CurModel SnModel SnEqProps SnProofs SnProps.
Import ListNotations.
Open Scope nat_scope.

(** Value stored for a face of a cell. *)
Definition surf_val (e : SnEnv) (l : list R) (ix iy iz : nat) (s : Surface) : R :=
  match coarse_surf (sn_m e) (coarse_cell (sn_m e) {| px := Z.of_nat ix; py := Z.of_nat iy; pz := Z.of_nat iz |}) s with Some k => at0 l (Z.to_nat k) | None => 0%R end.
(** Every face of every cell of the swept planes gained its face flux times a factor. *)
Definition gained (e : SnEnv) (X Y Z : F3) (fx fy fz : R) (old new : list R) : Prop := forall ix iy iz, ix < Nx e -> iy < Ny e -> iz < planes e ->
  (surf_val e new ix iy iz EAST = surf_val e old ix iy iz EAST + X (S ix) iy iz * fx /\ surf_val e new ix iy iz WEST = surf_val e old ix iy iz WEST + X ix iy iz * fx /\
   surf_val e new ix iy iz NORTH = surf_val e old ix iy iz NORTH + Y ix (S iy) iz * fy /\ surf_val e new ix iy iz SOUTH = surf_val e old ix iy iz SOUTH + Y ix iy iz * fy /\
   (sn_d3 e = true -> surf_val e new ix iy iz TOP = surf_val e old ix iy iz TOP + Z ix iy (S iz) * fz /\ surf_val e new ix iy iz BOTTOM = surf_val e old ix iy iz BOTTOM + Z ix iy iz * fz))%R.
Definition gains (e : SnEnv) (X Y Z : F3) (fx fy fz : R) (old new : list R) : Prop :=
  (forall j iy iz, j <= Nx e -> iy < Ny e -> iz < planes e -> at0 new (kof e (face_X j iy iz)) = (at0 old (kof e (face_X j iy iz)) + X j iy iz * fx)%R) /\
  (forall ix j iz, ix < Nx e -> j <= Ny e -> iz < planes e -> at0 new (kof e (face_Y ix j iz)) = (at0 old (kof e (face_Y ix j iz)) + Y ix j iz * fy)%R) /\
  (sn_d3 e = true -> forall ix iy j, ix < Nx e -> iy < Ny e -> j <= planes e -> at0 new (kof e (face_Z ix iy j)) = (at0 old (kof e (face_Z ix iy j)) + Z ix iy j * fz)%R).
Lemma gains_gained : forall e X Y Z fx fy fz old new, mesh_ok (sn_m e) -> gains e X Y Z fx fy fz old new -> gained e X Y Z fx fy fz old new.
Proof.
  intros e X Y Z fx fy fz old new M (GX & GY & GZ) ix iy iz Hx Hy Hz. assert (P := pos_in e (ix, iy, iz) M (conj Hx (conj Hy Hz))). unfold surf_val. change {| px := Z.of_nat ix; py := Z.of_nat iy; pz := Z.of_nat iz |} with (pos (ix, iy, iz)). rewrite !coarse_surf_correct by exact P.
  assert (FE : face_of (pos (ix, iy, iz)) EAST = face_X (S ix) iy iz) by (cbn; unfold face_X; do 2 f_equal; lia). assert (FN : face_of (pos (ix, iy, iz)) NORTH = face_Y ix (S iy) iz) by (cbn; unfold face_Y; do 2 f_equal; lia). assert (FT : face_of (pos (ix, iy, iz)) TOP = face_Z ix iy (S iz)) by (cbn; unfold face_Z; do 2 f_equal; lia).
  assert (FW : face_of (pos (ix, iy, iz)) WEST = face_X ix iy iz) by reflexivity. assert (FS : face_of (pos (ix, iy, iz)) SOUTH = face_Y ix iy iz) by reflexivity. assert (FB : face_of (pos (ix, iy, iz)) BOTTOM = face_Z ix iy iz) by reflexivity.
  rewrite FE, FN, FT, FW, FS, FB. split; [apply GX; lia|]. split; [apply GX; lia|]. split; [apply GY; lia|]. split; [apply GY; lia|]. intros D. split; apply GZ; auto; lia.
Qed.
Lemma lsum_plus3 : forall {A} (f g h : A -> R) l, lsum (fun a => f a + g a + h a)%R l = (lsum f l + lsum g l + lsum h l)%R.
Proof. intros. now rewrite (lsum_plus (fun a => f a + g a)%R h), lsum_plus. Qed.
Lemma lsum_cur : forall e a (T : Cell -> Tr) k cs, sn_cw e = true -> lsum (fun c => cell_cur e a (T c) c k) cs =
  (lsum (fun c => at_surf e c (down_x (adir a)) k (t_ox (T c) * (ox (adir a) * sn_wgt e a))) cs + lsum (fun c => at_surf e c (down_y (adir a)) k (t_oy (T c) * (oy (adir a) * sn_wgt e a))) cs +
   (if sn_d3 e then lsum (fun c => at_surf e c (down_z (adir a)) k (t_oz (T c) * (oz (adir a) * sn_wgt e a))) cs else 0))%R.
Proof.
  intros e a T k cs Cw. unfold cell_cur. rewrite Cw. rewrite lsum_plus3. f_equal. destruct (sn_d3 e); [reflexivity|]. now apply lsum_zero.
Qed.
Lemma lsum_sf : forall e a (T : Cell -> Tr) k cs, sn_cw e = true -> lsum (fun c => cell_sf e a (T c) c k) cs =
  (lsum (fun c => at_surf e c (down_x (adir a)) k (t_ox (T c))) cs + lsum (fun c => at_surf e c (down_y (adir a)) k (t_oy (T c))) cs + (if sn_d3 e then lsum (fun c => at_surf e c (down_z (adir a)) k (t_oz (T c))) cs else 0))%R.
Proof.
  intros e a T k cs Cw. unfold cell_sf. rewrite Cw. rewrite lsum_plus3. f_equal. destruct (sn_d3 e); [reflexivity|]. now apply lsum_zero.
Qed.
Lemma angle_gains : forall e iang a x y z t cur sf cu1 sf1 s', mesh_ok (sn_m e) -> cosines e a -> sn_cw e = true -> upwind_work e a x y z (cur, sf) = Some (cu1, sf1) -> cell_steps e iang a (order_of e a) (mkAS x y z t cu1 sf1) = Some s' -> exists X Y Z P,
  solves e iang a X Y Z P /\ enters e a x y z X Y Z /\ leaves e a (as_x s') (as_y s') (as_z s') X Y Z /\
  (length (as_x s') = length x /\ length (as_y s') = length y /\ length (as_t s') = length t /\ length (as_cur s') = length cur /\ length (as_sf s') = length sf) /\
  (forall ix iy iz, ix < Nx e -> iy < Ny e -> iz < planes e -> cell_ix e (ix, iy, iz) < length t /\ at0 (as_t s') (cell_ix e (ix, iy, iz)) = (at0 t (cell_ix e (ix, iy, iz)) + P ix iy iz * sn_wgt e a)%R) /\
  gains e X Y Z (ox (adir a) * sn_wgt e a) (oy (adir a) * sn_wgt e a) (oz (adir a) * sn_wgt e a) cur (as_cur s') /\ gains e X Y Z 1 1 1 sf (as_sf s').
Proof.
  intros e iang a x y z t cur sf cu1 sf1 s' M Co Cw U H. destruct (Npos e M) as (Px & Py & _ & Pz). destruct (swept _ _ _ _ _ H Px Py Pz) as (T & S1 & S2 & (L1 & L2 & _ & L4 & L5 & L6) & S4 & S5 & S6). cbn [as_x as_y as_z as_t as_cur as_sf] in *.
  destruct (upwind_spec e a _ _ _ _ _ Cw U) as (U1 & U2 & U3 & U4). cbn [fst snd] in *. eexists _, _, _, _. split; [exact S1|]. split; [apply (enters_trace e a (mkAS x y z t cu1 sf1))|]. split; [exact S2|]. split; [repeat split; congruence|]. split; [exact S4|].
  assert (NX : forall s, surface_to_normal s = Y_NORM \/ surface_to_normal s = Z_NORM -> surface_to_normal s <> X_NORM) by (intros s [->| ->]; discriminate).
  assert (NY : forall s, surface_to_normal s = X_NORM \/ surface_to_normal s = Z_NORM -> surface_to_normal s <> Y_NORM) by (intros s [->| ->]; discriminate).
  assert (NZ : forall s, surface_to_normal s = X_NORM \/ surface_to_normal s = Y_NORM -> surface_to_normal s <> Z_NORM) by (intros s [->| ->]; discriminate).
  assert (Dx := norm_dx a). assert (Dy := norm_dy a). assert (Dz := norm_dz a). assert (Ux := norm_ux a). assert (Uy := norm_uy a). assert (Uz := norm_uz a).
  assert (Bx := box_up_x e a M). assert (By := box_up_y e a M). assert (Bz := box_up_z e a M).
  (* every face: what the two phases add *)
  assert (GX : forall (vx vy vz : R -> R) j iy iz, j <= Nx e -> iy < Ny e -> iz < planes e -> vx 0%R = 0%R ->
    (lsum (fun ck => at_surf e (fst ck) (up_x (adir a)) (kof e (face_X j iy iz)) (vx (at0 x (snd ck)))) (up_cells_x (Nx e) (Ny e) (planes e) (xneg a)) +
     lsum (fun ck => at_surf e (fst ck) (up_y (adir a)) (kof e (face_X j iy iz)) (vy (at0 y (snd ck)))) (up_cells_y (Nx e) (Ny e) (planes e) (yneg a)) +
     (if sn_d3 e then lsum (fun ck => at_surf e (fst ck) (up_z (adir a)) (kof e (face_X j iy iz)) (vz (at0 z (snd ck)))) (up_cells_z (Nx e) (Ny e) (Nz e) (zneg e a)) else 0) +
     (lsum (fun c => at_surf e c (down_x (adir a)) (kof e (face_X j iy iz)) (vx (t_ox (T c)))) (order_of e a) + lsum (fun c => at_surf e c (down_y (adir a)) (kof e (face_X j iy iz)) (vy (t_oy (T c)))) (order_of e a) +
     (if sn_d3 e then lsum (fun c => at_surf e c (down_z (adir a)) (kof e (face_X j iy iz)) (vz (t_oz (T c)))) (order_of e a) else 0)))%R = vx (face_x e a x T j iy iz)).
  { intros vx vy vz j iy iz Hj Hy Hz V0. assert (F := okX e M j iy iz Hj Hy Hz). rewrite (up_x_sum e a M Co (fun k => vx (at0 x k))) by auto. rewrite (up_other e M (fun k => vy (at0 y k)) _ _ _ By F) by (apply NX; auto). rewrite (down_x_sum e a M Co (fun c => vx (t_ox (T c)))) by auto. rewrite (down_other e a M (fun c => vy (t_oy (T c))) _ _ F) by (apply NX; auto).
    assert (Z1 : (if sn_d3 e then lsum (fun ck => at_surf e (fst ck) (up_z (adir a)) (kof e (face_X j iy iz)) (vz (at0 z (snd ck)))) (up_cells_z (Nx e) (Ny e) (Nz e) (zneg e a)) else 0)%R = 0%R) by (destruct (sn_d3 e) eqn:D; [|reflexivity]; apply (up_other e M (fun k => vz (at0 z k)) _ _ _ (Bz eq_refl) F); apply NX; auto).
    assert (Z2 : (if sn_d3 e then lsum (fun c => at_surf e c (down_z (adir a)) (kof e (face_X j iy iz)) (vz (t_oz (T c)))) (order_of e a) else 0)%R = 0%R) by (destruct (sn_d3 e) eqn:D; [|reflexivity]; apply (down_other e a M (fun c => vz (t_oz (T c))) _ _ F); apply NX; auto).
    rewrite Z1, Z2. unfold face_x. destruct (j =? _); lra. }
  assert (GY : forall (vx vy vz : R -> R) ix j iz, ix < Nx e -> j <= Ny e -> iz < planes e -> vy 0%R = 0%R ->
    (lsum (fun ck => at_surf e (fst ck) (up_x (adir a)) (kof e (face_Y ix j iz)) (vx (at0 x (snd ck)))) (up_cells_x (Nx e) (Ny e) (planes e) (xneg a)) +
     lsum (fun ck => at_surf e (fst ck) (up_y (adir a)) (kof e (face_Y ix j iz)) (vy (at0 y (snd ck)))) (up_cells_y (Nx e) (Ny e) (planes e) (yneg a)) +
     (if sn_d3 e then lsum (fun ck => at_surf e (fst ck) (up_z (adir a)) (kof e (face_Y ix j iz)) (vz (at0 z (snd ck)))) (up_cells_z (Nx e) (Ny e) (Nz e) (zneg e a)) else 0) +
     (lsum (fun c => at_surf e c (down_x (adir a)) (kof e (face_Y ix j iz)) (vx (t_ox (T c)))) (order_of e a) + lsum (fun c => at_surf e c (down_y (adir a)) (kof e (face_Y ix j iz)) (vy (t_oy (T c)))) (order_of e a) +
     (if sn_d3 e then lsum (fun c => at_surf e c (down_z (adir a)) (kof e (face_Y ix j iz)) (vz (t_oz (T c)))) (order_of e a) else 0)))%R = vy (face_y e a y T ix j iz)).
  { intros vx vy vz ix j iz Hx Hj Hz V0. assert (F := okY e M ix j iz Hx Hj Hz). rewrite (up_y_sum e a M Co (fun k => vy (at0 y k))) by auto. rewrite (up_other e M (fun k => vx (at0 x k)) _ _ _ Bx F) by (apply NY; auto). rewrite (down_y_sum e a M Co (fun c => vy (t_oy (T c)))) by auto. rewrite (down_other e a M (fun c => vx (t_ox (T c))) _ _ F) by (apply NY; auto).
    assert (Z1 : (if sn_d3 e then lsum (fun ck => at_surf e (fst ck) (up_z (adir a)) (kof e (face_Y ix j iz)) (vz (at0 z (snd ck)))) (up_cells_z (Nx e) (Ny e) (Nz e) (zneg e a)) else 0)%R = 0%R) by (destruct (sn_d3 e) eqn:D; [|reflexivity]; apply (up_other e M (fun k => vz (at0 z k)) _ _ _ (Bz eq_refl) F); apply NY; auto).
    assert (Z2 : (if sn_d3 e then lsum (fun c => at_surf e c (down_z (adir a)) (kof e (face_Y ix j iz)) (vz (t_oz (T c)))) (order_of e a) else 0)%R = 0%R) by (destruct (sn_d3 e) eqn:D; [|reflexivity]; apply (down_other e a M (fun c => vz (t_oz (T c))) _ _ F); apply NY; auto).
    rewrite Z1, Z2. unfold face_y. destruct (j =? _); lra. }
  assert (GZ : forall (vx vy vz : R -> R) ix iy j, sn_d3 e = true -> ix < Nx e -> iy < Ny e -> j <= planes e -> vz 0%R = 0%R ->
    (lsum (fun ck => at_surf e (fst ck) (up_x (adir a)) (kof e (face_Z ix iy j)) (vx (at0 x (snd ck)))) (up_cells_x (Nx e) (Ny e) (planes e) (xneg a)) +
     lsum (fun ck => at_surf e (fst ck) (up_y (adir a)) (kof e (face_Z ix iy j)) (vy (at0 y (snd ck)))) (up_cells_y (Nx e) (Ny e) (planes e) (yneg a)) +
     (if sn_d3 e then lsum (fun ck => at_surf e (fst ck) (up_z (adir a)) (kof e (face_Z ix iy j)) (vz (at0 z (snd ck)))) (up_cells_z (Nx e) (Ny e) (Nz e) (zneg e a)) else 0) +
     (lsum (fun c => at_surf e c (down_x (adir a)) (kof e (face_Z ix iy j)) (vx (t_ox (T c)))) (order_of e a) + lsum (fun c => at_surf e c (down_y (adir a)) (kof e (face_Z ix iy j)) (vy (t_oy (T c)))) (order_of e a) +
     (if sn_d3 e then lsum (fun c => at_surf e c (down_z (adir a)) (kof e (face_Z ix iy j)) (vz (t_oz (T c)))) (order_of e a) else 0)))%R = vz (face_z e a z T ix iy j)).
  { intros vx vy vz ix iy j D Hx Hy Hj V0. assert (F := okZ e M ix iy j Hx Hy Hj). specialize (Bz D). rewrite (up_other e M (fun k => vx (at0 x k)) _ _ _ Bx F) by (apply NZ; auto). rewrite (up_other e M (fun k => vy (at0 y k)) _ _ _ By F) by (apply NZ; auto).
    rewrite (down_other e a M (fun c => vx (t_ox (T c))) _ _ F) by (apply NZ; auto). rewrite (down_other e a M (fun c => vy (t_oy (T c))) _ _ F) by (apply NZ; auto).
    rewrite (up_z_sum e a M Co (fun k => vz (at0 z k))) by auto. rewrite (down_z_sum e a M Co (fun c => vz (t_oz (T c)))) by auto. rewrite D. unfold face_z. destruct (j =? _); lra. }
  assert (V0 : forall r, (0 * r)%R = 0%R) by (intros; lra).
  split; split; [| split | | split].
  - intros j iy iz Hj Hy Hz. rewrite S5, lsum_cur, U3 by auto. rewrite <- (GX (fun v => v * (ox (adir a) * sn_wgt e a))%R (fun v => v * (oy (adir a) * sn_wgt e a))%R (fun v => v * (oz (adir a) * sn_wgt e a))%R j iy iz Hj Hy Hz (V0 _)). lra.
  - intros ix j iz Hx Hj Hz. rewrite S5, lsum_cur, U3 by auto. rewrite <- (GY (fun v => v * (ox (adir a) * sn_wgt e a))%R (fun v => v * (oy (adir a) * sn_wgt e a))%R (fun v => v * (oz (adir a) * sn_wgt e a))%R ix j iz Hx Hj Hz (V0 _)). lra.
  - intros D ix iy j Hx Hy Hj. rewrite S5, lsum_cur, U3 by auto. rewrite <- (GZ (fun v => v * (ox (adir a) * sn_wgt e a))%R (fun v => v * (oy (adir a) * sn_wgt e a))%R (fun v => v * (oz (adir a) * sn_wgt e a))%R ix iy j D Hx Hy Hj (V0 _)). lra.
  - intros j iy iz Hj Hy Hz. rewrite S6, lsum_sf, U4 by auto. rewrite Rmult_1_r. rewrite <- (GX (fun v => v) (fun v => v) (fun v => v) j iy iz Hj Hy Hz eq_refl). lra.
  - intros ix j iz Hx Hj Hz. rewrite S6, lsum_sf, U4 by auto. rewrite Rmult_1_r. rewrite <- (GY (fun v => v) (fun v => v) (fun v => v) ix j iz Hx Hj Hz eq_refl). lra.
  - intros D ix iy j Hx Hy Hj. rewrite S6, lsum_sf, U4 by auto. rewrite Rmult_1_r. rewrite <- (GZ (fun v => v) (fun v => v) (fun v => v) ix iy j D Hx Hy Hj eq_refl). lra.
Qed.
(** C89 for one angle: every face of every cell is tallied exactly once, with the face flux of the solution. *)
Theorem C89_faces : forall e iang a x y z t cur sf cu1 sf1 s', mesh_ok (sn_m e) -> cosines e a -> sn_cw e = true -> upwind_work e a x y z (cur, sf) = Some (cu1, sf1) -> cell_steps e iang a (order_of e a) (mkAS x y z t cu1 sf1) = Some s' -> exists X Y Z P,
  solves e iang a X Y Z P /\ enters e a x y z X Y Z /\ leaves e a (as_x s') (as_y s') (as_z s') X Y Z /\
  (forall ix iy iz, ix < Nx e -> iy < Ny e -> iz < planes e -> at0 (as_t s') (cell_ix e (ix, iy, iz)) = (at0 t (cell_ix e (ix, iy, iz)) + P ix iy iz * sn_wgt e a)%R) /\
  gained e X Y Z (ox (adir a) * sn_wgt e a) (oy (adir a) * sn_wgt e a) (oz (adir a) * sn_wgt e a) cur (as_cur s') /\ gained e X Y Z 1 1 1 sf (as_sf s').
Proof.
  intros e iang a x y z t cur sf cu1 sf1 s' M Co Cw U H. destruct (angle_gains e iang a x y z t cur sf cu1 sf1 s' M Co Cw U H) as (X & Y & Z & P & S1 & S2 & S3 & _ & S4 & S5 & S6). exists X, Y, Z, P. split; [exact S1|]. split; [exact S2|]. split; [exact S3|]. split; [intros; now apply S4|]. split; now apply gains_gained.
Qed.
Print Assumptions C89_faces.

(** ** All angles of a sweep *)
Definition aof (e : SnEnv) (f : Angle -> R) (iang : nat) : R := match nth_error (sn_quad e) iang with Some a => f a | None => 0%R end.
Lemma rbind_ok : forall {A B} (x : Res A) (f : A -> Res B) b, rbind x f = Ok b -> exists a, x = Ok a /\ f a = Ok b.
Proof. intros A B [a| |] f b H; cbn in H; try discriminate. eauto. Qed.
Lemma of_opt_ok : forall {A} (x : option A) a, of_opt x = Ok a -> x = Some a.
Proof. intros A [x|] a H; cbn in H; [|discriminate]. now injection H as ->. Qed.
Ltac step H x := apply rbind_ok in H; let E := fresh "E" x in destruct H as (x & E & H); try apply of_opt_ok in E.
Lemma sn_angle_inv : forall e tid iang s s', sn_angle e tid iang s = Ok s' -> exists a t x y z cu sf r,
  nth_error (sn_quad e) iang = Some a /\ nth_error (ss_t s) tid = Some t /\
  face_of_bc (sn_in e) (ss_in s) (sn_group e) iang X_NORM = Some x /\ face_of_bc (sn_in e) (ss_in s) (sn_group e) iang Y_NORM = Some y /\ (if sn_d3 e then face_of_bc (sn_in e) (ss_in s) (sn_group e) iang Z_NORM else Some []) = Some z /\
  upwind_work e a x y z (ss_cur s, ss_sf s) = Some (cu, sf) /\ cell_steps e iang a (order_of e a) (mkAS x y z t cu sf) = Some r /\ set_nth (ss_t s) tid (as_t r) = Some (ss_t s') /\ ss_cur s' = as_cur r /\ ss_sf s' = as_sf r /\ (sn_gs e = false -> ss_in s' = ss_in s).
Proof.
  intros e tid iang s s' H. unfold sn_angle in H. step H a. step H t. step H x. step H y. step H z. step H u. destruct u as [cu sf]. step H r. step H o1. step H o2. step H o3. step H ts. step H d. injection H as <-.
  exists a, t, x, y, z, cu, sf, r. cbn [ss_t ss_cur ss_sf ss_in]. repeat split; auto. intros G. rewrite G in Ed. now injection Ed as ->.
Qed.
Definition upd (f : nat -> F3) (i : nat) (v : F3) : nat -> F3 := fun j => if j =? i then v else f j.
Lemma upd_same : forall f i v, upd f i v i = v. Proof. intros. unfold upd. now rewrite Nat.eqb_refl. Qed.
Lemma upd_other : forall f i v j, j <> i -> upd f i v j = f j. Proof. intros. unfold upd. now rewrite (proj2 (Nat.eqb_neq j i)). Qed.
Lemma lsum_upd : forall (F : nat -> F3 -> R) f i v (l : list (nat * nat)), ~ In i (map snd l) -> lsum (fun ti => F (snd ti) (upd f i v (snd ti))) l = lsum (fun ti => F (snd ti) (f (snd ti))) l.
Proof. intros F f i v l N. apply lsum_ext. intros ti I. rewrite upd_other; [reflexivity|]. intros Q. apply N. rewrite <- Q. now apply in_map. Qed.

Definition angles_solved (e : SnEnv) (s : SnSt) (sched : list (nat * nat)) (X Y Z P : nat -> F3) : Prop :=
  forall tid iang, In (tid, iang) sched -> exists a x y z, nth_error (sn_quad e) iang = Some a /\ solves e iang a (X iang) (Y iang) (Z iang) (P iang) /\ enters e a x y z (X iang) (Y iang) (Z iang) /\
    (sn_gs e = false -> face_of_bc (sn_in e) (ss_in s) (sn_group e) iang X_NORM = Some x /\ face_of_bc (sn_in e) (ss_in s) (sn_group e) iang Y_NORM = Some y /\ (sn_d3 e = true -> face_of_bc (sn_in e) (ss_in s) (sn_group e) iang Z_NORM = Some z)).
Definition sum_gains (e : SnEnv) (sched : list (nat * nat)) (X Y Z : nat -> F3) (fx fy fz : Angle -> R) (old new : list R) : Prop :=
  (forall j iy iz, j <= Nx e -> iy < Ny e -> iz < planes e -> at0 new (kof e (face_X j iy iz)) = (at0 old (kof e (face_X j iy iz)) + lsum (fun ti => X (snd ti) j iy iz * aof e fx (snd ti)) sched)%R) /\
  (forall ix j iz, ix < Nx e -> j <= Ny e -> iz < planes e -> at0 new (kof e (face_Y ix j iz)) = (at0 old (kof e (face_Y ix j iz)) + lsum (fun ti => Y (snd ti) ix j iz * aof e fy (snd ti)) sched)%R) /\
  (sn_d3 e = true -> forall ix iy j, ix < Nx e -> iy < Ny e -> j <= planes e -> at0 new (kof e (face_Z ix iy j)) = (at0 old (kof e (face_Z ix iy j)) + lsum (fun ti => Z (snd ti) ix iy j * aof e fz (snd ti)) sched)%R).
Lemma sum_gains_cons : forall e tid iang a sched X Y Z x y z fx fy fz old mid new, nth_error (sn_quad e) iang = Some a -> ~ In iang (map snd sched) -> gains e x y z (fx a) (fy a) (fz a) old mid -> sum_gains e sched X Y Z fx fy fz mid new ->
  sum_gains e ((tid, iang) :: sched) (upd X iang x) (upd Y iang y) (upd Z iang z) fx fy fz old new.
Proof.
  intros e tid iang a sched X Y Z x y z fx fy fz old mid new Ea N (G1 & G2 & G3) (H1 & H2 & H3). assert (A : forall f, aof e f iang = f a) by (intros f; unfold aof; now rewrite Ea). split; [|split].
  - intros j iy iz Hj Hy Hz. cbn [lsum snd]. rewrite upd_same, A, (lsum_upd (fun i F => F j iy iz * aof e fx i)%R) by auto. rewrite H1, G1 by auto. lra.
  - intros ix j iz Hj Hy Hz. cbn [lsum snd]. rewrite upd_same, A, (lsum_upd (fun i F => F ix j iz * aof e fy i)%R) by auto. rewrite H2, G2 by auto. lra.
  - intros D ix iy j Hj Hy Hz. cbn [lsum snd]. rewrite upd_same, A, (lsum_upd (fun i F => F ix iy j * aof e fz i)%R) by auto. rewrite H3, G3 by auto. lra.
Qed.
Lemma Forall_set : forall {A} (P : A -> Prop) (l l' : list A) i v, set_nth l i v = Some l' -> Forall P l -> P v -> Forall P l'.
Proof.
  induction l as [|a l IH]; intros l' i v H F V; destruct i as [|i]; cbn in H; try discriminate.
  - injection H as <-. inversion F; subst. constructor; auto.
  - destruct (set_nth l i v) as [m|] eqn:E; [|discriminate]. injection H as <-. inversion F; subst. constructor; eauto.
Qed.
Theorem angles_gain : forall e n_reg sched s s', mesh_ok (sn_m e) -> sn_cw e = true -> (forall a, In a (sn_quad e) -> cosines e a) -> NoDup (map snd sched) -> Forall (fun t => length t = n_reg) (ss_t s) -> sn_angles e sched s = Ok s' -> exists X Y Z P,
  angles_solved e s sched X Y Z P /\ Forall (fun t => length t = n_reg) (ss_t s') /\
  (forall ix iy iz, ix < Nx e -> iy < Ny e -> iz < planes e -> tot (ss_t s') (cell_ix e (ix, iy, iz)) = (tot (ss_t s) (cell_ix e (ix, iy, iz)) + lsum (fun ti => P (snd ti) ix iy iz * aof e (sn_wgt e) (snd ti)) sched)%R) /\
  sum_gains e sched X Y Z (fun a => ox (adir a) * sn_wgt e a)%R (fun a => oy (adir a) * sn_wgt e a)%R (fun a => oz (adir a) * sn_wgt e a)%R (ss_cur s) (ss_cur s') /\
  sum_gains e sched X Y Z (fun _ => 1%R) (fun _ => 1%R) (fun _ => 1%R) (ss_sf s) (ss_sf s').
Proof.
  intros e n_reg sched. induction sched as [|[tid iang] sched IH]; intros s s' M Cw Co N F H; cbn [sn_angles] in H.
  - injection H as <-. exists (fun _ _ _ _ => 0%R), (fun _ _ _ _ => 0%R), (fun _ _ _ _ => 0%R), (fun _ _ _ _ => 0%R). cbn [lsum]. split; [intros t i []|]. split; [exact F|]. split; [intros; lra|]. split; (split; [|split]); intros; cbn [lsum]; lra.
  - apply rbind_ok in H. destruct H as (s1 & H1 & H). cbn [map snd] in N. apply NoDup_cons_iff in N. destruct N as [Ni N]. destruct (sn_angle_inv _ _ _ _ _ H1) as (a & t & x & y & z & cu & sf & r & Ea & Et & Ex & Ey & Ez & U & C & St & Ec & Es & Gs).
    destruct (angle_gains e iang a x y z t _ _ cu sf r M (Co a (nth_error_In _ _ Ea)) Cw U C) as (X0 & Y0 & Z0 & P0 & A1 & A2 & _ & (_ & _ & L3 & L4 & L5) & A4 & A5 & A6).
    assert (F1 : Forall (fun t => length t = n_reg) (ss_t s1)) by (apply (Forall_set _ _ _ _ _ St F); rewrite L3; apply (proj1 (Forall_forall _ _) F); eapply nth_error_In; eauto).
    destruct (IH s1 s' M Cw Co N F1 H) as (X & Y & Z & P & B1 & B2 & B3 & B4 & B5). exists (upd X iang X0), (upd Y iang Y0), (upd Z iang Z0), (upd P iang P0). split; [|split; [exact B2|split; [|split]]].
    + intros tid' iang' [I|I].
      * injection I as <- <-. exists a, x, y, z. rewrite !upd_same. split; [exact Ea|]. split; [exact A1|]. split; [exact A2|]. intros _. split; [exact Ex|]. split; [exact Ey|]. intros D. now rewrite D in Ez.
      * assert (Ne : iang' <> iang) by (intros ->; apply Ni; apply (in_map snd) in I; exact I). rewrite !upd_other by auto. destruct (B1 tid' iang' I) as (a' & x' & y' & z' & Q1 & Q2 & Q3 & Q4). exists a', x', y', z'. split; [exact Q1|]. split; [exact Q2|]. split; [exact Q3|]. intros G. specialize (Q4 G). now rewrite (Gs G) in Q4.
    + intros ix iy iz Hx Hy Hz. rewrite (B3 ix iy iz Hx Hy Hz). rewrite (tot_set _ _ _ _ _ (cell_ix e (ix, iy, iz)) Et St). destruct (A4 ix iy iz Hx Hy Hz) as [_ ->]. cbn [lsum snd]. rewrite upd_same, (lsum_upd (fun i F => F ix iy iz * aof e (sn_wgt e) i)%R) by auto. replace (aof e (sn_wgt e) iang) with (sn_wgt e a) by (unfold aof; now rewrite Ea). lra.
    + rewrite Ec in B4. eapply sum_gains_cons; eauto.
    + rewrite Es in B5. eapply sum_gains_cons; eauto.
Qed.
Lemma surf_vals : forall e l ix iy iz, mesh_ok (sn_m e) -> ix < Nx e -> iy < Ny e -> iz < planes e ->
  surf_val e l ix iy iz EAST = at0 l (kof e (face_X (S ix) iy iz)) /\ surf_val e l ix iy iz WEST = at0 l (kof e (face_X ix iy iz)) /\
  surf_val e l ix iy iz NORTH = at0 l (kof e (face_Y ix (S iy) iz)) /\ surf_val e l ix iy iz SOUTH = at0 l (kof e (face_Y ix iy iz)) /\
  surf_val e l ix iy iz TOP = at0 l (kof e (face_Z ix iy (S iz))) /\ surf_val e l ix iy iz BOTTOM = at0 l (kof e (face_Z ix iy iz)).
Proof.
  intros e l ix iy iz M Hx Hy Hz. assert (P := pos_in e (ix, iy, iz) M (conj Hx (conj Hy Hz))). unfold surf_val. change {| px := Z.of_nat ix; py := Z.of_nat iy; pz := Z.of_nat iz |} with (pos (ix, iy, iz)). rewrite !coarse_surf_correct by exact P.
  assert (FE : face_of (pos (ix, iy, iz)) EAST = face_X (S ix) iy iz) by (cbn; unfold face_X; do 2 f_equal; lia). assert (FN : face_of (pos (ix, iy, iz)) NORTH = face_Y ix (S iy) iz) by (cbn; unfold face_Y; do 2 f_equal; lia). assert (FT : face_of (pos (ix, iy, iz)) TOP = face_Z ix iy (S iz)) by (cbn; unfold face_Z; do 2 f_equal; lia).
  rewrite FE, FN, FT. repeat split.
Qed.
Lemma sided : forall o (f : nat -> R) i, o <> 0%R -> (o * (f (S i) - f i))%R = (Rabs o * (f (out_face (Rltb o 0) i) - f (in_face (Rltb o 0) i)))%R.
Proof. intros o f i N. destruct (Rltb_spec o 0) as [L|L]; cbn [out_face in_face]; [rewrite Rabs_left by lra; lra|rewrite Rabs_right by lra; lra]. Qed.

(** C89: after a sweep the currents of every cell, its collisions and its source balance, for every balanced cell equation,
    every order of the angles and distribution over threads, with or without the Gauss-Seidel boundary update. *)
Theorem C89_balance : forall e nt sched n_reg din dout cur sf flux st (dx dy dz : nat -> R), mesh_ok (sn_m e) -> sn_d3 e = true -> sn_cw e = true -> (forall a, In a (sn_quad e) -> cosines e a) -> NoDup (map snd sched) ->
  (forall k, at0 cur k = 0%R) -> (forall i, 0 < dx i /\ 0 < dy i /\ 0 < dz i)%R ->
  (forall iang a ix iy iz fx fy fz q xs o, nth_error (sn_quad e) iang = Some a -> sn_eq e iang ix iy iz fx fy fz q xs = Some o -> balanced (Rabs (ox (adir a)) / dx ix) (Rabs (oy (adir a)) / dy iy) (Rabs (oz (adir a)) / dz iz) fx fy fz q xs o) ->
  sn_sweep1g e nt sched n_reg din dout cur sf = Ok (flux, st) -> forall ix iy iz, ix < Nx e -> iy < Ny e -> iz < Nz e ->
  let J := surf_val e (ss_cur st) ix iy iz in let c := cell_ix e (ix, iy, iz) in
  ((J EAST - J WEST) * (dy iy * dz iz) + (J NORTH - J SOUTH) * (dx ix * dz iz) + (J TOP - J BOTTOM) * (dx ix * dy iy) + at0 (sn_xstr e) c * at0 flux c * (dx ix * dy iy * dz iz) =
   lsum (fun ti => aof e (sn_wgt e) (snd ti) * at0 (sn_q e (snd ti)) c) sched * (dx ix * dy iy * dz iz))%R.
Proof.
  intros e nt sched n_reg din dout cur sf flux st dx dy dz M D Cw Co N C0 Pos Bal H ix iy iz Hx Hy Hz J c. assert (Pl : planes e = Nz e) by (unfold planes; now rewrite D). rewrite <- Pl in Hz.
  unfold sn_sweep1g in H. apply rbind_ok in H. destruct H as (s1 & H & H'). apply rbind_ok in H'. destruct H' as (d & _ & H'). injection H' as <- <-. cbn [ss_cur] in J.
  assert (F0 : Forall (fun t : list R => length t = n_reg) (repeat (repeat 0%R n_reg) nt)) by (apply Forall_forall; intros t I; apply repeat_spec in I; subst; apply repeat_length).
  destruct (angles_gain e n_reg sched (mkSS din dout (repeat (repeat 0%R n_reg) nt) cur sf) s1 M Cw Co N F0 H) as (X & Y & Z & P & B1 & B2 & B3 & (B4x & B4y & B4z) & _).
  destruct (sum_threads_spec n_reg (ss_t s1) B2) as [_ At]. specialize (B3 ix iy iz Hx Hy Hz). fold c in B3. cbn [ss_t] in B3. rewrite tot_zero, Rplus_0_l in B3. rewrite At, B3.
  destruct (surf_vals e (ss_cur s1) ix iy iz M Hx Hy Hz) as (VE & VW & VN & VS & VT & VB). unfold J. rewrite VE, VW, VN, VS, VT, VB. rewrite !B4x, !B4y, !B4z by (auto; lia). cbn [ss_cur]. rewrite !C0, !Rplus_0_l.
  set (vol := (dx ix * dy iy * dz iz)%R). assert (Each : forall ti, In ti sched ->
    ((X (snd ti) (S ix) iy iz * aof e (fun a => ox (adir a) * sn_wgt e a) (snd ti) - X (snd ti) ix iy iz * aof e (fun a => ox (adir a) * sn_wgt e a) (snd ti)) * (dy iy * dz iz) +
     (Y (snd ti) ix (S iy) iz * aof e (fun a => oy (adir a) * sn_wgt e a) (snd ti) - Y (snd ti) ix iy iz * aof e (fun a => oy (adir a) * sn_wgt e a) (snd ti)) * (dx ix * dz iz) +
     (Z (snd ti) ix iy (S iz) * aof e (fun a => oz (adir a) * sn_wgt e a) (snd ti) - Z (snd ti) ix iy iz * aof e (fun a => oz (adir a) * sn_wgt e a) (snd ti)) * (dx ix * dy iy) +
     P (snd ti) ix iy iz * aof e (sn_wgt e) (snd ti) * (at0 (sn_xstr e) c * vol) = aof e (sn_wgt e) (snd ti) * at0 (sn_q e (snd ti)) c * vol)%R).
  { intros [tid iang] I. cbn [snd]. destruct (B1 tid iang I) as (a & x & y & z & Ea & So & _ & _). destruct (So ix iy iz Hx Hy Hz) as (q & xs & gz & Eq & Exs & Es & Eg). specialize (Eg D). subst gz. rewrite D in Es. apply (Bal iang a) in Es; [|exact Ea].
    destruct (Co a (nth_error_In _ _ Ea)) as (Cx & Cy & Cz). specialize (Cz D). unfold aof. rewrite Ea. apply at0_some in Eq. apply at0_some in Exs. fold c in Eq, Exs. destruct Eq as [-> _], Exs as [-> _]. destruct (Pos ix) as (Dx & _ & _), (Pos iy) as (_ & Dy & _), (Pos iz) as (_ & _ & Dz).
    assert (SX := sided (ox (adir a)) (fun j => X iang j iy iz) ix Cx). assert (SY := sided (oy (adir a)) (fun j => Y iang ix j iz) iy Cy). assert (SZ := sided (oz (adir a)) (fun j => Z iang ix iy j) iz (Cz)). cbv beta in SX, SY, SZ. fold (xneg a) in SX. fold (yneg a) in SY. assert (Zn : Rltb (oz (adir a)) 0 = zneg e a) by (unfold zneg; now rewrite D). rewrite Zn in SZ.
    unfold balanced in Es. apply (f_equal (fun r => r * (sn_wgt e a * vol))%R) in Es. unfold vol in *.
    transitivity ((Rabs (ox (adir a)) / dx ix * (X iang (out_face (xneg a) ix) iy iz - X iang (in_face (xneg a) ix) iy iz) + Rabs (oy (adir a)) / dy iy * (Y iang ix (out_face (yneg a) iy) iz - Y iang ix (in_face (yneg a) iy) iz) + Rabs (oz (adir a)) / dz iz * (Z iang ix iy (out_face (zneg e a) iz) - Z iang ix iy (in_face (zneg e a) iz)) + xs * P iang ix iy iz) * (sn_wgt e a * (dx ix * dy iy * dz iz)))%R; [|rewrite Es; ring].
    transitivity ((ox (adir a) * (X iang (S ix) iy iz - X iang ix iy iz) / dx ix + oy (adir a) * (Y iang ix (S iy) iz - Y iang ix iy iz) / dy iy + oz (adir a) * (Z iang ix iy (S iz) - Z iang ix iy iz) / dz iz + xs * P iang ix iy iz) * (sn_wgt e a * (dx ix * dy iy * dz iz)))%R; [field; lra|]. rewrite SX, SY, SZ. field. lra. }
  clear - Each. induction sched as [|ti l IH]; cbn [lsum]; [ring|]. assert (E1 := Each ti (or_introl eq_refl)). assert (E2 := IH (fun t I => Each t (or_intror I))). rewrite !Rmult_plus_distr_r. rewrite <- E1, <- E2. ring.
Qed.
Print Assumptions C89_balance.
