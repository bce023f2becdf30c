(** Property theorems for what the Sn sweeper reports: pin powers (C112) and cell balances (C113). *)
From Coq Require Import List Lia Bool Reals ZArith Arith Permutation Lra.
From Verif Require Import RUtil ListUtil McModel MeshModel MeshSpec MeshProofs GeomModel GeomProofs ScatModel ScatProofs ScatProps MatModel CoreModel CoreProofs MocProofs PflProps XsModel XsProps HomProps SrcModel SrcProps SolModel SolProps AngModel BcModel SnModel SnEqProps SnProofs SnProps SnCurProps SnSweepProps SnGroupModel SnGroupProps SnOutModel.
Import ListNotations.
Open Scope nat_scope.

(** ** Pin powers *)
Lemma sp_groups_ok : forall nreg ng x fl vol i t, flux_fits nreg ng fl -> length vol = nreg -> length (xr_f x) = ng -> i < nreg ->
  forall cnt ig pw, ig + cnt <= ng -> t < length pw -> exists pw', sp_groups x fl vol i t ig cnt pw = Some pw' /\ length pw' = length pw /\
    forall j, at0 pw' j = (at0 pw j + if j =? t then rsum (fun k => phi fl i (ig + k) * at0 (xr_f x) (ig + k)) cnt * at0 vol i else 0)%R.
Proof.
  intros nreg ng x fl vol i t F Lv Lf Hi. induction cnt as [|c IH]; intros ig pw H T; cbn [sp_groups].
  - exists pw. split; [reflexivity|]. split; [reflexivity|]. intros j. cbn [rsum]. destruct (j =? t); lra.
  - rewrite (nth_error_at0 vol i), (at2_phi nreg ng fl i ig), (nth_error_at0 (xr_f x) ig), (nth_error_at0 pw t) by (auto; lia).
    destruct (set_nth_lt pw t (at0 pw t + at0 vol i * phi fl i ig * at0 (xr_f x) ig)%R T) as [p1 E1]. rewrite E1. destruct (set_at0 _ _ _ _ E1) as [L1 O1].
    destruct (IH (S ig) p1 ltac:(lia) ltac:(lia)) as (pw' & E & L & P). exists pw'. split; [exact E|]. split; [congruence|]. intros j. rewrite P, O1, rsum_front, Nat.add_0_r.
    rewrite (rsum_ext _ (fun k => (phi fl i (ig + S k) * at0 (xr_f x) (ig + S k))%R)) by (intros k _; rewrite <- Nat.add_succ_comm; reflexivity).
    destruct (Nat.eqb_spec j t) as [->|]; [|lra]. ring.
Qed.
Definition reg_pow (ng : nat) (fl : list (list R)) (vol : list R) (x : XReg) (i : nat) : R := (rsum (fun g => phi fl i g * at0 (xr_f x) g) ng * at0 vol i)%R.
Lemma sp_regs_ok : forall nreg ng x fl vol tgt n, flux_fits nreg ng fl -> length vol = nreg -> length (xr_f x) = ng -> forall regs pw, (forall r, In r regs -> r < nreg /\ tgt r < n) -> length pw = n ->
  exists pw', sp_regs tgt x ng fl vol regs pw = Some pw' /\ length pw' = n /\ forall j, at0 pw' j = (at0 pw j + lsum (fun r => if j =? tgt r then reg_pow ng fl vol x r else 0) regs)%R.
Proof.
  intros nreg ng x fl vol tgt n F Lv Lf. induction regs as [|r regs IH]; intros pw B L; cbn [sp_regs lsum].
  - exists pw. split; [reflexivity|]. split; [exact L|]. intros j. lra.
  - destruct (B r (or_introl eq_refl)) as [B1 B2]. destruct (sp_groups_ok nreg ng x fl vol r (tgt r) F Lv Lf B1 ng 0 pw ltac:(lia) ltac:(lia)) as (p1 & -> & L1 & P1).
    destruct (IH p1 (fun q I => B q (or_intror I)) ltac:(lia)) as (pw' & E & L' & P). exists pw'. split; [exact E|]. split; [exact L'|]. intros j. rewrite P, P1. unfold reg_pow. cbn [Nat.add]. lra.
Qed.
Lemma sp_mesh_ok : forall nreg ng m xs fl vol tgt n, flux_fits nreg ng fl -> length vol = nreg -> data_fits ng m xs -> (forall i, i < nreg -> tgt i < n) -> (forall r, In r (concat (map xr_reg xs)) -> r < nreg) ->
  forall pw, length pw = n -> exists pw', sp_mesh tgt xs ng fl vol pw = Some pw' /\ length pw' = n /\ forall j, at0 pw' j = (at0 pw j + lsum (fun x => lsum (fun r => if j =? tgt r then reg_pow ng fl vol x r else 0) (xr_reg x)) xs)%R.
Proof.
  intros nreg ng m xs fl vol tgt n F Lv D T. induction xs as [|x xs IH]; intros B pw L; cbn [sp_mesh lsum].
  - exists pw. split; [reflexivity|]. split; [exact L|]. intros j. lra.
  - destruct (D x (or_introl eq_refl)) as (_ & _ & _ & _ & Lf & _). destruct (sp_regs_ok nreg ng x fl vol tgt n F Lv Lf (xr_reg x) pw) as (p1 & -> & L1 & P1); [|exact L|].
    + intros r I. assert (r < nreg) by (apply B; cbn [map concat]; apply in_or_app; now left). auto.
    + destruct (IH (fun y I => D y (or_intror I)) (fun r I => B r ltac:(cbn [map concat]; apply in_or_app; now right)) p1 L1) as (pw' & E & L' & P). exists pw'. split; [exact E|]. split; [exact L'|]. intros j. rewrite P, P1. lra.
Qed.
Lemma member_sum : forall (f : nat -> R) n l, NoDup l -> (forall r, In r l -> r < n) -> rsum (fun i => if existsb (Nat.eqb i) l then f i else 0%R) n = lsum f l.
Proof.
  intros f n l N B. rewrite rsum_lsum. rewrite (lsum_support _ (seq 0 n) l (seq_NoDup n 0) N).
  - apply lsum_ext. intros r I. replace (existsb (Nat.eqb r) l) with true; [reflexivity|]. symmetry. apply existsb_exists. exists r. split; [exact I|apply Nat.eqb_refl].
  - intros r I. apply in_seq. specialize (B r I). lia.
  - intros i H. destruct (existsb (Nat.eqb i) l) eqn:E; [|reflexivity]. apply existsb_exists in E. destruct E as (j & J & Ej). apply Nat.eqb_eq in Ej. subst. contradiction.
Qed.
(** Every power goes to the entry of its region. *)
Lemma sp_sum : forall nreg ng m xs fl vol tgt n, mesh_fits xs nreg -> flux_fits nreg ng fl -> length vol = nreg -> data_fits ng m xs -> (forall i, i < nreg -> tgt i < n) ->
  exists pw, sp_mesh tgt xs ng fl vol (repeat 0%R n) = Some pw /\ length pw = n /\ forall j, at0 pw j = rsum (fun i => if j =? tgt i then region_power xs ng fl vol i else 0%R) nreg.
Proof.
  intros nreg ng m xs fl vol tgt n [N B] F Lv D T. destruct (sp_mesh_ok nreg ng m xs fl vol tgt n F Lv D T B (repeat 0%R n) (repeat_length _ _)) as (pw & E & L & P).
  exists pw. split; [exact E|]. split; [exact L|]. intros j. rewrite P. replace (at0 (repeat 0%R n) j) with 0%R by (unfold at0; destruct (Nat.ltb_spec j n); [now rewrite nth_repeat|rewrite nth_overflow; [reflexivity|rewrite repeat_length; lia]]).
  rewrite Rplus_0_l. unfold region_power.
  rewrite (rsum_ext _ (fun i => lsum (fun x : XReg => if existsb (Nat.eqb i) (xr_reg x) then (if j =? tgt i then reg_pow ng fl vol x i else 0) else 0)%R xs)).
  - rewrite (lsum_swap_rsum (fun x i => if existsb (Nat.eqb i) (xr_reg x) then (if j =? tgt i then reg_pow ng fl vol x i else 0) else 0)%R). apply lsum_ext. intros x I. symmetry. apply (member_sum (fun i => if j =? tgt i then reg_pow ng fl vol x i else 0%R)).
    + destruct (in_split _ _ I) as (l1 & l2 & ->). rewrite map_app, concat_app in N. cbn [map concat] in N. apply NoDup_app_l in N. destruct N as (_ & N & _). now apply NoDup_app_l in N.
    + intros r Ir. apply B. apply in_concat. exists (xr_reg x). split; [now apply in_map|exact Ir].
  - intros i _. destruct (j =? tgt i); [|symmetry; apply lsum_zero; intros x _; destruct (existsb _ _); reflexivity]. reflexivity.
Qed.
Lemma entry3_self : forall m i, mesh_ok m -> (Z.of_nat i < n_pin m)%Z -> entry3 m i = i.
Proof.
  intros m i M H. destruct (cell_of_position m (Z.of_nat i) M ltac:(lia)) as [_ E]. unfold entry3, coarse_cell in *. cbv zeta. rewrite <- (Nat2Z.id i) at 4. f_equal. rewrite <- E at 4. ring.
Qed.
Lemma entry2_mod : forall m i, mesh_ok m -> entry2 m i = i mod (Z.to_nat (nx m) * Z.to_nat (ny m)).
Proof.
  intros m i (X & Y & Z0). unfold entry2, coarse_position. cbn [px py]. set (c := Z.of_nat i).
  assert (P : (0 < nx m * ny m)%Z) by nia. replace (c mod nx m)%Z with ((c mod (nx m * ny m)) mod nx m)%Z.
  - rewrite (Z.mul_comm (_ / _)%Z), <- Z_div_mod_eq_full. unfold c. rewrite <- Z2Nat.inj_mul by lia. replace (nx m * ny m)%Z with (Z.of_nat (Z.to_nat (nx m * ny m))) at 1 by lia. rewrite <- Nat2Z.inj_mod. apply Nat2Z.id.
  - pose proof (Z_div_mod_eq_full c (nx m * ny m)) as Q. set (r := (c mod (nx m * ny m))%Z) in *. set (q := (c / (nx m * ny m))%Z) in *. replace c with (r + (ny m * q) * nx m)%Z by (rewrite Q; ring). now rewrite Z_mod_plus_full.
Qed.
Lemma rsum_cut : forall (f : nat -> R) a b, rsum f (a + b) = (rsum f a + rsum (fun k => f (a + k)%nat) b)%R.
Proof. intros f a b. induction b as [|b IH]; [rewrite Nat.add_0_r; cbn; lra|]. rewrite Nat.add_succ_r. cbn [rsum]. rewrite IH. lra. Qed.
Lemma rsum_columns : forall (w : nat -> R) n j k, j < n -> rsum (fun i => if j =? i mod n then w i else 0%R) (n * k) = rsum (fun z => w (n * z + j)) k.
Proof.
  intros w n j k H. induction k as [|k IH]; [rewrite Nat.mul_0_r; reflexivity|]. rewrite Nat.mul_succ_r, rsum_cut, IH. cbn [rsum]. f_equal.
  rewrite (rsum_ext _ (fun i => if i =? j then w (n * k + j) else 0%R)); [now apply rsum_delta|]. intros i Hi. rewrite (Nat.mul_comm n k), Nat.add_comm, Nat.mod_add, Nat.mod_small by lia.
  destruct (Nat.eqb_spec j i) as [->|]; destruct (Nat.eqb_spec i i); try lia; [now rewrite Nat.add_comm|]. destruct (Nat.eqb_spec i j); [lia|reflexivity].
Qed.
Lemma total_rsum : forall l, total l = rsum (at0 l) (length l).
Proof.
  intros l. rewrite total_lsum. induction l as [|a l IH]; [reflexivity|]. cbn [length lsum]. rewrite rsum_front, IH. unfold at0. cbn [nth]. reflexivity.
Qed.
Lemma rsum_all : forall (w : nat -> R) n k, rsum (fun j => rsum (fun z => w (n * z + j)) k) n = rsum w (n * k).
Proof.
  intros w n k. induction k as [|k IH]; [rewrite Nat.mul_0_r; cbn [rsum]; induction n as [|n IHn]; cbn [rsum]; [reflexivity|]; rewrite IHn; lra|].
  rewrite Nat.mul_succ_r, rsum_cut, <- IH. cbn [rsum]. rewrite !rsum_lsum. rewrite <- lsum_plus. reflexivity.
Qed.
(** C112.  The power of a cell is the power of its cross-section data and flux, times the one factor that makes the powers add
    up to the number of cells with positive power; the two-dimensional powers are the sums over the planes, with their own factor. *)
Theorem C112_pin_powers : forall g ng m xs fl vol, mesh_ok g -> let nxy := Z.to_nat (nx g) * Z.to_nat (ny g) in let nreg := nxy * Z.to_nat (nz g) in
  mesh_fits xs nreg -> data_fits ng m xs -> flux_fits nreg ng fl -> length vol = nreg -> let w := region_power xs ng fl vol in rsum w nreg <> 0%R ->
  exists p3 p2 c3 c2, sn_pin_powers g xs ng fl vol = Some p3 /\ sn_pin_powers_2d g xs ng fl vol = Some p2 /\ length p3 = nreg /\ length p2 = nxy /\
    (forall i, i < nreg -> at0 p3 i = (w i * (INR c3 / rsum w nreg))%R) /\ rsum (at0 p3) nreg = INR c3 /\ c3 = length (filter (fun i => Rltb 0 (w i)) (seq 0 nreg)) /\
    (forall j, j < nxy -> at0 p2 j = (rsum (fun z => w (nxy * z + j)%nat) (Z.to_nat (nz g)) * (INR c2 / rsum w nreg))%R) /\ rsum (at0 p2) nxy = INR c2 /\
    c2 = length (filter (fun j => Rltb 0 (rsum (fun z => w (nxy * z + j)%nat) (Z.to_nat (nz g)))) (seq 0 nxy)).
Proof.
  intros g ng m xs fl vol M nxy nreg Mf D F Lv w Nz.
  assert (N : Z.to_nat (n_pin g) = nreg) by (unfold n_pin, nreg, nxy; destruct M as (X & Y & Z0); rewrite !Z2Nat.inj_mul by nia; reflexivity).
  assert (P1 : 0 < nxy) by (unfold nxy; destruct M as (X & Y & Z0); apply Nat.mul_pos_pos; lia).
  assert (E3 : forall i, i < nreg -> entry3 g i = i) by (intros i Hi; apply entry3_self; [exact M|lia]).
  destruct (sp_sum nreg ng m xs fl vol (entry3 g) nreg Mf F Lv D) as (q3 & S3 & L3 & Q3); [intros i Hi; rewrite E3; auto|].
  destruct (sp_sum nreg ng m xs fl vol (entry2 g) nxy Mf F Lv D) as (q2 & S2 & L2 & Q2); [intros i Hi; rewrite entry2_mod by exact M; apply Nat.mod_upper_bound; fold nxy; lia|]. fold w in Q3, Q2.
  assert (V3 : forall i, i < nreg -> at0 q3 i = w i). { intros i Hi. rewrite Q3, (rsum_ext _ (fun k => if k =? i then w i else 0%R)); [now apply rsum_delta|]. intros k Hk. rewrite E3 by exact Hk. destruct (Nat.eqb_spec i k) as [->|]; [now rewrite Nat.eqb_refl|]. destruct (Nat.eqb_spec k i); [lia|reflexivity]. }
  assert (V2 : forall j, j < nxy -> at0 q2 j = rsum (fun z => w (nxy * z + j)) (Z.to_nat (nz g))). { intros j Hj. rewrite Q2, <- rsum_columns by exact Hj. apply rsum_ext. intros i _. now rewrite entry2_mod. }
  assert (T3 : total q3 = rsum w nreg) by (rewrite total_rsum, L3; now apply rsum_ext).
  assert (T2 : total q2 = rsum w nreg) by (rewrite total_rsum, L2, (rsum_ext _ _ nxy V2); apply rsum_all).
  assert (CP : forall q n f, length q = n -> (forall i, i < n -> at0 q i = f i) -> count_pos q = length (filter (fun i => Rltb 0 (f i)) (seq 0 n))).
  { clear. intros q n f L V. assert (Eq : q = map f (seq 0 n)). { apply (nth_ext _ _ 0%R (f 0)); [now rewrite map_length, seq_length|]. intros k K. rewrite map_nth, seq_nth by lia. cbn [Nat.add]. now apply V; rewrite <- L. }
    unfold count_pos. rewrite Eq. clear. generalize 0. induction n as [|n IH]; intro s; [reflexivity|]. cbn [seq map filter]. destruct (Rltb 0 (f s)); cbn [length]; now rewrite IH. }
  assert (AM : forall q (c : R) i, i < length q -> at0 (map (fun v => v * c)%R q) i = (at0 q i * c)%R).
  { clear. intros q c i Hi. unfold at0. rewrite nth_indep with (d' := (0 * c)%R) by (now rewrite map_length). apply (map_nth (fun v => v * c)%R). }
  destruct (C52_sum q3 ltac:(congruence)) as (p3 & f3 & N3 & M3 & U3). destruct (C52_sum q2 ltac:(congruence)) as (p2 & f2 & N2 & M2 & U2).
  assert (F3 : f3 = (INR (count_pos q3) / rsum w nreg)%R) by (unfold normalize in N3; rewrite T3 in N3; destruct (Reqb_spec (rsum w nreg) 0); [contradiction|]; congruence).
  assert (F2 : f2 = (INR (count_pos q2) / rsum w nreg)%R) by (unfold normalize in N2; rewrite T2 in N2; destruct (Reqb_spec (rsum w nreg) 0); [contradiction|]; congruence).
  assert (Lp3 : length p3 = nreg) by (rewrite M3, map_length; exact L3). assert (Lp2 : length p2 = nxy) by (rewrite M2, map_length; exact L2).
  exists p3, p2, (count_pos q3), (count_pos q2).
  split. { unfold sn_pin_powers. replace (Z.to_nat (nz g * ny g * nx g)) with nreg by (rewrite <- N; unfold n_pin; f_equal; ring). now rewrite S3, N3. }
  split. { unfold sn_pin_powers_2d. replace (Z.to_nat (ny g * nx g)) with nxy by (unfold nxy; destruct M; rewrite <- Z2Nat.inj_mul by lia; f_equal; ring). now rewrite S2, N2. }
  split; [exact Lp3|]. split; [exact Lp2|]. split; [intros i Hi; rewrite M3, AM, V3, F3 by lia; reflexivity|]. split; [rewrite <- Lp3, <- total_rsum; exact U3|]. split; [now apply CP|].
  split; [intros j Hj; rewrite M2, AM, V2, F2 by lia; reflexivity|]. split; [rewrite <- Lp2, <- total_rsum; exact U2|]. now apply CP.
Qed.
Print Assumptions C112_pin_powers.
(** One column of two cells, the upper one with all the power. *)
Example C112_instance : let g := {| nx := 1; ny := 1; nz := 2 |} in exists p3 p2, sn_pin_powers g [xr_a; xr_b] 2 [[1; 2]; [3; 4]]%R [1; 2]%R = Some p3 /\ sn_pin_powers_2d g [xr_a; xr_b] 2 [[1; 2]; [3; 4]]%R [1; 2]%R = Some p2 /\
  at0 p3 0 = 0%R /\ at0 p3 1 = 1%R /\ at0 p2 0 = 1%R.
Proof.
  intro g. assert (T : rsum (region_power [xr_a; xr_b] 2 [[1; 2]; [3; 4]]%R [1; 2]%R) 2 = 6%R) by (rewrite (rsum_ext _ _ _ (fun i _ => region_power_two i)); cbn; lra).
  destruct mesh_two as (M & D & Fl). assert (G : mesh_ok g) by (unfold mesh_ok, g; cbn; lia).
  destruct (C112_pin_powers g 2 (fun _ => sc_two) [xr_a; xr_b] [[1; 2]; [3; 4]]%R [1; 2]%R G M D Fl eq_refl) as (p3 & p2 & c3 & c2 & E3 & E2 & _ & _ & V3 & S3 & C3 & V2 & S2 & C2).
  - change (Z.to_nat (nx g) * Z.to_nat (ny g) * Z.to_nat (nz g)) with 2. rewrite T. lra.
  - change (Z.to_nat (nx g) * Z.to_nat (ny g) * Z.to_nat (nz g)) with 2 in *. change (Z.to_nat (nx g) * Z.to_nat (ny g)) with 1 in *. change (Z.to_nat (nz g)) with 2 in *. exists p3, p2. split; [exact E3|]. split; [exact E2|].
    pose proof (V3 0 ltac:(lia)) as A0. pose proof (V3 1 ltac:(lia)) as A1. pose proof (V2 0 ltac:(lia)) as B0. rewrite T, region_power_two in A0, A1. cbn [Nat.eqb] in A0, A1. cbn [rsum] in S3, S2.
    assert (C2v : INR c2 = 1%R). { rewrite C2. cbn [seq filter rsum Nat.mul Nat.add]. rewrite !region_power_two. cbn [Nat.eqb]. destruct (Rltb_spec 0 (0 + 0 + 6)); [reflexivity|lra]. }
    split; [lra|]. split; [|lra].
    assert (C3v : INR c3 = 1%R). { rewrite C3. cbn [seq filter]. rewrite !region_power_two. cbn [Nat.eqb]. destruct (Rltb_spec 0 0); [lra|]. destruct (Rltb_spec 0 6); [reflexivity|lra]. }
    rewrite C3v in A1. lra.
Qed.

(** ** Cell balances *)
Lemma bal_side_ok : forall g cur e ix iy iz s dx dy dz, gmesh_ok g -> sn_m e = dims g -> length cur = Z.to_nat (n_surf (dims g)) -> ix < Nx e -> iy < Ny e -> iz < Nz e ->
  nth_error (dxv g) ix = Some dx -> nth_error (dyv g) iy = Some dy -> nth_error (dzv g) iz = Some dz ->
  bal_side g cur (cell_ix e (ix, iy, iz)) s = Some (surf_val e cur ix iy iz s * match s with EAST | WEST => dy * dz | NORTH | SOUTH => dx * dz | TOP | BOTTOM => dx * dy end)%R.
Proof.
  intros g cur e ix iy iz s dx dy dz G Em Lc Hx Hy Hz Ex Ey Ez. pose proof (gmesh_mesh_ok g G) as M. set (p := {| px := Z.of_nat ix; py := Z.of_nat iy; pz := Z.of_nat iz |}).
  assert (P : in_mesh (dims g) p). { unfold Nx, Ny, Nz in *. rewrite Em in *. unfold in_mesh, p. cbn [px py pz]. lia. }
  assert (C : Z.of_nat (cell_ix e (ix, iy, iz)) = coarse_cell (dims g) p). { unfold cell_ix, coarse_cell, p, Nx, Ny. cbn [px py pz]. rewrite Em. destruct M as (X & Y & Z0). rewrite !Nat2Z.inj_add, !Nat2Z.inj_mul, !Z2Nat.id by lia. reflexivity. }
  unfold bal_side, surf_val. rewrite C, Em. fold p. rewrite coarse_surf_correct by exact P. unfold coarse_area_cell. rewrite position_of_cell by exact P.
  assert (RD : forall l i v, nth_error l i = Some v -> rd l (Z.of_nat i) = Some v) by (intros l i v E; unfold rd; destruct (Z.ltb_spec (Z.of_nat i) 0); [lia|]; now rewrite Nat2Z.id).
  unfold p. cbn [px py pz]. rewrite (RD _ _ _ Ex), (RD _ _ _ Ey), (RD _ _ _ Ez). fold p.
  pose proof (face_index_bounds (dims g) (face_of p s) M (face_of_ok _ p s P)) as FB. destruct (Z.ltb_spec (face_index (dims g) (face_of p s)) 0); [lia|].
  destruct s; cbn [omul]; rewrite (nth_error_at0 cur) by (rewrite Lc; lia); reflexivity.
Qed.
(** C113.  After a three-dimensional group sweep, with cross-section regions numbered like the cells, the number reported for a
    cell is what its scattering within the group has changed since the last pass began, less the removal of the flux added in
    raising negative values to zero: it is zero once the sweep no longer changes the flux. *)
Theorem C113_balance : forall gm m ng sct g src vol s s' c (dx dy dz : nat -> R), sg_fits m ng sct g -> length src = sg_nreg m -> (forall k k' a, In a (map snd (sg_sched m k)) -> In a (map snd (sg_sched m k'))) -> gs_fits m ng s ->
  0 < sg_inner m -> sg_d3 m = true -> gs_co s = Some c -> (forall a q cw, In a (sg_quad m) -> cosines (sg_env m g q cw) a) -> (forall i, 0 < dx i /\ 0 < dy i /\ 0 < dz i)%R ->
  (forall iang a ix iy iz fx fy fz q xs o, nth_error (sg_quad m) iang = Some a -> sg_eq m g iang ix iy iz fx fy fz q xs = Some o -> balanced (Rabs (ox (adir a)) / dx ix) (Rabs (oy (adir a)) / dy iy) (Rabs (oz (adir a)) / dz iz) fx fy fz q xs o) ->
  lsum (fun ti => match nth_error (sg_quad m) (snd ti) with Some a => weight a * (PI / 2) | None => 0 end)%R (sg_sched m 0) = (4 * PI)%R ->
  gmesh_ok gm -> sg_m m = dims gm -> (forall i v, nth_error (dxv gm) i = Some v -> v = dx i) -> (forall i v, nth_error (dyv gm) i = Some v -> v = dy i) -> (forall i v, nth_error (dzv gm) i = Some v -> v = dz i) ->
  length vol = sg_nreg m -> (forall i v, nth_error vol i = Some v -> cell_volume gm (Z.of_nat i) = Some v) ->
  length (sg_xs m) = sg_nreg m -> (forall i x, nth_error (sg_xs m) i = Some x -> xr_reg x = [i] /\ at0 (sg_xstr m g) i = at0 (xr_tr x) g /\ nth_error (xr_rm x) g = Some (at0 (xr_tr x) g - sct x g g)%R) ->
  sg_sweep m g src s = Some s' -> exists c' cur fl1 b old f, gs_co s' = Some c' /\ nth_error (co_cur c') g = Some cur /\ get_col g (gs_flux s') = Some fl1 /\ (sg_inner m = 1 -> old = gs_flux s) /\
    check_balance gm (Some cur) src vol fl1 (sg_xs m) g = BalVals b /\ length b = sg_nreg m /\
    (forall i, i < sg_nreg m -> phi (gs_flux s') i g = Rmax 0 (at0 f i)) /\
    forall i x, nth_error (sg_xs m) i = Some x -> at0 b i = ((sct x g g * (at0 f i - phi old i g) - (at0 (xr_tr x) g - sct x g g) * (phi (gs_flux s') i g - at0 f i)) * at0 vol i)%R.
Proof.
  intros gm m ng sct g src vol s s' c dx dy dz F Ls Sc Fs Hn D3 Ec Co Pos Bal Wt G Em Dx Dy Dz Lv Vol Lx Xs E.
  destruct (C108_currents m ng sct g src s s' c dx dy dz F Ls Sc Fs Hn D3 Ec Co Pos Bal Wt E) as (c' & cur & old & f & E1 & E2 & E3 & _ & _ & _ & E4 & E5).
  destruct (C108_sweep m ng sct g src s F Ls Sc Fs) as (l & u & s2 & E6 & _ & _ & _ & _ & _ & _ & _ & _ & Fs2). rewrite E in E6. injection E6 as <-.
  destruct Fs2 as (Ff & _ & _ & _ & Fc). destruct (Fc c' E1) as (_ & _ & Fa & _). rewrite Forall_forall in Fa. pose proof (Fa cur (nth_error_In _ _ E2)) as Lc. rewrite Em in Lc.
  destruct (get_col_def g (sg_nreg m) ng (gs_flux s') Ff (sgf_g _ _ _ _ F)) as (fl1 & E7 & L1 & P1).
  set (e := sg_env m g [] true) in *. assert (Nr : sg_nreg m = Nx e * Ny e * Nz e). { rewrite (sgf_reg _ _ _ _ F [] true). unfold planes. unfold sg_env at 3. cbn [sn_d3]. rewrite D3. reflexivity. }
  assert (Ne : sn_m e = dims gm) by exact Em. pose proof (gmesh_mesh_ok gm G) as M.
  assert (Np : Z.to_nat (n_pin (dims gm)) = sg_nreg m). { rewrite Nr. unfold Nx, Ny, Nz, n_pin. rewrite Ne. destruct M as (X & Y & Z0). rewrite !Z2Nat.inj_mul by nia. reflexivity. }
  assert (Dims : length (dxv gm) = Nx e /\ length (dyv gm) = Ny e /\ length (dzv gm) = Nz e). { unfold Nx, Ny, Nz, dxv, dyv, dzv. rewrite Ne, !diffs_length. unfold dims. cbn [nx ny nz]. destruct G as (G1 & G2 & G3). lia. }
  destruct Dims as (D1 & D2 & D4).
  assert (Cell : forall i x, nth_error (sg_xs m) i = Some x -> bal_cell gm cur src vol fl1 (sg_xs m) g i = Some ((sct x g g * (at0 f i - phi old i g) - (at0 (xr_tr x) g - sct x g g) * (phi (gs_flux s') i g - at0 f i)) * at0 vol i)%R).
  { intros i x Ix. assert (Hi : i < sg_nreg m) by (rewrite <- Lx; apply nth_error_Some; congruence). destruct (Xs i x Ix) as (X1 & X2 & X3).
    assert (Cx : exists ix iy iz, ix < Nx e /\ iy < Ny e /\ iz < Nz e /\ i = cell_ix e (ix, iy, iz)).
    { rewrite Nr in Hi. assert (0 < Nx e * Ny e) by nia. assert (0 < Nx e) by nia. exists (i mod Nx e), (i / Nx e mod Ny e), (i / Nx e / Ny e). split; [apply Nat.mod_upper_bound; lia|]. split; [apply Nat.mod_upper_bound; nia|]. split.
      - rewrite Nat.div_div by nia. apply Nat.div_lt_upper_bound; nia.
      - unfold cell_ix. pose proof (Nat.div_mod_eq i (Nx e)). pose proof (Nat.div_mod_eq (i / Nx e) (Ny e)). nia. }
    destruct Cx as (ix & iy & iz & Hx & Hy & Hz & Ei).
    assert (Ax : nth_error (dxv gm) ix = Some (dx ix)) by (destruct (nth_error (dxv gm) ix) as [v|] eqn:Q; [now rewrite (Dx ix v Q)|apply nth_error_None in Q; lia]).
    assert (Ay : nth_error (dyv gm) iy = Some (dy iy)) by (destruct (nth_error (dyv gm) iy) as [v|] eqn:Q; [now rewrite (Dy iy v Q)|apply nth_error_None in Q; lia]).
    assert (Az : nth_error (dzv gm) iz = Some (dz iz)) by (destruct (nth_error (dzv gm) iz) as [v|] eqn:Q; [now rewrite (Dz iz v Q)|apply nth_error_None in Q; lia]).
    assert (B := E5 x ix iy iz). cbv zeta in B. rewrite <- Ei in B. specialize (B Hx Hy Hz (nth_error_In _ _ Ix) ltac:(rewrite X1; now left)).
    unfold bal_cell. rewrite Ei, !(bal_side_ok gm cur e ix iy iz _ (dx ix) (dy iy) (dz iz)) by auto. rewrite <- Ei.
    rewrite (nth_error_at0 src i), (nth_error_at0 vol i), (nth_error_at0 fl1 i), Ix, X3 by lia. rewrite P1 by exact Hi. f_equal.
    assert (V : at0 vol i = (dx ix * dy iy * dz iz)%R).
    { pose proof (Vol i (at0 vol i) (nth_error_at0 vol i ltac:(lia))) as Q. rewrite Ei in Q. set (p := {| px := Z.of_nat ix; py := Z.of_nat iy; pz := Z.of_nat iz |}).
      assert (P : in_mesh (dims gm) p). { unfold Nx, Ny, Nz in *. rewrite Ne in *. unfold in_mesh, p. cbn [px py pz]. lia. }
      assert (C : Z.of_nat (cell_ix e (ix, iy, iz)) = coarse_cell (dims gm) p). { unfold cell_ix, coarse_cell, p, Nx, Ny. cbn [px py pz]. rewrite Ne. destruct M as (X & Y & Z0). rewrite !Nat2Z.inj_add, !Nat2Z.inj_mul, !Z2Nat.id by lia. reflexivity. }
      unfold cell_volume in Q. rewrite C, position_of_cell in Q by exact P. unfold p in Q. cbn [px py pz] in Q. unfold rd in Q.
      repeat match type of Q with context [(Z.of_nat ?n <? 0)%Z] => destruct (Z.ltb_spec (Z.of_nat n) 0); [lia|] end. rewrite !Nat2Z.id, Ax, Ay, Az in Q. cbn [omul] in Q. rewrite Ei. congruence. }
    rewrite V, X2 in *. lra. }
  destruct (all_some_ex (map (bal_cell gm cur src vol fl1 (sg_xs m) g) (seq 0 (sg_nreg m)))) as (b & Eb).
  { intros k Hk. rewrite map_length, seq_length in Hk. rewrite nth_error_map, (nth_error_nth' _ 0) by (now rewrite seq_length). rewrite seq_nth by exact Hk. cbn [option_map Nat.add]. destruct (nth_error (sg_xs m) k) as [x|] eqn:Q; [|apply nth_error_None in Q; lia]. rewrite (Cell k x Q). eauto. }
  assert (Lb : length b = sg_nreg m) by (rewrite <- (map_length Some b), <- Eb, map_length, seq_length; reflexivity).
  exists c', cur, fl1, b, old, f. split; [exact E1|]. split; [exact E2|]. split; [exact E7|]. split; [exact E3|]. split; [unfold check_balance; rewrite Np, (proj2 (all_some_spec _ b) Eb); reflexivity|]. split; [exact Lb|]. split; [exact E4|].
  intros i x Ix. assert (Hi : i < sg_nreg m) by (rewrite <- Lx; apply nth_error_Some; congruence). pose proof (Cell i x Ix) as B.
  assert (Q : nth_error (map Some b) i = Some (bal_cell gm cur src vol fl1 (sg_xs m) g i)). { rewrite <- Eb, nth_error_map, (nth_error_nth' _ 0) by (now rewrite seq_length). rewrite seq_nth by exact Hi. reflexivity. }
  rewrite nth_error_map, (nth_error_at0 b i) in Q by lia. cbn [option_map] in Q. rewrite B in Q. injection Q as Q. exact Q.
Qed.
Print Assumptions C113_balance.
(** With planes grouped, homogenised cross-section regions hold several cells (C86), and the region with the number of a cell
    need not exist. *)
Theorem C113_subplane_refuted : exists gm x, gmesh_ok gm /\ hom_regions (fun i => i) 1 [(0, 1)] = [xr_reg x] /\ forall cur src vol fl1 g, check_balance gm (Some cur) src vol fl1 [x] g = BalUB.
Proof.
  exists {| xv := [0; 1]%R; yv := [0; 1]%R; zv := [0; 1; 2]%R |}, (mkXR [0; 1] false [] [] [] [] [] (mkSM 0 [] [] [])). split; [unfold gmesh_ok; cbn; lia|]. split; [reflexivity|].
  intros cur src vol fl1 g. unfold check_balance. change (Z.to_nat (n_pin _)) with 2. cbn [seq map all_some].
  match goal with |- context [bal_cell ?a ?b ?c ?d ?e ?f ?h 1] => assert (N : bal_cell a b c d e f h 1 = None) end.
  { unfold bal_cell. change (nth_error [_] 1) with (@None XReg). repeat match goal with |- context [bal_side ?a ?b ?c ?d] => destruct (bal_side a b c d); [|reflexivity] end. destruct (nth_error src 1), (nth_error vol 1), (nth_error fl1 1); reflexivity. }
  rewrite N. destruct (bal_cell _ _ _ _ _ _ _ 0); reflexivity.
Qed.
Print Assumptions C113_subplane_refuted.
(** Two cells side by side, two groups, one inner iteration: the numbers reported. *)
Definition bx_st : SnStatic := mkSG sx_m (sx_bc 2) (sx_bc 1) sx_quad (fun _ => [7; 5]%R) true true (fun _ => sn_eq (sx_env true)) 2 (fun _ => sx_sched1) 2 1 [xr_b; xr_a].
Lemma bx_fits : sg_fits bx_st 2 (fun _ => sc_two) 1.
Proof.
  destruct mesh_two as (M & D & _). constructor.
  - split; [repeat constructor; cbn; intuition lia|]. cbn. intuition lia.
  - intros x [<-|[<-|[]]]; apply D; cbn; auto.
  - lia.
  - intros q cw Lq. assert (F := sx_fits true). destruct F. constructor; auto.
    intros iang ix iy iz fx fy fz q0 xs I. cbn [bx_st sg_env sn_eq sg_eq sx_env]. destruct (sx_dir _ (sx_ang_in iang)) as (A & B & C). unfold eval_dd. rewrite A, B, C.
    assert (P : (0 < xs)%R) by (cbn in I; destruct I as [<-|[<-|[]]]; lra). rewrite rdiv_ok by lra. eauto.
  - reflexivity.
  - intros k. cbn [bx_st sg_sched sg_nt sg_in sx_bc BcModel.sizes length repeat]. sched_in.
  - intros k. cbn. repeat (constructor; [cbn; intuition discriminate|]); constructor.
Qed.
Example C113_instance : let gm := {| xv := [0; 1; 2]%R; yv := [0; 1]%R; zv := [0; 1]%R |} in exists s' fl1 c' cur b f, sg_sweep bx_st 1 [1; 1]%R gx_s = Some s' /\ gs_co s' = Some c' /\ nth_error (co_cur c') 1 = Some cur /\ get_col 1 (gs_flux s') = Some fl1 /\
  check_balance gm (Some cur) [1; 1]%R [1; 1]%R fl1 (sg_xs bx_st) 1 = BalVals b /\ (forall i, i < 2 -> at0 fl1 i = Rmax 0 (at0 f i)) /\ at0 b 0 = (3 * (at0 f 0 - 2) - 4 * (at0 fl1 0 - at0 f 0))%R /\ at0 b 1 = (3 * (at0 f 1 - 4) - 2 * (at0 fl1 1 - at0 f 1))%R.
Proof.
  intro gm. destruct (C108_sweep bx_st 2 (fun _ => sc_two) 1 [1; 1]%R gx_s bx_fits eq_refl (fun _ _ _ I => I) gx_sfits) as (l & u & s' & E & _ & _ & _ & _ & _ & _ & _ & _ & Fs').
  assert (Gm : gmesh_ok gm) by (unfold gmesh_ok; cbn; lia).
  destruct (C113_balance gm bx_st 2 (fun _ => sc_two) 1 [1; 1]%R [1; 1]%R gx_s s' gx_c (fun _ => 1%R) (fun _ => 1%R) (fun _ => 1%R) bx_fits eq_refl (fun _ _ _ I => I) gx_sfits) as (c' & cur & fl1 & b & old & f & B1 & B2 & B3 & B4 & B5 & _ & B6 & B7); auto.
  - intros a q cw I. apply (sx_cos true a I).
  - intros; lra.
  - apply (sx_balanced true).
  - cbn. lra.
  - intros [|[|i]] v V; cbn in V; [| |destruct i; discriminate]; injection V as <-; lra.
  - intros [|i] v V; cbn in V; [|destruct i; discriminate]; injection V as <-; lra.
  - intros [|i] v V; cbn in V; [|destruct i; discriminate]; injection V as <-; lra.
  - intros [|[|i]] v V; cbn in V; [| |destruct i; discriminate]; injection V as <-; [change (Some ((1 - 0) * (1 - 0) * (1 - 0))%R = Some 1%R)|change (Some ((2 - 1) * (1 - 0) * (1 - 0))%R = Some 1%R)]; f_equal; lra.
  - intros [|[|i]] x V; cbn in V; [| |destruct i; discriminate]; injection V as <-; cbn; (split; [reflexivity|]); (split; [reflexivity|]); f_equal; lra.
  - destruct Fs' as (Ff & _). destruct (get_col_def 1 2 2 (gs_flux s') Ff ltac:(lia)) as (f1 & F1 & _ & F2). assert (f1 = fl1) by congruence. subst f1.
    exists s', fl1, c', cur, b, f. do 5 (split; [assumption|]). split; [intros i Hi; rewrite F2 by exact Hi; now apply B6|]. rewrite (B4 eq_refl) in B7.
    split; [rewrite (B7 0 xr_b eq_refl)|rewrite (B7 1 xr_a eq_refl)]; rewrite F2 by lia; unfold phi at 1; cbn; lra.
Qed.
