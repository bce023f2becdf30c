(** C45, C89: the sweep of an angle visits every cell in upwind order, solves the discrete equations and tallies every face once. *)
From Coq Require Import List Lia Bool Reals ZArith Arith Permutation Lra.
From Verif Require Import RUtil ListUtil McModel MeshModel MeshSpec MeshProofs MeshProps AngModel BcModel BcProofs StdAlg CoreModel ExpModel MocModel MocProofs CurModel SnModel SnEqProps SnProofs.
Import ListNotations.
Open Scope nat_scope.

(** ** C45: order *)
(** Upwind neighbours of a cell: the adjacent cells a particle of the octant comes from. *)
Definition upwind_x (neg : bool) (c d : Cell) : Prop := let '(ix, iy, iz) := c in let '(jx, jy, jz) := d in jy = iy /\ jz = iz /\ (if neg then jx = S ix else ix = S jx).
Definition upwind_y (neg : bool) (c d : Cell) : Prop := let '(ix, iy, iz) := c in let '(jx, jy, jz) := d in jx = ix /\ jz = iz /\ (if neg then jy = S iy else iy = S jy).
Definition upwind_z (neg : bool) (c d : Cell) : Prop := let '(ix, iy, iz) := c in let '(jx, jy, jz) := d in jx = ix /\ jy = iy /\ (if neg then jz = S iz else iz = S jz).
Lemma up_of_in : forall row g n neg i p j, up_of row g n neg i p -> i < n -> j < n -> (if neg : bool then j = S i else i = S j) -> In (g j) p.
Proof.
  intros row g n neg i p j U Hi Hj E. unfold up_of in U. destruct (Nat.eqb_spec i (first_of n neg)) as [F|F]; [unfold first_of in F; destruct neg; lia|].
  destruct U as (q & U). assert (J : j = prev_of neg i) by (unfold prev_of; destruct neg; lia). subst j. assert (I : In (g (prev_of neg i)) (filter row p)) by (rewrite U; apply in_or_app; right; now left). apply filter_In in I. tauto.
Qed.
Theorem C45_order : forall nx ny nz xn yn zn, let order := sweep_order nx ny nz xn yn zn in
  NoDup order /\ (forall ix iy iz, In (ix, iy, iz) order <-> ix < nx /\ iy < ny /\ iz < nz) /\
  (forall before c after d, order = before ++ c :: after -> In d order -> upwind_x xn c d \/ upwind_y yn c d \/ upwind_z zn c d -> In d before).
Proof.
  intros nx ny nz xn yn zn order. split; [apply nodup_order|]. split; [intros; apply (in_order nx ny nz xn yn zn (ix, iy, iz))|].
  intros p [[ix iy] iz] r [[jx jy] jz] E D U. destruct (order_up _ _ _ _ _ _ _ _ _ _ _ E) as (Ux & Uy & Uz).
  assert (B : in_box nx ny nz (ix, iy, iz)) by (apply (in_order nx ny nz xn yn zn); fold order; rewrite E; apply in_or_app; right; now left). apply in_order in D. destruct B as (X & Y & Z), D as (X' & Y' & Z').
  destruct U as [(-> & -> & U)|[(-> & -> & U)|(-> & -> & U)]]; [apply (up_of_in _ _ _ _ _ _ _ Ux X X' U)|apply (up_of_in _ _ _ _ _ _ _ Uy Y Y' U)|apply (up_of_in _ _ _ _ _ _ _ Uz Z Z' U)].
Qed.
Print Assumptions C45_order.
Example C45_order_instance : sweep_order 2 3 1 true false false = [(1, 0, 0); (0, 0, 0); (1, 1, 0); (0, 1, 0); (1, 2, 0); (0, 2, 0)] /\ upwind_x true (0, 1, 0) (1, 1, 0) /\ upwind_y false (0, 1, 0) (0, 0, 0).
Proof. repeat split. Qed.

(** ** C45: the discrete equations *)
(** Faces are numbered 0 .. n along an axis; particles enter a cell by its upwind face and leave by the other. *)
Definition in_face (neg : bool) (i : nat) : nat := if neg then S i else i.
Definition out_face (neg : bool) (i : nat) : nat := if neg then i else S i.
Definition first_face (n : nat) (neg : bool) : nat := if neg then n else 0.
Definition last_face (n : nat) (neg : bool) : nat := if neg then 0 else n.
Definition planes (e : SnEnv) : nat := if sn_d3 e then Nz e else 1.
Definition xneg (a : Angle) : bool := Rltb (ox (adir a)) 0.
Definition yneg (a : Angle) : bool := Rltb (oy (adir a)) 0.
Definition zneg (e : SnEnv) (a : Angle) : bool := if sn_d3 e then Rltb (oz (adir a)) 0 else false.
Definition F3 : Type := nat -> nat -> nat -> R.
(** Face fluxes X, Y, Z and cell fluxes P satisfy the cell equation in every cell. *)
Definition solves (e : SnEnv) (iang : nat) (a : Angle) (X Y Z P : F3) : Prop := forall ix iy iz, ix < Nx e -> iy < Ny e -> iz < planes e -> exists q xs gz,
  nth_error (sn_q e iang) (cell_ix e (ix, iy, iz)) = Some q /\ nth_error (sn_xstr e) (cell_ix e (ix, iy, iz)) = Some xs /\
  sn_eq e iang ix iy iz (X (in_face (xneg a) ix) iy iz) (Y ix (in_face (yneg a) iy) iz) (if sn_d3 e then Z ix iy (in_face (zneg e a) iz) else 0%R) q xs =
    Some (P ix iy iz, X (out_face (xneg a) ix) iy iz, Y ix (out_face (yneg a) iy) iz, gz) /\ (sn_d3 e = true -> gz = Z ix iy (out_face (zneg e a) iz)).
(** Values on the side of the mesh the particles come from. *)
Definition enters (e : SnEnv) (a : Angle) (x y z : list R) (X Y Z : F3) : Prop :=
  (forall iy iz, iy < Ny e -> iz < planes e -> X (first_face (Nx e) (xneg a)) iy iz = at0 x (Ny e * iz + iy)) /\
  (forall ix iz, ix < Nx e -> iz < planes e -> Y ix (first_face (Ny e) (yneg a)) iz = at0 y (Nx e * iz + ix)) /\
  (sn_d3 e = true -> forall ix iy, ix < Nx e -> iy < Ny e -> Z ix iy (first_face (Nz e) (zneg e a)) = at0 z (Nx e * iy + ix)).
Definition leaves (e : SnEnv) (a : Angle) (x y z : list R) (X Y Z : F3) : Prop :=
  (forall iy iz, iy < Ny e -> iz < planes e -> at0 x (Ny e * iz + iy) = X (last_face (Nx e) (xneg a)) iy iz) /\
  (forall ix iz, ix < Nx e -> iz < planes e -> at0 y (Nx e * iz + ix) = Y ix (last_face (Ny e) (yneg a)) iz) /\
  (sn_d3 e = true -> forall ix iy, ix < Nx e -> iy < Ny e -> at0 z (Nx e * iy + ix) = Z ix iy (last_face (Nz e) (zneg e a))).

Section Keys.
Variables (key : Cell -> nat) (row : Cell -> bool) (g : nat -> Cell) (n : nat) (neg : bool) (k : nat).
Variable box : Cell -> Prop.
Hypothesis Rk : forall c, box c -> (key c =? k) = row c.
Lemma after_row : forall o p l i, (forall c, In c p -> box c) -> up_of row g n neg i p -> i < n -> after key o p l k = if i =? first_of n neg then at0 l k else o (g (prev_of neg i)).
Proof.
  intros o p l i B U Hi. unfold after, up_of in *. assert (E : filter (fun c => key c =? k) p = filter row p) by (apply filter_ext_in; intros c I; apply Rk, B, I). rewrite E.
  destruct (i =? first_of n neg); [now rewrite U|]. destruct U as (q & ->). rewrite map_app. apply last_last.
Qed.
Lemma after_all : forall o p l, (forall c, In c p -> box c) -> filter row p = map g (dir_range n neg) -> 0 < n -> after key o p l k = o (g (if neg then 0 else n - 1)).
Proof.
  intros o p l B F H. unfold after. assert (E : filter (fun c => key c =? k) p = filter row p) by (apply filter_ext_in; intros c I; apply Rk, B, I). rewrite E, F.
  destruct n as [|m]; [lia|]. assert (D : dir_range (S m) neg = removelast (dir_range (S m) neg) ++ [if neg then 0 else m]).
  { rewrite (app_removelast_last 0) at 1 by (intros Q; apply (f_equal (@length nat)) in Q; rewrite dir_range_length in Q; discriminate). do 2 f_equal. unfold dir_range. destruct neg.
    - rewrite seq_S, map_app. cbn [map]. rewrite last_last. lia.
    - rewrite seq_S. now rewrite last_last. }
  rewrite D, !map_app. cbn [map]. rewrite last_last. do 2 f_equal. destruct neg; lia.
Qed.
End Keys.
Lemma key_x_row : forall e iy iz n3 c, iy < Ny e -> in_box (Nx e) (Ny e) n3 c -> (key_x e c =? Ny e * iz + iy) = row_x iy iz c.
Proof.
  intros e iy iz n3 [[jx jy] jz] H (X & Y & Z). cbn. destruct (Nat.eqb_spec jy iy) as [->|Ny1]; destruct (Nat.eqb_spec jz iz) as [->|Nz1]; cbn; [apply Nat.eqb_refl| | |]; apply Nat.eqb_neq; nia.
Qed.
Lemma key_y_row : forall e ix iz n3 c, ix < Nx e -> in_box (Nx e) (Ny e) n3 c -> (key_y e c =? Nx e * iz + ix) = row_y ix iz c.
Proof.
  intros e ix iz n3 [[jx jy] jz] H (X & Y & Z). cbn. destruct (Nat.eqb_spec jx ix) as [->|Ny1]; destruct (Nat.eqb_spec jz iz) as [->|Nz1]; cbn; [apply Nat.eqb_refl| | |]; apply Nat.eqb_neq; nia.
Qed.
Lemma key_z_row : forall e ix iy n3 c, ix < Nx e -> in_box (Nx e) (Ny e) n3 c -> (key_z e c =? Nx e * iy + ix) = row_z ix iy c.
Proof.
  intros e ix iy n3 [[jx jy] jz] H (X & Y & Z). cbn. destruct (Nat.eqb_spec jx ix) as [->|Ny1]; destruct (Nat.eqb_spec jy iy) as [->|Nz1]; cbn; [apply Nat.eqb_refl| | |]; apply Nat.eqb_neq; nia.
Qed.
Lemma cell_ix_inj : forall e n3 c d, in_box (Nx e) (Ny e) n3 c -> in_box (Nx e) (Ny e) n3 d -> cell_ix e c = cell_ix e d -> c = d.
Proof.
  intros e n3 [[ix iy] iz] [[jx jy] jz] (X & Y & _) (X' & Y' & _) E. cbn in E. assert (Q : iz * Ny e + iy = jz * Ny e + jy) by nia. assert (iz = jz) by nia. subst jz. assert (iy = jy) by nia. subst jy. assert (ix = jx) by lia. now subst.
Qed.
Lemma lsum_single : forall {A} (f : A -> R) l a, NoDup l -> In a l -> (forall b, In b l -> b <> a -> f b = 0%R) -> lsum f l = f a.
Proof.
  induction l as [|b l IH]; intros a N I H; [destruct I|]. apply NoDup_cons_iff in N. destruct N as [Nb N]. cbn [lsum]. destruct I as [->|I].
  - rewrite lsum_zero; [lra|]. intros c Ic. apply H; [now right|intros ->; contradiction].
  - rewrite (H b); [|now left|intros ->; contradiction]. rewrite (IH a); auto; [lra|]. intros c Ic. apply H. now right.
Qed.

(** The face flux functions read off a trace. *)
Definition face_x (e : SnEnv) (a : Angle) (x : list R) (T : Cell -> Tr) : F3 := fun j iy iz => if j =? first_face (Nx e) (xneg a) then at0 x (Ny e * iz + iy) else t_ox (T (if xneg a then j else j - 1, iy, iz)).
Definition face_y (e : SnEnv) (a : Angle) (y : list R) (T : Cell -> Tr) : F3 := fun ix j iz => if j =? first_face (Ny e) (yneg a) then at0 y (Nx e * iz + ix) else t_oy (T (ix, if yneg a then j else j - 1, iz)).
Definition face_z (e : SnEnv) (a : Angle) (z : list R) (T : Cell -> Tr) : F3 := fun ix iy j => if j =? first_face (planes e) (zneg e a) then at0 z (Nx e * iy + ix) else t_oz (T (ix, iy, if zneg e a then j else j - 1)).
Lemma out_not_first : forall n neg i, i < n -> (out_face neg i =? first_face n neg) = false.
Proof. intros n neg i H. apply Nat.eqb_neq. unfold out_face, first_face. destruct neg; lia. Qed.
Lemma out_cell : forall neg i, (if neg : bool then out_face neg i else out_face neg i - 1) = i.
Proof. intros [|] i; cbn; lia. Qed.
Lemma in_first : forall n neg i, i < n -> (in_face neg i =? first_face n neg) = (i =? first_of n neg).
Proof. intros n neg i H. unfold in_face, first_face, first_of. destruct neg; [|reflexivity]. destruct (Nat.eqb_spec i (n - 1)); [apply Nat.eqb_eq|apply Nat.eqb_neq]; lia. Qed.
Lemma in_cell : forall neg i, (if neg : bool then in_face neg i else in_face neg i - 1) = prev_of neg i.
Proof. intros [|] i; reflexivity. Qed.
Lemma last_not_first : forall n neg, 0 < n -> (last_face n neg =? first_face n neg) = false.
Proof. intros n neg H. apply Nat.eqb_neq. unfold last_face, first_face. destruct neg; lia. Qed.
Lemma last_cell : forall n neg, (if neg : bool then last_face n neg else last_face n neg - 1) = (if neg then 0 else n - 1).
Proof. intros n [|]; reflexivity. Qed.

(** The facts about a sweep over the cells of one angle in terms of a trace. *)
Lemma swept : forall e iang a s s', cell_steps e iang a (order_of e a) s = Some s' -> 0 < Nx e -> 0 < Ny e -> 0 < planes e -> exists T,
  solves e iang a (face_x e a (as_x s) T) (face_y e a (as_y s) T) (face_z e a (as_z s) T) (fun ix iy iz => t_p (T (ix, iy, iz))) /\
  leaves e a (as_x s') (as_y s') (as_z s') (face_x e a (as_x s) T) (face_y e a (as_y s) T) (face_z e a (as_z s) T) /\
  (length (as_x s') = length (as_x s) /\ length (as_y s') = length (as_y s) /\ length (as_z s') = length (as_z s) /\ length (as_t s') = length (as_t s) /\ length (as_cur s') = length (as_cur s) /\ length (as_sf s') = length (as_sf s)) /\
  (forall ix iy iz, ix < Nx e -> iy < Ny e -> iz < planes e -> cell_ix e (ix, iy, iz) < length (as_t s) /\ at0 (as_t s') (cell_ix e (ix, iy, iz)) = (at0 (as_t s) (cell_ix e (ix, iy, iz)) + t_p (T (ix, iy, iz)) * sn_wgt e a)%R) /\
  (forall k, at0 (as_cur s') k = (at0 (as_cur s) k + lsum (fun c => cell_cur e a (T c) c k) (order_of e a))%R) /\
  (forall k, at0 (as_sf s') k = (at0 (as_sf s) k + lsum (fun c => cell_sf e a (T c) c k) (order_of e a))%R).
Proof.
  intros e iang a s s' H Hx Hy Hz. assert (Eo : order_of e a = sweep_order (Nx e) (Ny e) (planes e) (xneg a) (yneg a) (zneg e a)) by reflexivity.
  destruct (trace _ _ _ _ _ _ H) as (T & A & (Lx & Ax) & (Ly & Ay) & Az & (Lt & At) & (Lc & Ac) & (Lf & Af)); [rewrite Eo; apply nodup_order|]. exists T. rewrite Eo in A.
  assert (Box : forall c, In c (order_of e a) -> in_box (Nx e) (Ny e) (planes e) c) by (intros c I; rewrite Eo in I; now apply in_order in I).
  assert (Box' : forall p c r, sweep_order (Nx e) (Ny e) (planes e) (xneg a) (yneg a) (zneg e a) = p ++ c :: r -> forall d, In d p -> in_box (Nx e) (Ny e) (planes e) d) by (intros p c r E d I; apply Box; rewrite Eo, E; apply in_or_app; now left).
  split; [|split; [|split; [|split; [|split]]]].
  - intros ix iy iz X Y Z. assert (I : In (ix, iy, iz) (sweep_order (Nx e) (Ny e) (planes e) (xneg a) (yneg a) (zneg e a))) by (apply in_order; cbn; auto). apply in_split in I. destruct I as (p & r & E).
    destruct (A p _ r E) as ((q & xs & Eq & Exs & Es) & _ & (Ix & _) & (Iy & _) & Iz). destruct (order_up _ _ _ _ _ _ _ _ _ _ _ E) as (Ux & Uy & Uz).
    rewrite (after_row (key_x e) (row_x iy iz) (fun i => (i, iy, iz)) (Nx e) (xneg a) (key_x e (ix, iy, iz)) (in_box (Nx e) (Ny e) (planes e)) (fun c Bc => key_x_row e iy iz (planes e) c Y Bc) _ p _ ix (Box' p _ r E) Ux X) in Ix.
    rewrite (after_row (key_y e) (row_y ix iz) (fun i => (ix, i, iz)) (Ny e) (yneg a) (key_y e (ix, iy, iz)) (in_box (Nx e) (Ny e) (planes e)) (fun c Bc => key_y_row e ix iz (planes e) c X Bc) _ p _ iy (Box' p _ r E) Uy Y) in Iy.
    exists q, xs, (t_oz (T (ix, iy, iz))). split; [exact Eq|]. split; [exact Exs|]. unfold face_x, face_y, face_z. rewrite !out_not_first, !in_first, !out_cell, !in_cell by auto. split; [|reflexivity].
    cbn [key_x key_y] in Ix, Iy. rewrite <- Ix, <- Iy. assert (Ez : (if sn_d3 e then if iz =? first_of (planes e) (zneg e a) then at0 (as_z s) (Nx e * iy + ix) else t_oz (T (ix, iy, prev_of (zneg e a) iz)) else 0%R) = t_iz (T (ix, iy, iz))).
    { destruct (sn_d3 e); [|now rewrite Iz]. destruct Iz as [Iz _]. rewrite (after_row (key_z e) (row_z ix iy) (fun i => (ix, iy, i)) (planes e) (zneg e a) (key_z e (ix, iy, iz)) (in_box (Nx e) (Ny e) (planes e)) (fun c Bc => key_z_row e ix iy (planes e) c X Bc) _ p _ iz (Box' p _ r E) Uz Z) in Iz. now rewrite Iz. }
    rewrite Ez. exact Es.
  - split; [|split].
    + intros iy iz Y Z. rewrite Ax. rewrite (after_all (key_x e) (row_x iy iz) (fun i => (i, iy, iz)) (Nx e) (xneg a) _ (in_box (Nx e) (Ny e) (planes e)) (fun c Bc => key_x_row e iy iz (planes e) c Y Bc)); auto; [|rewrite Eo; now apply filter_x].
      unfold face_x. rewrite last_not_first, last_cell by auto. reflexivity.
    + intros ix iz X Z. rewrite Ay. rewrite (after_all (key_y e) (row_y ix iz) (fun i => (ix, i, iz)) (Ny e) (yneg a) _ (in_box (Nx e) (Ny e) (planes e)) (fun c Bc => key_y_row e ix iz (planes e) c X Bc)); auto; [|rewrite Eo; now apply filter_y].
      unfold face_y. rewrite last_not_first, last_cell by auto. reflexivity.
    + intros D ix iy X Y. rewrite D in Az. destruct Az as [_ Az]. rewrite Az. rewrite (after_all (key_z e) (row_z ix iy) (fun i => (ix, iy, i)) (planes e) (zneg e a) _ (in_box (Nx e) (Ny e) (planes e)) (fun c Bc => key_z_row e ix iy (planes e) c X Bc)); auto; [|rewrite Eo; now apply filter_z].
      unfold face_z. replace (Nz e) with (planes e) by (unfold planes; now rewrite D). rewrite last_not_first, last_cell by auto. reflexivity.
  - repeat split; auto. destruct (sn_d3 e); [apply Az|congruence].
  - intros ix iy iz X Y Z. assert (I : In (ix, iy, iz) (order_of e a)) by (rewrite Eo; apply in_order; cbn; auto). split.
    + apply in_split in I. destruct I as (p & r & E). rewrite Eo in E. apply (A p _ r E).
    + rewrite At. f_equal. rewrite (lsum_single _ _ (ix, iy, iz)); [now rewrite Nat.eqb_refl|rewrite Eo; apply nodup_order|exact I|]. intros c Ic Nc. destruct (Nat.eqb_spec (cell_ix e (ix, iy, iz)) (cell_ix e c)) as [Q|Q]; [|reflexivity].
      exfalso. apply Nc. symmetry. apply (cell_ix_inj e (planes e)); [apply Box; exact I|now apply Box|exact Q].
  - exact Ac.
  - exact Af.
Qed.
Lemma enters_trace : forall e a s T, enters e a (as_x s) (as_y s) (as_z s) (face_x e a (as_x s) T) (face_y e a (as_y s) T) (face_z e a (as_z s) T).
Proof.
  intros e a s T. split; [|split]; intros; unfold face_x, face_y, face_z; [| |replace (planes e) with (Nz e) by (unfold planes; now rewrite H)]; now rewrite Nat.eqb_refl.
Qed.
(** C45: the sweep of one angle solves the discrete transport equation, whatever the cell equation. *)
Theorem C45_solution : forall e iang a s s', 0 < Nx e -> 0 < Ny e -> 0 < planes e -> cell_steps e iang a (order_of e a) s = Some s' -> exists X Y Z P,
  solves e iang a X Y Z P /\ enters e a (as_x s) (as_y s) (as_z s) X Y Z /\ leaves e a (as_x s') (as_y s') (as_z s') X Y Z /\
  (forall ix iy iz, ix < Nx e -> iy < Ny e -> iz < planes e -> at0 (as_t s') (cell_ix e (ix, iy, iz)) = (at0 (as_t s) (cell_ix e (ix, iy, iz)) + P ix iy iz * sn_wgt e a)%R).
Proof.
  intros e iang a s s' Hx Hy Hz H. destruct (swept e iang a s s' H Hx Hy Hz) as (T & S1 & S2 & _ & S4 & _). eexists _, _, _, _. split; [exact S1|]. split; [apply enters_trace|]. split; [exact S2|]. intros ix iy iz X Y Z. now apply S4.
Qed.
Print Assumptions C45_solution.

(** The equations determine the fluxes: there is only one solution with given incoming values. *)
Lemma in_out : forall neg i n, i < n -> i <> first_of n neg -> in_face neg i = out_face neg (prev_of neg i) /\ prev_of neg i < n.
Proof. intros neg i n H N. unfold in_face, out_face, prev_of, first_of in *. destruct neg; lia. Qed.
Lemma face_cases : forall n neg j, j <= n -> j = first_face n neg \/ exists i, i < n /\ j = out_face neg i.
Proof.
  intros n neg j H. unfold first_face, out_face. destruct neg.
  - destruct (Nat.eq_dec j n) as [->|N]; [now left|right; exists j; lia].
  - destruct j as [|j]; [now left|right; exists j; lia].
Qed.
Theorem C45_unique : forall e iang a x y z X Y Z P X' Y' Z' P', solves e iang a X Y Z P -> enters e a x y z X Y Z -> solves e iang a X' Y' Z' P' -> enters e a x y z X' Y' Z' ->
  (forall ix iy iz, ix < Nx e -> iy < Ny e -> iz < planes e -> P ix iy iz = P' ix iy iz) /\
  (forall j iy iz, j <= Nx e -> iy < Ny e -> iz < planes e -> X j iy iz = X' j iy iz) /\
  (forall ix j iz, ix < Nx e -> j <= Ny e -> iz < planes e -> Y ix j iz = Y' ix j iz) /\
  (sn_d3 e = true -> forall ix iy j, ix < Nx e -> iy < Ny e -> j <= Nz e -> Z ix iy j = Z' ix iy j).
Proof.
  intros e iang a x y z X Y Z P X' Y' Z' P' S1 (Ex & Ey & Ez) S2 (Ex' & Ey' & Ez').
  set (order := sweep_order (Nx e) (Ny e) (planes e) (xneg a) (yneg a) (zneg e a)).
  assert (Q : forall p r, order = p ++ r -> forall ix iy iz, In (ix, iy, iz) p -> P ix iy iz = P' ix iy iz /\ X (out_face (xneg a) ix) iy iz = X' (out_face (xneg a) ix) iy iz /\ Y ix (out_face (yneg a) iy) iz = Y' ix (out_face (yneg a) iy) iz /\ (sn_d3 e = true -> Z ix iy (out_face (zneg e a) iz) = Z' ix iy (out_face (zneg e a) iz))).
  { induction p as [|[[jx jy] jz] p IH] using rev_ind; intros r E ix iy iz I; [destruct I|]. rewrite <- app_assoc in E. cbn [app] in E. specialize (IH _ E). apply in_app_or in I. destruct I as [I|[I|[]]]; [now apply IH|]. injection I as -> -> ->.
    assert (B : in_box (Nx e) (Ny e) (planes e) (ix, iy, iz)) by (apply (in_order (Nx e) (Ny e) (planes e) (xneg a) (yneg a) (zneg e a)); fold order; rewrite E; apply in_or_app; right; now left). destruct B as (Bx & By & Bz).
    destruct (C45_order (Nx e) (Ny e) (planes e) (xneg a) (yneg a) (zneg e a)) as (_ & InO & Up). fold order in InO, Up.
    destruct (S1 ix iy iz Bx By Bz) as (q & xs & gz & Eq & Exs & Es & Eg), (S2 ix iy iz Bx By Bz) as (q' & xs' & gz' & Eq' & Exs' & Es' & Eg'). rewrite Eq in Eq'. injection Eq' as <-. rewrite Exs in Exs'. injection Exs' as <-.
    assert (HX : X (in_face (xneg a) ix) iy iz = X' (in_face (xneg a) ix) iy iz).
    { destruct (Nat.eq_dec ix (first_of (Nx e) (xneg a))) as [F|F].
      - assert (G : in_face (xneg a) ix = first_face (Nx e) (xneg a)) by (apply Nat.eqb_eq; rewrite in_first by auto; now apply Nat.eqb_eq). rewrite G, Ex, Ex' by auto. reflexivity.
      - destruct (in_out (xneg a) ix (Nx e) Bx F) as [G L]. rewrite G. apply (IH (prev_of (xneg a) ix) iy iz). apply (Up p (ix, iy, iz) r); [exact E|now apply InO|]. left. cbn. split; [auto|]. split; [auto|]. unfold prev_of, first_of in *. destruct (xneg a); lia. }
    assert (HY : Y ix (in_face (yneg a) iy) iz = Y' ix (in_face (yneg a) iy) iz).
    { destruct (Nat.eq_dec iy (first_of (Ny e) (yneg a))) as [F|F].
      - assert (G : in_face (yneg a) iy = first_face (Ny e) (yneg a)) by (apply Nat.eqb_eq; rewrite in_first by auto; now apply Nat.eqb_eq). rewrite G, Ey, Ey' by auto. reflexivity.
      - destruct (in_out (yneg a) iy (Ny e) By F) as [G L]. rewrite G. apply (IH ix (prev_of (yneg a) iy) iz). apply (Up p (ix, iy, iz) r); [exact E|now apply InO|]. right. left. cbn. split; [auto|]. split; [auto|]. unfold prev_of, first_of in *. destruct (yneg a); lia. }
    assert (HZ : (if sn_d3 e then Z ix iy (in_face (zneg e a) iz) else 0%R) = (if sn_d3 e then Z' ix iy (in_face (zneg e a) iz) else 0%R)).
    { destruct (sn_d3 e) eqn:D3; [|reflexivity]. assert (Pl : planes e = Nz e) by (unfold planes; now rewrite D3). destruct (Nat.eq_dec iz (first_of (planes e) (zneg e a))) as [F|F].
      - assert (G : in_face (zneg e a) iz = first_face (planes e) (zneg e a)) by (apply Nat.eqb_eq; rewrite in_first by auto; now apply Nat.eqb_eq). rewrite G, Pl, Ez, Ez' by auto. reflexivity.
      - destruct (in_out (zneg e a) iz (planes e) Bz F) as [G L]. rewrite G. apply (IH ix iy (prev_of (zneg e a) iz)); [|reflexivity]. apply (Up p (ix, iy, iz) r); [exact E|now apply InO|]. right. right. cbn. split; [auto|]. split; [auto|]. unfold prev_of, first_of in *. destruct (zneg e a); lia. }
    rewrite HX, HY, HZ, Es' in Es. injection Es as E1 E2 E3 E4. split; [auto|]. split; [auto|]. split; [auto|]. intros D. rewrite <- Eg, <- Eg' by auto. auto. }
  assert (Q' : forall ix iy iz, ix < Nx e -> iy < Ny e -> iz < planes e -> P ix iy iz = P' ix iy iz /\ X (out_face (xneg a) ix) iy iz = X' (out_face (xneg a) ix) iy iz /\ Y ix (out_face (yneg a) iy) iz = Y' ix (out_face (yneg a) iy) iz /\ (sn_d3 e = true -> Z ix iy (out_face (zneg e a) iz) = Z' ix iy (out_face (zneg e a) iz))).
  { intros ix iy iz Bx By Bz. apply (Q order []); [now rewrite app_nil_r|]. apply in_order. cbn. auto. }
  split; [intros; now apply Q'|]. split; [|split].
  - intros j iy iz Hj Hy Hz. destruct (face_cases _ (xneg a) _ Hj) as [->|(i & Hi & ->)]; [rewrite Ex, Ex' by auto; reflexivity|now apply Q'].
  - intros ix j iz Hx Hj Hz. destruct (face_cases _ (yneg a) _ Hj) as [->|(i & Hi & ->)]; [rewrite Ey, Ey' by auto; reflexivity|now apply Q'].
  - intros D ix iy j Hx Hy Hj. assert (Pl : planes e = Nz e) by (unfold planes; now rewrite D). destruct (face_cases _ (zneg e a) _ Hj) as [->|(i & Hi & ->)]; [rewrite Ez, Ez' by auto; reflexivity|]. apply Q'; auto. lia.
Qed.
Print Assumptions C45_unique.

(** ** Cells and positions *)
Definition pos (c : Cell) : Position := let '(ix, iy, iz) := c in {| px := Z.of_nat ix; py := Z.of_nat iy; pz := Z.of_nat iz |}.
Lemma nxz : forall e, mesh_ok (sn_m e) -> Z.of_nat (Nx e) = nx (sn_m e) /\ Z.of_nat (Ny e) = ny (sn_m e) /\ Z.of_nat (Nz e) = nz (sn_m e).
Proof. intros e (X & Y & Z). unfold Nx, Ny, Nz. rewrite !Z2Nat.id by lia. auto. Qed.
Lemma cell_pos : forall e c, mesh_ok (sn_m e) -> Z.of_nat (cell_ix e c) = coarse_cell (sn_m e) (pos c).
Proof. intros e [[ix iy] iz] M. destruct (nxz e M) as (X & Y & _). unfold coarse_cell. cbn [pos px py pz cell_ix]. rewrite <- X, <- Y. rewrite !Nat2Z.inj_add, !Nat2Z.inj_mul. reflexivity. Qed.
Lemma planes_le : forall e, mesh_ok (sn_m e) -> planes e <= Nz e.
Proof. intros e M. destruct (nxz e M) as (_ & _ & Z). destruct M as (_ & _ & M). unfold planes. destruct (sn_d3 e); lia. Qed.
Lemma pos_in : forall e c, mesh_ok (sn_m e) -> in_box (Nx e) (Ny e) (planes e) c -> in_mesh (sn_m e) (pos c).
Proof. intros e [[ix iy] iz] M (X & Y & Z). destruct (nxz e M) as (A & B & C). assert (P := planes_le e M). unfold in_mesh. cbn. lia. Qed.
Lemma surf_of : forall e c s, mesh_ok (sn_m e) -> in_box (Nx e) (Ny e) (planes e) c -> coarse_surf (sn_m e) (Z.of_nat (cell_ix e c)) s = Some (face_index (sn_m e) (face_of (pos c) s)).
Proof. intros e c s M B. rewrite cell_pos by auto. apply coarse_surf_correct. now apply pos_in. Qed.

(** C45: the sweep is defined when the arrays have the sizes of the mesh and the cell equation is defined. *)
Lemma cw_add_def : forall e w psi c s st, mesh_ok (sn_m e) -> in_box (Nx e) (Ny e) (planes e) c -> length (fst st) = Z.to_nat (n_surf (sn_m e)) -> length (snd st) = Z.to_nat (n_surf (sn_m e)) -> exists st', cw_add e w psi c s st = Some st' /\ length (fst st') = Z.to_nat (n_surf (sn_m e)) /\ length (snd st') = Z.to_nat (n_surf (sn_m e)).
Proof.
  intros e w psi c s st M B L1 L2. unfold cw_add. rewrite surf_of by auto. assert (F := face_index_bounds _ _ M (face_of_ok _ _ s (pos_in e c M B))). unfold add_z. rewrite (proj2 (Z.ltb_ge _ _)) by lia.
  destruct (add_at_spec (fst st) (Z.to_nat (face_index (sn_m e) (face_of (pos c) s))) (psi * w)%R) as (f' & -> & Lf & _); [rewrite L1; lia|]. destruct (add_at_spec (snd st) (Z.to_nat (face_index (sn_m e) (face_of (pos c) s))) psi) as (g' & -> & Lg & _); [rewrite L2; lia|].
  eexists. split; [reflexivity|]. cbn. split; congruence.
Qed.
Lemma current_work_def : forall e a fx fy fz c st, mesh_ok (sn_m e) -> in_box (Nx e) (Ny e) (planes e) c -> length (fst st) = Z.to_nat (n_surf (sn_m e)) -> length (snd st) = Z.to_nat (n_surf (sn_m e)) -> exists st', current_work e a fx fy fz c st = Some st' /\ length (fst st') = Z.to_nat (n_surf (sn_m e)) /\ length (snd st') = Z.to_nat (n_surf (sn_m e)).
Proof.
  intros e a fx fy fz c st M B L1 L2. unfold current_work. destruct (sn_cw e); [|eauto]. cbn zeta. destruct (cw_add_def e (ox (adir a) * sn_wgt e a) fx c (down_x (adir a)) st M B L1 L2) as (s1 & -> & A1 & B1).
  destruct (cw_add_def e (oy (adir a) * sn_wgt e a) fy c (down_y (adir a)) s1 M B A1 B1) as (s2 & -> & A2 & B2). destruct (sn_d3 e); [|eauto]. apply (cw_add_def e (oz (adir a) * sn_wgt e a) fz c (down_z (adir a)) s2 M B A2 B2).
Qed.
Definition sizes (e : SnEnv) (s : AngSt) : Prop := length (as_x s) = Ny e * planes e /\ length (as_y s) = Nx e * planes e /\ (sn_d3 e = true -> length (as_z s) = Nx e * Ny e) /\ length (as_t s) = Nx e * Ny e * planes e /\
  length (as_cur s) = Z.to_nat (n_surf (sn_m e)) /\ length (as_sf s) = Z.to_nat (n_surf (sn_m e)).
Lemma set_nth_def : forall {A} (l : list A) i v, i < length l -> exists l', set_nth l i v = Some l' /\ length l' = length l.
Proof.
  induction l as [|a l IH]; intros i v H; cbn in H; [lia|]. destruct i as [|i]; cbn [set_nth]; [eexists; split; [reflexivity|reflexivity]|]. destruct (IH i v) as (l' & -> & L); [lia|]. eexists. split; [reflexivity|]. cbn. lia.
Qed.
Lemma cell_step_def : forall e iang a c s, mesh_ok (sn_m e) -> in_box (Nx e) (Ny e) (planes e) c -> sizes e s -> length (sn_q e iang) = Nx e * Ny e * planes e -> length (sn_xstr e) = Nx e * Ny e * planes e ->
  (forall ix iy iz fx fy fz q xs, In xs (sn_xstr e) -> exists o, sn_eq e iang ix iy iz fx fy fz q xs = Some o) -> exists s', cell_step e iang a c s = Some s' /\ sizes e s'.
Proof.
  intros e iang a [[ix iy] iz] s M B (Lx & Ly & Lz & Lt & Lc & Lf) Lq Lxs Df. pose proof B as (Bx & By & Bz).
  assert (Kx : key_x e (ix, iy, iz) < length (as_x s)) by (cbn; rewrite Lx; nia). assert (Ky : key_y e (ix, iy, iz) < length (as_y s)) by (cbn; rewrite Ly; nia). assert (Ki : cell_ix e (ix, iy, iz) < Nx e * Ny e * planes e) by (cbn; assert (Z1 : S iz * (Nx e * Ny e) <= planes e * (Nx e * Ny e)) by (apply Nat.mul_le_mono_r; lia); assert (Y1 : S iy * Nx e <= Ny e * Nx e) by (apply Nat.mul_le_mono_r; lia); nia).
  unfold cell_step. rewrite (at0_in _ _ Kx), (at0_in _ _ Ky). assert (Ez : exists fz, (if sn_d3 e then nth_error (as_z s) (key_z e (ix, iy, iz)) else Some 0%R) = Some fz).
  { destruct (sn_d3 e); [|eauto]. rewrite at0_in; [eauto|]. rewrite Lz by auto. cbn. nia. }
  destruct Ez as (fz & ->). cbn zeta. rewrite (at0_in (sn_q e iang)) by lia. rewrite (at0_in (sn_xstr e)) by lia. destruct (Df ix iy iz (at0 (as_x s) (key_x e (ix, iy, iz))) (at0 (as_y s) (key_y e (ix, iy, iz))) fz (at0 (sn_q e iang) (cell_ix e (ix, iy, iz))) (at0 (sn_xstr e) (cell_ix e (ix, iy, iz)))) as ([[[psi gx] gy] gz] & ->); [apply nth_In; lia|].
  destruct (set_nth_def (as_x s) _ gx Kx) as (x' & -> & Lx'). destruct (set_nth_def (as_y s) _ gy Ky) as (y' & -> & Ly').
  assert (Sz : exists z', (if sn_d3 e then set_nth (as_z s) (key_z e (ix, iy, iz)) gz else Some (as_z s)) = Some z' /\ (sn_d3 e = true -> length z' = Nx e * Ny e)).
  { destruct (sn_d3 e); [|eauto]. destruct (set_nth_def (as_z s) (key_z e (ix, iy, iz)) gz) as (z' & -> & L); [rewrite Lz by auto; cbn; nia|]. eexists. split; [reflexivity|]. rewrite L. auto. }
  destruct Sz as (z' & -> & Lz'). destruct (add_at_spec (as_t s) (cell_ix e (ix, iy, iz)) (psi * sn_wgt e a)%R) as (t' & -> & Lt' & _); [lia|].
  destruct (current_work_def e a gx gy gz (ix, iy, iz) (as_cur s, as_sf s) M B Lc Lf) as ([cu sf] & -> & Lc' & Lf'). eexists. split; [reflexivity|]. unfold sizes. cbn [as_x as_y as_z as_t as_cur as_sf fst snd] in *. repeat split; auto; congruence.
Qed.
Theorem C45_defined : forall e iang a s, mesh_ok (sn_m e) -> sizes e s -> length (sn_q e iang) = Nx e * Ny e * planes e -> length (sn_xstr e) = Nx e * Ny e * planes e ->
  (forall ix iy iz fx fy fz q xs, In xs (sn_xstr e) -> exists o, sn_eq e iang ix iy iz fx fy fz q xs = Some o) -> exists s', cell_steps e iang a (order_of e a) s = Some s' /\ sizes e s'.
Proof.
  intros e iang a s M Sz Lq Lxs Df. assert (Box : forall c, In c (order_of e a) -> in_box (Nx e) (Ny e) (planes e) c) by (intros c I; now apply in_order in I). revert s Sz Box. induction (order_of e a) as [|c cs IH]; intros s Sz Box; [exists s; auto|]. cbn [cell_steps].
  destruct (cell_step_def e iang a c s M (Box c (or_introl eq_refl)) Sz Lq Lxs Df) as (s1 & -> & Sz1). apply IH; auto. intros d I. apply Box. now right.
Qed.
Print Assumptions C45_defined.

(** ** C89: currents *)
Definition face_X (j iy iz : nat) : Normal * Position := (X_NORM, {| px := Z.of_nat j; py := Z.of_nat iy; pz := Z.of_nat iz |}).
Definition face_Y (ix j iz : nat) : Normal * Position := (Y_NORM, {| px := Z.of_nat ix; py := Z.of_nat j; pz := Z.of_nat iz |}).
Definition face_Z (ix iy j : nat) : Normal * Position := (Z_NORM, {| px := Z.of_nat ix; py := Z.of_nat iy; pz := Z.of_nat j |}).
Definition kof (e : SnEnv) (f : Normal * Position) : nat := Z.to_nat (face_index (sn_m e) f).
Lemma at_surf_same : forall e c s f v, mesh_ok (sn_m e) -> in_box (Nx e) (Ny e) (planes e) c -> face_of (pos c) s = f -> at_surf e c s (kof e f) v = v.
Proof. intros e c s f v M B E. unfold at_surf. rewrite surf_of by auto. rewrite E. unfold kof. now rewrite Nat.eqb_refl. Qed.
Lemma at_surf_diff : forall e c s f v, mesh_ok (sn_m e) -> in_box (Nx e) (Ny e) (planes e) c -> face_ok (sn_m e) f -> face_of (pos c) s <> f -> at_surf e c s (kof e f) v = 0%R.
Proof.
  intros e c s f v M B F N. unfold at_surf. rewrite surf_of by auto. unfold kof. destruct (Nat.eqb_spec (Z.to_nat (face_index (sn_m e) f)) (Z.to_nat (face_index (sn_m e) (face_of (pos c) s)))) as [Q|Q]; [|reflexivity]. exfalso. apply N.
  assert (F' := face_of_ok _ _ s (pos_in e c M B)). assert (A := face_index_bounds _ _ M F). assert (A' := face_index_bounds _ _ M F'). apply (face_index_inj (sn_m e)); auto. lia.
Qed.
Lemma down_face_x : forall a ix iy iz, ox (adir a) <> 0%R -> face_of (pos (ix, iy, iz)) (down_x (adir a)) = face_X (out_face (xneg a) ix) iy iz.
Proof.
  intros a ix iy iz N. unfold down_x, xneg, face_X. destruct (Rltb_spec 0 (ox (adir a))) as [P|P].
  - rewrite Rltb_false by lra. cbn. do 2 f_equal. lia.
  - rewrite Rltb_true by lra. reflexivity.
Qed.
Lemma down_face_y : forall a ix iy iz, oy (adir a) <> 0%R -> face_of (pos (ix, iy, iz)) (down_y (adir a)) = face_Y ix (out_face (yneg a) iy) iz.
Proof.
  intros a ix iy iz N. unfold down_y, yneg, face_Y. destruct (Rltb_spec 0 (oy (adir a))) as [P|P].
  - rewrite Rltb_false by lra. cbn. do 2 f_equal. lia.
  - rewrite Rltb_true by lra. reflexivity.
Qed.
Lemma down_face_z : forall e a ix iy iz, sn_d3 e = true -> oz (adir a) <> 0%R -> face_of (pos (ix, iy, iz)) (down_z (adir a)) = face_Z ix iy (out_face (zneg e a) iz).
Proof.
  intros e a ix iy iz D N. unfold down_z, zneg, face_Z. rewrite D. destruct (Rltb_spec 0 (oz (adir a))) as [P|P].
  - rewrite Rltb_false by lra. cbn. do 2 f_equal. lia.
  - rewrite Rltb_true by lra. reflexivity.
Qed.
Lemma up_face_x : forall e a iy iz, 0 < Nx e -> ox (adir a) <> 0%R -> face_of (pos (if Rltb (ox (adir a)) 0 then Nx e - 1 else 0, iy, iz)) (up_x (adir a)) = face_X (first_face (Nx e) (xneg a)) iy iz.
Proof.
  intros e a iy iz H N. unfold up_x, xneg, face_X, first_face. destruct (Rltb_spec 0 (ox (adir a))) as [P|P].
  - rewrite Rltb_false by lra. reflexivity.
  - rewrite Rltb_true by lra. cbn. do 2 f_equal. lia.
Qed.
Lemma up_face_y : forall e a ix iz, 0 < Ny e -> oy (adir a) <> 0%R -> face_of (pos (ix, if Rltb (oy (adir a)) 0 then Ny e - 1 else 0, iz)) (up_y (adir a)) = face_Y ix (first_face (Ny e) (yneg a)) iz.
Proof.
  intros e a ix iz H N. unfold up_y, yneg, face_Y, first_face. destruct (Rltb_spec 0 (oy (adir a))) as [P|P].
  - rewrite Rltb_false by lra. reflexivity.
  - rewrite Rltb_true by lra. cbn. do 2 f_equal. lia.
Qed.
Lemma up_face_z : forall e a ix iy, sn_d3 e = true -> 0 < Nz e -> oz (adir a) <> 0%R -> face_of (pos (ix, iy, if Rltb (oz (adir a)) 0 then Nz e - 1 else 0)) (up_z (adir a)) = face_Z ix iy (first_face (Nz e) (zneg e a)).
Proof.
  intros e a ix iy D H N. unfold up_z, zneg, face_Z, first_face. rewrite D. destruct (Rltb_spec 0 (oz (adir a))) as [P|P].
  - rewrite Rltb_false by lra. reflexivity.
  - rewrite Rltb_true by lra. cbn. do 2 f_equal. lia.
Qed.
Lemma up_face_spec : forall e w s face cs st st', up_face e w s face cs st = Some st' ->
  length (fst st') = length (fst st) /\ length (snd st') = length (snd st) /\
  (forall k, at0 (fst st') k = (at0 (fst st) k + lsum (fun ck => at_surf e (fst ck) s k (at0 face (snd ck) * w)) cs)%R) /\ (forall k, at0 (snd st') k = (at0 (snd st) k + lsum (fun ck => at_surf e (fst ck) s k (at0 face (snd ck))) cs)%R).
Proof.
  intros e w s face cs. induction cs as [|[c k0] cs IH]; intros st st' H; cbn [up_face] in H.
  - injection H as <-. cbn [lsum]. repeat split; intros; lra.
  - destruct (nth_error face k0) as [v|] eqn:E; [|discriminate]. destruct (cw_add e w v c s st) as [s1|] eqn:E1; [|discriminate]. apply cw_add_spec in E1. destruct E1 as (L1 & M1 & C1 & D1). apply IH in H. destruct H as (L & M & C & D).
    apply at0_some in E. destruct E as [E _]. split; [congruence|]. split; [congruence|]. cbn [lsum fst snd]. rewrite E. split; intros k; [rewrite C, C1|rewrite D, D1]; lra.
Qed.
Lemma lsum_cells : forall (f : Cell * nat -> R) ny nz (h : nat -> nat -> Cell * nat), lsum f (flat_map (fun iz => map (fun iy => h iy iz) (seq 0 ny)) (seq 0 nz)) = lsum (fun iz => lsum (fun iy => f (h iy iz)) (seq 0 ny)) (seq 0 nz).
Proof. intros f ny nz h. induction (seq 0 nz) as [|z l IH]; [reflexivity|]. cbn [flat_map lsum]. now rewrite lsum_app, IH, lsum_map. Qed.
Lemma lsum_two : forall (f : nat -> nat -> R) ny nz iy iz, iy < ny -> iz < nz -> (forall jy jz, jy < ny -> jz < nz -> jy <> iy \/ jz <> iz -> f jy jz = 0%R) -> lsum (fun jz => lsum (fun jy => f jy jz) (seq 0 ny)) (seq 0 nz) = f iy iz.
Proof.
  intros f ny nz iy iz Hy Hz H. rewrite (lsum_single _ _ iz); [|apply seq_NoDup|apply in_seq; lia|].
  - apply (lsum_single (fun jy => f jy iz) (seq 0 ny) iy); [apply seq_NoDup|apply in_seq; lia|]. intros jy I N. apply in_seq in I. apply H; auto; lia.
  - intros jz I N. apply in_seq in I. apply lsum_zero. intros jy J. apply in_seq in J. apply H; auto; lia.
Qed.
Lemma lsum_two0 : forall (f : nat -> nat -> R) ny nz, (forall jy jz, jy < ny -> jz < nz -> f jy jz = 0%R) -> lsum (fun jz => lsum (fun jy => f jy jz) (seq 0 ny)) (seq 0 nz) = 0%R.
Proof. intros f ny nz H. apply lsum_zero. intros jz I. apply in_seq in I. apply lsum_zero. intros jy J. apply in_seq in J. apply H; lia. Qed.
Lemma fX_inj : forall j iy iz j' iy' iz', face_X j iy iz = face_X j' iy' iz' -> j = j' /\ iy = iy' /\ iz = iz'.
Proof. intros. injection H. lia. Qed.
Lemma fY_inj : forall j iy iz j' iy' iz', face_Y j iy iz = face_Y j' iy' iz' -> j = j' /\ iy = iy' /\ iz = iz'.
Proof. intros. injection H. lia. Qed.
Lemma fZ_inj : forall j iy iz j' iy' iz', face_Z j iy iz = face_Z j' iy' iz' -> j = j' /\ iy = iy' /\ iz = iz'.
Proof. intros. injection H. lia. Qed.
Definition cosines (e : SnEnv) (a : Angle) : Prop := ox (adir a) <> 0%R /\ oy (adir a) <> 0%R /\ (sn_d3 e = true -> oz (adir a) <> 0%R).

Section Tally.
Variables (e : SnEnv) (a : Angle).
Hypothesis M : mesh_ok (sn_m e).
Hypothesis Cos : cosines e a.
Lemma Npos : 0 < Nx e /\ 0 < Ny e /\ 0 < Nz e /\ 0 < planes e.
Proof. destruct (nxz e M) as (A & B & C). destruct M as (X & Y & Z). unfold planes. destruct (sn_d3 e); lia. Qed.
Lemma okX : forall j iy iz, j <= Nx e -> iy < Ny e -> iz < planes e -> face_ok (sn_m e) (face_X j iy iz).
Proof. intros j iy iz A B C. destruct (nxz e M) as (X & Y & Z). assert (P := planes_le e M). unfold face_ok. cbn. lia. Qed.
Lemma okY : forall ix j iz, ix < Nx e -> j <= Ny e -> iz < planes e -> face_ok (sn_m e) (face_Y ix j iz).
Proof. intros j iy iz A B C. destruct (nxz e M) as (X & Y & Z). assert (P := planes_le e M). unfold face_ok. cbn. lia. Qed.
Lemma okZ : forall ix iy j, ix < Nx e -> iy < Ny e -> j <= planes e -> face_ok (sn_m e) (face_Z ix iy j).
Proof. intros j iy iz A B C. destruct (nxz e M) as (X & Y & Z). assert (P := planes_le e M). unfold face_ok. cbn. lia. Qed.
Lemma Box : forall c, In c (order_of e a) -> in_box (Nx e) (Ny e) (planes e) c.
Proof. intros c I. now apply in_order in I. Qed.
Lemma Box3 : forall ix iy iz, ix < Nx e -> iy < Ny e -> iz < planes e -> in_box (Nx e) (Ny e) (planes e) (ix, iy, iz) /\ In (ix, iy, iz) (order_of e a).
Proof. intros. split; [cbn; auto|]. apply in_order. cbn. auto. Qed.
(** Tallies of the downwind faces of all cells at a face. *)
Lemma down_x_sum : forall (v : Cell -> R) j iy iz, j <= Nx e -> iy < Ny e -> iz < planes e ->
  lsum (fun c => at_surf e c (down_x (adir a)) (kof e (face_X j iy iz)) (v c)) (order_of e a) = if j =? first_face (Nx e) (xneg a) then 0%R else v (if xneg a then j else j - 1, iy, iz).
Proof.
  intros v j iy iz Hj Hy Hz. destruct Cos as (Cx & _ & _). assert (F := okX j iy iz Hj Hy Hz). destruct (face_cases _ (xneg a) _ Hj) as [->|(i & Hi & ->)].
  - rewrite Nat.eqb_refl. apply lsum_zero. intros [[jx jy] jz] I. apply at_surf_diff; auto; [now apply Box|]. rewrite down_face_x by auto. intros Q. apply fX_inj in Q. destruct Q as [Q _]. apply Box in I. destruct I as (I & _). apply (out_not_first _ (xneg a)) in I. apply Nat.eqb_neq in I. congruence.
  - rewrite out_not_first, out_cell by auto. destruct (Box3 i iy iz Hi Hy Hz) as [B I]. rewrite (lsum_single _ _ (i, iy, iz)); [|apply nodup_order|exact I|].
    + apply at_surf_same; auto. now apply down_face_x.
    + intros [[jx jy] jz] J N. apply at_surf_diff; auto; [now apply Box|]. rewrite down_face_x by auto. intros Q. apply fX_inj in Q. destruct Q as (Q & -> & ->). apply N. f_equal. f_equal. unfold out_face in Q. destruct (xneg a); lia.
Qed.
Lemma down_y_sum : forall (v : Cell -> R) ix j iz, ix < Nx e -> j <= Ny e -> iz < planes e ->
  lsum (fun c => at_surf e c (down_y (adir a)) (kof e (face_Y ix j iz)) (v c)) (order_of e a) = if j =? first_face (Ny e) (yneg a) then 0%R else v (ix, if yneg a then j else j - 1, iz).
Proof.
  intros v ix j iz Hx Hj Hz. destruct Cos as (_ & Cy & _). assert (F := okY ix j iz Hx Hj Hz). destruct (face_cases _ (yneg a) _ Hj) as [->|(i & Hi & ->)].
  - rewrite Nat.eqb_refl. apply lsum_zero. intros [[jx jy] jz] I. apply at_surf_diff; auto; [now apply Box|]. rewrite down_face_y by auto. intros Q. apply fY_inj in Q. destruct Q as (_ & Q & _). apply Box in I. destruct I as (_ & I & _). apply (out_not_first _ (yneg a)) in I. apply Nat.eqb_neq in I. congruence.
  - rewrite out_not_first, out_cell by auto. destruct (Box3 ix i iz Hx Hi Hz) as [B I]. rewrite (lsum_single _ _ (ix, i, iz)); [|apply nodup_order|exact I|].
    + apply at_surf_same; auto. now apply down_face_y.
    + intros [[jx jy] jz] J N. apply at_surf_diff; auto; [now apply Box|]. rewrite down_face_y by auto. intros Q. apply fY_inj in Q. destruct Q as (-> & Q & ->). apply N. f_equal. f_equal. unfold out_face in Q. destruct (yneg a); lia.
Qed.
Lemma down_z_sum : forall (v : Cell -> R) ix iy j, sn_d3 e = true -> ix < Nx e -> iy < Ny e -> j <= planes e ->
  lsum (fun c => at_surf e c (down_z (adir a)) (kof e (face_Z ix iy j)) (v c)) (order_of e a) = if j =? first_face (planes e) (zneg e a) then 0%R else v (ix, iy, if zneg e a then j else j - 1).
Proof.
  intros v ix iy j D Hx Hy Hj. destruct Cos as (_ & _ & Cz). specialize (Cz D). assert (F := okZ ix iy j Hx Hy Hj). destruct (face_cases _ (zneg e a) _ Hj) as [->|(i & Hi & ->)].
  - rewrite Nat.eqb_refl. apply lsum_zero. intros [[jx jy] jz] I. apply at_surf_diff; auto; [now apply Box|]. rewrite (down_face_z e) by auto. intros Q. apply fZ_inj in Q. destruct Q as (_ & _ & Q). apply Box in I. destruct I as (_ & _ & I). apply (out_not_first _ (zneg e a)) in I. apply Nat.eqb_neq in I. congruence.
  - rewrite out_not_first, out_cell by auto. destruct (Box3 ix iy i Hx Hy Hi) as [B I]. rewrite (lsum_single _ _ (ix, iy, i)); [|apply nodup_order|exact I|].
    + apply at_surf_same; auto. now apply down_face_z.
    + intros [[jx jy] jz] J N. apply at_surf_diff; auto; [now apply Box|]. rewrite (down_face_z e) by auto. intros Q. apply fZ_inj in Q. destruct Q as (-> & -> & Q). apply N. f_equal. unfold out_face in Q. destruct (zneg e a); lia.
Qed.
(** Faces of another normal get nothing. *)
Lemma down_other : forall (v : Cell -> R) s f, face_ok (sn_m e) f -> surface_to_normal s <> fst f -> lsum (fun c => at_surf e c s (kof e f) (v c)) (order_of e a) = 0%R.
Proof. intros v s f F N. apply lsum_zero. intros c I. apply at_surf_diff; auto; [now apply Box|]. intros <-. apply N. destruct s; reflexivity. Qed.
Lemma norm_dx : surface_to_normal (down_x (adir a)) = X_NORM. Proof. unfold down_x. now destruct (Rltb _ _). Qed.
Lemma norm_dy : surface_to_normal (down_y (adir a)) = Y_NORM. Proof. unfold down_y. now destruct (Rltb _ _). Qed.
Lemma norm_dz : surface_to_normal (down_z (adir a)) = Z_NORM. Proof. unfold down_z. now destruct (Rltb _ _). Qed.
Lemma norm_ux : surface_to_normal (up_x (adir a)) = X_NORM. Proof. unfold up_x. now destruct (Rltb _ _). Qed.
Lemma norm_uy : surface_to_normal (up_y (adir a)) = Y_NORM. Proof. unfold up_y. now destruct (Rltb _ _). Qed.
Lemma norm_uz : surface_to_normal (up_z (adir a)) = Z_NORM. Proof. unfold up_z. now destruct (Rltb _ _). Qed.
(** Tallies of the upwind side of the mesh. *)
Lemma up_x_sum : forall (v : nat -> R) j iy iz, j <= Nx e -> iy < Ny e -> iz < planes e ->
  lsum (fun ck => at_surf e (fst ck) (up_x (adir a)) (kof e (face_X j iy iz)) (v (snd ck))) (up_cells_x (Nx e) (Ny e) (planes e) (xneg a)) = if j =? first_face (Nx e) (xneg a) then v (Ny e * iz + iy) else 0%R.
Proof.
  intros v j iy iz Hj Hy Hz. destruct Cos as (Cx & _ & _). assert (F := okX j iy iz Hj Hy Hz). destruct Npos as (Px & Py & _ & Pz). unfold up_cells_x. rewrite lsum_cells.
  assert (B : forall jy jz, jy < Ny e -> jz < planes e -> in_box (Nx e) (Ny e) (planes e) (if xneg a then Nx e - 1 else 0, jy, jz)) by (intros; cbn; destruct (xneg a); lia). cbn [fst snd]. destruct (Nat.eqb_spec j (first_face (Nx e) (xneg a))) as [->|N].
  - rewrite (lsum_two _ _ _ iy iz); auto.
    + apply at_surf_same; auto. now apply up_face_x.
    + intros jy jz Ly Lz Ne. apply at_surf_diff; auto. unfold xneg at 1. rewrite up_face_x by auto. intros Q. apply fX_inj in Q. lia.
  - apply lsum_two0. intros jy jz Ly Lz. apply at_surf_diff; auto. unfold xneg at 1. rewrite up_face_x by auto. intros Q. apply fX_inj in Q. lia.
Qed.
Lemma up_y_sum : forall (v : nat -> R) ix j iz, ix < Nx e -> j <= Ny e -> iz < planes e ->
  lsum (fun ck => at_surf e (fst ck) (up_y (adir a)) (kof e (face_Y ix j iz)) (v (snd ck))) (up_cells_y (Nx e) (Ny e) (planes e) (yneg a)) = if j =? first_face (Ny e) (yneg a) then v (Nx e * iz + ix) else 0%R.
Proof.
  intros v ix j iz Hx Hj Hz. destruct Cos as (_ & Cy & _). assert (F := okY ix j iz Hx Hj Hz). destruct Npos as (Px & Py & _ & Pz). unfold up_cells_y. rewrite lsum_cells.
  assert (B : forall jx jz, jx < Nx e -> jz < planes e -> in_box (Nx e) (Ny e) (planes e) (jx, if yneg a then Ny e - 1 else 0, jz)) by (intros; cbn; destruct (yneg a); lia). cbn [fst snd]. destruct (Nat.eqb_spec j (first_face (Ny e) (yneg a))) as [->|N].
  - rewrite (lsum_two _ _ _ ix iz); auto.
    + apply at_surf_same; auto. now apply up_face_y.
    + intros jx jz Lx Lz Ne. apply at_surf_diff; auto. unfold yneg at 1. rewrite up_face_y by auto. intros Q. apply fY_inj in Q. lia.
  - apply lsum_two0. intros jx jz Lx Lz. apply at_surf_diff; auto. unfold yneg at 1. rewrite up_face_y by auto. intros Q. apply fY_inj in Q. lia.
Qed.
Lemma up_z_sum : forall (v : nat -> R) ix iy j, sn_d3 e = true -> ix < Nx e -> iy < Ny e -> j <= planes e ->
  lsum (fun ck => at_surf e (fst ck) (up_z (adir a)) (kof e (face_Z ix iy j)) (v (snd ck))) (up_cells_z (Nx e) (Ny e) (Nz e) (zneg e a)) = if j =? first_face (planes e) (zneg e a) then v (Nx e * iy + ix) else 0%R.
Proof.
  intros v ix iy j D Hx Hy Hj. destruct Cos as (_ & _ & Cz). specialize (Cz D). assert (F := okZ ix iy j Hx Hy Hj). destruct Npos as (Px & Py & Pz & _). assert (Pl : planes e = Nz e) by (unfold planes; now rewrite D). rewrite Pl in Hj |- *. unfold up_cells_z. rewrite lsum_cells.
  assert (B : forall jx jy, jx < Nx e -> jy < Ny e -> in_box (Nx e) (Ny e) (planes e) (jx, jy, if zneg e a then Nz e - 1 else 0)) by (intros; rewrite Pl; cbn; destruct (zneg e a); lia). cbn [fst snd].
  assert (G : forall jx jy, face_of (pos (jx, jy, if zneg e a then Nz e - 1 else 0)) (up_z (adir a)) = face_Z jx jy (first_face (Nz e) (zneg e a))) by (intros jx jy; rewrite <- (up_face_z e a jx jy D Pz Cz); unfold zneg; now rewrite D).
  destruct (Nat.eqb_spec j (first_face (Nz e) (zneg e a))) as [->|N].
  - rewrite (lsum_two _ _ _ ix iy); auto.
    + apply at_surf_same; auto.
    + intros jx jy Lx Ly Ne. apply at_surf_diff; auto. rewrite G. intros Q. apply fZ_inj in Q. lia.
  - apply lsum_two0. intros jx jy Lx Ly. apply at_surf_diff; auto. rewrite G. intros Q. apply fZ_inj in Q. lia.
Qed.
Lemma up_other : forall (v : nat -> R) s f cs, (forall ck, In ck cs -> in_box (Nx e) (Ny e) (planes e) (fst ck)) -> face_ok (sn_m e) f -> surface_to_normal s <> fst f -> lsum (fun ck => at_surf e (fst ck) s (kof e f) (v (snd ck))) cs = 0%R.
Proof. intros v s f cs B F N. apply lsum_zero. intros c I. apply at_surf_diff; auto. intros <-. apply N. destruct s; reflexivity. Qed.
Lemma box_up_x : forall ck, In ck (up_cells_x (Nx e) (Ny e) (planes e) (xneg a)) -> in_box (Nx e) (Ny e) (planes e) (fst ck).
Proof. intros ck I. unfold up_cells_x in I. apply in_flat_map in I. destruct I as (z & Iz & I). apply in_map_iff in I. destruct I as (y & <- & Iy). apply in_seq in Iz. apply in_seq in Iy. destruct Npos as (Px & _). cbn. destruct (xneg a); lia. Qed.
Lemma box_up_y : forall ck, In ck (up_cells_y (Nx e) (Ny e) (planes e) (yneg a)) -> in_box (Nx e) (Ny e) (planes e) (fst ck).
Proof. intros ck I. unfold up_cells_y in I. apply in_flat_map in I. destruct I as (z & Iz & I). apply in_map_iff in I. destruct I as (y & <- & Iy). apply in_seq in Iz. apply in_seq in Iy. destruct Npos as (_ & Py & _). cbn. destruct (yneg a); lia. Qed.
Lemma box_up_z : sn_d3 e = true -> forall ck, In ck (up_cells_z (Nx e) (Ny e) (Nz e) (zneg e a)) -> in_box (Nx e) (Ny e) (planes e) (fst ck).
Proof. intros D ck I. unfold up_cells_z in I. apply in_flat_map in I. destruct I as (z & Iz & I). apply in_map_iff in I. destruct I as (y & <- & Iy). apply in_seq in Iz. apply in_seq in Iy. destruct Npos as (_ & _ & Pz & _). unfold planes. rewrite D. cbn. destruct (zneg e a); lia. Qed.
Lemma upwind_spec : forall x y z st st', sn_cw e = true -> upwind_work e a x y z st = Some st' ->
  length (fst st') = length (fst st) /\ length (snd st') = length (snd st) /\
  (forall k, at0 (fst st') k = (at0 (fst st) k + lsum (fun ck => at_surf e (fst ck) (up_x (adir a)) k (at0 x (snd ck) * (ox (adir a) * sn_wgt e a))) (up_cells_x (Nx e) (Ny e) (planes e) (xneg a)) +
     lsum (fun ck => at_surf e (fst ck) (up_y (adir a)) k (at0 y (snd ck) * (oy (adir a) * sn_wgt e a))) (up_cells_y (Nx e) (Ny e) (planes e) (yneg a)) +
     (if sn_d3 e then lsum (fun ck => at_surf e (fst ck) (up_z (adir a)) k (at0 z (snd ck) * (oz (adir a) * sn_wgt e a))) (up_cells_z (Nx e) (Ny e) (Nz e) (zneg e a)) else 0))%R) /\
  (forall k, at0 (snd st') k = (at0 (snd st) k + lsum (fun ck => at_surf e (fst ck) (up_x (adir a)) k (at0 x (snd ck))) (up_cells_x (Nx e) (Ny e) (planes e) (xneg a)) +
     lsum (fun ck => at_surf e (fst ck) (up_y (adir a)) k (at0 y (snd ck))) (up_cells_y (Nx e) (Ny e) (planes e) (yneg a)) +
     (if sn_d3 e then lsum (fun ck => at_surf e (fst ck) (up_z (adir a)) k (at0 z (snd ck))) (up_cells_z (Nx e) (Ny e) (Nz e) (zneg e a)) else 0))%R).
Proof.
  intros x y z st st' Cw H. unfold upwind_work in H. rewrite Cw in H. cbn zeta in H. fold (planes e) in H. fold (xneg a) in H. fold (yneg a) in H.
  destruct (up_face e _ (up_x (adir a)) x _ st) as [s1|] eqn:E1; [|discriminate]. destruct (up_face e _ (up_y (adir a)) y _ s1) as [s2|] eqn:E2; [|discriminate]. apply up_face_spec in E1. apply up_face_spec in E2. destruct E1 as (L1 & M1 & C1 & D1), E2 as (L2 & M2 & C2 & D2).
  unfold zneg. destruct (sn_d3 e).
  - apply up_face_spec in H. destruct H as (L3 & M3 & C3 & D3). split; [congruence|]. split; [congruence|]. split; intros k; [rewrite C3, C2, C1|rewrite D3, D2, D1]; lra.
  - injection H as <-. split; [congruence|]. split; [congruence|]. split; intros k; [rewrite C2, C1|rewrite D2, D1]; lra.
Qed.
End Tally.
