(** Proofs about the Sn sweep: order of cells and what the working arrays hold. *)
From Coq Require Import List Lia Bool Reals ZArith Arith Permutation Lra.
From Verif Require Import RUtil ListUtil McModel MeshModel MeshSpec MeshProofs MeshProps AngModel BcModel BcProofs StdAlg CoreModel ExpModel MocModel MocProofs CurModel SnModel.
Import ListNotations.
Open Scope nat_scope.

(** ** Order *)
Definition first_of (n : nat) (neg : bool) : nat := if neg then n - 1 else 0.
Definition prev_of (neg : bool) (k : nat) : nat := if neg then S k else k - 1.
Lemma dir_range_nth : forall n neg k, k < n -> nth_error (dir_range n neg) k = Some (if neg then n - 1 - k else k).
Proof.
  intros n neg k H. assert (E : nth_error (seq 0 n) k = Some k) by (rewrite (nth_error_nth' _ 0) by (rewrite seq_length; lia); now rewrite seq_nth by lia).
  unfold dir_range. destruct neg; [|exact E]. erewrite map_nth_error by exact E. reflexivity.
Qed.
Lemma dir_range_length : forall n neg, length (dir_range n neg) = n.
Proof. intros n [|]; unfold dir_range; [rewrite map_length|]; apply seq_length. Qed.
Lemma in_dir_range : forall n neg k, In k (dir_range n neg) <-> k < n.
Proof.
  intros n neg k. unfold dir_range. destruct neg.
  - rewrite in_map_iff. split; [intros (j & <- & H); apply in_seq in H; lia|]. intros H. exists (n - 1 - k). split; [lia|]. apply in_seq. lia.
  - rewrite in_seq. lia.
Qed.
Lemma nodup_dir_range : forall n neg, NoDup (dir_range n neg).
Proof.
  intros n neg. rewrite NoDup_nth_error. intros i j H E. rewrite dir_range_length in H. rewrite dir_range_nth in E by auto. destruct (Nat.lt_ge_cases j n) as [J|J].
  - rewrite dir_range_nth in E by auto. injection E as E. destruct neg; lia.
  - assert (N : nth_error (dir_range n neg) j = None) by (apply nth_error_None; rewrite dir_range_length; lia). rewrite N in E. discriminate.
Qed.
Lemma dir_range_split : forall n neg p k r, dir_range n neg = p ++ k :: r -> k < n /\ ((p = [] /\ k = first_of n neg) \/ (exists p', p = p' ++ [prev_of neg k] /\ k <> first_of n neg)).
Proof.
  intros n neg p k r E. assert (L : length p < n) by (rewrite <- (dir_range_length n neg), E, app_length; cbn; lia).
  assert (K : nth_error (dir_range n neg) (length p) = Some k) by (rewrite E, nth_error_app2, Nat.sub_diag by lia; reflexivity). rewrite dir_range_nth in K by auto. injection K as K.
  split; [destruct neg; lia|]. destruct p as [|x p] using rev_ind; [left; split; [reflexivity|]; cbn in K; unfold first_of; destruct neg; lia|]. clear IHp. right. exists p. rewrite app_length in L, K. cbn in L, K.
  assert (J : nth_error (dir_range n neg) (length p) = Some x) by (rewrite E, <- app_assoc, nth_error_app2, Nat.sub_diag by lia; reflexivity). rewrite dir_range_nth in J by lia. injection J as J. split; [do 2 f_equal|]; unfold prev_of, first_of; destruct neg; lia.
Qed.

Section Order.
Variables (nx ny nz : nat) (xn yn zn : bool).
Notation order := (sweep_order nx ny nz xn yn zn).
Definition in_box (c : Cell) : Prop := let '(ix, iy, iz) := c in ix < nx /\ iy < ny /\ iz < nz.
Lemma in_order : forall c, In c order <-> in_box c.
Proof.
  intros [[ix iy] iz]. unfold sweep_order, in_box. rewrite in_flat_map. split.
  - intros (z & Hz & H). apply in_flat_map in H. destruct H as (y & Hy & H). apply in_map_iff in H. destruct H as (x & H & Hx). injection H as <- <- <-. rewrite in_dir_range in *. auto.
  - intros (X & Y & Z). exists iz. rewrite in_dir_range. split; [auto|]. apply in_flat_map. exists iy. rewrite in_dir_range. split; [auto|]. apply in_map_iff. exists ix. rewrite in_dir_range. auto.
Qed.
Lemma nodup_flat_map : forall {A B} (f : A -> list B) l, NoDup l -> (forall a, In a l -> NoDup (f a)) -> (forall a b x, In a l -> In b l -> In x (f a) -> In x (f b) -> a = b) -> NoDup (flat_map f l).
Proof.
  induction l as [|a l IH]; intros N F D; [constructor|]. inversion N; subst. cbn [flat_map]. apply NoDup_app'; [apply F; now left|apply IH; auto; [intros; apply F; now right|intros; eapply D; eauto; now right]|].
  intros x I J. apply in_flat_map in J. destruct J as (b & Ib & J). assert (a = b) by (eapply D; eauto; [now left|now right]). subst. contradiction.
Qed.
Lemma nodup_order : NoDup order.
Proof.
  unfold sweep_order. apply nodup_flat_map; [apply nodup_dir_range| |].
  - intros z _. apply nodup_flat_map; [apply nodup_dir_range| |].
    + intros y _. apply FinFun.Injective_map_NoDup; [|apply nodup_dir_range]. intros a b E. now injection E.
    + intros y y' c _ _ I J. apply in_map_iff in I. apply in_map_iff in J. destruct I as (x & <- & _), J as (x' & J & _). now injection J.
  - intros z z' c _ _ I J. apply in_flat_map in I. apply in_flat_map in J. destruct I as (y & _ & I), J as (y' & _ & J). apply in_map_iff in I. apply in_map_iff in J. destruct I as (x & <- & _), J as (x' & J & _). now injection J.
Qed.
Lemma filter_flat_map : forall {A B} (p : B -> bool) (f : A -> list B) l, filter p (flat_map f l) = flat_map (fun a => filter p (f a)) l.
Proof. induction l as [|a l IH]; [reflexivity|]. cbn [flat_map]. now rewrite filter_app, IH. Qed.
Lemma filter_none : forall {A} (p : A -> bool) l, (forall a, In a l -> p a = false) -> filter p l = [].
Proof. induction l as [|a l IH]; intros H; [reflexivity|]. cbn. rewrite (H a) by now left. apply IH. intros. apply H. now right. Qed.
Lemma filter_all : forall {A} (p : A -> bool) l, (forall a, In a l -> p a = true) -> filter p l = l.
Proof. induction l as [|a l IH]; intros H; [reflexivity|]. cbn. rewrite (H a) by now left. f_equal. apply IH. intros. apply H. now right. Qed.
Lemma flat_map_one : forall {A B} (f : A -> list B) a l, NoDup l -> In a l -> (forall b, In b l -> b <> a -> f b = []) -> flat_map f l = f a.
Proof.
  induction l as [|b l IH]; intros N I H; [destruct I|]. inversion N; subst. cbn [flat_map]. destruct I as [<-|I].
  - assert (Z : flat_map f l = []). { assert (G : forall c, In c l -> f c = []) by (intros c Ic; apply H; [now right|intros ->; contradiction]). clear - G. induction l as [|c l IH]; [reflexivity|]. cbn. rewrite (G c) by now left. apply IH. intros. apply G. now right. }
    rewrite Z. apply app_nil_r.
  - rewrite (H b); [|now left|intros ->; contradiction]. cbn. apply IH; auto. intros. apply H; auto. now right.
Qed.
Lemma flat_map_all : forall {A B} (f : A -> list B) g l, (forall a, In a l -> f a = [g a]) -> flat_map f l = map g l.
Proof. induction l as [|a l IH]; intros H; [reflexivity|]. cbn [flat_map map]. rewrite (H a) by now left. cbn. f_equal. apply IH. intros. apply H. now right. Qed.

Definition row_x (iy iz : nat) (c : Cell) : bool := let '(_, jy, jz) := c in (jy =? iy) && (jz =? iz).
Definition row_y (ix iz : nat) (c : Cell) : bool := let '(jx, _, jz) := c in (jx =? ix) && (jz =? iz).
Definition row_z (ix iy : nat) (c : Cell) : bool := let '(jx, jy, _) := c in (jx =? ix) && (jy =? iy).
Lemma filter_row : forall p (r : list nat) g, (forall i, p (g i) = false) -> filter p (map g r) = @nil Cell.
Proof. intros p r g H. apply filter_none. intros a I. apply in_map_iff in I. destruct I as (i & <- & _). apply H. Qed.
Lemma eqb_false : forall a b, a <> b -> (a =? b) = false.
Proof. intros. now apply Nat.eqb_neq. Qed.
Lemma filter_x : forall iy iz, iy < ny -> iz < nz -> filter (row_x iy iz) order = map (fun ix => (ix, iy, iz)) (dir_range nx xn).
Proof.
  intros iy iz Hy Hz. unfold sweep_order. rewrite filter_flat_map. rewrite (flat_map_one _ iz); [|apply nodup_dir_range|now apply in_dir_range|].
  - rewrite filter_flat_map. rewrite (flat_map_one _ iy); [|apply nodup_dir_range|now apply in_dir_range|].
    + apply filter_all. intros a I. apply in_map_iff in I. destruct I as (x & <- & _). cbn. now rewrite !Nat.eqb_refl.
    + intros b _ N. apply filter_row. intros i. cbn. now rewrite (eqb_false b iy).
  - intros b _ N. rewrite filter_flat_map. clear - N. induction (dir_range ny yn) as [|y l IH]; [reflexivity|]. cbn [flat_map]. rewrite IH, filter_row; [reflexivity|]. intros i. cbn. rewrite (eqb_false b iz) by auto. apply andb_false_r.
Qed.
Lemma filter_one : forall p (r : list nat) (g : nat -> Cell) i, NoDup r -> In i r -> (forall j, p (g j) = (j =? i)) -> filter p (map g r) = [g i].
Proof.
  intros p r g i N I H. assert (E : filter p (map g r) = map g (filter (fun j => j =? i) r)) by (clear - H; induction r as [|a r IH]; [reflexivity|]; cbn; rewrite H, IH; destruct (a =? i); reflexivity). rewrite E.
  assert (F : filter (fun j => j =? i) r = [i]); [|now rewrite F]. clear - N I. induction r as [|a r IH]; [destruct I|]. inversion N; subst. cbn. destruct (Nat.eqb_spec a i) as [->|Ne].
  - f_equal. apply filter_none. intros b Ib. apply eqb_false. intros ->. contradiction.
  - destruct I as [->|I]; [contradiction|]. now apply IH.
Qed.
Lemma filter_y : forall ix iz, ix < nx -> iz < nz -> filter (row_y ix iz) order = map (fun iy => (ix, iy, iz)) (dir_range ny yn).
Proof.
  intros ix iz Hx Hz. unfold sweep_order. rewrite filter_flat_map. rewrite (flat_map_one _ iz); [|apply nodup_dir_range|now apply in_dir_range|].
  - rewrite filter_flat_map. apply flat_map_all. intros y _. apply (filter_one _ _ (fun i => (i, y, iz)) ix); [apply nodup_dir_range|now apply in_dir_range|]. intros j. cbn. now rewrite Nat.eqb_refl, andb_true_r.
  - intros b _ N. rewrite filter_flat_map. clear - N. induction (dir_range ny yn) as [|y l IH]; [reflexivity|]. cbn [flat_map]. rewrite IH, filter_row; [reflexivity|]. intros i. cbn. rewrite (eqb_false b iz) by auto. apply andb_false_r.
Qed.
Lemma filter_z : forall ix iy, ix < nx -> iy < ny -> filter (row_z ix iy) order = map (fun iz => (ix, iy, iz)) (dir_range nz zn).
Proof.
  intros ix iy Hx Hy. unfold sweep_order. rewrite filter_flat_map. apply flat_map_all. intros z _. rewrite filter_flat_map. rewrite (flat_map_one _ iy); [|apply nodup_dir_range|now apply in_dir_range|].
  - apply (filter_one _ _ (fun i => (i, iy, z)) ix); [apply nodup_dir_range|now apply in_dir_range|]. intros j. cbn. now rewrite Nat.eqb_refl, andb_true_r.
  - intros b _ N. apply filter_row. intros i. cbn. rewrite (eqb_false b iy) by auto. apply andb_false_r.
Qed.

(** A prefix of the order, restricted to a row, is a prefix of the row. *)
Lemma split_unique : forall {A} (a b c d : list A) x, NoDup (a ++ x :: b) -> a ++ x :: b = c ++ x :: d -> a = c.
Proof.
  induction a as [|y a IH]; intros b c d x N E; destruct c as [|z c]; cbn in *; auto.
  - injection E as <- E. apply NoDup_cons_iff in N. destruct N as [N _]. exfalso. apply N. rewrite E. apply in_or_app. right. now left.
  - injection E as -> E. apply NoDup_cons_iff in N. destruct N as [N _]. exfalso. apply N. apply in_or_app. right. now left.
  - injection E as -> E. apply NoDup_cons_iff in N. destruct N as [_ N]. f_equal. eapply IH; eauto.
Qed.
Lemma prefix_row : forall (row : Cell -> bool) (g : nat -> Cell) n neg p i r, (forall a b, g a = g b -> a = b) -> filter row order = map g (dir_range n neg) -> order = p ++ g i :: r -> row (g i) = true -> i < n ->
  exists q s, dir_range n neg = q ++ i :: s /\ filter row p = map g q.
Proof.
  intros row g n neg p i r Inj F E Hr Hi. assert (I : In i (dir_range n neg)) by now apply in_dir_range. apply in_split in I. destruct I as (q & s & Q). exists q, s. split; [exact Q|].
  rewrite E, filter_app in F. cbn [filter] in F. rewrite Hr, Q, map_app in F. cbn [map] in F. apply (split_unique _ (filter row r) _ (map g s) (g i)); [|exact F]. rewrite F. change (map g q ++ g i :: map g s) with (map g q ++ map g (i :: s)). rewrite <- map_app, <- Q. apply FinFun.Injective_map_NoDup; [exact Inj|apply nodup_dir_range].
Qed.
Definition up_of (row : Cell -> bool) (g : nat -> Cell) (n : nat) (neg : bool) (i : nat) (p : list Cell) : Prop :=
  if i =? first_of n neg then filter row p = [] else exists q, filter row p = q ++ [g (prev_of neg i)].
Lemma prefix_up : forall (row : Cell -> bool) (g : nat -> Cell) n neg p i r, (forall a b, g a = g b -> a = b) -> filter row order = map g (dir_range n neg) -> order = p ++ g i :: r -> row (g i) = true -> i < n -> up_of row g n neg i p.
Proof.
  intros row g n neg p i r Inj F E Hr Hi. destruct (prefix_row row g n neg p i r Inj F E Hr Hi) as (q & s & Q & Fp). unfold up_of. destruct (dir_range_split _ _ _ _ _ Q) as [_ [[-> ->]|(p' & -> & N)]].
  - now rewrite Nat.eqb_refl.
  - rewrite (eqb_false i) by auto. rewrite Fp, map_app. cbn. eauto.
Qed.
Lemma order_up : forall p ix iy iz r, order = p ++ (ix, iy, iz) :: r ->
  up_of (row_x iy iz) (fun i => (i, iy, iz)) nx xn ix p /\ up_of (row_y ix iz) (fun i => (ix, i, iz)) ny yn iy p /\ up_of (row_z ix iy) (fun i => (ix, iy, i)) nz zn iz p.
Proof.
  intros p ix iy iz r E. assert (B : in_box (ix, iy, iz)) by (apply in_order; rewrite E; apply in_or_app; right; now left). destruct B as (X & Y & Z). split; [|split].
  - apply prefix_up with (r := r); auto; [intros a b H; now injection H|now apply filter_x|cbn; now rewrite !Nat.eqb_refl].
  - apply prefix_up with (r := r); auto; [intros a b H; now injection H|now apply filter_y|cbn; now rewrite !Nat.eqb_refl].
  - apply prefix_up with (r := r); auto; [intros a b H; now injection H|now apply filter_z|cbn; now rewrite !Nat.eqb_refl].
Qed.
End Order.

(** ** What the working arrays hold *)
Lemma at0_some : forall (l : list R) k v, nth_error l k = Some v -> at0 l k = v /\ k < length l.
Proof. intros l k v H. split; [unfold at0; now apply nth_error_nth|]. apply nth_error_Some. congruence. Qed.
Lemma at0_in : forall (l : list R) k, k < length l -> nth_error l k = Some (at0 l k).
Proof. intros. unfold at0. now apply nth_error_nth'. Qed.
Lemma at0_set : forall (l l' : list R) i v, set_nth l i v = Some l' -> length l' = length l /\ i < length l /\ forall j, at0 l' j = if j =? i then v else at0 l j.
Proof.
  intros l l' i v H. apply set_nth_spec in H. destruct H as (L & I & H). split; [exact L|]. split; [exact I|]. intros j. unfold at0. destruct (Nat.lt_ge_cases j (length l)) as [J|J].
  - apply nth_error_nth. rewrite H. destruct (j =? i); [reflexivity|]. now apply nth_error_nth'.
  - rewrite (nth_overflow l') by lia. destruct (Nat.eqb_spec j i); [lia|]. now rewrite nth_overflow by lia.
Qed.
Lemma add_at_some : forall l i v l', add_at l i v = Some l' -> i < length l.
Proof.
  induction l as [|x l IH]; intros i v l' H; destruct i; cbn in *; try discriminate; [lia|]. destruct (add_at l i v) eqn:E; [|discriminate]. apply IH in E. lia.
Qed.
Lemma at0_add : forall l i v l', add_at l i v = Some l' -> i < length l /\ length l' = length l /\ forall j, at0 l' j = (at0 l j + (if j =? i then v else 0))%R.
Proof. intros l i v l' H. assert (I := add_at_some _ _ _ _ H). destruct (add_at_spec l i v I) as (m & E & L & A). rewrite E in H. injection H as <-. auto. Qed.

(** Tallies of one surface. *)
Definition at_surf (e : SnEnv) (c : Cell) (s : Surface) (k : nat) (v : R) : R :=
  match coarse_surf (sn_m e) (Z.of_nat (cell_ix e c)) s with Some j => if k =? Z.to_nat j then v else 0%R | None => 0%R end.
Lemma cw_add_spec : forall e w psi c s st st', cw_add e w psi c s st = Some st' ->
  length (fst st') = length (fst st) /\ length (snd st') = length (snd st) /\ (forall k, at0 (fst st') k = (at0 (fst st) k + at_surf e c s k (psi * w))%R) /\ (forall k, at0 (snd st') k = (at0 (snd st) k + at_surf e c s k psi)%R).
Proof.
  intros e w psi c s st st' H. unfold cw_add, at_surf in *. destruct (coarse_surf _ _ _) as [j|]; [|discriminate]. unfold add_z in H. destruct (j <? 0)%Z; [discriminate|].
  destruct (add_at (fst st) _ _) eqn:A; [|discriminate]. destruct (add_at (snd st) _ _) eqn:B; [|discriminate]. injection H as <-. apply at0_add in A. apply at0_add in B. cbn. intuition.
Qed.
Record Tr := mkTr { t_ix : R; t_iy : R; t_iz : R; t_p : R; t_ox : R; t_oy : R; t_oz : R }.
(** Current and surface flux tallied for one cell. *)
Definition cell_cur (e : SnEnv) (a : Angle) (t : Tr) (c : Cell) (k : nat) : R :=
  if sn_cw e then (at_surf e c (down_x (adir a)) k (t_ox t * (ox (adir a) * sn_wgt e a)) + at_surf e c (down_y (adir a)) k (t_oy t * (oy (adir a) * sn_wgt e a)) +
    (if sn_d3 e then at_surf e c (down_z (adir a)) k (t_oz t * (oz (adir a) * sn_wgt e a)) else 0))%R else 0%R.
Definition cell_sf (e : SnEnv) (a : Angle) (t : Tr) (c : Cell) (k : nat) : R :=
  if sn_cw e then (at_surf e c (down_x (adir a)) k (t_ox t) + at_surf e c (down_y (adir a)) k (t_oy t) + (if sn_d3 e then at_surf e c (down_z (adir a)) k (t_oz t) else 0))%R else 0%R.
Lemma current_work_spec : forall e a t c st st', current_work e a (t_ox t) (t_oy t) (t_oz t) c st = Some st' ->
  length (fst st') = length (fst st) /\ length (snd st') = length (snd st) /\ (forall k, at0 (fst st') k = (at0 (fst st) k + cell_cur e a t c k)%R) /\ (forall k, at0 (snd st') k = (at0 (snd st) k + cell_sf e a t c k)%R).
Proof.
  intros e a t c st st' H. unfold current_work, cell_cur, cell_sf in *. destruct (sn_cw e).
  2: { injection H as <-. repeat split; intros; lra. }
  cbn zeta in H. destruct (cw_add e _ (t_ox t) _ _ st) as [s1|] eqn:E1; [|discriminate]. destruct (cw_add e _ (t_oy t) _ _ s1) as [s2|] eqn:E2; [|discriminate]. apply cw_add_spec in E1. apply cw_add_spec in E2. destruct E1 as (L1 & M1 & C1 & D1), E2 as (L2 & M2 & C2 & D2).
  destruct (sn_d3 e).
  - apply cw_add_spec in H. destruct H as (L3 & M3 & C3 & D3). split; [congruence|]. split; [congruence|]. split; intros k; [rewrite C3, C2, C1|rewrite D3, D2, D1]; lra.
  - injection H as <-. split; [congruence|]. split; [congruence|]. split; intros k; [rewrite C2, C1|rewrite D2, D1]; lra.
Qed.

Definition eq_at (e : SnEnv) (iang : nat) (c : Cell) (t : Tr) : Prop :=
  let '(ix, iy, iz) := c in exists q xs, nth_error (sn_q e iang) (cell_ix e c) = Some q /\ nth_error (sn_xstr e) (cell_ix e c) = Some xs /\
    sn_eq e iang ix iy iz (t_ix t) (t_iy t) (t_iz t) q xs = Some (t_p t, t_ox t, t_oy t, t_oz t).
Lemma step_spec : forall e iang a c s s', cell_step e iang a c s = Some s' -> exists t, eq_at e iang c t /\
  (t_ix t = at0 (as_x s) (key_x e c) /\ length (as_x s') = length (as_x s) /\ key_x e c < length (as_x s) /\ forall k, at0 (as_x s') k = if k =? key_x e c then t_ox t else at0 (as_x s) k) /\
  (t_iy t = at0 (as_y s) (key_y e c) /\ length (as_y s') = length (as_y s) /\ key_y e c < length (as_y s) /\ forall k, at0 (as_y s') k = if k =? key_y e c then t_oy t else at0 (as_y s) k) /\
  (if sn_d3 e then t_iz t = at0 (as_z s) (key_z e c) /\ length (as_z s') = length (as_z s) /\ key_z e c < length (as_z s) /\ forall k, at0 (as_z s') k = if k =? key_z e c then t_oz t else at0 (as_z s) k else t_iz t = 0%R /\ as_z s' = as_z s) /\
  (length (as_t s') = length (as_t s) /\ cell_ix e c < length (as_t s) /\ forall i, at0 (as_t s') i = (at0 (as_t s) i + (if i =? cell_ix e c then t_p t * sn_wgt e a else 0))%R) /\
  (length (as_cur s') = length (as_cur s) /\ forall k, at0 (as_cur s') k = (at0 (as_cur s) k + cell_cur e a t c k)%R) /\
  (length (as_sf s') = length (as_sf s) /\ forall k, at0 (as_sf s') k = (at0 (as_sf s) k + cell_sf e a t c k)%R).
Proof.
  intros e iang a [[ix iy] iz] s s' H. unfold cell_step in H. set (c := (ix, iy, iz)) in *. cbn zeta in H.
  destruct (nth_error (as_x s) (key_x e c)) as [fx|] eqn:Ex; [|discriminate]. destruct (nth_error (as_y s) (key_y e c)) as [fy|] eqn:Ey; [|discriminate].
  destruct (if sn_d3 e then nth_error (as_z s) (key_z e c) else Some 0%R) as [fz|] eqn:Ez; [|discriminate].
  destruct (nth_error (sn_q e iang) (cell_ix e c)) as [q|] eqn:Eq; [|discriminate]. destruct (nth_error (sn_xstr e) (cell_ix e c)) as [xs|] eqn:Exs; [|discriminate].
  destruct (sn_eq e iang ix iy iz fx fy fz q xs) as [[[[psi gx] gy] gz]|] eqn:Eo; [|discriminate].
  destruct (set_nth (as_x s) (key_x e c) gx) as [x'|] eqn:Sx; [|discriminate]. destruct (set_nth (as_y s) (key_y e c) gy) as [y'|] eqn:Sy; [|discriminate].
  destruct (if sn_d3 e then set_nth (as_z s) (key_z e c) gz else Some (as_z s)) as [z'|] eqn:Sz; [|discriminate].
  destruct (add_at (as_t s) (cell_ix e c) (psi * sn_wgt e a)%R) as [t'|] eqn:St; [|discriminate]. destruct (current_work e a gx gy gz c (as_cur s, as_sf s)) as [[cu sf]|] eqn:Sc; [|discriminate]. injection H as <-.
  exists (mkTr fx fy fz psi gx gy gz). cbn [as_x as_y as_z as_t as_cur as_sf t_ix t_iy t_iz t_p t_ox t_oy t_oz].
  apply at0_some in Ex. apply at0_some in Ey. apply at0_set in Sx. apply at0_set in Sy. apply at0_add in St. apply (current_work_spec e a (mkTr fx fy fz psi gx gy gz)) in Sc. cbn [fst snd] in Sc.
  split; [exists q, xs; auto|]. split; [intuition|]. split; [intuition|]. split; [|split; [intuition|split; intuition]].
  destruct (sn_d3 e); [|injection Ez as <-; injection Sz as <-; auto]. apply at0_some in Ez. apply at0_set in Sz. intuition.
Qed.
Definition ceq : forall a b : Cell, {a = b} + {a <> b}.
Proof. repeat decide equality. Defined.
Lemma last_cons : forall {A} (l : list A) a d, last (a :: l) d = last l a.
Proof. induction l as [|b l IH]; intros a d; [reflexivity|]. change (last (a :: b :: l) d) with (last (b :: l) d). now rewrite !IH. Qed.
(** Value of an array entry after the cells of a list wrote to it. *)
Definition after (key : Cell -> nat) (o : Cell -> R) (cs : list Cell) (l : list R) (k : nat) : R := last (map o (filter (fun c => key c =? k) cs)) (at0 l k).
Lemma after_cons : forall key o c cs l l' k, (forall j, at0 l' j = if j =? key c then o c else at0 l j) -> after key o (c :: cs) l k = after key o cs l' k.
Proof. intros key o c cs l l' k H. unfold after. cbn [filter]. rewrite H, (Nat.eqb_sym (key c)). destruct (k =? key c); [|reflexivity]. cbn [map]. now rewrite last_cons. Qed.
Lemma after_ext : forall key o o' cs l k, (forall c, In c cs -> o c = o' c) -> after key o cs l k = after key o' cs l k.
Proof. intros key o o' cs l k H. unfold after. f_equal. apply map_ext_in. intros c I. apply filter_In in I. apply H. tauto. Qed.
Definition fresh (c : Cell) (t : Tr) (T : Cell -> Tr) (c' : Cell) : Tr := if ceq c' c then t else T c'.
Lemma fresh_same : forall c t T, fresh c t T c = t. Proof. intros. unfold fresh. destruct (ceq c c); congruence. Qed.
Lemma fresh_other : forall c t T c', c' <> c -> fresh c t T c' = T c'. Proof. intros. unfold fresh. destruct (ceq c' c); congruence. Qed.

Theorem trace : forall e iang a cs s s', cell_steps e iang a cs s = Some s' -> NoDup cs -> exists T,
  (forall p c r, cs = p ++ c :: r -> eq_at e iang c (T c) /\ cell_ix e c < length (as_t s) /\
    (t_ix (T c) = after (key_x e) (fun c => t_ox (T c)) p (as_x s) (key_x e c) /\ key_x e c < length (as_x s)) /\
    (t_iy (T c) = after (key_y e) (fun c => t_oy (T c)) p (as_y s) (key_y e c) /\ key_y e c < length (as_y s)) /\
    (if sn_d3 e then t_iz (T c) = after (key_z e) (fun c => t_oz (T c)) p (as_z s) (key_z e c) /\ key_z e c < length (as_z s) else t_iz (T c) = 0%R)) /\
  (length (as_x s') = length (as_x s) /\ forall k, at0 (as_x s') k = after (key_x e) (fun c => t_ox (T c)) cs (as_x s) k) /\
  (length (as_y s') = length (as_y s) /\ forall k, at0 (as_y s') k = after (key_y e) (fun c => t_oy (T c)) cs (as_y s) k) /\
  (if sn_d3 e then length (as_z s') = length (as_z s) /\ forall k, at0 (as_z s') k = after (key_z e) (fun c => t_oz (T c)) cs (as_z s) k else as_z s' = as_z s) /\
  (length (as_t s') = length (as_t s) /\ forall i, at0 (as_t s') i = (at0 (as_t s) i + lsum (fun c => if i =? cell_ix e c then t_p (T c) * sn_wgt e a else 0) cs)%R) /\
  (length (as_cur s') = length (as_cur s) /\ forall k, at0 (as_cur s') k = (at0 (as_cur s) k + lsum (fun c => cell_cur e a (T c) c k) cs)%R) /\
  (length (as_sf s') = length (as_sf s) /\ forall k, at0 (as_sf s') k = (at0 (as_sf s) k + lsum (fun c => cell_sf e a (T c) c k) cs)%R).
Proof.
  intros e iang a cs. induction cs as [|c cs IH]; intros s s' H N; cbn [cell_steps] in H.
  - injection H as <-. exists (fun _ => mkTr 0 0 0 0 0 0 0). cbn [lsum]. split; [intros p c r E; destruct p; discriminate|]. do 2 (split; [split; [reflexivity|]; intros; reflexivity|]). split; [destruct (sn_d3 e); [split; reflexivity|reflexivity]|]. repeat split; intros; lra.
  - destruct (cell_step e iang a c s) as [s1|] eqn:Es; [|discriminate]. apply NoDup_cons_iff in N. destruct N as [Nc N]. destruct (step_spec _ _ _ _ _ _ Es) as (t & Et & (X1 & X2 & X3 & X4) & (Y1 & Y2 & Y3 & Y4) & Zt & (T1 & T2 & T3) & (C1 & C2) & (F1 & F2)).
    destruct (IH s1 s' H N) as (T & A & (B1 & B2) & (B3 & B4) & B5 & (B6 & B7) & (B8 & B9) & (B10 & B11)). set (T' := fresh c t T). exists T'.
    assert (Tc : T' c = t) by apply fresh_same.
    assert (Ext : forall c', In c' cs -> T' c' = T c') by (intros c' I; apply fresh_other; intros ->; contradiction).
    assert (AX : forall key (o : Tr -> R) p l l' k, incl p cs -> (forall j, at0 l' j = if j =? key c then o t else at0 l j) -> after key (fun c => o (T' c)) (c :: p) l k = after key (fun c => o (T c)) p l' k).
    { intros key o p l l' k I U. rewrite (after_cons key (fun c => o (T' c)) c p l l' k) by (intros j; rewrite Tc; apply U). apply after_ext. intros c' I'. now rewrite (Ext c') by (now apply I). }
    assert (LS : forall f : Cell -> Tr -> R, lsum (fun c => f c (T' c)) (c :: cs) = (f c t + lsum (fun c => f c (T c)) cs)%R).
    { intros f. cbn [lsum]. rewrite Tc. f_equal. apply lsum_ext. intros c' I. now rewrite Ext. }
    split; [|split; [|split; [|split; [|split; [|split]]]]].
    + intros p c' r E. destruct p as [|c0 p]; cbn [app] in E; injection E as E0 E.
      * subst c' r. rewrite Tc. split; [exact Et|]. split; [exact T2|]. split; [split; [exact X1|exact X3]|]. split; [split; [exact Y1|exact Y3]|]. destruct (sn_d3 e); [split; apply Zt|apply Zt].
      * subst c0. destruct (A p c' r E) as (A1 & A2 & [A3 A3'] & [A4 A4'] & A5). assert (I : In c' cs) by (rewrite E; apply in_or_app; right; now left). assert (Ip : incl p cs) by (rewrite E; apply incl_appl, incl_refl).
        rewrite Ext by exact I. split; [exact A1|]. split; [lia|]. split; [split; [|lia]; rewrite A3; symmetry; now apply (AX (key_x e) t_ox)|]. split; [split; [|lia]; rewrite A4; symmetry; now apply (AX (key_y e) t_oy)|].
        destruct (sn_d3 e); [|exact A5]. destruct Zt as (_ & Z2 & Z3 & Z4). destruct A5 as [A5 A5']. split; [|lia]. rewrite A5. symmetry. now apply (AX (key_z e) t_oz).
    + split; [congruence|]. intros k. rewrite B2. symmetry. apply (AX (key_x e) t_ox); [apply incl_refl|exact X4].
    + split; [congruence|]. intros k. rewrite B4. symmetry. apply (AX (key_y e) t_oy); [apply incl_refl|exact Y4].
    + destruct (sn_d3 e); [|destruct Zt; congruence]. destruct Zt as (_ & Z2 & _ & Z4), B5 as [B5 B5']. split; [congruence|]. intros k. rewrite B5'. symmetry. apply (AX (key_z e) t_oz); [apply incl_refl|exact Z4].
    + split; [congruence|]. intros i. rewrite (LS (fun c t => if i =? cell_ix e c then t_p t * sn_wgt e a else 0)%R), B7, T3. lra.
    + split; [congruence|]. intros k. rewrite (LS (fun c t => cell_cur e a t c k)), B9, C2. lra.
    + split; [congruence|]. intros k. rewrite (LS (fun c t => cell_sf e a t c k)), B11, F2. lra.
Qed.
