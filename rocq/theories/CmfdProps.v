(** CMFD: every row of the system is the balance of a cell over the currents that are stored (C42), stored currents
    reproduce the transport currents (C43), the iteration limit (C44), and the surface flux at boundaries (C92). *)
From Coq Require Import List Bool Reals ZArith Lia Lra Permutation.
From Verif Require Import RUtil MeshModel MeshSpec MeshProofs BcModel ExpModel SnModel CmfdModel SnEqProps.
From Verif Require Import BcProofs MocProofs SnProps.
Import ListNotations.
Open Scope Z_scope.

(** ** What the properties speak about: outward direction, net leakage of a cell. *)
Definition outward (s : Surface) (j : R) : R := match s with EAST | NORTH | TOP => j | WEST | SOUTH | BOTTOM => (- j)%R end.
Definition leak (e : CmEnv) (J : Z -> R) (p : Position) (s : Surface) : R := (coarse_area e (coarse_cell (cm_m e) p) s * outward s (J (face_index (cm_m e) (face_of p s))))%R.
Definition leakage (e : CmEnv) (J : Z -> R) (p : Position) : R := lsum (leak e J p) AllSurfaces.
(** Flux on the far side of a side of a cell: zero outside of the mesh. *)
Definition beyond (m : Mesh) (x : Z -> R) (p : Position) (s : Surface) : R := flux_at x (cell_or_none m (move p s)).

Lemma zrange_nodup : forall n, NoDup (zrange n).
Proof. intros n. unfold zrange. apply FinFun.Injective_map_NoDup; [intros a b; lia|apply seq_NoDup]. Qed.
Lemma flux_at_in : forall m x p, in_mesh m p -> flux_at x (cell_or_none m p) = x (coarse_cell m p).
Proof. intros m x p I. rewrite cell_or_none_in by auto. unfold flux_at. pose proof (coarse_cell_bounds m p I). destruct (Z.leb_spec 0 (coarse_cell m p)); [reflexivity|lia]. Qed.
Lemma flux_at_out : forall m x p, ~ in_mesh m p -> flux_at x (cell_or_none m p) = 0%R.
Proof. intros m x p I. rewrite cell_or_none_out by auto. reflexivity. Qed.
Lemma low_of : forall p s, low_side (face_of p s) = match s with EAST | NORTH | TOP => p | _ => move p s end.
Proof. intros [x y z] []; cbn; unfold low_side; cbn; f_equal; lia. Qed.
Lemma high_of : forall p s, snd (face_of p s) = match s with EAST | NORTH | TOP => move p s | _ => p end.
Proof. intros [x y z] []; reflexivity. Qed.
Lemma current_out : forall m dt dh x p s, mesh_ok m -> in_mesh m p -> let k := face_index m (face_of p s) in
  outward s (cm_current m dt dh x k) = ((dt k + signed s (dh k)) * x (coarse_cell m p) + (signed s (dh k) - dt k) * beyond m x p s)%R.
Proof. intros m dt dh x p s M I k. unfold cm_current. unfold k at 1. rewrite coarse_neigh_cells_face by (auto; apply face_of_ok; auto). rewrite low_of, high_of. fold k. unfold beyond.
  destruct s; cbv iota beta; rewrite (flux_at_in m x p I); cbn [outward signed]; ring. Qed.

Lemma diag_sum_spec : forall e dt dh p l v, in_mesh (cm_m e) p -> let k s := face_index (cm_m e) (face_of p s) in
  diag_sum e dt dh (coarse_cell (cm_m e) p) l v = CVal (v + lsum (fun s => coarse_area e (coarse_cell (cm_m e) p) s * (dt (k s) + signed s (dh (k s)))) l)%R.
Proof. intros e dt dh p l. induction l as [|s l IH]; intros v I k; cbn [diag_sum lsum]; [rewrite Rplus_0_r; reflexivity|]. rewrite coarse_surf_correct by auto. cbn [cidx cbind]. rewrite (IH _ I). f_equal. unfold k. ring. Qed.
Lemma in_struct_spec : forall m p q, mesh_ok m -> in_mesh m p -> in_mesh m q -> in_struct m (coarse_cell m p) (coarse_cell m q) = true <-> (q = p \/ exists s, q = move p s).
Proof. intros m p q M P Q. unfold in_struct. rewrite !orb_true_iff, Z.eqb_eq, !existsb_exists. split.
  - intros [[E|(s & _ & E)]|(s & _ & E)].
    + left. symmetry. apply (coarse_cell_inj m); auto.
    + right. exists s. apply Z.eqb_eq in E. apply (neighbor_is m p q s M P Q). exact E.
    + right. exists (opposite s). apply Z.eqb_eq in E. apply (neighbor_is m q p s M Q P) in E. subst p. destruct q as [x y z], s; cbn; f_equal; lia.
  - intros [->|(s & ->)]; [auto|]. left. right. exists s. split; [destruct s; cbn; tauto|]. apply Z.eqb_eq. apply neighbor_is; auto. Qed.
Lemma move_neq : forall p s, move p s <> p.
Proof. intros [x y z] [] E; injection E; lia. Qed.
(** The value a column contributes. *)
Lemma row_term : forall e dt dh x p q, mesh_ok (cm_m e) -> in_mesh (cm_m e) p -> in_mesh (cm_m e) q -> let k s := face_index (cm_m e) (face_of p s) in let i := coarse_cell (cm_m e) p in let j := coarse_cell (cm_m e) q in
  (if in_struct (cm_m e) i j then cbind (entry e dt dh i j) (fun v => CVal (v * x j)%R) else CVal 0%R) =
  CVal ((if i =? j then (coarse_volume e i * cm_rm e i + lsum (fun s => coarse_area e i s * (dt (k s) + signed s (dh (k s)))) AllSurfaces) * x i else 0) +
        lsum (fun s => if cell_or_none (cm_m e) (move p s) =? j then coarse_area e i s * (signed s (dh (k s)) - dt (k s)) * x j else 0) AllSurfaces)%R.
Proof. intros e dt dh x p q M P Q k i j. set (m := cm_m e) in *.
  assert (NB : forall s, (cell_or_none m (move p s) =? j) = true <-> q = move p s).
  { intros s. rewrite Z.eqb_eq, <- coarse_neighbor_spec by auto. apply neighbor_is; auto. }
  destruct (in_struct m i j) eqn:IS.
  - apply (in_struct_spec m p q M P Q) in IS. destruct IS as [->|(s & E)].
    + unfold j. fold i. unfold entry. rewrite Z.eqb_refl. unfold diag. unfold i at 1. rewrite (diag_sum_spec e dt dh p AllSurfaces _ P). cbn [cbind]. fold k. fold m. fold i. f_equal.
      rewrite (lsum_zero (fun s => if cell_or_none m (move p s) =? i then _ else _)); [unfold k; ring|]. intros s _. destruct (cell_or_none m (move p s) =? i) eqn:E; [|reflexivity]. exfalso. apply (proj1 (NB s)) in E. symmetry in E. exact (move_neq _ _ E).
    + assert (NE : (i =? j) = false). { apply Z.eqb_neq. intros H. apply (coarse_cell_inj m) in H; auto. apply (move_neq p s). congruence. }
      unfold entry. rewrite NE. unfold off_diag. fold m. unfold i at 1, j at 1. rewrite (interface_found m p q s M P Q E). cbn [cbind]. rewrite (lsum_single (fun s => if cell_or_none m (move p s) =? j then _ else _) AllSurfaces s).
      * rewrite (proj2 (NB s) E). f_equal. unfold k. ring.
      * repeat constructor; cbn; intuition discriminate.
      * destruct s; cbn; tauto.
      * intros t _ T. destruct (cell_or_none m (move p t) =? j) eqn:F; [|reflexivity]. exfalso. apply (proj1 (NB t)) in F. apply T. apply (move_inj_dir p). congruence.
  - assert (NS : ~ (q = p \/ exists s, q = move p s)). { intros H. apply (in_struct_spec m p q M P Q) in H. unfold i, j in IS. congruence. }
    assert (NE : (i =? j) = false). { apply Z.eqb_neq. intros H. apply (coarse_cell_inj m) in H; auto. }
    rewrite NE. rewrite lsum_zero; [f_equal; ring|]. intros s _. destruct (cell_or_none m (move p s) =? j) eqn:F; [|reflexivity]. exfalso. apply NS. right. exists s. apply NB. exact F. Qed.
Lemma row_apply_sum : forall e dt dh i x cols (T : Z -> R), (forall j, In j cols -> (if in_struct (cm_m e) i j then cbind (entry e dt dh i j) (fun v => CVal (v * x j)%R) else CVal 0%R) = CVal (T j)) ->
  row_apply e dt dh i x cols = CVal (lsum T cols).
Proof. intros e dt dh i x cols T. induction cols as [|j r IH]; intros H; cbn [row_apply lsum]; [reflexivity|]. rewrite (H j) by (left; auto). cbn [cbind]. rewrite IH by (intros; apply H; right; auto). reflexivity. Qed.
Lemma lsum_swap : forall {A B} (f : A -> B -> R) l m, lsum (fun a => lsum (f a) m) l = lsum (fun b => lsum (fun a => f a b) l) m.
Proof. intros A B f l m. induction l as [|a l IH]; cbn [lsum]; [symmetry; apply lsum_zero; auto|]. rewrite IH, <- lsum_plus. reflexivity. Qed.

(** C42: the product of a row with a flux is the cell's removal plus the net outward flow of the currents that
    store_currents derives from that flux with the same coefficients; building and reading the row raises nothing. *)
Theorem C42_row : forall e dt dh x p, mesh_ok (cm_m e) -> in_mesh (cm_m e) p ->
  mat_row e dt dh x (coarse_cell (cm_m e) p) =
  CVal (coarse_volume e (coarse_cell (cm_m e) p) * cm_rm e (coarse_cell (cm_m e) p) * x (coarse_cell (cm_m e) p) + leakage e (cm_current (cm_m e) dt dh x) p)%R.
Proof. intros e dt dh x p M P. set (m := cm_m e) in *. set (i := coarse_cell m p). set (k := fun s => face_index m (face_of p s)). unfold mat_row. fold m.
  rewrite (row_apply_sum e dt dh i x _ (fun j => ((if i =? j then (coarse_volume e i * cm_rm e i + lsum (fun s => coarse_area e i s * (dt (k s) + signed s (dh (k s)))) AllSurfaces) * x i else 0) +
        lsum (fun s => if cell_or_none m (move p s) =? j then coarse_area e i s * (signed s (dh (k s)) - dt (k s)) * x j else 0) AllSurfaces)%R)).
  2:{ intros j J. apply in_zrange in J. destruct (cell_of_position m j M J) as [Q E]. rewrite <- E. exact (row_term e dt dh x p (coarse_position m j) M P Q). }
  f_equal. rewrite lsum_plus. rewrite lsum_swap.
  rewrite (lsum_single (fun j => if i =? j then _ else 0%R) _ i (zrange_nodup _)).
  2:{ apply in_zrange. apply coarse_cell_bounds; auto. }
  2:{ intros j _ NE. destruct (Z.eqb_spec i j); [congruence|reflexivity]. }
  rewrite Z.eqb_refl.
  assert (C : forall s, lsum (fun j => if cell_or_none m (move p s) =? j then coarse_area e i s * (signed s (dh (k s)) - dt (k s)) * x j else 0)%R (zrange (n_pin m)) = (coarse_area e i s * (signed s (dh (k s)) - dt (k s)) * beyond m x p s)%R).
  { intros s. unfold beyond. destruct (in_mesh_dec m (move p s)) as [I|I].
    - rewrite flux_at_in by auto. rewrite cell_or_none_in by auto. rewrite (lsum_single (fun j => if coarse_cell m (move p s) =? j then _ else 0%R) _ (coarse_cell m (move p s)) (zrange_nodup _)).
      + rewrite Z.eqb_refl. reflexivity.
      + apply in_zrange. apply coarse_cell_bounds; auto.
      + intros j _ NE. destruct (Z.eqb_spec (coarse_cell m (move p s)) j); [congruence|reflexivity].
    - rewrite flux_at_out by auto. rewrite cell_or_none_out by auto. rewrite lsum_zero; [ring|]. intros j J. apply in_zrange in J. destruct (Z.eqb_spec (-1) j); [lia|reflexivity]. }
  rewrite (lsum_ext _ _ AllSurfaces (fun s _ => C s)). clear C.
  assert (L : leakage e (cm_current m dt dh x) p = lsum (fun s => coarse_area e i s * ((dt (k s) + signed s (dh (k s))) * x i + (signed s (dh (k s)) - dt (k s)) * beyond m x p s))%R AllSurfaces).
  { unfold leakage. apply lsum_ext. intros s _. unfold leak. fold m. fold i. rewrite (current_out m dt dh x p s M P). reflexivity. }
  rewrite L. rewrite Rmult_plus_distr_r, Rplus_assoc. f_equal. rewrite <- lsum_scal, <- lsum_plus. apply lsum_ext. intros s _. ring. Qed.
Print Assumptions C42_row.

(** ** Currents between cells cancel. *)
Definition back (q : Position * Surface) : Position * Surface := (move (fst q) (snd q), opposite (snd q)).
Lemma back_back : forall q, back (back q) = q.
Proof. intros [[x y z] []]; unfold back; cbn; repeat f_equal; lia. Qed.
Lemma leak_back : forall e J p s, in_mesh (cm_m e) p -> in_mesh (cm_m e) (move p s) -> leak e J (move p s) (opposite s) = (- leak e J p s)%R.
Proof. intros e J p s P Q. unfold leak. rewrite face_shared. unfold coarse_area. rewrite !position_of_cell by auto. destruct s; cbn [opposite outward move px py pz]; ring. Qed.
Definition internal (m : Mesh) (q : Position * Surface) : bool := if in_mesh_dec m (move (fst q) (snd q)) then true else false.
Definition cells_of (m : Mesh) : list Position := map (coarse_position m) (zrange (n_pin m)).
Lemma cells_of_in : forall m p, mesh_ok m -> In p (cells_of m) <-> in_mesh m p.
Proof. intros m p M. unfold cells_of. rewrite in_map_iff. split.
  - intros (c & <- & C). apply in_zrange in C. apply cell_of_position; auto.
  - intros I. exists (coarse_cell m p). split; [apply position_of_cell; auto|]. apply in_zrange. apply coarse_cell_bounds; auto. Qed.
Lemma cells_of_nodup : forall m, mesh_ok m -> NoDup (cells_of m).
Proof. intros m M. unfold cells_of. assert (I : forall l, (forall c, In c l -> 0 <= c < n_pin m) -> NoDup l -> NoDup (map (coarse_position m) l)).
  { induction l as [|a l IH]; intros B N; cbn [map]; [constructor|]. apply NoDup_cons_iff in N. destruct N as [A N]. constructor; [|apply IH; auto; intros; apply B; right; auto].
    rewrite in_map_iff. intros (c & E & C). apply A. destruct (cell_of_position m c M (B c (or_intror C))) as [_ E1]. destruct (cell_of_position m a M (B a (or_introl eq_refl))) as [_ E2]. rewrite E in E1. congruence. }
  apply I; [intros c; apply in_zrange|apply zrange_nodup]. Qed.
Lemma prod_nodup : forall {A B} (l : list A) (m : list B), NoDup l -> NoDup m -> NoDup (list_prod l m).
Proof. intros A B l m L M. induction l as [|a l IH]; cbn [list_prod]; [constructor|]. apply NoDup_cons_iff in L. destruct L as [NA L]. apply NoDup_app'; [|auto|].
  - apply FinFun.Injective_map_NoDup; [intros u v E; congruence|auto].
  - intros q Q R. apply in_map_iff in Q. destruct Q as (y & <- & _). apply in_prod_iff in R. tauto. Qed.
Lemma lsum_prod : forall {A B} (f : A * B -> R) l m, lsum f (list_prod l m) = lsum (fun a => lsum (fun b => f (a, b)) m) l.
Proof. intros A B f l m. induction l as [|a l IH]; cbn [list_prod lsum]; [reflexivity|]. rewrite lsum_app, lsum_map, IH. reflexivity. Qed.
Lemma lsum_filter : forall {A} (f : A -> R) (b : A -> bool) l, lsum f (filter b l) = lsum (fun a => if b a then f a else 0%R) l.
Proof. intros A f b l. induction l as [|a l IH]; cbn [filter lsum]; [reflexivity|]. destruct (b a); cbn [lsum]; rewrite IH; [reflexivity|ring]. Qed.

(** C42, second half: over the whole mesh the currents between cells cancel; what is left crosses the boundary. *)
Theorem C42_cancel : forall e J, mesh_ok (cm_m e) ->
  lsum (leakage e J) (cells_of (cm_m e)) = lsum (fun p => lsum (fun s => if in_mesh_dec (cm_m e) (move p s) then 0%R else leak e J p s) AllSurfaces) (cells_of (cm_m e)).
Proof. intros e J M. set (m := cm_m e) in *. set (L := list_prod (cells_of m) AllSurfaces). set (f := fun q : Position * Surface => leak e J (fst q) (snd q)).
  assert (Z0 : lsum f (filter (internal m) L) = 0%R).
  { assert (NL : NoDup (filter (internal m) L)). { apply NoDup_filter. apply prod_nodup; [apply cells_of_nodup; auto|repeat constructor; cbn; intuition discriminate]. }
    assert (IL : forall q, In q (filter (internal m) L) <-> in_mesh m (fst q) /\ in_mesh m (move (fst q) (snd q))).
    { intros [p s]. rewrite filter_In. unfold L. rewrite in_prod_iff, cells_of_in by auto. unfold internal. cbn [fst snd]. destruct (in_mesh_dec m (move p s)); intuition; try discriminate. destruct s; cbn; tauto. }
    assert (PB : Permutation (filter (internal m) L) (map back (filter (internal m) L))).
    { apply NoDup_Permutation; auto.
      - apply FinFun.Injective_map_NoDup; auto. intros a b E. rewrite <- (back_back a), <- (back_back b). congruence.
      - intros q. rewrite in_map_iff. split.
        + intros Q. exists (back q). split; [apply back_back|]. apply IL in Q. apply IL. destruct q as [p s]. unfold back; cbn [fst snd] in *. split; [tauto|]. replace (move (move p s) (opposite s)) with p by (destruct p as [x y z], s; cbn; f_equal; lia). tauto.
        + intros (q' & <- & Q). apply IL in Q. apply IL. destruct q' as [p s]. unfold back; cbn [fst snd] in *. split; [tauto|]. replace (move (move p s) (opposite s)) with p by (destruct p as [x y z], s; cbn; f_equal; lia). tauto. }
    pose proof (lsum_perm f _ _ PB) as E. rewrite lsum_map in E.
    assert (N : lsum (fun q => f (back q)) (filter (internal m) L) = lsum (fun q => f q * (-1))%R (filter (internal m) L)).
    { apply lsum_ext. intros q Q. apply IL in Q. destruct q as [p s]. unfold f, back. cbn [fst snd] in *. rewrite leak_back by tauto. ring. }
    rewrite N, lsum_scal in E. lra. }
  assert (A : lsum (leakage e J) (cells_of m) = lsum f L). { unfold L. rewrite lsum_prod. reflexivity. }
  assert (B : lsum (fun p => lsum (fun s => if in_mesh_dec m (move p s) then 0%R else leak e J p s) AllSurfaces) (cells_of m) = lsum (fun q => if internal m q then 0 else f q)%R L).
  { unfold L. rewrite lsum_prod. apply lsum_ext. intros p _. apply lsum_ext. intros s _. unfold internal, f. cbn [fst snd]. destruct (in_mesh_dec m (move p s)); reflexivity. }
  rewrite A, B. rewrite lsum_filter in Z0.
  transitivity (lsum (fun q => (if internal m q then f q else 0) + (if internal m q then 0 else f q))%R L).
  - apply lsum_ext. intros q _. destruct (internal m q); ring.
  - rewrite lsum_plus, Z0. ring. Qed.
Print Assumptions C42_cancel.

(** Summing all rows: removal in every cell and the flow through the boundary. *)
Theorem C42_total : forall e dt dh x src, mesh_ok (cm_m e) -> (forall p, in_mesh (cm_m e) p -> mat_row e dt dh x (coarse_cell (cm_m e) p) = CVal (src p)) ->
  lsum src (cells_of (cm_m e)) =
  (lsum (fun p => coarse_volume e (coarse_cell (cm_m e) p) * cm_rm e (coarse_cell (cm_m e) p) * x (coarse_cell (cm_m e) p)) (cells_of (cm_m e)) +
   lsum (fun p => lsum (fun s => if in_mesh_dec (cm_m e) (move p s) then 0 else leak e (cm_current (cm_m e) dt dh x) p s) AllSurfaces) (cells_of (cm_m e)))%R.
Proof. intros e dt dh x src M H. rewrite <- (C42_cancel e _ M). rewrite <- lsum_plus. apply lsum_ext. intros p P. apply cells_of_in in P; auto. specialize (H p P). rewrite C42_row in H by auto. injection H as H. symmetry. exact H. Qed.
Print Assumptions C42_total.

(** ** The coefficients *)
Definition bc_known (b : Boundary) : Prop := b = REFLECT \/ b = VACUUM.
Record cm_sane (e : CmEnv) : Prop := { cs_m : mesh_ok (cm_m e); cs_tr : forall c, 0 <= c < n_pin (cm_m e) -> (0 < cm_tr e c)%R;
  cs_dx : forall i, 0 <= i < nx (cm_m e) -> (0 < cm_dx e i)%R; cs_dy : forall i, 0 <= i < ny (cm_m e) -> (0 < cm_dy e i)%R; cs_dz : forall i, 0 <= i < nz (cm_m e) -> (0 < cm_dz e i)%R;
  cs_bc : forall s, bc_known (cm_bc e s) }.
Lemma diff_in : forall e n p side, cm_sane e -> in_mesh (cm_m e) p -> exists d, diffusivity e n (cell_or_none (cm_m e) p) side = CVal d /\ (0 < d)%R.
Proof. intros e n p side C P. rewrite cell_or_none_in by auto. pose proof (coarse_cell_bounds _ _ P) as B. unfold diffusivity. destruct (Z.ltb_spec (-1) (coarse_cell (cm_m e) p)); [|lia].
  pose proof (cs_tr e C _ B) as T. unfold d_coeff. rewrite rdiv_ok by lra. cbn [cfin cbind].
  assert (0 < cell_thickness e (coarse_cell (cm_m e) p) n)%R as H0.
  { unfold cell_thickness. rewrite position_of_cell by auto. destruct P as (PX & PY & PZ). destruct n; [apply (cs_dx e C)|apply (cs_dy e C)|apply (cs_dz e C)]; auto. }
  rewrite rdiv_ok by lra. cbn [cfin]. eexists; split; [reflexivity|]. apply Rdiv_lt_0_compat; auto. apply Rdiv_lt_0_compat; lra. Qed.
Lemma diff_any : forall e n p side, cm_sane e -> exists d, diffusivity e n (cell_or_none (cm_m e) p) side = CVal d /\ (0 <= d)%R.
Proof. intros e n p side C. destruct (in_mesh_dec (cm_m e) p) as [I|I].
  - destruct (diff_in e n p side C I) as (d & E & D). exists d. split; [auto|lra].
  - rewrite cell_or_none_out by auto. unfold diffusivity. destruct (Z.ltb_spec (-1) (-1)); [lia|]. destruct (cs_bc e C side) as [-> | ->]; eexists; (split; [reflexivity|lra]). Qed.
Lemma face_has_cell : forall m f, mesh_ok m -> face_ok m f -> in_mesh m (low_side f) \/ in_mesh m (snd f).
Proof. intros m f M F. apply mesh_face_ok in F; auto. destruct F as (p & s & P & ->). rewrite low_of, high_of. destruct s; auto. Qed.

(** C43: with transport currents present, the current computed from unchanged fluxes is the transport current; if the
    fluxes sum to zero the correction is zero and the current is the diffusion current. *)
Theorem C43_current : forall e dt dh is c, surf_coef e is = CVal c -> dt is = c_dt c -> dh is = c_dh c ->
  (match surface_normal (cm_m e) is with Z_NORM => cm_ax e | _ => cm_rad e end) = true ->
  let fl := flux_at (cm_flux e) (fst (coarse_neigh_cells (cm_m e) is)) in let fr := flux_at (cm_flux e) (snd (coarse_neigh_cells (cm_m e) is)) in
  ((fl + fr)%R <> 0%R -> cm_current (cm_m e) dt dh (cm_flux e) is = cm_cur e is) /\
  ((fl + fr)%R = 0%R -> cm_current (cm_m e) dt dh (cm_flux e) is = (- c_dt c * (fr - fl))%R).
Proof. intros e dt dh is c E DT DH H. unfold surf_coef in E. unfold cm_current. destruct (coarse_neigh_cells (cm_m e) is) as [c1 c2]. cbn [fst snd].
  destruct (diffusivity e _ c1 _) as [d1| | |]; try discriminate. cbn [cbind] in E. destruct (diffusivity e _ c2 _) as [d2| | |]; try discriminate. cbn [cbind] in E.
  destruct (rdiv (2 * d1 * d2) (d1 + d2)) as [t|]; [|discriminate]. cbn [cfin cbind] in E.
  destruct (if Rltb 0 d1 then rdiv d1 (d1 + d2) else rdiv d2 (d1 + d2)) as [st|]; [|discriminate]. cbn [cfin cbind] in E.
  rewrite H in E. injection E as E. split; intros N.
  - rewrite DT, DH, <- E. cbn [c_dt c_dh]. rewrite rdiv_ok by auto. field. first [exact N|rewrite Rplus_comm; exact N].
  - rewrite DT, DH, <- E. cbn [c_dt c_dh]. rewrite N. unfold rdiv. destruct (Reqb_spec 0 0); [ring|congruence]. Qed.
Print Assumptions C43_current.
(** Without data the coefficient of the correction is zero. *)
Theorem C43_no_data : forall e is c, surf_coef e is = CVal c -> (match surface_normal (cm_m e) is with Z_NORM => cm_ax e | _ => cm_rad e end) = false -> c_dh c = 0%R /\ c_sh c = Some 0%R.
Proof. intros e is c E H. unfold surf_coef in E. destruct (coarse_neigh_cells (cm_m e) is) as [c1 c2].
  destruct (diffusivity e _ c1 _) as [d1| | |]; try discriminate. cbn [cbind] in E. destruct (diffusivity e _ c2 _) as [d2| | |]; try discriminate. cbn [cbind] in E.
  destruct (rdiv (2 * d1 * d2) (d1 + d2)) as [t|]; [|discriminate]. cbn [cfin cbind] in E.
  destruct (if Rltb 0 d1 then rdiv d1 (d1 + d2) else rdiv d2 (d1 + d2)) as [st|]; [|discriminate]. cbn [cfin cbind] in E.
  rewrite H in E. injection E as E. rewrite <- E. split; reflexivity. Qed.
Print Assumptions C43_no_data.
(** Coefficients exist on every surface of a mesh with positive data and reflecting or vacuum sides. *)
Theorem C43_defined : forall e is, cm_sane e -> 0 <= is < n_surf (cm_m e) -> exists c, surf_coef e is = CVal c /\ (0 <= c_dt c)%R.
Proof. intros e is C B. pose proof (cs_m e C) as M. destruct (face_index_onto _ _ M B) as (f & F & <-). unfold surf_coef. rewrite coarse_neigh_cells_face by auto. rewrite surface_normal_face by auto.
  destruct (diff_any e (fst f) (low_side f) (side_low (fst f)) C) as (d1 & E1 & P1). destruct (diff_any e (fst f) (snd f) (side_high (fst f)) C) as (d2 & E2 & P2).
  assert (S : (0 < d1 + d2)%R). { destruct (face_has_cell _ f M F) as [I|I].
    - destruct (diff_in e (fst f) _ (side_low (fst f)) C I) as (d & E & P). rewrite E1 in E. injection E as E. lra.
    - destruct (diff_in e (fst f) _ (side_high (fst f)) C I) as (d & E & P). rewrite E2 in E. injection E as E. lra. }
  rewrite E1, E2. cbn [cbind]. rewrite !rdiv_ok by lra. cbn [cfin cbind]. destruct (Rltb 0 d1); cbn [cfin cbind]; eexists; (split; [reflexivity|]).
  all: match goal with |- context [if ?b then _ else _] => destruct b end; cbn [c_dt]; unfold Rdiv; apply Rmult_le_pos; [nra|left; apply Rinv_0_lt_compat; auto|nra|left; apply Rinv_0_lt_compat; auto]. Qed.
Print Assumptions C43_defined.
(** The transport solution is a fixed point: with the coefficients of every surface in place, the row of a cell whose fluxes
    do not cancel across any of its sides is removal plus the transport leakage. *)
Theorem C43_transport_balance : forall e dt dh p, cm_sane e -> cm_rad e = true -> cm_ax e = true -> in_mesh (cm_m e) p ->
  (forall is, 0 <= is < n_surf (cm_m e) -> exists c, surf_coef e is = CVal c /\ dt is = c_dt c /\ dh is = c_dh c) ->
  (forall s, (cm_flux e (coarse_cell (cm_m e) p) + beyond (cm_m e) (cm_flux e) p s)%R <> 0%R) ->
  mat_row e dt dh (cm_flux e) (coarse_cell (cm_m e) p) =
  CVal (coarse_volume e (coarse_cell (cm_m e) p) * cm_rm e (coarse_cell (cm_m e) p) * cm_flux e (coarse_cell (cm_m e) p) + leakage e (cm_cur e) p)%R.
Proof. intros e dt dh p C HR HA P K N. pose proof (cs_m e C) as M. rewrite C42_row by auto. do 2 f_equal. unfold leakage. apply lsum_ext. intros s _. unfold leak. do 2 f_equal.
  assert (F : face_ok (cm_m e) (face_of p s)) by (apply face_of_ok; auto).
  destruct (K (face_index (cm_m e) (face_of p s)) (face_index_bounds _ _ M F)) as (c & E & DT & DH).
  apply (C43_current e dt dh _ c E DT DH).
  - destruct (surface_normal _ _); auto.
  - rewrite coarse_neigh_cells_face by auto. cbn [fst snd]. rewrite low_of, high_of. specialize (N s). unfold beyond in N. destruct s; rewrite (flux_at_in _ _ p P); auto; rewrite Rplus_comm; auto. Qed.
Print Assumptions C43_transport_balance.

(** The stored surface flux reproduces the transport surface flux where the correction is a number. *)
Theorem C43_surface_flux : forall e st sh is c v, surf_coef e is = CVal c -> c_sh c = Some v -> st is = c_st c -> sh is = v ->
  (match surface_normal (cm_m e) is with Z_NORM => cm_ax e | _ => cm_rad e end) = true -> cm_surface_flux (cm_m e) st sh (cm_flux e) is = cm_sf e is.
Proof. intros e st sh is c v E V ST SH H. unfold surf_coef in E. unfold cm_surface_flux. destruct (coarse_neigh_cells (cm_m e) is) as [c1 c2].
  destruct (diffusivity e _ c1 _) as [d1| | |]; try discriminate. cbn [cbind] in E. destruct (diffusivity e _ c2 _) as [d2| | |]; try discriminate. cbn [cbind] in E.
  destruct (rdiv (2 * d1 * d2) (d1 + d2)) as [t|]; [|discriminate]. cbn [cfin cbind] in E.
  destruct (if Rltb 0 d1 then rdiv d1 (d1 + d2) else rdiv d2 (d1 + d2)) as [st0|]; [|discriminate]. cbn [cfin cbind] in E.
  rewrite H in E. injection E as E. rewrite <- E in V, ST. cbn [c_sh c_st] in V, ST. rewrite ST, SH. set (fr := flux_at (cm_flux e) c2) in *. destruct (Z.leb_spec 0 c1) as [G|G].
  - set (fl := flux_at (cm_flux e) c1) in *. apply rdiv_some in V. destruct V as [N ->]. field. exact N.
  - assert (Z0 : flux_at (cm_flux e) c1 = 0%R) by (unfold flux_at; destruct (Z.leb_spec 0 c1); [lia|reflexivity]). rewrite Z0. apply rdiv_some in V. destruct V as [N ->]. field. exact N. Qed.
Print Assumptions C43_surface_flux.

(** ** C92: the diffusion current and the surface flux that goes with it. *)
Definition width (e : CmEnv) (p : Position) (n : Normal) : R := match n with X_NORM => cm_dx e (px p) | Y_NORM => cm_dy e (py p) | Z_NORM => cm_dz e (pz p) end.
Definition dcoef (e : CmEnv) (p : Position) : R := (1 / (3 * cm_tr e (coarse_cell (cm_m e) p)))%R.
(** Fick's law over the half of a cell between its centre and a face. *)
Definition half_current (d h a b : R) : R := (- d * ((b - a) / (h / 2)))%R.
Lemma diff_val : forall e n p side, cm_sane e -> in_mesh (cm_m e) p -> diffusivity e n (cell_or_none (cm_m e) p) side = CVal (dcoef e p / width e p n)%R /\ (0 < dcoef e p)%R /\ (0 < width e p n)%R.
Proof. intros e n p side C P. rewrite cell_or_none_in by auto. pose proof (coarse_cell_bounds _ _ P) as B. unfold diffusivity. destruct (Z.ltb_spec (-1) (coarse_cell (cm_m e) p)); [|lia].
  pose proof (cs_tr e C _ B) as T. assert (0 < width e p n)%R as H0. { destruct P as (PX & PY & PZ). destruct n; [apply (cs_dx e C)|apply (cs_dy e C)|apply (cs_dz e C)]; auto. }
  assert (0 < dcoef e p)%R by (apply Rdiv_lt_0_compat; lra).
  unfold d_coeff. rewrite rdiv_ok by lra. cbn [cfin cbind]. unfold cell_thickness. rewrite position_of_cell by auto. split; [|split; auto]. fold (width e p n). rewrite rdiv_ok by lra. reflexivity. Qed.
Lemma diff_out : forall e n p side, ~ in_mesh (cm_m e) p -> diffusivity e n (cell_or_none (cm_m e) p) side = match cm_bc e side with REFLECT => CVal 0%R | VACUUM => CVal (1 / 4)%R | _ => CExc end.
Proof. intros e n p side P. rewrite cell_or_none_out by auto. reflexivity. Qed.
(** Whether transport data exist for a face. *)
Definition have (e : CmEnv) (n : Normal) : bool := match n with Z_NORM => cm_ax e | _ => cm_rad e end.
(** The arrays hold the coefficients of the face. *)
Definition coefs_at (e : CmEnv) (dt st dh sh : Z -> R) (is : Z) : Prop := exists c, surf_coef e is = CVal c /\ dt is = c_dt c /\ dh is = c_dh c /\ st is = c_st c /\ c_sh c = Some (sh is).
Lemma coef_plain : forall e dt st dh sh f d1 d2, mesh_ok (cm_m e) -> face_ok (cm_m e) f -> have e (fst f) = false -> coefs_at e dt st dh sh (face_index (cm_m e) f) ->
  diffusivity e (fst f) (cell_or_none (cm_m e) (low_side f)) (side_low (fst f)) = CVal d1 -> diffusivity e (fst f) (cell_or_none (cm_m e) (snd f)) (side_high (fst f)) = CVal d2 ->
  let is := face_index (cm_m e) f in (d1 + d2 <> 0)%R /\ dt is = (2 * d1 * d2 / (d1 + d2))%R /\ st is = (if Rltb 0 d1 then d1 / (d1 + d2) else d2 / (d1 + d2))%R /\ dh is = 0%R /\ sh is = 0%R.
Proof. intros e dt st dh sh f d1 d2 M F H (c & E & DT & DH & ST & SH) E1 E2 is. unfold surf_coef in E. rewrite coarse_neigh_cells_face, surface_normal_face in E by auto. rewrite E1, E2 in E. cbn [cbind] in E.
  fold (have e (fst f)) in E. rewrite H in E. destruct (rdiv (2 * d1 * d2) (d1 + d2)) as [t|] eqn:T; [|discriminate]. apply rdiv_some in T. destruct T as [N ->]. cbn [cfin cbind] in E.
  rewrite !rdiv_ok in E by auto. destruct (Rltb 0 d1); cbn [cfin cbind] in E; injection E as <-; cbn [c_dt c_st c_dh c_sh] in *; injection SH as SH; auto 6. Qed.

(** Between two cells: one surface flux makes both half-cell currents equal to the current, and it is the stored one. *)
Theorem C92_interior : forall e dt st dh sh f x, cm_sane e -> face_ok (cm_m e) f -> in_mesh (cm_m e) (low_side f) -> in_mesh (cm_m e) (snd f) -> have e (fst f) = false ->
  coefs_at e dt st dh sh (face_index (cm_m e) f) -> let is := face_index (cm_m e) f in let J := cm_current (cm_m e) dt dh x is in let s := cm_surface_flux (cm_m e) st sh x is in
  J = half_current (dcoef e (low_side f)) (width e (low_side f) (fst f)) (x (coarse_cell (cm_m e) (low_side f))) s /\
  J = half_current (dcoef e (snd f)) (width e (snd f) (fst f)) s (x (coarse_cell (cm_m e) (snd f))).
Proof. intros e dt st dh sh f x C F L Hi D K is J s. pose proof (cs_m e C) as M.
  destruct (diff_val e (fst f) _ (side_low (fst f)) C L) as (E1 & D1 & W1). destruct (diff_val e (fst f) _ (side_high (fst f)) C Hi) as (E2 & D2 & W2).
  destruct (coef_plain e dt st dh sh f _ _ M F D K E1 E2) as (N & DT & ST & DH & SH). subst J s. unfold cm_current, cm_surface_flux. rewrite (coarse_neigh_cells_face (cm_m e) f M F : coarse_neigh_cells (cm_m e) is = _). cbv zeta. rewrite !flux_at_in by auto.
  assert (P1 : (0 < dcoef e (low_side f) / width e (low_side f) (fst f))%R) by (apply Rdiv_lt_0_compat; auto). assert (P2 : (0 < dcoef e (snd f) / width e (snd f) (fst f))%R) by (apply Rdiv_lt_0_compat; auto).
  rewrite (cell_or_none_in _ _ L). pose proof (coarse_cell_bounds _ _ L). destruct (Z.leb_spec 0 (coarse_cell (cm_m e) (low_side f))); [|lia].
  fold is in DT, ST, DH, SH. rewrite DT, ST, DH, SH. rewrite Rltb_true by auto. unfold half_current. rewrite (Rplus_comm (dcoef e (low_side f) / _)) in *.
  assert (N2 : (dcoef e (low_side f) * width e (snd f) (fst f) + dcoef e (snd f) * width e (low_side f) (fst f) <> 0)%R) by (apply Rgt_not_eq; apply Rplus_lt_0_compat; apply Rmult_lt_0_compat; auto).
  split; field; repeat split; try lra. Qed.
Print Assumptions C92_interior.
(** On the high sides: nothing enters through a vacuum boundary, nothing crosses a reflecting one. *)
Theorem C92_high : forall e dt st dh sh f x, cm_sane e -> face_ok (cm_m e) f -> in_mesh (cm_m e) (low_side f) -> ~ in_mesh (cm_m e) (snd f) -> have e (fst f) = false ->
  coefs_at e dt st dh sh (face_index (cm_m e) f) -> let is := face_index (cm_m e) f in let J := cm_current (cm_m e) dt dh x is in let s := cm_surface_flux (cm_m e) st sh x is in
  J = half_current (dcoef e (low_side f)) (width e (low_side f) (fst f)) (x (coarse_cell (cm_m e) (low_side f))) s /\
  (cm_bc e (side_high (fst f)) = REFLECT -> J = 0%R) /\ (cm_bc e (side_high (fst f)) = VACUUM -> snd (cm_partial s J) = 0%R).
Proof. intros e dt st dh sh f x C F L Hi D K is J s. pose proof (cs_m e C) as M. pose proof (diff_out e (fst f) _ (side_high (fst f)) Hi) as E2.
  destruct (diff_val e (fst f) _ (side_low (fst f)) C L) as (E1 & D1 & W1). assert (P1 : (0 < dcoef e (low_side f) / width e (low_side f) (fst f))%R) by (apply Rdiv_lt_0_compat; auto).
  assert (Q : forall d2, diffusivity e (fst f) (cell_or_none (cm_m e) (snd f)) (side_high (fst f)) = CVal d2 -> (0 <= d2)%R -> let d1 := (dcoef e (low_side f) / width e (low_side f) (fst f))%R in
    J = (2 * d1 * d2 / (d1 + d2) * x (coarse_cell (cm_m e) (low_side f)))%R /\ s = (d1 / (d1 + d2) * x (coarse_cell (cm_m e) (low_side f)))%R).
  { intros d2 E D2 d1. destruct (coef_plain e dt st dh sh f _ _ M F D K E1 E) as (N & DT & ST & DH & SH). subst J s. unfold cm_current, cm_surface_flux. rewrite (coarse_neigh_cells_face (cm_m e) f M F : coarse_neigh_cells (cm_m e) is = _). cbv zeta. rewrite !(flux_at_in _ _ _ L). rewrite !(flux_at_out _ _ _ Hi).
    rewrite (cell_or_none_in _ _ L). pose proof (coarse_cell_bounds _ _ L). destruct (Z.leb_spec 0 (coarse_cell (cm_m e) (low_side f))); [|lia]. fold is in DT, ST, DH, SH. rewrite DT, ST, DH, SH. rewrite Rltb_true by auto. fold d1. split; ring. }
  destruct (cs_bc e C (side_high (fst f))) as [B|B]; rewrite B in E2; destruct (Q _ E2 ltac:(lra)) as [QJ QS]; rewrite QJ, QS; unfold half_current, cm_partial; cbn [snd].
  - split; [|split; [intros _|rewrite B; discriminate]]; field; repeat split; lra.
  - split; [|split; [rewrite B; discriminate|intros _]]; field; repeat split; lra. Qed.
Print Assumptions C92_high.
(** On the low sides the current is the same as on the high ones, and the surface flux at a reflecting side is the cell's. *)
Theorem C92_low : forall e dt st dh sh f x, cm_sane e -> face_ok (cm_m e) f -> ~ in_mesh (cm_m e) (low_side f) -> in_mesh (cm_m e) (snd f) -> have e (fst f) = false ->
  coefs_at e dt st dh sh (face_index (cm_m e) f) -> let is := face_index (cm_m e) f in let J := cm_current (cm_m e) dt dh x is in let c := x (coarse_cell (cm_m e) (snd f)) in
  (cm_bc e (side_low (fst f)) = REFLECT -> J = 0%R /\ cm_surface_flux (cm_m e) st sh x is = c) /\
  (cm_bc e (side_low (fst f)) = VACUUM -> exists s, J = half_current (dcoef e (snd f)) (width e (snd f) (fst f)) s c /\ fst (cm_partial s J) = 0%R /\
    cm_surface_flux (cm_m e) st sh x is = (c - s)%R).
Proof. intros e dt st dh sh f x C F L Hi D K is J c. pose proof (cs_m e C) as M. pose proof (diff_out e (fst f) _ (side_low (fst f)) L) as E1.
  destruct (diff_val e (fst f) _ (side_high (fst f)) C Hi) as (E2 & D2 & W2). assert (P2 : (0 < dcoef e (snd f) / width e (snd f) (fst f))%R) by (apply Rdiv_lt_0_compat; auto).
  assert (Q : forall d1, diffusivity e (fst f) (cell_or_none (cm_m e) (low_side f)) (side_low (fst f)) = CVal d1 -> let d2 := (dcoef e (snd f) / width e (snd f) (fst f))%R in
    (d1 + d2 <> 0)%R /\ J = (- (2 * d1 * d2 / (d1 + d2) * c))%R /\ cm_surface_flux (cm_m e) st sh x is = ((if Rltb 0 d1 then d1 / (d1 + d2) else d2 / (d1 + d2)) * c)%R).
  { intros d1 E d2. destruct (coef_plain e dt st dh sh f _ _ M F D K E E2) as (N & DT & ST & DH & SH). split; [exact N|]. subst J c. unfold cm_current, cm_surface_flux. rewrite (coarse_neigh_cells_face (cm_m e) f M F : coarse_neigh_cells (cm_m e) is = _). cbv zeta. rewrite !(flux_at_in _ _ _ Hi). rewrite !(flux_at_out _ _ _ L).
    rewrite (cell_or_none_out _ _ L). cbn [Z.leb Z.compare]. fold is in DT, ST, DH, SH. rewrite DT, ST, DH, SH. fold d2. split; ring. }
  destruct (cs_bc e C (side_low (fst f))) as [B|B]; rewrite B in E1; destruct (Q _ E1) as (N & QJ & QS); rewrite QJ, QS; split; intros B'; try congruence.
  - rewrite Rltb_false by lra. split; field; repeat split; lra.
  - rewrite Rltb_true by lra. set (h := width e (snd f) (fst f)) in *. set (d := dcoef e (snd f)) in *. exists ((d / h) / (1 / 4 + d / h) * c)%R. unfold half_current, cm_partial. cbn [fst]. do 2 (split; [field; repeat split; lra|]). field; repeat split; lra. Qed.
Print Assumptions C92_low.
