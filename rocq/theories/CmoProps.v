(** Property C191: the currents that CMFD writes to the results file. *)
From Coq Require Import String Ascii.
From Coq Require Import List Bool Reals ZArith Lia Lra.
From Verif Require Import RUtil MeshModel MeshSpec MeshProofs BcModel ExpModel SnModel CmfdModel SnEqProps.
From Verif Require Import BcProofs MocProofs SnProps CmfdProps CmfdMacroProps CmoModel.
Import ListNotations.
Open Scope Z_scope.

(** What a reader of the file finds: the data set of group [g] (from one) and the named face, at plane, row and column; arrays are stored
    with the last index running fastest. *)
Definition row_major (dims : list Z) (ix : list Z) : Z := fold_left (fun a q => a * fst q + snd q) (combine dims ix) 0.
Definition found (l : list CurSet) (g : nat) (face : string) (ix : list Z) (v : R) : Prop :=
  exists d, In d l /\ cu_group d = g /\ cu_face d = face /\ nth_error (cu_vals d) (Z.to_nat (row_major (cu_dims d) ix)) = Some v.
(** The face of a file's cell by name. *)
Definition named (s : Surface) : string := match s with EAST => "east" | NORTH => "north" | WEST => "west" | SOUTH => "south" | TOP => "top" | BOTTOM => "bottom" end%string.

Lemma row_cell : forall m p, row_major [nz m; ny m; nx m] [pz p; py p; px p] = coarse_cell m p.
Proof. intros m p. unfold row_major, coarse_cell. cbn [combine fold_left fst snd]. ring. Qed.
Lemma mp_below : forall fm cm mp, mp_ok fm cm mp -> nz cm <= nz fm.
Proof.
  intros fm cm mp OK. pose proof (mo_f _ _ _ OK) as (_ & _ & FZ). assert (B : forall n, Z.of_nat n < nz fm -> mp (Z.of_nat n) <= Z.of_nat n).
  { induction n as [|n IH]; intros H; [change (Z.of_nat 0) with 0; rewrite (mo_0 _ _ _ OK); lia|]. replace (Z.of_nat (S n)) with (Z.of_nat n + 1) in * by lia. destruct (mo_s _ _ _ OK (Z.of_nat n)) as [E|E]; try lia; rewrite E; specialize (IH ltac:(lia)); lia. }
  specialize (B (Z.to_nat (nz fm - 1))). rewrite Z2Nat.id in B by lia. rewrite (mo_l _ _ _ OK) in B. lia.
Qed.
Lemma one_cell : forall fm cm mp cur s p, mp_ok fm cm mp -> in_mesh cm p -> cell_current fm cm cur s (coarse_cell cm p) = Some (cur (face_index fm (face_of p s))).
Proof.
  intros fm cm mp cur s p OK P. unfold cell_current. rewrite coarse_surf_correct by auto. rewrite (C43_surface_flux_plane fm cm mp _ OK).
  assert (F : face_ok fm (face_of p s)). { apply face_of_ok. pose proof (mp_below _ _ _ OK). destruct P as (A & B & C). unfold in_mesh. rewrite (mo_x _ _ _ OK), (mo_y _ _ _ OK). repeat split; lia. }
  pose proof (face_index_bounds fm _ (mo_f _ _ _ OK) F). destruct (Z.leb_spec 0 (face_index fm (face_of p s))); [|lia]. destruct (Z.ltb_spec (face_index fm (face_of p s)) (n_surf fm)); [reflexivity|lia].
Qed.
Lemma all_cells : forall fm cm cur s (f : Z -> R) l, (forall i, In i l -> cell_current fm cm cur s i = Some (f i)) -> cell_currents fm cm cur s l = Some (map f l).
Proof. intros fm cm cur s f l. induction l as [|i r IH]; intros H; cbn [cell_currents map]; [reflexivity|]. rewrite (H i) by (left; auto). rewrite IH by (intros; apply H; right; auto). reflexivity. Qed.
Definition value_of (fm cm : Mesh) (cur : Z -> R) (s : Surface) (i : Z) : R := cur (face_index fm (face_of (coarse_position cm i) s)).
Lemma faces_of : forall fm cm mp cur g l, mp_ok fm cm mp -> face_sets fm cm cur g l = Some (map (fun s => mkCur (g + 1) (face_name s) [nz cm; ny cm; nx cm] (map (value_of fm cm cur s) (zrange (n_pin cm)))) l).
Proof.
  intros fm cm mp cur g l OK. induction l as [|s r IH]; cbn [face_sets map]; [reflexivity|]. rewrite (all_cells fm cm cur s (value_of fm cm cur s)); [rewrite IH; reflexivity|].
  intros i I. apply in_zrange in I. destruct (cell_of_position cm i (mo_c _ _ _ OK) I) as [Q E]. rewrite <- E at 1. rewrite (one_cell fm cm mp) by auto. reflexivity.
Qed.
Lemma groups_of : forall fm cm mp cur n g, mp_ok fm cm mp -> exists l, group_sets fm cm cur g n = Some l /\ length l = (6 * n)%nat /\
  forall d, In d l <-> exists h s, (g <= h < g + n)%nat /\ d = mkCur (h + 1) (face_name s) [nz cm; ny cm; nx cm] (map (value_of fm cm (cur h) s) (zrange (n_pin cm))).
Proof.
  intros fm cm mp cur n. induction n as [|n IH]; intros g OK; cbn [group_sets].
  - exists []. split; [reflexivity|]. split; [reflexivity|]. intros d. split; [intros []|]. intros (h & s & B & _). lia.
  - destruct (IH (S g) OK) as (l & -> & L & H). rewrite (faces_of fm cm mp (cur g) g AllSurfaces OK). eexists. split; [reflexivity|]. split; [rewrite app_length, map_length, L; cbn [AllSurfaces length]; lia|].
    intros d. rewrite in_app_iff, in_map_iff. split.
    + intros [(s & E & _)|I]; [exists g, s; split; [lia|auto]|]. apply H in I. destruct I as (h & s & B & E). exists h, s. split; [lia|auto].
    + intros (h & s & B & E). destruct (Nat.eq_dec h g) as [->|N]; [left; exists s; split; [auto|destruct s; cbn; tauto]|right; apply H; exists h, s; split; [lia|auto]].
Qed.
Lemma names_inj : forall s t, named s = named t -> s = t.
Proof. intros [] []; cbn; intros H; try reflexivity; discriminate. Qed.
Lemma same_name : forall s, face_name s = named s.
Proof. intros []; reflexivity. Qed.

(** Without dump_current nothing is written.  With it there is one data set for each group and face and nothing is read outside an array:
    at plane, row and column of a cell of the CMFD mesh it has the current array's entry of the face with that place on the TRANSPORT mesh,
    and nothing else. *)
Theorem C191_written : forall fm cm mp ng src cur, mp_ok fm cm mp -> cmfd_output false fm cm ng src cur = Some None /\
  exists l, cmfd_output true fm cm ng src cur = Some (Some (src, l)) /\ length l = (6 * ng)%nat /\ forall g s p v, in_mesh cm p ->
    found l g (named s) [pz p; py p; px p] v <-> (1 <= g <= ng)%nat /\ v = cur (g - 1)%nat (face_index fm (face_of p s)).
Proof.
  intros fm cm mp ng src cur OK. split; [reflexivity|]. unfold cmfd_output. cbn [negb]. destruct (groups_of fm cm mp cur ng 0 OK) as (l & -> & L & H). exists l. split; [reflexivity|]. split; [exact L|]. intros g s p v P.
  assert (V : forall h t, nth_error (map (value_of fm cm (cur h) t) (zrange (n_pin cm))) (Z.to_nat (row_major [nz cm; ny cm; nx cm] [pz p; py p; px p])) = Some (cur h (face_index fm (face_of p t)))).
  { intros h t. rewrite row_cell. pose proof (coarse_cell_bounds cm p P) as B. unfold zrange. rewrite map_map. erewrite map_nth_error; [|erewrite (nth_error_nth' _ 0%nat); [reflexivity|rewrite seq_length; lia]]. rewrite seq_nth by lia. unfold value_of. rewrite Nat.add_0_l, Z2Nat.id by lia. rewrite position_of_cell by auto. reflexivity. }
  split.
  - intros (d & I & G & N & E). apply H in I. destruct I as (h & t & B & ->). cbn [cu_group cu_face cu_vals cu_dims] in *. rewrite same_name in N. apply names_inj in N. subst t. rewrite V in E. injection E as <-. split; [lia|]. f_equal. lia.
  - intros (G & ->). eexists. split; [apply H; exists (g - 1)%nat, s; split; [lia|reflexivity]|]. cbn [cu_group cu_face cu_vals cu_dims]. split; [lia|]. split; [apply same_name|]. apply V.
Qed.
Print Assumptions C191_written.

(** The two cells at a face have the same current in the file. *)
Theorem C191_shared : forall fm cm mp ng src cur l g s p v, mp_ok fm cm mp -> cmfd_output true fm cm ng src cur = Some (Some (src, l)) -> in_mesh cm p -> in_mesh cm (move p s) ->
  found l g (named s) [pz p; py p; px p] v <-> found l g (named (opposite s)) [pz (move p s); py (move p s); px (move p s)] v.
Proof.
  intros fm cm mp ng src cur l g s p v OK E P Q. destruct (C191_written fm cm mp ng src cur OK) as (_ & l' & E' & _ & H). rewrite E in E'. injection E' as <-.
  rewrite (H g s p v P), (H g (opposite s) (move p s) v Q), face_shared. reflexivity.
Qed.
Print Assumptions C191_shared.

(** If no planes are merged, the currents that CMFD stores (C42) and writes balance: in every cell, removal and the written currents out of
    its faces are what the matrix makes of the flux, so the source if the group's linear system is solved. *)
Theorem C191_balance : forall fm mp ng src (e : nat -> CmEnv) (dt dh x : nat -> Z -> R) l, mp_ok fm fm mp -> (forall g, cm_m (e g) = fm) ->
  cmfd_output true fm fm ng src (fun g => project fm fm mp (cm_current fm (dt g) (dh g) (x g))) = Some (Some (src, l)) ->
  forall g p (J : Surface -> R), in_mesh fm p -> (forall s, found l (S g) (named s) [pz p; py p; px p] (J s)) -> let i := coarse_cell fm p in
  mat_row (e g) (dt g) (dh g) (x g) i = CVal (coarse_volume (e g) i * cm_rm (e g) i * x g i + lsum (fun s => coarse_area (e g) i s * match s with WEST | SOUTH | BOTTOM => - J s | _ => J s end) AllSurfaces)%R.
Proof.
  intros fm mp ng src e dt dh x l OK M E g p J P F i. destruct (C191_written fm fm mp ng src (fun g => project fm fm mp (cm_current fm (dt g) (dh g) (x g))) OK) as (_ & l' & E' & _ & H). rewrite E in E'. injection E' as <-.
  assert (V : forall s, J s = cm_current fm (dt g) (dh g) (x g) (face_index fm (face_of p s))).
  { intros s. destruct (proj1 (H (S g) s p (J s) P) (F s)) as (_ & ->). unfold project. rewrite Z.eqb_refl. cbn [negb]. replace (S g - 1)%nat with g by lia. reflexivity. }
  unfold i. pose proof (C42_row (e g) (dt g) (dh g) (x g) p) as R0. rewrite (M g) in R0. rewrite R0 by (auto; apply (mo_f _ _ _ OK)). f_equal. f_equal. unfold leakage, leak. apply lsum_ext. intros s _. rewrite (M g), (V s). unfold outward. destruct s; reflexivity.
Qed.
Print Assumptions C191_balance.

(** If planes are merged into macroplanes, what is written for the cells of macroplane [m] are the currents of the macroplane that the transport
    plane numbered [m] belongs to; for the top, the current at the BOTTOM of the macroplane that transport plane [m + 1] belongs to. *)
Theorem C191_merged : forall fm cm mp ng src (c1g : nat -> Z -> R) l, mp_ok fm cm mp -> nz cm <> nz fm -> cmfd_output true fm cm ng src (fun g => project fm cm mp (c1g g)) = Some (Some (src, l)) ->
  forall g s p v, (g < ng)%nat -> in_mesh cm p -> found l (S g) (named s) [pz p; py p; px p] v <->
    v = c1g g (face_index cm (match s with
                              | TOP => face_of {| px := px p; py := py p; pz := mp (pz p + 1) |} BOTTOM
                              | _ => face_of {| px := px p; py := py p; pz := mp (pz p) |} s
                              end)).
Proof.
  intros fm cm mp ng src c1g l OK NE E g s p v G P. destruct (C191_written fm cm mp ng src (fun g => project fm cm mp (c1g g)) OK) as (_ & l' & E' & _ & H). rewrite E in E'. injection E' as <-. rewrite (H (S g) s p v P). replace (S g - 1)%nat with g by lia.
  pose proof (mp_below _ _ _ OK) as Lz. assert (P' := P). destruct P' as (A & B & C). assert (Pf : in_mesh fm p) by (unfold in_mesh; rewrite (mo_x _ _ _ OK), (mo_y _ _ _ OK); repeat split; lia).
  destruct (C43_put_back fm cm mp OK (c1g g) (face_of p s) NE (face_of_ok fm p s Pf)) as [K _].
  rewrite K by (destruct s; cbn; lia). split; [intros (_ & ->)|intros ->; split; [lia|]]; f_equal; f_equal; unfold at_plane; destruct s, p; reflexivity.
Qed.
Print Assumptions C191_merged.

(** So the file can give a cell a current that is not the one CMFD found for it: three planes, the lower two merged. *)
Theorem C191_refuted : exists fm cm mp c1g l p, mp_ok fm cm mp /\ in_mesh cm p /\ cmfd_output true fm cm 1 "CMFD" (fun _ => project fm cm mp c1g) = Some (Some ("CMFD"%string, l)) /\
  c1g (face_index cm (face_of p WEST)) = 6%R /\ c1g (face_index cm (face_of p TOP)) = 10%R /\ (forall v, found l 1 "west" [pz p; py p; px p] v <-> v = 1%R) /\ (forall v, found l 1 "top" [pz p; py p; px p] v <-> v = 5%R).
Proof.
  set (p := {| px := 0; py := 0; pz := 1 |}). assert (P : in_mesh m2 p) by (unfold in_mesh, p; cbn; lia).
  destruct (C191_written m3 m2 mp3 1 "CMFD" (fun _ => project m3 m2 mp3 IZR) mp3_ok) as (_ & l & E & _). exists m3, m2, mp3, IZR, l, p.
  split; [apply mp3_ok|]. split; [exact P|]. split; [exact E|]. split; [reflexivity|]. split; [reflexivity|].
  assert (W : forall s v, found l 1 (named s) [pz p; py p; px p] v <-> _) by (intros s v; exact (C191_merged m3 m2 mp3 1 "CMFD" (fun _ => IZR) l mp3_ok ltac:(discriminate) E 0%nat s p v ltac:(lia) P)).
  split; intros v; [rewrite (W WEST v)|rewrite (W TOP v)]; reflexivity.
Qed.
Print Assumptions C191_refuted.

(** A mesh of one pin and three planes, none merged, and the flux 1, 2, 4 with unit coefficients: the file's currents balance. *)
Definition one_e (_ : nat) : CmEnv := mkCM m3 (fun _ => 1%R) (fun _ => 1%R) (fun _ => 1%R) (fun _ => 1%R) (fun _ => 1%R) (fun _ => 1%R) (fun _ => 0%R) (fun _ => 1%R) (fun _ => REFLECT) false false.
Definition one_x (_ : nat) (i : Z) : R := if i =? 0 then 1%R else if i =? 1 then 2%R else 4%R.
Example C191_instance : mp_ok m3 m3 (fun i => i) /\ mp_ok m3 m2 mp3 /\ nz m2 <> nz m3 /\ exists l, cmfd_output true m3 m3 2 "CMFD" (fun g => project m3 m3 (fun i => i) (cm_current m3 (fun _ => 1%R) (fun _ => 0%R) (one_x g))) = Some (Some ("CMFD"%string, l)) /\
  found l 1 "top" [0; 0; 0] (-1) /\ found l 2 "bottom" [2; 0; 0] (-2) /\ in_mesh m3 {| px := 0; py := 0; pz := 1 |} /\ in_mesh m3 (move {| px := 0; py := 0; pz := 1 |} TOP).
Proof.
  assert (O : mp_ok m3 m3 (fun i => i)) by (constructor; try reflexivity; try (unfold mesh_ok; cbn; lia); intros; right; reflexivity).
  split; [exact O|]. split; [apply mp3_ok|]. split; [discriminate|].
  destruct (C191_written m3 m3 (fun i => i) 2 "CMFD" (fun g => project m3 m3 (fun i => i) (cm_current m3 (fun _ => 1%R) (fun _ => 0%R) (one_x g))) O) as (_ & l & E & _ & H). exists l. split; [exact E|].
  assert (V : forall g, project m3 m3 (fun i => i) (cm_current m3 (fun _ => 1%R) (fun _ => 0%R) (one_x g)) = cm_current m3 (fun _ => 1%R) (fun _ => 0%R) (one_x g)) by reflexivity.
  split; [|split; [|split; unfold in_mesh; cbn; lia]].
  - apply (H 1%nat TOP {| px := 0; py := 0; pz := 0 |} (-1)%R); [unfold in_mesh; cbn; lia|]. split; [lia|]. rewrite V. change (face_index m3 _) with 5. unfold cm_current. change (coarse_neigh_cells m3 5) with (0, 1). cbn. unfold flux_at, one_x. cbn. ring.
  - apply (H 2%nat BOTTOM {| px := 0; py := 0; pz := 2 |} (-2)%R); [unfold in_mesh; cbn; lia|]. split; [lia|]. rewrite V. change (face_index m3 _) with 10. unfold cm_current. change (coarse_neigh_cells m3 10) with (1, 2). cbn. unfold flux_at, one_x. cbn. ring.
Qed.
