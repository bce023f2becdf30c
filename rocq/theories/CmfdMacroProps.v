(** CMFD on a mesh with fewer planes than the transport mesh: homogenised currents keep the balance (C43), what is put back
    and what is lost, the surface flux at a low vacuum side (C92), and the iteration (C44). *)
From Coq Require Import List Bool Reals ZArith Lia Lra.
From Verif Require Import RUtil MeshModel MeshSpec MeshProofs BcModel ExpModel SnModel CmfdModel SnEqProps.
From Verif Require Import BcProofs MocProofs SnProps CmfdProps.
Import ListNotations.
Open Scope Z_scope.

(** The two meshes differ in their planes only; [mp] sends the planes of [fm], in order, onto those of [cm] (C61). *)
Record mp_ok (fm cm : Mesh) (mp : Z -> Z) : Prop := { mo_f : mesh_ok fm; mo_c : mesh_ok cm; mo_x : nx fm = nx cm; mo_y : ny fm = ny cm; mo_0 : mp 0 = 0;
  mo_s : forall iz, 0 <= iz -> iz + 1 < nz fm -> mp (iz + 1) = mp iz \/ mp (iz + 1) = mp iz + 1; mo_l : mp (nz fm - 1) = nz cm - 1 }.
(** The first plane of a macroplane. *)
Definition starts (mp : Z -> Z) (iz : Z) : Prop := iz = 0 \/ mp (iz - 1) <> mp iz.

Section MP.
Context (fm cm : Mesh) (mp : Z -> Z) (OK : mp_ok fm cm mp).
Lemma mp_mono : forall a n, 0 <= a -> a + Z.of_nat n < nz fm -> mp a <= mp (a + Z.of_nat n).
Proof. intros a n A. induction n as [|n IH]; intros H; [replace (a + Z.of_nat 0) with a by lia; lia|]. replace (a + Z.of_nat (S n)) with (a + Z.of_nat n + 1) in * by lia. destruct (mo_s _ _ _ OK (a + Z.of_nat n)) as [E|E]; try lia; rewrite E; specialize (IH ltac:(lia)); lia. Qed.
Lemma mp_le : forall a b, 0 <= a -> a <= b -> b < nz fm -> mp a <= mp b.
Proof. intros a b A B H. replace b with (a + Z.of_nat (Z.to_nat (b - a))) by lia. apply mp_mono; lia. Qed.
Lemma mp_range : forall iz, 0 <= iz < nz fm -> 0 <= mp iz < nz cm.
Proof. intros iz H. pose proof (mp_le 0 iz ltac:(lia) ltac:(lia) ltac:(lia)). pose proof (mp_le iz (nz fm - 1) ltac:(lia) ltac:(lia) ltac:(lia)). rewrite (mo_0 _ _ _ OK) in *. rewrite (mo_l _ _ _ OK) in *. lia. Qed.
Lemma starts_uniq : forall a b, 0 <= a < nz fm -> 0 <= b < nz fm -> starts mp a -> starts mp b -> mp a = mp b -> a = b.
Proof. assert (W : forall a b, 0 <= a -> a < b -> b < nz fm -> starts mp b -> mp a = mp b -> False).
  { intros a b A L B [->|S] E; [lia|]. pose proof (mp_le a (b - 1) ltac:(lia) ltac:(lia) ltac:(lia)). pose proof (mp_le (b - 1) b ltac:(lia) ltac:(lia) ltac:(lia)). lia. }
  intros a b A B SA SB E. destruct (Z.lt_trichotomy a b) as [L|[L|L]]; [exfalso; apply (W a b); auto; lia|auto|exfalso; apply (W b a); auto; lia]. Qed.
(** The planes of a macroplane are an interval. *)
Lemma mp_onto : forall n, Z.of_nat n < nz cm -> exists a, 0 <= a < nz fm /\ mp a = Z.of_nat n /\ starts mp a.
Proof. pose proof (mo_f _ _ _ OK) as (_ & _ & FZ). induction n as [|n IH]; intros H.
  - exists 0. split; [lia|]. split; [apply (mo_0 _ _ _ OK)|left; auto].
  - destruct (IH ltac:(lia)) as (a & A & E & _).
    assert (G : forall k, a + Z.of_nat k < nz fm -> (exists b, 0 <= b < nz fm /\ mp b = Z.of_nat (S n) /\ starts mp b) \/ mp (a + Z.of_nat k) = Z.of_nat n).
    { induction k as [|k IK]; intros K; [right; replace (a + Z.of_nat 0) with a by lia; auto|]. destruct (IK ltac:(lia)) as [L|L]; [left; auto|]. destruct (mo_s _ _ _ OK (a + Z.of_nat k)) as [S1|S1]; try lia.
      - right. replace (a + Z.of_nat (S k)) with (a + Z.of_nat k + 1) by lia. lia.
      - left. exists (a + Z.of_nat k + 1). split; [lia|]. split; [lia|]. right. replace (a + Z.of_nat k + 1 - 1) with (a + Z.of_nat k) by lia. lia. }
    destruct (G (Z.to_nat (nz fm - 1 - a)) ltac:(lia)) as [L|L]; [auto|]. replace (a + Z.of_nat (Z.to_nat (nz fm - 1 - a))) with (nz fm - 1) in L by lia. rewrite (mo_l _ _ _ OK) in L. lia. Qed.
Lemma next_start : forall P, 0 <= P < nz cm -> exists a b, 0 <= a < b /\ b <= nz fm /\ starts mp a /\ (forall iz, 0 <= iz < nz fm -> mp iz = P <-> a <= iz < b) /\ (b = nz fm /\ P + 1 = nz cm \/ b < nz fm /\ starts mp b /\ mp b = P + 1).
Proof. intros P HP. destruct (mp_onto (Z.to_nat P) ltac:(lia)) as (a & A & E & S). rewrite Z2Nat.id in E by lia.
  assert (LO : forall iz, 0 <= iz < nz fm -> mp iz = P -> a <= iz). { intros iz I EI. destruct (Z_le_gt_dec a iz); [auto|]. exfalso. destruct S as [->|S]; [lia|]. pose proof (mp_le iz (a - 1) ltac:(lia) ltac:(lia) ltac:(lia)). pose proof (mp_le (a - 1) a ltac:(lia) ltac:(lia) ltac:(lia)). lia. }
  destruct (Z.eq_dec (P + 1) (nz cm)) as [L|L].
  - exists a, (nz fm). split; [lia|]. split; [lia|]. split; [auto|]. split; [|left; auto]. intros iz I. split; [intros EI; specialize (LO iz I EI); lia|]. intros R. pose proof (mp_le a iz ltac:(lia) ltac:(lia) ltac:(lia)). pose proof (mp_range iz I). lia.
  - destruct (mp_onto (Z.to_nat (P + 1)) ltac:(lia)) as (b & B & F & T). rewrite Z2Nat.id in F by lia. exists a, b.
    assert (AB : a < b). { destruct (Z_lt_ge_dec a b); [auto|]. pose proof (mp_le b a ltac:(lia) ltac:(lia) ltac:(lia)). lia. }
    split; [lia|]. split; [lia|]. split; [auto|]. split; [|right; split; [lia|auto]].
    intros iz I. split.
    + intros EI. split; [auto|]. destruct (Z_lt_ge_dec iz b); [auto|]. pose proof (mp_le b iz ltac:(lia) ltac:(lia) ltac:(lia)). lia.
    + intros R. pose proof (mp_le a iz ltac:(lia) ltac:(lia) ltac:(lia)). destruct T as [->|T]; [lia|]. pose proof (mp_le iz (b - 1) ltac:(lia) ltac:(lia) ltac:(lia)). destruct (mo_s _ _ _ OK (b - 1)) as [S1|S1]; try lia; replace (b - 1 + 1) with b in S1 by lia; lia. Qed.

(** Faces at the same place in a plane of the other mesh. *)
Definition at_plane (f : Normal * Position) (z : Z) : Normal * Position := (fst f, {| px := px (snd f); py := py (snd f); pz := z |}).
Lemma nsp_eq : n_surf_plane fm = n_surf_plane cm.
Proof. unfold n_surf_plane. rewrite (mo_x _ _ _ OK), (mo_y _ _ _ OK). reflexivity. Qed.
Lemma off_eq : forall f z, face_off fm (at_plane f z) = face_off cm f.
Proof. intros [n p] z. unfold face_off, at_plane. cbn [fst snd px py]. rewrite (mo_x _ _ _ OK), (mo_y _ _ _ OK). reflexivity. Qed.
Lemma in_xy : forall m f Q, mesh_ok m -> face_ok m f -> in_range (plane_surf_xy_begin m Q) (n_xy m) (face_index m f) = true <-> fst f <> Z_NORM /\ pz (snd f) = Q.
Proof. intros m f Q M F. rewrite <- (plane_xy_surfs m f Q M F). unfold in_range, plane_surf_xy_begin, plane_surf_end, n_xy. rewrite andb_true_iff, Z.leb_le, Z.ltb_lt. split; intros; nia. Qed.
Lemma in_z : forall m f Q, mesh_ok m -> face_ok m f -> in_range (plane_surf_begin m Q) (n_zs m) (face_index m f) = true <-> fst f = Z_NORM /\ pz (snd f) = Q.
Proof. intros m f Q M F. destruct (face_off_bounds m f M F) as [B1 B2]. unfold in_range, plane_surf_begin, n_zs. rewrite andb_true_iff, Z.leb_le, Z.ltb_lt, face_index_off. destruct M as (X & Y & _). assert (0 < nx m * ny m) by nia. assert (nx m * ny m < n_surf_plane m) by (unfold n_surf_plane; nia). split.
  - intros [A B]. assert (pz (snd f) = Q) by nia. split; [|auto]. destruct f as [[] p]; cbn [fst snd] in *; auto; nia.
  - intros [E1 E2]. rewrite E1 in B2. subst Q. lia. Qed.
Lemma src_xy : forall f iz, plane_surf_xy_begin fm iz + (face_index cm f - plane_surf_xy_begin cm (pz (snd f))) = face_index fm (at_plane f iz).
Proof. intros f iz. rewrite !face_index_off, off_eq. unfold plane_surf_xy_begin, at_plane. cbn [snd pz]. rewrite nsp_eq, (mo_x _ _ _ OK), (mo_y _ _ _ OK). ring. Qed.
Lemma src_z : forall f iz, plane_surf_begin fm iz + (face_index cm f - plane_surf_begin cm (pz (snd f))) = face_index fm (at_plane f iz).
Proof. intros f iz. rewrite !face_index_off, off_eq. unfold plane_surf_begin, at_plane. cbn [snd pz]. rewrite nsp_eq. ring. Qed.

Lemma radial_fold : forall dzf cur f planes a, face_ok cm f -> fst f <> Z_NORM ->
  homog_radial fm cm mp dzf cur planes a (face_index cm f) = (a (face_index cm f) + lsum (fun iz => if mp iz =? pz (snd f) then dzf iz * cur (face_index fm (at_plane f iz)) else 0) planes)%R.
Proof. intros dzf cur f planes. unfold homog_radial. induction planes as [|iz r IH]; intros a F N; cbn [fold_left lsum]; [ring|]. rewrite IH by auto. unfold add_range at 1. pose proof (in_xy cm f (mp iz) (mo_c _ _ _ OK) F) as I.
  destruct (Z.eqb_spec (mp iz) (pz (snd f))) as [E|E].
  - rewrite (proj2 I) by auto. rewrite E, src_xy. ring.
  - destruct (in_range _ _ _); [exfalso; destruct (proj1 I eq_refl); auto|ring]. Qed.
Lemma radial_fold_z : forall dzf cur f planes a, face_ok cm f -> fst f = Z_NORM -> homog_radial fm cm mp dzf cur planes a (face_index cm f) = a (face_index cm f).
Proof. intros dzf cur f planes. unfold homog_radial. induction planes as [|iz r IH]; intros a F N; cbn [fold_left]; [reflexivity|]. rewrite IH by auto. unfold add_range at 1. pose proof (in_xy cm f (mp iz) (mo_c _ _ _ OK) F) as I. destruct (in_range _ _ _); [exfalso; destruct (proj1 I eq_refl); auto|reflexivity]. Qed.
Lemma norm_fold : forall dzc f planes a, face_ok cm f -> fst f <> Z_NORM -> NoDup planes -> In (pz (snd f)) planes -> homog_norm cm dzc planes a (face_index cm f) = (a (face_index cm f) / dzc (pz (snd f)))%R.
Proof. intros dzc f planes. unfold homog_norm.
  assert (O : forall planes a, face_ok cm f -> ~ In (pz (snd f)) planes -> fold_left (fun a iz => div_range a (plane_surf_xy_begin cm iz) (n_xy cm) (dzc iz)) planes a (face_index cm f) = a (face_index cm f)).
  { clear planes. induction planes as [|iz r IH]; intros a F N; cbn [fold_left]; [reflexivity|]. rewrite IH by (auto; intros H; apply N; right; auto). unfold div_range. pose proof (in_xy cm f iz (mo_c _ _ _ OK) F) as I. destruct (in_range _ _ _); [|reflexivity]. exfalso. destruct (proj1 I eq_refl) as [_ E]. apply N. left. auto. }
  induction planes as [|iz r IH]; intros a F N ND HI; [destruct HI|]. cbn [fold_left]. apply NoDup_cons_iff in ND. destruct ND as [NI ND]. pose proof (in_xy cm f iz (mo_c _ _ _ OK) F) as I. destruct HI as [->|HI].
  - rewrite O by auto. unfold div_range. rewrite (proj2 I) by auto. reflexivity.
  - rewrite IH by auto. unfold div_range at 1. destruct (in_range _ _ _); [|reflexivity]. exfalso. destruct (proj1 I eq_refl) as [_ E]. apply NI. rewrite <- E. auto. Qed.
Lemma norm_fold_z : forall dzc f planes a, face_ok cm f -> fst f = Z_NORM -> homog_norm cm dzc planes a (face_index cm f) = a (face_index cm f).
Proof. intros dzc f planes. unfold homog_norm. induction planes as [|iz r IH]; intros a F N; cbn [fold_left]; [reflexivity|]. rewrite IH by auto. unfold div_range at 1. pose proof (in_xy cm f iz (mo_c _ _ _ OK) F) as I. destruct (in_range _ _ _); [|reflexivity]. exfalso. destruct (proj1 I eq_refl). auto. Qed.
Lemma axial_xy : forall cur f planes now a, face_ok cm f -> fst f <> Z_NORM -> homog_axial fm cm mp cur planes now a (face_index cm f) = a (face_index cm f).
Proof. intros cur f planes. induction planes as [|iz r IH]; intros now a F N; cbn [homog_axial]; [reflexivity|]. destruct (negb _); rewrite IH by auto; [|reflexivity]. unfold set_range. pose proof (in_z cm f (mp iz) (mo_c _ _ _ OK) F) as I. destruct (in_range _ _ _); [|reflexivity]. exfalso. destruct (proj1 I eq_refl). auto. Qed.
Lemma axial_z : forall cur f n k arr, face_ok cm f -> fst f = Z_NORM -> Z.of_nat k + Z.of_nat n <= nz fm ->
  let now := if Z.of_nat k =? 0 then -1 else mp (Z.of_nat k - 1) in let r := homog_axial fm cm mp cur (map Z.of_nat (seq k n)) now arr (face_index cm f) in
  (forall iz, Z.of_nat k <= iz < Z.of_nat k + Z.of_nat n -> starts mp iz -> mp iz = pz (snd f) -> r = cur (face_index fm (at_plane f iz))) /\
  ((forall iz, Z.of_nat k <= iz < Z.of_nat k + Z.of_nat n -> starts mp iz -> mp iz <> pz (snd f)) -> r = arr (face_index cm f)).
Proof. intros cur f n. induction n as [|n IH]; intros k arr F N B now r.
  - split; [intros iz I; lia|reflexivity].
  - assert (NX : (if Z.of_nat (S k) =? 0 then -1 else mp (Z.of_nat (S k) - 1)) = mp (Z.of_nat k)). { destruct (Z.eqb_spec (Z.of_nat (S k)) 0); [lia|]. f_equal. lia. }
    assert (ST : negb (now =? mp (Z.of_nat k)) = true <-> starts mp (Z.of_nat k)).
    { unfold starts, now. rewrite negb_true_iff, Z.eqb_neq. destruct (Z.eqb_spec (Z.of_nat k) 0) as [E|E]; [|tauto]. pose proof (mp_range (Z.of_nat k) ltac:(lia)). split; intros _; [left; auto|lia]. }
    pose proof (in_z cm f (mp (Z.of_nat k)) (mo_c _ _ _ OK) F) as I. unfold r. cbn [seq map homog_axial].
    destruct (negb (now =? mp (Z.of_nat k))) eqn:G.
    + assert (SK : starts mp (Z.of_nat k)) by (apply ST; auto). specialize (IH (S k) (set_range arr (plane_surf_begin cm (mp (Z.of_nat k))) (n_zs cm) (plane_surf_begin fm (Z.of_nat k)) cur) F N ltac:(lia)). cbv zeta in IH. rewrite NX in IH. destruct IH as [I1 I2]. split.
      * intros iz R S E. destruct (Z.eq_dec iz (Z.of_nat k)) as [->|NE].
        -- rewrite I2. { unfold set_range. rewrite (proj2 I) by auto. rewrite E, src_z. reflexivity. } intros j J SJ EJ. assert (j = Z.of_nat k); [|lia]. apply starts_uniq; auto; try lia.
        -- apply I1; auto. lia.
      * intros H. rewrite I2 by (intros iz R; apply H; lia). unfold set_range. destruct (in_range _ _ _); [|reflexivity]. exfalso. destruct (proj1 I eq_refl) as [_ E]. apply (H (Z.of_nat k)); auto. lia.
    + assert (SK : ~ starts mp (Z.of_nat k)) by (intros H; apply ST in H; discriminate). assert (now = mp (Z.of_nat k)) as ->. { apply negb_false_iff in G. apply Z.eqb_eq in G. auto. }
      specialize (IH (S k) arr F N ltac:(lia)). cbv zeta in IH. rewrite NX in IH. destruct IH as [I1 I2]. split.
      * intros iz R S E. destruct (Z.eq_dec iz (Z.of_nat k)) as [->|NE]; [contradiction|]. apply I1; auto. lia.
      * intros H. apply I2. intros iz R. apply H. lia. Qed.

(** C43: the currents given to CMFD on a coarser axial mesh.  Sides: the height-weighted mean over the planes of the
    macroplane; bottoms: the current under the first plane; top: the current above the last plane. *)
Theorem C43_homogenised : forall dzf dzc cur f, face_ok cm f ->
  let h := homogenize fm cm mp dzf dzc cur (face_index cm f) in
  (fst f <> Z_NORM -> h = (lsum (fun iz => if mp iz =? pz (snd f) then dzf iz * cur (face_index fm (at_plane f iz)) else 0) (zrange (nz fm)) / dzc (pz (snd f)))%R) /\
  (fst f = Z_NORM -> forall iz, 0 <= iz < nz fm -> starts mp iz -> mp iz = pz (snd f) -> h = cur (face_index fm (at_plane f iz))) /\
  (fst f = Z_NORM -> pz (snd f) = nz cm -> h = cur (face_index fm (at_plane f (nz fm)))).
Proof. intros dzf dzc cur f F h. pose proof (in_z cm f (nz cm) (mo_c _ _ _ OK) F) as I. unfold h, homogenize. split; [|split]; unfold set_range at 1.
  - intros N. destruct (in_range _ _ _) eqn:G; [destruct (proj1 I eq_refl); contradiction|]. rewrite axial_xy by auto. rewrite norm_fold; auto; [|apply zrange_nodup|apply in_zrange; destruct f as [[] p]; cbn in F, N |- *; try lia; congruence]. rewrite radial_fold by auto. f_equal. ring.
  - intros N iz R S E. pose proof (mp_range iz R). destruct (in_range _ _ _) eqn:G; [destruct (proj1 I eq_refl); lia|]. unfold zrange. pose proof (axial_z cur f (Z.to_nat (nz fm)) 0%nat (homog_norm cm dzc (zrange (nz cm)) (homog_radial fm cm mp dzf cur (zrange (nz fm)) (fun _ => 0%R))) F N ltac:(lia)) as A. cbv zeta in A. destruct A as [A _]. apply (A iz); auto. lia.
  - intros N E. rewrite (proj2 I) by auto. rewrite <- (src_z f (nz fm)), E. reflexivity. Qed.

(** What is put back on the transport mesh. *)
Lemma set_xy_fold : forall c1g f planes a, face_ok fm f -> fst f <> Z_NORM -> NoDup planes -> In (pz (snd f)) planes -> (forall iz, In iz planes -> 0 <= iz < nz fm) ->
  fold_left (fun a iz => set_range a (plane_surf_xy_begin fm iz) (n_xy cm) (plane_surf_xy_begin cm (mp iz)) c1g) planes a (face_index fm f) = c1g (face_index cm (at_plane f (mp (pz (snd f))))).
Proof. intros c1g f planes.
  assert (NXY : n_xy cm = n_xy fm) by (unfold n_xy; rewrite nsp_eq, (mo_x _ _ _ OK), (mo_y _ _ _ OK); reflexivity).
  assert (O : forall planes a, face_ok fm f -> ~ In (pz (snd f)) planes -> fold_left (fun a iz => set_range a (plane_surf_xy_begin fm iz) (n_xy cm) (plane_surf_xy_begin cm (mp iz)) c1g) planes a (face_index fm f) = a (face_index fm f)).
  { clear planes. induction planes as [|iz r IH]; intros a F N; cbn [fold_left]; [reflexivity|]. rewrite IH by (auto; intros H; apply N; right; auto). unfold set_range. rewrite NXY. pose proof (in_xy fm f iz (mo_f _ _ _ OK) F) as I. destruct (in_range _ _ _); [|reflexivity]. exfalso. destruct (proj1 I eq_refl) as [_ E]. apply N. left. auto. }
  induction planes as [|iz r IH]; intros a F N ND HI HB; [destruct HI|]. cbn [fold_left]. apply NoDup_cons_iff in ND. destruct ND as [NI ND]. pose proof (in_xy fm f iz (mo_f _ _ _ OK) F) as I. destruct HI as [->|HI].
  - rewrite O by auto. unfold set_range. rewrite NXY, (proj2 I) by auto. f_equal. rewrite !face_index_off. unfold plane_surf_xy_begin, at_plane, face_off. cbn [fst snd px py pz]. rewrite nsp_eq, (mo_x _ _ _ OK), (mo_y _ _ _ OK). destruct f as [[] p]; cbn [fst snd] in *; ring.
  - rewrite IH; auto. intros j J. apply HB. right. auto. Qed.
Lemma set_z_fold : forall c1g f planes a, face_ok fm f -> NoDup planes -> (forall iz, In iz planes -> 0 <= iz < nz fm) ->
  fold_left (fun a iz => if negb (-1 =? mp iz) then set_range a (plane_surf_begin fm iz) (n_zs cm) (plane_surf_begin cm (mp iz)) c1g else a) planes a (face_index fm f) =
  if in_dec Z.eq_dec (pz (snd f)) planes then match fst f with Z_NORM => c1g (face_index cm (at_plane f (mp (pz (snd f))))) | _ => a (face_index fm f) end else a (face_index fm f).
Proof. intros c1g f planes. assert (NZ : n_zs cm = n_zs fm) by (unfold n_zs; rewrite (mo_x _ _ _ OK), (mo_y _ _ _ OK); reflexivity).
  induction planes as [|iz r IH]; intros a F ND HB; cbn [fold_left]; [reflexivity|]. apply NoDup_cons_iff in ND. destruct ND as [NI ND]. rewrite IH; auto; [|intros; apply HB; right; auto].
  pose proof (mp_range iz (HB iz (or_introl eq_refl))) as MR. destruct (Z.eqb_spec (-1) (mp iz)); [lia|]. cbn [negb]. unfold set_range. rewrite NZ. pose proof (in_z fm f iz (mo_f _ _ _ OK) F) as I.
  destruct (in_dec Z.eq_dec (pz (snd f)) (iz :: r)) as [J|J].
  - destruct (in_dec Z.eq_dec (pz (snd f)) r) as [K|K].
    + destruct (fst f) eqn:N; [destruct (in_range _ _ _) eqn:G; [destruct (proj1 I eq_refl); discriminate|reflexivity]..|reflexivity].
    + destruct J as [->|J]; [|contradiction]. destruct (fst f) eqn:N.
      * destruct (in_range _ _ _) eqn:G; [destruct (proj1 I eq_refl); discriminate|reflexivity].
      * destruct (in_range _ _ _) eqn:G; [destruct (proj1 I eq_refl); discriminate|reflexivity].
      * rewrite (proj2 I) by auto. f_equal. rewrite !face_index_off. unfold plane_surf_begin, at_plane, face_off. cbn [fst snd px py pz]. rewrite nsp_eq, (mo_x _ _ _ OK). destruct f as [[] p]; cbn [fst snd] in *; try discriminate; ring.
  - destruct (in_dec Z.eq_dec (pz (snd f)) r) as [K|K]; [exfalso; apply J; right; auto|]. destruct (in_range _ _ _) eqn:G; [|reflexivity]. exfalso. destruct (proj1 I eq_refl) as [_ E]. apply J. left. auto. Qed.
Theorem C43_put_back : forall c1g f, nz cm <> nz fm -> face_ok fm f ->
  (pz (snd f) < nz fm -> project fm cm mp c1g (face_index fm f) = c1g (face_index cm (at_plane f (mp (pz (snd f)))))) /\
  (pz (snd f) = nz fm -> project fm cm mp c1g (face_index fm f) = 0%R).
Proof. intros c1g f NE F. unfold project. destruct (Z.eqb_spec (nz cm) (nz fm)); [contradiction|]. cbn [negb]. rewrite set_z_fold; auto; [|apply zrange_nodup|intros iz; apply in_zrange].
  split; intros B; destruct (in_dec Z.eq_dec (pz (snd f)) (zrange (nz fm))) as [J|J].
  - destruct (fst f) eqn:N; [..|reflexivity]; (rewrite set_xy_fold; [reflexivity|auto|rewrite N; discriminate|apply zrange_nodup|auto|intros iz; apply in_zrange]).
  - exfalso. apply J. apply in_zrange. destruct f as [[] p]; cbn in F, B |- *; lia.
  - exfalso. apply in_zrange in J. lia.
  - assert (N : fst f = Z_NORM) by (destruct f as [[] p]; cbn in F, B |- *; auto; lia).
    assert (O : forall planes a, (forall iz, In iz planes -> 0 <= iz < nz fm) -> fold_left (fun a iz => set_range a (plane_surf_xy_begin fm iz) (n_xy cm) (plane_surf_xy_begin cm (mp iz)) c1g) planes a (face_index fm f) = a (face_index fm f)).
    { assert (NXY : n_xy cm = n_xy fm) by (unfold n_xy; rewrite nsp_eq, (mo_x _ _ _ OK), (mo_y _ _ _ OK); reflexivity).
      induction planes as [|iz r IH]; intros a H; cbn [fold_left]; [reflexivity|]. rewrite IH by (intros; apply H; right; auto). unfold set_range. rewrite NXY. pose proof (in_xy fm f iz (mo_f _ _ _ OK) F) as I. destruct (in_range _ _ _); [|reflexivity]. exfalso. destruct (proj1 I eq_refl). auto. }
    rewrite O; [reflexivity|]. intros iz. apply in_zrange. Qed.
End MP.
Print Assumptions C43_homogenised.
Print Assumptions C43_put_back.

Lemma lsum_if : forall {A} (b : A -> bool) (f : A -> R) l c, lsum (fun a => if b a then c * f a else 0)%R l = (c * lsum (fun a => if b a then f a else 0) l)%R.
Proof. intros A b f l c. induction l as [|a l IH]; cbn [lsum]; [ring|]. rewrite IH. destruct (b a); ring. Qed.
Lemma telescope : forall (g : Z -> R) a b n, a <= b -> 0 <= a ->
  lsum (fun iz => if (a <=? iz) && (iz <? b) then (g (iz + 1)%Z - g iz)%R else 0%R) (zrange (Z.of_nat n)) = (g (Z.min b (Z.of_nat n)) - g (Z.min a (Z.of_nat n)))%R.
Proof. intros g a b n AB A0. unfold zrange. rewrite Nat2Z.id. induction n as [|n IH].
  - cbn [seq map lsum]. replace (Z.min b (Z.of_nat 0)) with 0 by lia. replace (Z.min a (Z.of_nat 0)) with 0 by lia. ring.
  - rewrite seq_S, map_app, lsum_app, IH. cbn [map lsum plus]. destruct (Z.leb_spec a (Z.of_nat n)), (Z.ltb_spec (Z.of_nat n) b); cbn [andb].
    + replace (Z.min b (Z.of_nat n)) with (Z.of_nat n) by lia. replace (Z.min b (Z.of_nat (S n))) with (Z.of_nat n + 1) by lia. replace (Z.min a (Z.of_nat (S n))) with a by lia. replace (Z.min a (Z.of_nat n)) with a by lia. ring.
    + replace (Z.min b (Z.of_nat (S n))) with (Z.min b (Z.of_nat n)) by lia. replace (Z.min a (Z.of_nat (S n))) with a by lia. replace (Z.min a (Z.of_nat n)) with a by lia. ring.
    + replace (Z.min b (Z.of_nat n)) with (Z.of_nat n) by lia. replace (Z.min b (Z.of_nat (S n))) with (Z.of_nat (S n)) by lia. replace (Z.min a (Z.of_nat (S n))) with (Z.of_nat (S n)) by lia. replace (Z.min a (Z.of_nat n)) with (Z.of_nat n) by lia. ring.
    + lia. Qed.

(** The two environments are one core seen on the two axial meshes. *)
Record macro_env (ef ec : CmEnv) (mp : Z -> Z) : Prop := { me_ok : mp_ok (cm_m ef) (cm_m ec) mp; me_x : forall i, cm_dx ef i = cm_dx ec i; me_y : forall i, cm_dy ef i = cm_dy ec i;
  me_z : forall P, 0 <= P < nz (cm_m ec) -> cm_dz ec P = lsum (fun iz => if mp iz =? P then cm_dz ef iz else 0%R) (zrange (nz (cm_m ef))) /\ cm_dz ec P <> 0%R }.
(** C43: the net leakage that CMFD sees out of a macroplane cell is the sum of the net leakages of its planes; in particular
    the currents between the planes of a macroplane drop out. *)
Theorem C43_macro_balance : forall ef ec mp cur x y P, macro_env ef ec mp -> in_mesh (cm_m ec) {| px := x; py := y; pz := P |} ->
  leakage ec (homogenize (cm_m ef) (cm_m ec) mp (cm_dz ef) (cm_dz ec) cur) {| px := x; py := y; pz := P |} =
  lsum (fun iz => if mp iz =? P then leakage ef cur {| px := x; py := y; pz := iz |} else 0%R) (zrange (nz (cm_m ef))).
Proof. intros ef ec mp cur x y P ME I. pose proof (me_ok _ _ _ ME) as OK. set (fm := cm_m ef) in *. set (cm := cm_m ec) in *. set (h := homogenize fm cm mp (cm_dz ef) (cm_dz ec) cur).
  pose proof (mo_c _ _ _ OK) as MC. pose proof (mo_f _ _ _ OK) as MF. destruct I as (IX & IY & IZ). cbn [px py pz] in *. assert (IP : in_mesh cm {| px := x; py := y; pz := P |}) by (split; [|split]; auto).
  assert (IF : forall iz, 0 <= iz < nz fm -> in_mesh fm {| px := x; py := y; pz := iz |}). { intros iz Z0. unfold in_mesh. cbn [px py pz]. rewrite (mo_x _ _ _ OK), (mo_y _ _ _ OK). auto. }
  destruct (me_z _ _ _ ME P IZ) as [HZ NZ].
  assert (RAD : forall s A, surface_to_normal s <> Z_NORM -> coarse_area ec (coarse_cell cm {| px := x; py := y; pz := P |}) s = (A * cm_dz ec P)%R -> (forall iz, 0 <= iz < nz fm -> coarse_area ef (coarse_cell fm {| px := x; py := y; pz := iz |}) s = (A * cm_dz ef iz)%R) ->
    leak ec h {| px := x; py := y; pz := P |} s = lsum (fun iz => if mp iz =? P then leak ef cur {| px := x; py := y; pz := iz |} s else 0%R) (zrange (nz fm))).
  { intros s A NS AC AF. unfold leak. fold cm fm. rewrite AC. assert (FO : face_ok cm (face_of {| px := x; py := y; pz := P |} s)) by (apply face_of_ok; auto).
    assert (HV : h (face_index cm (face_of {| px := x; py := y; pz := P |} s)) = (lsum (fun iz => if mp iz =? P then cm_dz ef iz * cur (face_index fm (face_of {| px := x; py := y; pz := iz |} s)) else 0) (zrange (nz fm)) / cm_dz ec P)%R).
    { destruct (C43_homogenised fm cm mp OK (cm_dz ef) (cm_dz ec) cur _ FO) as [H1 _]. unfold h. rewrite H1; [|destruct s; exact NS]. replace (pz (snd (face_of {| px := x; py := y; pz := P |} s))) with P by (destruct s; try reflexivity; exfalso; apply NS; reflexivity). f_equal. apply lsum_ext. intros iz _. destruct (mp iz =? P); [|reflexivity]. do 2 f_equal. destruct s; try reflexivity; exfalso; apply NS; reflexivity. }
    rewrite HV. set (S1 := lsum _ _). transitivity (A * outward s S1)%R; [destruct s; cbn [outward]; field; auto|].
    transitivity (A * outward s 1 * S1)%R; [destruct s; cbn [outward]; ring|]. unfold S1. rewrite <- lsum_if. apply lsum_ext. intros iz Z0. apply in_zrange in Z0. destruct (mp iz =? P); [|reflexivity]. rewrite (AF iz Z0). destruct s; cbn [outward]; ring. }
  set (g := fun z => cur (face_index fm (Z_NORM, {| px := x; py := y; pz := z |}))).
  set (Ar := (cm_dx ec x * cm_dy ec y)%R).
  assert (AX : (leak ec h {| px := x; py := y; pz := P |} TOP + leak ec h {| px := x; py := y; pz := P |} BOTTOM)%R = lsum (fun iz => if mp iz =? P then (leak ef cur {| px := x; py := y; pz := iz |} TOP + leak ef cur {| px := x; py := y; pz := iz |} BOTTOM)%R else 0%R) (zrange (nz fm))).
  { destruct (next_start fm cm mp OK P IZ) as (a & b & AB & BN & SA & MP & TOPC).
    assert (R1 : lsum (fun iz => if mp iz =? P then (leak ef cur {| px := x; py := y; pz := iz |} TOP + leak ef cur {| px := x; py := y; pz := iz |} BOTTOM)%R else 0%R) (zrange (nz fm)) = (Ar * (g b - g a))%R).
    { replace (nz fm) with (Z.of_nat (Z.to_nat (nz fm))) by (destruct MF as (_ & _ & ?); lia).
      pose proof (telescope g a b (Z.to_nat (nz fm)) ltac:(lia) ltac:(lia)) as T. replace (Z.min b _) with b in T by lia. replace (Z.min a _) with a in T by lia. rewrite <- T, <- lsum_if. apply lsum_ext. intros iz Z0. apply in_zrange in Z0. rewrite Z2Nat.id in Z0 by (destruct MF as (_ & _ & ?); lia).
      assert ((mp iz =? P) = (a <=? iz) && (iz <? b)) as ->. { apply eq_true_iff_eq. rewrite Z.eqb_eq, andb_true_iff, Z.leb_le, Z.ltb_lt. rewrite (MP iz Z0). lia. }
      destruct ((a <=? iz) && (iz <? b)); [|reflexivity]. unfold leak. fold fm. unfold coarse_area. fold fm. rewrite (position_of_cell fm _ (IF iz Z0)). cbn [px py pz outward face_of surface_to_normal move]. unfold g, Ar. rewrite (me_x _ _ _ ME), (me_y _ _ _ ME). ring. }
    rewrite R1. unfold leak. fold cm. unfold coarse_area. fold cm. rewrite (position_of_cell cm _ IP). cbn [px py pz outward face_of surface_to_normal move]. fold Ar.
    assert (FB : face_ok cm (Z_NORM, {| px := x; py := y; pz := P |})) by (unfold face_ok; cbn [fst snd px py pz]; lia).
    assert (FT : face_ok cm (Z_NORM, {| px := x; py := y; pz := P + 1 |})) by (unfold face_ok; cbn [fst snd px py pz]; lia).
    destruct (C43_homogenised fm cm mp OK (cm_dz ef) (cm_dz ec) cur _ FB) as (_ & HB & _). destruct (C43_homogenised fm cm mp OK (cm_dz ef) (cm_dz ec) cur _ FT) as (_ & HT1 & HT2).
    unfold h. rewrite (HB eq_refl a ltac:(lia) SA (proj2 (MP a ltac:(lia)) ltac:(lia))).
    assert (homogenize fm cm mp (cm_dz ef) (cm_dz ec) cur (face_index cm (Z_NORM, {| px := x; py := y; pz := P + 1 |})) = g b) as ->.
    { destruct TOPC as [[B1 B2]|(B1 & B2 & B3)]; [rewrite (HT2 eq_refl B2), <- B1; reflexivity|rewrite (HT1 eq_refl b ltac:(lia) B2 B3); reflexivity]. }
    unfold g, at_plane. cbn [fst snd px py]. ring. }
  unfold leakage. cbn [lsum AllSurfaces].
  rewrite (RAD EAST (cm_dy ec y)), (RAD NORTH (cm_dx ec x)), (RAD WEST (cm_dy ec y)), (RAD SOUTH (cm_dx ec x)).
  - match goal with |- (?e0 + (?n0 + (?w0 + (?s0 + (?t0 + (?b0 + 0))))))%R = _ => transitivity (e0 + (n0 + (w0 + (s0 + (t0 + b0)))))%R; [ring|] end. rewrite AX, <- !lsum_plus. apply lsum_ext. intros iz _. destruct (mp iz =? P); ring.
  - discriminate.
  - unfold coarse_area. fold cm. rewrite (position_of_cell cm _ IP). reflexivity.
  - intros iz Z0. unfold coarse_area. fold fm. rewrite (position_of_cell fm _ (IF iz Z0)). cbn [px py pz]. rewrite (me_x _ _ _ ME). reflexivity.
  - discriminate.
  - unfold coarse_area. fold cm. rewrite (position_of_cell cm _ IP). reflexivity.
  - intros iz Z0. unfold coarse_area. fold fm. rewrite (position_of_cell fm _ (IF iz Z0)). cbn [px py pz]. rewrite (me_y _ _ _ ME). reflexivity.
  - discriminate.
  - unfold coarse_area. fold cm. rewrite (position_of_cell cm _ IP). reflexivity.
  - intros iz Z0. unfold coarse_area. fold fm. rewrite (position_of_cell fm _ (IF iz Z0)). cbn [px py pz]. rewrite (me_x _ _ _ ME). reflexivity.
  - discriminate.
  - unfold coarse_area. fold cm. rewrite (position_of_cell cm _ IP). reflexivity.
  - intros iz Z0. unfold coarse_area. fold fm. rewrite (position_of_cell fm _ (IF iz Z0)). cbn [px py pz]. rewrite (me_y _ _ _ ME). reflexivity. Qed.
Print Assumptions C43_macro_balance.

(** ** C44: the iteration *)
Section Iter.
Context {S F : Type} (o : CmOps S F) (ktol ptol rred r0 scale : R) (max_iter : Z).
Notation pass := (cm_pass o ktol ptol rred r0 scale max_iter).
Notation loop n := (cm_loop n o ktol ptol rred r0 scale max_iter).
(** The three tolerances, for the state before a pass and the one after it. *)
Definition tolerances_met (l l' : CmLoop S F) : Prop := (Rabs (l_k l' - l_k l) < ktol)%R /\ (op_diff o (l_fs l') (l_fs l) < ptol)%R /\ (r0 <> 0 /\ sqrt (snd (op_inner o (l_fs l') (l_s l))) / scale / r0 < rred)%R.
Lemma pass_inv : forall l l' b, pass l = Some (l', b) -> l_iter l' = l_iter l + 1 /\ l_tf l <> 0%R /\ (l_k l' * l_tf l = l_k l * l_tf l')%R /\ l_tf l' = op_tf o (l_s l') /\ (b = true <-> tolerances_met l l' \/ max_iter < l_iter l').
Proof. intros l l' b H. unfold cm_pass in H. destruct (op_fis o (l_k l) (l_s l)) as [fs|]; [|discriminate]. destruct (op_inner o fs (l_s l)) as [s' ri2] eqn:EI.
  destruct (rdiv (l_k l * op_tf o s') (l_tf l)) as [k'|] eqn:K; [|discriminate]. destruct (rdiv (sqrt ri2) scale) as [ri|] eqn:RI; [|discriminate]. injection H as <- <-. cbn [l_iter l_k l_tf l_s].
  apply rdiv_eq in K. destruct K as [N K]. split; [reflexivity|]. split; [auto|]. split; [lra|]. split; [reflexivity|]. unfold tolerances_met. cbn [l_k l_fs l_s]. rewrite EI. cbn [snd]. apply rdiv_some in RI. destruct RI as [NS ->].
  rewrite orb_true_iff, !andb_true_iff, Z.ltb_lt. assert (RL : forall a b, Rltb a b = true <-> (a < b)%R) by (intros a b; destruct (Rltb_spec a b); split; intros; auto; try discriminate; contradiction).
  rewrite !RL. assert (RR : (match rdiv (sqrt ri2 / scale) r0 with Some q => Rltb q rred | None => false end) = true <-> (r0 <> 0 /\ sqrt ri2 / scale / r0 < rred)%R).
  { unfold rdiv. destruct (Reqb_spec r0 0) as [Z0|Z0]; [split; [discriminate|intros [A _]; contradiction]|rewrite RL; tauto]. }
  rewrite RR. tauto. Qed.
(** At most one pass more than the limit is made; if the limit was not passed the tolerances were met; the eigenvalue estimate
    follows the total fission rate. *)
Theorem C44_limit : forall n l l', loop n l = Some l' -> l_iter l <= max_iter -> l_iter l < l_iter l' <= max_iter + 1 /\ (l_k l' * l_tf l = l_k l * l_tf l')%R /\
  (l_iter l' <= max_iter -> exists l0, tolerances_met l0 l').
Proof. induction n as [|n IH]; intros l l' H L; cbn [cm_loop] in H; [discriminate|]. destruct (pass l) as [[l1 b]|] eqn:P; [|discriminate]. destruct (pass_inv _ _ _ P) as (I & N & K & _ & T). destruct b.
  - injection H as <-. split; [lia|]. split; [lra|]. intros Q. exists l. destruct (proj1 T eq_refl) as [A|A]; [auto|lia].
  - assert (L1 : l_iter l1 <= max_iter). { destruct (Z_le_gt_dec (l_iter l1) max_iter); [auto|]. assert (false = true); [|discriminate]. apply T. right. lia. }
    destruct (IH l1 l' H L1) as (A & B & C). split; [lia|]. split; [|auto]. destruct (Req_dec (l_tf l1) 0) as [Z0|Z0].
    + exfalso. clear - Z0 H. destruct n as [|n]; [discriminate|]. cbn [cm_loop] in H. destruct (pass l1) as [[l2 b]|] eqn:P; [|discriminate]. apply pass_inv in P. tauto.
    + apply (Rmult_eq_reg_r (l_tf l1)); auto. transitivity (l_k l' * l_tf l1 * l_tf l)%R; [ring|]. rewrite B. transitivity (l_k l1 * l_tf l * l_tf l')%R; [ring|]. rewrite K. ring. Qed.
(** The loop always ends: with enough passes allowed it fails only if some pass does. *)
Theorem C44_terminates : forall n l, (forall l0, pass l0 <> None) -> l_iter l + Z.of_nat n > max_iter -> (0 < n)%nat -> loop n l <> None.
Proof. induction n as [|n IH]; intros l D L H; [lia|]. cbn [cm_loop]. destruct (pass l) as [[l1 b]|] eqn:P; [|exact (fun _ => D l P)]. destruct b; [discriminate|]. destruct (pass_inv _ _ _ P) as (I & _ & _ & _ & T). apply IH; auto; [lia|].
  destruct n as [|n]; [|lia]. exfalso. assert (false = true); [|discriminate]. apply T. right. lia. Qed.
(** With an initial residual of zero, that is when the fluxes solve the system already, the limit is always passed. *)
Theorem C44_exact_start : r0 = 0%R -> forall n l l', loop n l = Some l' -> l_iter l <= max_iter -> l_iter l' = max_iter + 1.
Proof. intros Z0 n l l' H L. destruct (C44_limit n l l' H L) as (A & _ & C). destruct (Z_le_gt_dec (l_iter l') max_iter) as [Q|Q]; [|lia]. destruct (C Q) as (l0 & _ & _ & N & _). contradiction. Qed.
End Iter.
Print Assumptions C44_limit.
Print Assumptions C44_terminates.
Print Assumptions C44_exact_start.

(** A one-cell problem whose linear solver multiplies the flux by half: k is halved each pass. *)
Definition toy : CmOps R R := mkOps R R (fun k s => rdiv s k) (fun fs s => ((s / 2)%R, 1%R)) (fun s => s) (fun a b => Rabs (a - b)).
(** C44 as stated fails: with a limit of two, three passes are made and every one of them misses the tolerances. *)
Theorem C44_refuted : exists (o : CmOps R R) l l', cm_loop 5 o (1 / 100) (1 / 100) (1 / 1000) 1 1 2 l = Some l' /\ l_iter l = 0 /\ l_iter l' = 3.
Proof. exists toy, (mkLoop 8 8 1 8 0)%R. eexists. split; [|split; [reflexivity|]].
  - assert (P : forall s k fs it, (s <> 0)%R -> (k = s)%R -> (1 <= k)%R -> cm_pass toy (1 / 100) (1 / 100) (1 / 1000) 1 1 2 (mkLoop s k fs s it) = Some (mkLoop (s / 2) (k * (s / 2) / s) (s / k) (s / 2) (it + 1), (2 <? it + 1))%R).
    { intros s k fs it NS KS K1. unfold cm_pass, toy. cbn [op_fis op_inner op_tf op_diff l_k l_s l_tf l_fs l_iter]. rewrite !rdiv_ok by lra. rewrite (Rltb_false (Rabs (k * (s / 2) / s - k))); [reflexivity|].
      replace (k * (s / 2) / s - k)%R with (- (k / 2))%R by (field; auto). rewrite Rabs_Ropp, Rabs_pos_eq by lra. lra. }
    cbn [cm_loop]. rewrite P by lra. change (2 <? 0 + 1)%Z with false. cbv iota. rewrite P by lra. change (2 <? 0 + 1 + 1)%Z with false. cbv iota. rewrite P by lra. change (2 <? 0 + 1 + 1 + 1)%Z with true. cbv iota. reflexivity.
  - reflexivity. Qed.
Print Assumptions C44_refuted.
(** C44, second half: no flux is negative after the solve, and only signs have changed. *)
Theorem C44_flux : forall f, Forall (fun v => (0 <= v)%R) (fix_negative f) /\ map Rabs (fix_negative f) = map Rabs f /\ (Forall (fun v => (0 <= v)%R) f -> fix_negative f = f) /\
  Forall (fun v => (0 <= v)%R) (zero_fixup f) /\ (Forall (fun v => (0 <= v)%R) f -> zero_fixup f = f).
Proof. unfold fix_negative, zero_fixup. induction f as [|v f (A & B & C & D & E)]; cbn [map]; [repeat split; auto|]. split; [|split; [|split; [|split]]].
  - constructor; auto. destruct (Rltb_spec v 0); lra.
  - f_equal; auto. destruct (Rltb_spec v 0); [apply Rabs_Ropp|reflexivity].
  - intros H. inversion H; subst. rewrite Rltb_false by auto. f_equal; auto.
  - constructor; auto. apply Rmax_r.
  - intros H. inversion H; subst. rewrite Rmax_left by auto. f_equal; auto. Qed.
Print Assumptions C44_flux.
Example C44_instance : fix_negative [1; -2; 0]%R = [1; - - 2; 0]%R /\ zero_fixup [1; -2]%R = [1; 0]%R.
Proof. split.
  - unfold fix_negative. cbn [map]. rewrite (Rltb_false 1), (Rltb_true (-2)), (Rltb_false 0) by lra. reflexivity.
  - unfold zero_fixup. cbn [map]. rewrite (Rmax_left 1), (Rmax_right (-2)) by lra. reflexivity. Qed.

(** ** A core of two cells in a row *)
Definition cx : CmEnv := mkCM {| nx := 2; ny := 1; nz := 1 |} (fun _ => 1%R) (fun _ => 1%R) (fun _ => 2%R) (fun _ => (1 / 3)%R) (fun _ => 1%R) (fun c => if c =? 0 then 1%R else 3%R) (fun k => (IZR k / 10)%R) (fun _ => 1%R) (fun s => match s with TOP | BOTTOM => REFLECT | _ => VACUUM end) true true.
Lemma cx_sane : cm_sane cx.
Proof. constructor; cbn; intros; try lra; [unfold mesh_ok; cbn; lia|]. destruct s; unfold bc_known; auto. Qed.
(** Row of the first cell with unit coefficients: removal 2 * 1, outflow 2 * (1 - 3) to the east, 2 to west, north and south each, 1 to top and bottom each. *)
Example C42_instance : mesh_ok (cm_m cx) /\ in_mesh (cm_m cx) {| px := 0; py := 0; pz := 0 |} /\ mat_row cx (fun _ => 1%R) (fun _ => 0%R) (cm_flux cx) 0 = CVal 6%R.
Proof. split; [unfold mesh_ok; cbn; lia|]. split; [unfold in_mesh; cbn; lia|]. unfold mat_row. change (zrange (n_pin (cm_m cx))) with [0; 1]. cbn [row_apply]. change (in_struct (cm_m cx) 0 0) with true. change (in_struct (cm_m cx) 0 1) with true. cbv iota.
  unfold entry. change (0 =? 0) with true. change (0 =? 1) with false. cbv iota. unfold diag, off_diag. replace (coarse_interface (cm_m cx) 0 1) with (Found 3 EAST) by reflexivity. unfold AllSurfaces. cbn [diag_sum].
  replace (coarse_surf (cm_m cx) 0 EAST) with (Some 3) by reflexivity. replace (coarse_surf (cm_m cx) 0 NORTH) with (Some 6) by reflexivity. replace (coarse_surf (cm_m cx) 0 WEST) with (Some 2) by reflexivity. replace (coarse_surf (cm_m cx) 0 SOUTH) with (Some 5) by reflexivity. replace (coarse_surf (cm_m cx) 0 TOP) with (Some 9) by reflexivity. replace (coarse_surf (cm_m cx) 0 BOTTOM) with (Some 0) by reflexivity.
  cbn [cidx cbind]. unfold coarse_area, coarse_volume, coarse_position, cx. cbn [cm_m cm_dx cm_dy cm_dz cm_rm cm_flux signed nx ny nz]. change (0 =? 0) with true. change (1 =? 0) with false. cbv iota. cbn [cbind]. f_equal. ring. Qed.

(** The arrays setup_solve fills for [cx]. *)
Definition get_c {A} (d : A) (g : Coef -> A) (o : COut Coef) : A := match o with CVal c => g c | _ => d end.
Definition cx_dt (k : Z) : R := get_c 0%R c_dt (surf_coef cx k).
Definition cx_dh (k : Z) : R := get_c 0%R c_dh (surf_coef cx k).
Example C43_instance : cm_sane cx /\ cm_rad cx = true /\ cm_ax cx = true /\ in_mesh (cm_m cx) {| px := 1; py := 0; pz := 0 |} /\
  (forall is, 0 <= is < n_surf (cm_m cx) -> exists c, surf_coef cx is = CVal c /\ cx_dt is = c_dt c /\ cx_dh is = c_dh c) /\
  (forall s, (cm_flux cx (coarse_cell (cm_m cx) {| px := 1; py := 0; pz := 0 |}) + beyond (cm_m cx) (cm_flux cx) {| px := 1; py := 0; pz := 0 |} s)%R <> 0%R) /\
  mat_row cx cx_dt cx_dh (cm_flux cx) 1 = CVal (2 * 1 * 3 + (2 * (4 / 10) + 2 * (8 / 10) - 2 * (3 / 10) - 2 * (7 / 10) + 10 / 10 - 1 / 10))%R.
Proof. assert (K : forall is, 0 <= is < n_surf (cm_m cx) -> exists c, surf_coef cx is = CVal c /\ cx_dt is = c_dt c /\ cx_dh is = c_dh c).
  { intros is B. destruct (C43_defined cx is cx_sane B) as (c & E & _). exists c. unfold cx_dt, cx_dh. rewrite E. auto. }
  assert (N : forall s, (cm_flux cx (coarse_cell (cm_m cx) {| px := 1; py := 0; pz := 0 |}) + beyond (cm_m cx) (cm_flux cx) {| px := 1; py := 0; pz := 0 |} s)%R <> 0%R).
  { intros s. change (cm_flux cx (coarse_cell (cm_m cx) {| px := 1; py := 0; pz := 0 |})) with 3%R. assert (0 <= beyond (cm_m cx) (cm_flux cx) {| px := 1; py := 0; pz := 0 |} s)%R; [|lra]. unfold beyond, flux_at. destruct (0 <=? _); [|lra]. cbn [cm_flux cx]. destruct (_ =? 0); lra. }
  assert (I : in_mesh (cm_m cx) {| px := 1; py := 0; pz := 0 |}) by (unfold in_mesh; cbn; lia).
  split; [apply cx_sane|]. do 2 (split; [reflexivity|]). split; [exact I|]. split; [exact K|]. split; [exact N|].
  pose proof (C43_transport_balance cx cx_dt cx_dh _ cx_sane eq_refl eq_refl I K N) as H. change (coarse_cell (cm_m cx) {| px := 1; py := 0; pz := 0 |}) with 1 in H. rewrite H. f_equal. unfold leakage, leak. cbn [lsum AllSurfaces].
  change (coarse_cell (cm_m cx) {| px := 1; py := 0; pz := 0 |}) with 1. unfold coarse_area, coarse_volume. change (coarse_position (cm_m cx) 1) with {| px := 1; py := 0; pz := 0 |}.
  cbn [cx cm_dx cm_dy cm_dz cm_rm cm_flux cm_cur cm_m outward]. change (1 =? 0) with false. cbv iota.
  repeat match goal with |- context [face_index ?m ?f] => let v := eval vm_compute in (face_index m f) in change (face_index m f) with v end. field. Qed.

(** ** C92 fails at low vacuum sides: without transport data the stored partial current enters through the vacuum. *)
Definition cv : CmEnv := mkCM {| nx := 1; ny := 1; nz := 1 |} (fun _ => 1%R) (fun _ => 1%R) (fun _ => 1%R) (fun _ => (1 / 3)%R) (fun _ => 1%R) (fun c => 1%R) (fun k => 0%R) (fun _ => 0%R) (fun s => VACUUM) false false.
Definition cv_dt (k : Z) : R := get_c 0%R c_dt (surf_coef cv k).
Definition cv_dh (k : Z) : R := get_c 0%R c_dh (surf_coef cv k).
Definition cv_st (k : Z) : R := get_c 0%R c_st (surf_coef cv k).
Lemma cv_sane : cm_sane cv.
Proof. constructor; cbn; intros; try lra; [unfold mesh_ok; cbn; lia|]. right. reflexivity. Qed.
Lemma cv_coefs : forall is, 0 <= is < n_surf (cm_m cv) -> coefs_at cv cv_dt cv_st cv_dh (fun _ => 0%R) is.
Proof. intros is B. destruct (C43_defined cv is cv_sane B) as (c & E & _). exists c. unfold cv_dt, cv_dh, cv_st. rewrite E. cbn [get_c]. do 4 (split; [reflexivity|]). apply (C43_no_data cv is c E). destruct (surface_normal _ _); reflexivity. Qed.
Theorem C92_refuted : exists e dt st dh, cm_sane e /\ (forall s, cm_bc e s = VACUUM) /\ (forall is, 0 <= is < n_surf (cm_m e) -> coefs_at e dt st dh (fun _ => 0%R) is) /\
  let J s := cm_current (cm_m e) dt dh (cm_flux e) (face_index (cm_m e) (face_of {| px := 0; py := 0; pz := 0 |} s)) in let sf s := cm_surface_flux (cm_m e) st (fun _ => 0%R) (cm_flux e) (face_index (cm_m e) (face_of {| px := 0; py := 0; pz := 0 |} s)) in
  J EAST = (2 / 5)%R /\ J WEST = (- (2 / 5))%R /\ sf EAST = (4 / 5)%R /\ sf WEST = (1 / 5)%R /\ snd (cm_partial (sf EAST) (J EAST)) = 0%R /\ fst (cm_partial (sf WEST) (J WEST)) = (- (3 / 20))%R.
Proof. exists cv, cv_dt, cv_st, cv_dh. split; [apply cv_sane|]. split; [reflexivity|]. split; [apply cv_coefs|]. intros J sf.
  set (p := {| px := 0; py := 0; pz := 0 |}) in *. assert (IP : in_mesh (cm_m cv) p) by (unfold in_mesh, p; cbn; lia). assert (M : mesh_ok (cm_m cv)) by (unfold mesh_ok; cbn; lia).
  assert (E1 : J EAST = (2 / 5)%R /\ sf EAST = (4 / 5)%R).
  { assert (F : face_ok (cm_m cv) (face_of p EAST)) by (apply face_of_ok; auto). assert (L : in_mesh (cm_m cv) (low_side (face_of p EAST))) by (rewrite low_of; auto). assert (H : ~ in_mesh (cm_m cv) (snd (face_of p EAST))) by (unfold in_mesh; cbn; lia).
    pose proof (diff_out cv X_NORM (snd (face_of p EAST)) EAST H) as D2. pose proof (diff_val cv X_NORM (low_side (face_of p EAST)) WEST cv_sane L) as (D1 & _).
    destruct (coef_plain cv cv_dt cv_st cv_dh (fun _ => 0%R) _ _ _ M F eq_refl (cv_coefs _ (face_index_bounds _ _ M F)) D1 D2) as (_ & A & B & C & _).
    unfold J, sf, cm_current, cm_surface_flux. rewrite coarse_neigh_cells_face by auto. rewrite A, B, C. cbv zeta. rewrite (flux_at_in _ _ _ L), (flux_at_out _ _ _ H). rewrite (cell_or_none_in _ _ L). change (coarse_cell (cm_m cv) (low_side (face_of p EAST))) with 0. change (0 <=? 0) with true. cbv iota. change (cm_flux cv 0) with 1%R. unfold dcoef, width. cbn [cv cm_tr cm_dx cm_bc fst face_of surface_to_normal]. rewrite Rltb_true by lra. split; field. }
  assert (E2 : J WEST = (- (2 / 5))%R /\ sf WEST = (1 / 5)%R).
  { assert (F : face_ok (cm_m cv) (face_of p WEST)) by (apply face_of_ok; auto). assert (L : in_mesh (cm_m cv) (snd (face_of p WEST))) by (rewrite high_of; auto). assert (H : ~ in_mesh (cm_m cv) (low_side (face_of p WEST))) by (rewrite low_of; unfold in_mesh; cbn; lia).
    pose proof (diff_out cv X_NORM (low_side (face_of p WEST)) WEST H) as D1. pose proof (diff_val cv X_NORM (snd (face_of p WEST)) EAST cv_sane L) as (D2 & _).
    destruct (coef_plain cv cv_dt cv_st cv_dh (fun _ => 0%R) _ _ _ M F eq_refl (cv_coefs _ (face_index_bounds _ _ M F)) D1 D2) as (_ & A & B & C & _).
    unfold J, sf, cm_current, cm_surface_flux. rewrite coarse_neigh_cells_face by auto. rewrite A, B, C. cbv zeta. rewrite (flux_at_in _ _ _ L), (flux_at_out _ _ _ H). rewrite (cell_or_none_out _ _ H). change (0 <=? -1) with false. cbv iota. change (coarse_cell (cm_m cv) (snd (face_of p WEST))) with 0. change (cm_flux cv 0) with 1%R. unfold dcoef, width. cbn [cv cm_tr cm_dx cm_bc fst face_of surface_to_normal]. rewrite Rltb_true by lra. split; field. }
  destruct E1 as [-> ->], E2 as [-> ->]. unfold cm_partial. cbn [fst snd]. do 4 (split; [reflexivity|]). split; field. Qed.
Print Assumptions C92_refuted.
Example C92_instance : cm_sane cv /\ face_ok (cm_m cv) (face_of {| px := 0; py := 0; pz := 0 |} EAST) /\ have cv X_NORM = false /\ coefs_at cv cv_dt cv_st cv_dh (fun _ => 0%R) 2.
Proof. split; [apply cv_sane|]. split; [apply face_of_ok; unfold in_mesh; cbn; lia|]. split; [reflexivity|]. apply cv_coefs. cbn. lia. Qed.

(** ** Three planes, the lower two in one macroplane *)
Definition m3 : Mesh := {| nx := 1; ny := 1; nz := 3 |}.
Definition m2 : Mesh := {| nx := 1; ny := 1; nz := 2 |}.
Definition mp3 (iz : Z) : Z := if iz <? 2 then 0 else 1.
Definition zf (z : Z) : Normal * Position := (Z_NORM, {| px := 0; py := 0; pz := z |}).
Lemma mp3_ok : mp_ok m3 m2 mp3.
Proof. constructor; try reflexivity; try (unfold mesh_ok; cbn; lia). intros iz A B. cbn in B. unfold mp3. destruct (Z.ltb_spec (iz + 1) 2), (Z.ltb_spec iz 2); lia. Qed.
(** Fluxes unchanged, the currents handed to CMFD come back different on the transport mesh: the current through the top is
    lost, and the surface inside of the macroplane receives the one of its bottom. *)
Theorem C43_put_back_refuted : exists fm cm mp dzf dzc cur f g, mp_ok fm cm mp /\ face_ok fm f /\ face_ok fm g /\ pz (snd f) = nz fm /\ 0 < pz (snd g) < nz fm /\
  (let r := project fm cm mp (homogenize fm cm mp dzf dzc cur) in cur (face_index fm f) = 3%R /\ r (face_index fm f) = 0%R /\ cur (face_index fm g) = 1%R /\ r (face_index fm g) = 0%R).
Proof. exists m3, m2, mp3, (fun _ => 1%R), (fun P => if P =? 0 then 2%R else 1%R), (fun k => (IZR k / 5)%R), (zf 3), (zf 1).
  assert (F : face_ok m3 (zf 3)) by (unfold face_ok; cbn; lia). assert (G : face_ok m3 (zf 1)) by (unfold face_ok; cbn; lia).
  split; [apply mp3_ok|]. split; [auto|]. split; [auto|]. split; [reflexivity|]. split; [cbn; lia|]. set (cur := fun k => (IZR k / 5)%R). intros r.
  split; [unfold cur; change (face_index m3 (zf 3)) with 15; field|]. split; [apply (C43_put_back m3 m2 mp3 mp3_ok _ (zf 3)); [discriminate|auto|reflexivity]|]. split; [unfold cur; change (face_index m3 (zf 1)) with 5; field|].
  unfold r. destruct (C43_put_back m3 m2 mp3 mp3_ok (homogenize m3 m2 mp3 (fun _ => 1%R) (fun P => if P =? 0 then 2%R else 1%R) cur) (zf 1)) as [H _]; [discriminate|auto|]. rewrite H by (cbn; lia).
  assert (F0 : face_ok m2 (zf 0)) by (unfold face_ok; cbn; lia). destruct (C43_homogenised m3 m2 mp3 mp3_ok (fun _ => 1%R) (fun P => if P =? 0 then 2%R else 1%R) cur (zf 0) F0) as (_ & B & _).
  change (at_plane (zf 1) (mp3 (pz (snd (zf 1))))) with (zf 0). rewrite (B eq_refl 0); [|cbn; lia|left; reflexivity|reflexivity]. unfold cur. change (face_index m3 (at_plane (zf 0) 0)) with 0. field. Qed.
Print Assumptions C43_put_back_refuted.
(** The surface fluxes are not homogenised: the one read for a surface of the CMFD mesh is that of the plane of the transport
    mesh with the same number, which may belong to another macroplane. *)
Theorem C43_surface_flux_plane : forall fm cm mp f, mp_ok fm cm mp -> face_index cm f = face_index fm f.
Proof. intros fm cm mp f OK. rewrite !face_index_off. unfold n_surf_plane, face_off. rewrite (mo_x _ _ _ OK), (mo_y _ _ _ OK). reflexivity. Qed.
Print Assumptions C43_surface_flux_plane.
Theorem C43_surface_flux_refuted : exists fm cm mp f, mp_ok fm cm mp /\ face_ok cm f /\ face_ok fm f /\ face_index cm f = face_index fm f /\ mp (pz (snd f)) <> pz (snd f).
Proof. exists m3, m2, mp3, (X_NORM, {| px := 0; py := 0; pz := 1 |}). split; [apply mp3_ok|]. split; [unfold face_ok; cbn; lia|]. split; [unfold face_ok; cbn; lia|]. split; [apply (C43_surface_flux_plane _ _ mp3); apply mp3_ok|]. discriminate. Qed.
Print Assumptions C43_surface_flux_refuted.
Definition cf : CmEnv := mkCM m3 (fun _ => 1%R) (fun _ => 1%R) (fun _ => 1%R) (fun _ => 1%R) (fun _ => 1%R) (fun _ => 1%R) (fun k => (IZR k / 5)%R) (fun _ => 1%R) (fun _ => REFLECT) true true.
Definition cc : CmEnv := mkCM m2 (fun _ => 1%R) (fun _ => 1%R) (fun P => if P =? 0 then 2%R else 1%R) (fun _ => 1%R) (fun _ => 1%R) (fun _ => 1%R) (fun k => (IZR k / 5)%R) (fun _ => 1%R) (fun _ => REFLECT) true true.
Example C43_macro_instance : macro_env cf cc mp3 /\ in_mesh (cm_m cc) {| px := 0; py := 0; pz := 0 |}.
Proof. split; [|unfold in_mesh; cbn; lia]. constructor; try reflexivity; [apply mp3_ok|]. intros P B. cbn in B. cbn [cm_m cf cc m3 nz cm_dz]. change (zrange 3) with [0; 1; 2]. cbn [lsum]. change (mp3 0) with 0. change (mp3 1) with 0. change (mp3 2) with 1. assert (P = 0 \/ P = 1) as [-> | ->] by lia; cbn [Z.eqb Pos.eqb]; split; lra. Qed.
