(** Lemmas about ray layout. *)
From Coq Require Import List Lia Bool Reals ZArith Lra.
From Verif Require Import RUtil MeshModel GeomModel AngModel McModel StdAlg MatModel CoreModel CoreProofs EquivProps LatProps RayModel.
Import ListNotations.
Open Scope R_scope.

Lemma fuzz_pos : 0 < REAL_FUZZ.
Proof. unfold REAL_FUZZ. lra. Qed.

Lemma Int_part_spec : forall r k, IZR k <= r < IZR k + 1 -> Int_part r = k.
Proof.
  intros r k H. destruct (base_Int_part r) as [A B]. assert (IZR (Int_part r) < IZR k + 1) by lra. assert (IZR k < IZR (Int_part r) + 1) by lra.
  rewrite <- plus_IZR in *. apply lt_IZR in H0. apply lt_IZR in H1. lia.
Qed.
Lemma trunc_half : forall k, (0 <= k)%Z -> trunc (IZR k + 1 / 2) = k.
Proof.
  intros k K. apply IZR_le in K. unfold trunc. rewrite Rltb_false by lra. apply Int_part_spec. lra.
Qed.

Definition start : R * Point2 := (10 ^ 12, {| ptx := 0; pty := 0 |}).
Definition box_dir (hx hy px py ox oy : R) : Point2 :=
  snd (try_y hx hy px py ox oy (try_y hx 0 px py ox oy (try_x hy hx px py ox oy (try_x hy 0 px py ox oy start)))).
Lemma box_is_dir : forall hx hy p a, box_intersect hx hy p a = box_dir hx hy (ptx p) (pty p) (cos a) (sin a).
Proof. reflexivity. Qed.

Lemma unit_len : forall c s d, c * c + s * s = 1 -> Rabs (d * c) <= Rabs d /\ Rabs (d * s) <= Rabs d /\ Rabs d <= Rabs (d * c) + Rabs (d * s).
Proof.
  intros c s d U.
  assert (Rabs c <= 1) as C by (apply Rsqr_le_abs_0 || (apply Rabs_le; split; nra)).
  assert (Rabs s <= 1) as S by (apply Rabs_le; split; nra).
  assert (1 <= Rabs c + Rabs s) as P.
  { pose proof (Rabs_pos c). pose proof (Rabs_pos s). assert (Rabs c * Rabs c + Rabs s * Rabs s = 1) by (rewrite <- !Rabs_mult, !(Rabs_right) by nra; exact U). nra. }
  rewrite !Rabs_mult. pose proof (Rabs_pos d). repeat split; nra.
Qed.

Lemma try_x_hit : forall hy x px py c s st, c <> 0 -> c * c + s * s = 1 -> REAL_FUZZ < Rabs (x - px) ->
  0 < py + s * ((x - px) / c) < hy -> Rabs (x - px) + Rabs (s * ((x - px) / c)) < fst st ->
  exists d, try_x hy x px py c s st = (d, {| ptx := x; pty := py + s * ((x - px) / c) |}).
Proof.
  intros hy x px py c s st C U F B D. unfold try_x. destruct (unit_len c s ((x - px) / c) U) as (A1 & A2 & A3).
  replace ((x - px) / c * c) with (x - px) in * by (field; auto). rewrite (Rmult_comm _ s) in A2, A3.
  rewrite !Rltb_true; try lra; [cbn [andb]; eauto|]. pose proof (Rle_abs ((x - px) / c)). lra.
Qed.
Lemma try_x_miss : forall hy x px py c s st, py + s * ((x - px) / c) <= 0 \/ hy <= py + s * ((x - px) / c) -> try_x hy x px py c s st = st.
Proof. intros hy x px py c s st [H|H]; unfold try_x; [rewrite (Rltb_false 0) by lra|rewrite (Rltb_false _ hy) by lra]; rewrite ?andb_false_r; reflexivity. Qed.
Lemma try_x_zero : forall hy x py c s st, try_x hy x x py c s st = st.
Proof. intros. unfold try_x. replace ((x - x) / c) with 0 by (unfold Rdiv; ring). rewrite Rabs_R0. pose proof fuzz_pos. rewrite (Rltb_false REAL_FUZZ) by lra. reflexivity. Qed.
Lemma try_y_hit : forall hx y px py c s st, s <> 0 -> c * c + s * s = 1 -> REAL_FUZZ < Rabs (y - py) ->
  0 < px + c * ((y - py) / s) < hx -> Rabs (y - py) + Rabs (c * ((y - py) / s)) < fst st ->
  exists d, try_y hx y px py c s st = (d, {| ptx := px + c * ((y - py) / s); pty := y |}).
Proof.
  intros hx y px py c s st C U F B D. unfold try_y. rewrite Rplus_comm in U. destruct (unit_len s c ((y - py) / s) U) as (A1 & A2 & A3).
  replace ((y - py) / s * s) with (y - py) in * by (field; auto). rewrite (Rmult_comm _ c) in A2, A3.
  rewrite !Rltb_true; try lra; [cbn [andb]; eauto|]. pose proof (Rle_abs ((y - py) / s)). lra.
Qed.
Lemma try_y_miss : forall hx y px py c s st, px + c * ((y - py) / s) <= 0 \/ hx <= px + c * ((y - py) / s) -> try_y hx y px py c s st = st.
Proof. intros hx y px py c s st [H|H]; unfold try_y; [rewrite (Rltb_false 0) by lra|rewrite (Rltb_false _ hx) by lra]; rewrite ?andb_false_r; reflexivity. Qed.
Lemma try_y_zero : forall hx y px c s st, try_y hx y px y c s st = st.
Proof. intros. unfold try_y. replace ((y - y) / s) with 0 by (unfold Rdiv; ring). rewrite Rabs_R0. pose proof fuzz_pos. rewrite (Rltb_false REAL_FUZZ) by lra. reflexivity. Qed.

(** The exit point of a ray that starts on the face behind it or on the south face, moving up; [e] is the x-normal
    face it moves towards and [b] the one behind.  [t] is dy/dx. *)
Lemma box_exit : forall hx hy px py c s t e, 0 < hx -> 0 < hy -> hx + hy < 10 ^ 12 -> c * c + s * s = 1 -> 0 < s -> c <> 0 -> s = c * t ->
  0 <= px <= hx -> 0 <= py < hy -> (e = hx /\ 0 < c \/ e = 0 /\ c < 0) -> (px = hx - e \/ py = 0) ->
  let ye := py + t * (e - px) in let xn := px + (hy - py) / t in
  ye <> hy -> (ye < hy -> REAL_FUZZ < Rabs (e - px) /\ 0 < ye) -> (hy < ye -> REAL_FUZZ < hy - py /\ 0 < xn < hx) ->
  box_dir hx hy px py c s = if Rltb ye hy then {| ptx := e; pty := ye |} else {| ptx := xn; pty := hy |}.
Proof.
  intros hx hy px py c s t e Hx Hy Hb U Hs Hc Ht Bx By He Hst ye xn Ne HE HN.
  assert (Ht0 : t <> 0) by (intros ->; lra).
  assert (Sx : forall x, s * ((x - px) / c) = t * (x - px)) by (intros x; rewrite Ht; field; auto).
  assert (Sy : forall y, c * ((y - py) / s) = (y - py) / t) by (intros y; rewrite Ht; field; split; auto).
  assert (Tp : 0 < c * t) by lra.
  assert (Tsign : (0 < c -> 0 < t) /\ (c < 0 -> t < 0)).
  { split; intros; [apply Rmult_lt_reg_l with c; lra|]. destruct (Rlt_or_le t 0); auto. exfalso. assert (c * t <= 0) by nra. lra. }
  unfold box_dir. assert (South : forall st, try_y hx 0 px py c s st = st).
  { intros st. destruct Hst as [Hp|Hp].
    - apply try_y_miss. rewrite Sy. destruct He as [[-> C]|[-> C]].
      + left. replace px with 0 by lra. assert (0 < t) by tauto. replace ((0 - py) / t) with (- (py / t)) by (field; auto).
        assert (0 <= py / t) by (apply Rle_mult_inv_pos; lra). lra.
      + right. replace px with hx by lra. assert (t < 0) by tauto. assert (0 <= (0 - py) / t); [|lra].
        replace ((0 - py) / t) with (py * / - t) by (field; auto). apply Rle_mult_inv_pos; lra.
    - rewrite Hp. apply try_y_zero. }
  (* the face behind the ray is never hit *)
  assert (Behind : forall st, try_x hy (hx - e) px py c s st = st).
  { intros st. destruct Hst as [Hp|Hp].
    - rewrite Hp. apply try_x_zero.
    - apply try_x_miss. rewrite Sx, Hp. left. destruct He as [[-> C]|[-> C]]; [assert (0 < t) by tauto|assert (t < 0) by tauto]; nra. }
  assert (Front : try_x hy hx px py c s (try_x hy 0 px py c s start) = try_x hy e px py c s start).
  { destruct He as [[-> C]|[-> C]].
    - replace 0 with (hx - hx) by ring. now rewrite Behind.
    - replace (try_x hy hx px py c s (try_x hy 0 px py c s start)) with (try_x hy (hx - 0) px py c s (try_x hy 0 px py c s start)) by (now rewrite Rminus_0_r). apply Behind. }
  rewrite Front, South.
  assert (Bex : Rabs (e - px) <= hx). { destruct He as [[-> _]|[-> _]]; unfold Rabs; destruct (Rcase_abs _); lra. }
  destruct (Rltb_spec ye hy) as [L|L].
  - destruct (HE L) as [F P].
    assert (Ht' : 0 <= t * (e - px)). { destruct He as [[-> C]|[-> C]]; [assert (0 < t) by tauto|assert (t < 0) by tauto]; nra. }
    destruct (try_x_hit hy e px py c s start) as [d E]; auto.
    { rewrite Sx. fold ye. lra. } { rewrite Sx. cbn [fst start]. rewrite (Rabs_right (t * (e - px))) by lra. unfold ye in L. lra. }
    rewrite E. rewrite try_y_miss; [cbn [snd]; rewrite Sx; reflexivity|].
    rewrite Sy. destruct He as [[-> C]|[-> C]].
    + right. assert (0 < t) by tauto. assert (hx - px < (hy - py) / t); [|lra]. apply Rmult_lt_reg_l with t; auto. replace (t * ((hy - py) / t)) with (hy - py) by (field; auto). unfold ye in L. lra.
    + left. assert (t < 0) by tauto. assert ((hy - py) / t < - px); [|lra]. apply Rmult_lt_reg_l with (- t); [lra|].
      replace (- t * ((hy - py) / t)) with (- (hy - py)) by (field; auto). unfold ye in L. lra.
  - assert (hy < ye) as L' by lra. destruct (HN L') as [F P]. rewrite try_x_miss by (rewrite Sx; fold ye; lra).
    destruct (try_y_hit hx hy px py c s start) as [d E]; auto; try lra.
    { rewrite Rabs_right; lra. } { rewrite Sy. fold xn. lra. }
    { rewrite Sy. cbn [fst start]. rewrite (Rabs_right (hy - py)) by lra. assert (Rabs ((hy - py) / t) <= hx); [|lra]. unfold xn in P. unfold Rabs. destruct (Rcase_abs _); lra. }
    rewrite E. cbn [snd]. rewrite Sy. reflexivity.
Qed.

(** Specification: the point of boundary slot [k]: slots 0..Ny-1 lie on the x-normal face at [xface], the others on
    the y-normal face at [yface], each in the middle of its interval. *)
Definition slot_point (hx hy : R) (Nx Ny : Z) (xface yface : R) (k : Z) : Point2 :=
  if (k <? Ny)%Z then {| ptx := xface; pty := (IZR k + 1 / 2) * (hy / IZR Ny) |}
  else {| ptx := (IZR (k - Ny) + 1 / 2) * (hx / IZR Nx); pty := yface |}.
(** Specification: half a ray spacing is more than the comparison tolerance; the domain is less than 1e12 across. *)
Definition resolved (hx hy : R) (Nx Ny : Z) : Prop :=
  tol hx < hx / IZR Nx / 2 /\ tol hy < hy / IZR Ny / 2 /\ hx + hy < 10 ^ 12.

Section Layout.
  Variables (ulp : R -> R -> bool) (hx hy : R) (Nx Ny : Z).
  Hypothesis (Hu : ulp_sound ulp) (Hx : 0 < hx) (Hy : 0 < hy) (HNx : (1 <= Nx)%Z) (HNy : (1 <= Ny)%Z) (Hr : resolved hx hy Nx Ny).

  Let fx : 1 <= IZR Nx. Proof. now apply (IZR_le 1). Qed.
  Let fy : 1 <= IZR Ny. Proof. now apply (IZR_le 1). Qed.
  Let dx := hx / IZR Nx.
  Let dy := hy / IZR Ny.
  Let dxp : 0 < dx. Proof. apply Rdiv_lt_0_compat; lra. Qed.
  Let dyp : 0 < dy. Proof. apply Rdiv_lt_0_compat; lra. Qed.
  Let dxN : dx * IZR Nx = hx. Proof. unfold dx. field. repeat split; lra. Qed.
  Let dyN : dy * IZR Ny = hy. Proof. unfold dy. field. repeat split; lra. Qed.

  Lemma tol_mono : forall a b, 0 <= a <= b -> tol a <= tol b.
  Proof. intros a b H. unfold tol. rewrite !Rabs_right by lra. pose proof fuzz_pos. apply Rmult_le_compat_l; [lra|]. apply Rle_max_compat_l. lra. Qed.

  Lemma not_equiv : forall v e, 0 <= v <= e -> tol e < e - v -> fp_equiv ulp v e = false.
  Proof.
    intros v e B D. destruct (fp_equiv ulp v e) eqn:E; auto. exfalso. destruct (fp_equiv_sound ulp Hu) as [_ S]. specialize (S v e E).
    pose proof (tol_mono v e B). rewrite Rabs_left1 in S by lra. lra.
  Qed.

  Lemma half_in : forall (k n : Z) (d : R), (0 <= k < n)%Z -> 0 < d -> 0 < (IZR k + 1 / 2) * d /\ (IZR k + 1 / 2) * d <= d * IZR n - d / 2.
  Proof.
    intros k n d K D. assert (0 <= IZR k) by (apply (IZR_le 0); lia). assert (IZR k + 1 <= IZR n) by (rewrite <- plus_IZR; apply IZR_le; lia). split; nra.
  Qed.

  Lemma slot_exit : forall k e, (0 <= k < Nx + Ny)%Z -> e = hx \/ e = 0 ->
    exit_slot ulp hx hy dx dy Ny (slot_point hx hy Nx Ny e hy k) = Some k.
  Proof.
    intros k e K He. destruct Hr as (R1 & R2 & _). fold dx in R1. fold dy in R2. destruct (fp_equiv_sound ulp Hu) as [Rf _].
    unfold slot_point, exit_slot. destruct (Z.ltb_spec k Ny) as [L|L]; cbn [ptx pty].
    - fold dy. assert (T : trunc ((IZR k + 1 / 2) * dy / dy) = k). { replace ((IZR k + 1 / 2) * dy / dy) with (IZR k + 1 / 2) by (field; repeat split; lra). apply trunc_half. lia. }
      destruct (half_in k Ny dy ltac:(lia) dyp) as [P1 P2]. rewrite dyN in P2. destruct He as [-> | ->].
      + rewrite Rf, T. reflexivity.
      + rewrite not_equiv; [|lra|]. 2: { assert (dx <= hx). { rewrite <- dxN. nra. } lra. }
        rewrite not_equiv; [|lra|lra]. rewrite Rf, T. reflexivity.
    - fold dx. destruct (half_in (k - Ny) Nx dx ltac:(lia) dxp) as [P1 P2]. rewrite dxN in P2.
      rewrite not_equiv; [|lra|lra]. rewrite Rf. f_equal.
      replace ((IZR (k - Ny) + 1 / 2) * dx / dx + IZR Ny) with (IZR k + 1 / 2) by (rewrite minus_IZR; field; lra). apply trunc_half. lia.
  Qed.

  Let t := hy * IZR Nx / (hx * IZR Ny).
  Let tp : 0 < t. Proof. apply Rdiv_lt_0_compat; nra. Qed.
  Let tdx : t * dx = dy. Proof. unfold t, dx, dy. field. repeat split; lra. Qed.

  Lemma alpha_facts : let a := mod_alpha hx hy Nx Ny in 0 < a < PI / 2 /\ 0 < cos a /\ sin a = cos a * t /\ cos a * cos a + sin a * sin a = 1.
  Proof.
    intros a. unfold a, mod_alpha. fold t. destruct (atan_bound t) as [B1 B2]. assert (0 < atan t). { rewrite <- atan_0. now apply atan_increasing. }
    assert (0 < cos (atan t)) by (apply cos_gt_0; lra). repeat split; auto.
    - pose proof (tan_atan t) as T. unfold tan in T. pose proof (f_equal (fun v => v * cos (atan t)) T) as T2. cbn beta in T2. unfold Rdiv in T2. rewrite Rmult_assoc, Rinv_l in T2 by lra. lra.
    - pose proof (sin2_cos2 (atan t)) as Q. unfold Rsqr in Q. lra.
  Qed.

  (** The directions of octants 1 and 2 after modularisation. *)
  Lemma octant2_alpha : forall theta, 0 < sin theta -> exists d, dir_octant (mod_dir hx hy Nx Ny theta) 1 = Some d /\
    alpha d = PI - mod_alpha hx hy Nx Ny /\ ox d < 0 /\ 0 < oy d.
  Proof.
    intros theta S. destruct alpha_facts as (A & C & Sn & U). unfold mod_dir. set (a := mod_alpha hx hy Nx Ny) in *. cbn [dir_octant].
    eexists. split; [reflexivity|]. cbn [ox oy oz dir_angles].
    assert (0 < sin a) by (rewrite Sn; nra). rewrite !(Rabs_right (_ * _)) by nra.
    unfold dir_cosines. cbn [alpha ox oy]. rewrite Rltb_false by nra. split; [|split; nra].
    assert (sin (acos (Rabs (cos theta))) = sin theta) as Es.
    { rewrite sin_acos by (split; [pose proof (Rabs_pos (cos theta)); lra|destruct (COS_bound theta); unfold Rabs; destruct (Rcase_abs _); lra]).
      replace ((Rabs (cos theta))²) with (cos theta)² by (apply Rsqr_abs). rewrite <- (Rminus_0_r (sin theta)).
      replace (1 - (cos theta)²) with (sin theta)² by (pose proof (sin2_cos2 theta); lra). rewrite sqrt_Rsqr; lra. }
    rewrite Es. replace (- (sin theta * cos a) / sin theta) with (- cos a) by (field; repeat split; lra). rewrite acos_opp.
    rewrite acos_cos by lra. reflexivity.
  Qed.

  Lemma spaces : forall a, (a = mod_alpha hx hy Nx Ny \/ a = PI - mod_alpha hx hy Nx Ny) ->
    space_x (mod_space hx hy Nx Ny) a = dx /\ space_y (mod_space hx hy Nx Ny) a = dy.
  Proof.
    intros a Ha. destruct alpha_facts as (A & C & Sn & U). set (b := mod_alpha hx hy Nx Ny) in *.
    assert (Ex : mod_space hx hy Nx Ny / sin b = dx). { unfold mod_space. fold b. rewrite Sn. unfold dx, t. field. repeat split; lra. }
    assert (Ey : mod_space hx hy Nx Ny / cos b = dy). { unfold mod_space. fold b. unfold dy. field. repeat split; lra. }
    unfold space_x, space_y. destruct Ha as [-> | ->].
    - rewrite Ex, Ey. rewrite !Rabs_right by lra. auto.
    - rewrite sin_PI_x, Ex. rewrite Rtrigo_facts.cos_pi_minus.
      replace (mod_space hx hy Nx Ny / - cos b) with (- dy) by (rewrite <- Ey; field; lra).
      rewrite Rabs_Ropp, !Rabs_right by lra. auto.
  Qed.

  (** Exit slots in closed form. *)
  Definition out1 (k : Z) : Z :=
    if (k <? Ny)%Z then (if (k + Nx <? Ny)%Z then k + Nx else 2 * Ny - k - 1)%Z
    else (if (Nx - (k - Ny) - 1 <? Ny)%Z then Nx - (k - Ny) - 1 else 2 * Ny + (k - Ny))%Z.
  Definition out2 (k : Z) : Z := if (k <? Ny)%Z then (k + Nx)%Z else (k - Ny)%Z.
  Lemma out1_range : forall k, (0 <= k < Nx + Ny)%Z -> (0 <= out1 k < Nx + Ny)%Z.
  Proof. intros k K. unfold out1. destruct (Z.ltb_spec k Ny); [destruct (Z.ltb_spec (k + Nx) Ny)|destruct (Z.ltb_spec (Nx - (k - Ny) - 1) Ny)]; lia. Qed.
  Lemma out2_range : forall k, (0 <= k < Nx + Ny)%Z -> (0 <= out2 k < Nx + Ny)%Z.
  Proof. intros k K. unfold out2. destruct (Z.ltb_spec k Ny); lia. Qed.
  Lemma out1_inj : forall k l, (0 <= k < Nx + Ny)%Z -> (0 <= l < Nx + Ny)%Z -> out1 k = out1 l -> k = l.
  Proof.
    intros k l K L. unfold out1. destruct (Z.ltb_spec k Ny); [destruct (Z.ltb_spec (k + Nx) Ny)|destruct (Z.ltb_spec (Nx - (k - Ny) - 1) Ny)];
      (destruct (Z.ltb_spec l Ny); [destruct (Z.ltb_spec (l + Nx) Ny)|destruct (Z.ltb_spec (Nx - (l - Ny) - 1) Ny)]); lia.
  Qed.
  Lemma out2_inj : forall k l, (0 <= k < Nx + Ny)%Z -> (0 <= l < Nx + Ny)%Z -> out2 k = out2 l -> k = l.
  Proof. intros k l K L. unfold out2. destruct (Z.ltb_spec k Ny); destruct (Z.ltb_spec l Ny); lia. Qed.

  Lemma pt_eq : forall a b c d : R, a = c -> b = d -> {| ptx := a; pty := b |} = {| ptx := c; pty := d |}.
  Proof. intros a b c d -> ->. auto. Qed.
  (** An integer comparison seen through half-integers. *)
  Lemma half_lt : forall a b : Z, ((a <? b)%Z = true -> IZR a + 1 / 2 <= IZR b - 1 / 2) /\ ((a <? b)%Z = false -> IZR b + 1 / 2 <= IZR a + 1 / 2).
  Proof.
    intros a b. destruct (Z.ltb_spec a b); split; intros; try discriminate.
    - assert (IZR a + 1 <= IZR b) by (rewrite <- plus_IZR; apply IZR_le; lia). lra.
    - assert (IZR b <= IZR a) by (apply IZR_le; lia). lra.
  Qed.

  Let fuzz_tol : REAL_FUZZ < dx / 2 /\ REAL_FUZZ < dy / 2.
  Proof. destruct Hr as (R1 & R2 & _). fold dx in R1. fold dy in R2. pose proof (tol_ge hx). pose proof (tol_ge hy). lra. Qed.

  Lemma exit1 : forall k, (0 <= k < Nx + Ny)%Z ->
    box_intersect hx hy (slot_point hx hy Nx Ny 0 0 k) (mod_alpha hx hy Nx Ny) = slot_point hx hy Nx Ny hx hy (out1 k).
  Proof.
    intros k K. destruct alpha_facts as (A & C & Sn & U). rewrite box_is_dir. set (a := mod_alpha hx hy Nx Ny) in *. destruct Hr as (R1 & R2 & R3). fold dx in R1. fold dy in R2.
    destruct fuzz_tol as [F1 F2]. assert (Sp : 0 < sin a) by nra.
    assert (Dt : forall v, v / t = v * (dx / dy)). { intros v. rewrite <- tdx. field. repeat split; lra. }
    assert (Dd : dy * (dx / dy) = dx) by (field; repeat split; lra).
    unfold slot_point at 1 2. destruct (Z.ltb_spec k Ny) as [L|L]; cbn [ptx pty]; fold dx dy.
    - destruct (half_in k Ny dy ltac:(lia) dyp) as [P1 P2]. rewrite dyN in P2.
      assert (Ey : (IZR k + 1 / 2) * dy + t * (hx - 0) = (IZR (k + Nx) + 1 / 2) * dy). { rewrite plus_IZR, <- dxN, <- tdx. ring. }
      assert (En : 0 + (hy - (IZR k + 1 / 2) * dy) / t = (IZR (Ny - k - 1) + 1 / 2) * dx).
      { rewrite Dt, !minus_IZR, <- dyN. replace (dy * IZR Ny - (IZR k + 1 / 2) * dy) with (dy * (IZR Ny - IZR k - 1 + 1 / 2)) by lra. rewrite Rmult_comm, <- Rmult_assoc, (Rmult_comm (dx / dy)), Dd. ring. }
      destruct (half_lt (k + Nx) Ny) as [H1 H2].
      rewrite (box_exit hx hy 0 ((IZR k + 1 / 2) * dy) (cos a) (sin a) t hx); auto; try lra; rewrite ?Ey, ?En; try lra.
      + unfold slot_point, out1. destruct (Z.ltb_spec k Ny); [|lia]. destruct (k + Nx <? Ny)%Z eqn:B.
        * rewrite B. specialize (H1 eq_refl). rewrite Rltb_true by (rewrite <- dyN; nra). reflexivity.
        * specialize (H2 eq_refl). apply Z.ltb_ge in B. rewrite Rltb_false by (rewrite <- dyN; nra). destruct (Z.ltb_spec (2 * Ny - k - 1) Ny); [lia|]. fold dx. apply pt_eq; auto. now replace (2 * Ny - k - 1 - Ny)%Z with (Ny - k - 1)%Z by lia.
      + destruct (k + Nx <? Ny)%Z eqn:B; [specialize (H1 eq_refl)|specialize (H2 eq_refl)]; nra.
      + intros H. split; [rewrite Rminus_0_r, Rabs_right; nra|]. assert (0 <= IZR (k + Nx)) by (apply (IZR_le 0); lia). nra.
      + intros H. destruct (k + Nx <? Ny)%Z eqn:B; [specialize (H1 eq_refl); nra|]. apply Z.ltb_ge in B.
        destruct (half_in (Ny - k - 1) Nx dx ltac:(lia) dxp) as [Q1 Q2]. rewrite dxN in Q2. lra.
    - destruct (half_in (k - Ny) Nx dx ltac:(lia) dxp) as [P1 P2]. rewrite dxN in P2.
      assert (Ey : 0 + t * (hx - (IZR (k - Ny) + 1 / 2) * dx) = (IZR (Nx - (k - Ny) - 1) + 1 / 2) * dy).
      { rewrite (minus_IZR (Nx - (k - Ny))), (minus_IZR Nx). rewrite <- dxN, <- tdx. lra. }
      assert (En : (IZR (k - Ny) + 1 / 2) * dx + (hy - 0) / t = (IZR (k - Ny + Ny) + 1 / 2) * dx).
      { rewrite Dt, plus_IZR, <- dyN, Rminus_0_r. rewrite (Rmult_comm dy), Rmult_assoc, Dd. ring. }
      destruct (half_lt (Nx - (k - Ny) - 1) Ny) as [H1 H2].
      rewrite (box_exit hx hy ((IZR (k - Ny) + 1 / 2) * dx) 0 (cos a) (sin a) t hx); auto; try lra; rewrite ?Ey, ?En; try lra.
      + unfold slot_point, out1. destruct (Z.ltb_spec k Ny); [lia|]. destruct (Nx - (k - Ny) - 1 <? Ny)%Z eqn:B.
        * rewrite B. specialize (H1 eq_refl). rewrite Rltb_true by (rewrite <- dyN; nra). reflexivity.
        * specialize (H2 eq_refl). apply Z.ltb_ge in B. rewrite Rltb_false by (rewrite <- dyN; nra). destruct (Z.ltb_spec (2 * Ny + (k - Ny)) Ny); [lia|]. fold dx. apply pt_eq; auto. now replace (2 * Ny + (k - Ny) - Ny)%Z with (k - Ny + Ny)%Z by lia.
      + destruct (Nx - (k - Ny) - 1 <? Ny)%Z eqn:B; [specialize (H1 eq_refl)|specialize (H2 eq_refl)]; nra.
      + intros H. split; [rewrite Rabs_right; lra|]. assert (0 <= IZR (Nx - (k - Ny) - 1)) by (apply (IZR_le 0); lia). nra.
      + intros H. split; [nra|]. destruct (Nx - (k - Ny) - 1 <? Ny)%Z eqn:B; [specialize (H1 eq_refl); nra|]. apply Z.ltb_ge in B.
        destruct (half_in (k - Ny + Ny) Nx dx ltac:(lia) dxp) as [Q1 Q2]. rewrite dxN in Q2. lra.
  Qed.

  Lemma exit2 : forall k, (0 <= k < Nx + Ny)%Z ->
    box_intersect hx hy (slot_point hx hy Nx Ny hx 0 k) (PI - mod_alpha hx hy Nx Ny) = slot_point hx hy Nx Ny 0 hy (out2 k).
  Proof.
    intros k K. destruct alpha_facts as (A & C & Sn & U). rewrite box_is_dir. rewrite sin_PI_x, Rtrigo_facts.cos_pi_minus. set (a := mod_alpha hx hy Nx Ny) in *.
    destruct Hr as (R1 & R2 & R3). fold dx in R1. fold dy in R2.
    destruct fuzz_tol as [F1 F2]. assert (Sp : 0 < sin a) by nra.
    assert (Dt : forall v, v / - t = - v * (dx / dy)). { intros v. rewrite <- tdx. field. repeat split; lra. }
    assert (Dd : dy * (dx / dy) = dx) by (field; repeat split; lra).
    unfold slot_point at 1 2. destruct (Z.ltb_spec k Ny) as [L|L]; cbn [ptx pty]; fold dx dy.
    - destruct (half_in k Ny dy ltac:(lia) dyp) as [P1 P2]. rewrite dyN in P2.
      assert (Ey : (IZR k + 1 / 2) * dy + - t * (0 - hx) = (IZR (k + Nx) + 1 / 2) * dy). { rewrite plus_IZR, <- dxN, <- tdx. ring. }
      assert (En : hx + (hy - (IZR k + 1 / 2) * dy) / - t = (IZR (k + Nx - Ny) + 1 / 2) * dx).
      { rewrite Dt, minus_IZR, plus_IZR, <- dyN, <- dxN. replace (- (dy * IZR Ny - (IZR k + 1 / 2) * dy)) with ((IZR k + 1 / 2 - IZR Ny) * dy) by lra. rewrite Rmult_assoc, Dd. lra. }
      destruct (half_lt (k + Nx) Ny) as [H1 H2].
      rewrite (box_exit hx hy hx ((IZR k + 1 / 2) * dy) (- cos a) (sin a) (- t) 0); auto; try lra; rewrite ?Ey, ?En; try lra.
      + unfold slot_point, out2. destruct (Z.ltb_spec k Ny); [|lia]. destruct (k + Nx <? Ny)%Z eqn:B.
        * specialize (H1 eq_refl). rewrite Rltb_true by (rewrite <- dyN; nra). reflexivity.
        * specialize (H2 eq_refl). apply Z.ltb_ge in B. rewrite Rltb_false by (rewrite <- dyN; nra). reflexivity.
      + destruct (k + Nx <? Ny)%Z eqn:B; [specialize (H1 eq_refl)|specialize (H2 eq_refl)]; nra.
      + intros H. split; [rewrite Rabs_left; nra|]. assert (0 <= IZR (k + Nx)) by (apply (IZR_le 0); lia). nra.
      + intros H. destruct (k + Nx <? Ny)%Z eqn:B; [specialize (H1 eq_refl); nra|]. apply Z.ltb_ge in B.
        destruct (half_in (k + Nx - Ny) Nx dx ltac:(lia) dxp) as [Q1 Q2]. rewrite dxN in Q2. lra.
    - destruct (half_in (k - Ny) Nx dx ltac:(lia) dxp) as [P1 P2]. rewrite dxN in P2.
      assert (Ey : 0 + - t * (0 - (IZR (k - Ny) + 1 / 2) * dx) = (IZR (k - Ny) + 1 / 2) * dy). { rewrite <- tdx. ring. }
      assert (En : (IZR (k - Ny) + 1 / 2) * dx + (hy - 0) / - t = (IZR (k - Ny - Ny) + 1 / 2) * dx).
      { rewrite Dt, (minus_IZR (k - Ny)), <- dyN, Rminus_0_r. replace (- (dy * IZR Ny) * (dx / dy)) with (- (IZR Ny * (dy * (dx / dy)))) by ring. rewrite Dd. ring. }
      destruct (half_lt (k - Ny) Ny) as [H1 H2].
      rewrite (box_exit hx hy ((IZR (k - Ny) + 1 / 2) * dx) 0 (- cos a) (sin a) (- t) 0); auto; try lra; rewrite ?Ey, ?En; try lra.
      + unfold slot_point, out2. destruct (Z.ltb_spec k Ny); [lia|]. destruct (k - Ny <? Ny)%Z eqn:B.
        * specialize (H1 eq_refl). rewrite Rltb_true by (rewrite <- dyN; nra). reflexivity.
        * specialize (H2 eq_refl). apply Z.ltb_ge in B. rewrite Rltb_false by (rewrite <- dyN; nra). reflexivity.
      + destruct (k - Ny <? Ny)%Z eqn:B; [specialize (H1 eq_refl)|specialize (H2 eq_refl)]; nra.
      + intros H. assert (0 <= IZR (k - Ny)) by (apply (IZR_le 0); lia). split; [rewrite Rabs_left by lra; nra|nra].
      + intros H. split; [nra|]. destruct (k - Ny <? Ny)%Z eqn:B; [specialize (H1 eq_refl); nra|]. apply Z.ltb_ge in B.
        destruct (half_in (k - Ny - Ny) Nx dx ltac:(lia) dxp) as [Q1 Q2]. rewrite dxN in Q2. lra.
  Qed.

  (** All rays of an angle, given its entry face and closed-form exits. *)
  Lemma rays_of : forall d e_in e_out out, (alpha d = mod_alpha hx hy Nx Ny \/ alpha d = PI - mod_alpha hx hy Nx Ny) ->
    (if Rltb 0 (ox d) then 0 else hx) = e_in -> (e_out = hx \/ e_out = 0) ->
    (forall k, (0 <= k < Nx + Ny)%Z -> (0 <= out k < Nx + Ny)%Z) ->
    (forall k, (0 <= k < Nx + Ny)%Z -> box_intersect hx hy (slot_point hx hy Nx Ny e_in 0 k) (alpha d) = slot_point hx hy Nx Ny e_out hy (out k)) ->
    angle_rays ulp hx hy Nx Ny (mod_space hx hy Nx Ny) d =
      Some (map (fun k => mkRE (slot_point hx hy Nx Ny e_in 0 k) (slot_point hx hy Nx Ny e_out hy (out k)) k (out k)) (zrange (Nx + Ny))).
  Proof.
    intros d e_in e_out out Ha Hin Hout Rg Ex. destruct (spaces (alpha d) Ha) as [Sx Sy]. unfold angle_rays.
    set (ray := fun k => mkRE (slot_point hx hy Nx Ny e_in 0 k) (slot_point hx hy Nx Ny e_out hy (out k)) k (out k)).
    assert (half : forall k, 0.5 + IZR k = IZR k + 1 / 2) by (intros; lra).
    assert (map (ray_x ulp hx hy Ny (mod_space hx hy Nx Ny) d) (zrange Ny) ++ map (ray_y ulp hx hy Ny (mod_space hx hy Nx Ny) d) (zrange Nx) = map Some (map ray (zrange (Nx + Ny)))) as E.
    { unfold zrange. rewrite Z.add_comm, Z2Nat.inj_add by lia. rewrite seq_app, !map_app. f_equal.
      - rewrite !map_map. apply map_ext_in. intros k K. apply in_seq in K. unfold ray_x. rewrite Hin, Sx, Sy, half.
        assert (Ek : {| ptx := e_in; pty := (IZR (Z.of_nat k) + 1 / 2) * dy |} = slot_point hx hy Nx Ny e_in 0 (Z.of_nat k)).
        { unfold slot_point. destruct (Z.ltb_spec (Z.of_nat k) Ny); [reflexivity|lia]. }
        rewrite Ek, Ex by lia. rewrite slot_exit by (auto; apply Rg; lia). reflexivity.
      - cbn [Nat.add]. rewrite !map_map.
        replace (seq (Z.to_nat Ny) (Z.to_nat Nx)) with (map (fun i => (i + Z.to_nat Ny)%nat) (seq 0 (Z.to_nat Nx))).
        2: { clear. generalize (Z.to_nat Ny). intros m. assert (forall n s, map (fun i => (i + m)%nat) (seq s n) = seq (s + m) n) as G by (induction n as [|n IH]; intros s; cbn; [auto|now rewrite IH]).
             rewrite G. reflexivity. }
        rewrite map_map. apply map_ext_in. intros k K. apply in_seq in K. unfold ray_y. rewrite Sx, Sy, half.
        assert (Ek : {| ptx := (IZR (Z.of_nat k) + 1 / 2) * dx; pty := 0 |} = slot_point hx hy Nx Ny e_in 0 (Z.of_nat (k + Z.to_nat Ny))).
        { unfold slot_point. destruct (Z.ltb_spec (Z.of_nat (k + Z.to_nat Ny)) Ny); [lia|]. fold dx. now replace (Z.of_nat (k + Z.to_nat Ny) - Ny)%Z with (Z.of_nat k) by lia. }
        rewrite Ek, Ex by lia. rewrite slot_exit by (auto; apply Rg; lia). cbn [option_map]. unfold ray. repeat f_equal. lia. }
    rewrite E. clear. induction (map ray (zrange (Nx + Ny))) as [|r l IH]; [reflexivity|]. cbn [map all_some]. now rewrite IH.
  Qed.
End Layout.
