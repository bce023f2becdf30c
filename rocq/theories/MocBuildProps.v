(** C165: a MoC sweeper set up from a ray tag meets what the sweep needs.  C166: the warning about regions without rays. *)
From Coq Require Import String Ascii ZArith List Lia Bool Sorted Permutation Reals Lra.
From Verif Require Import RUtil ListUtil McModel XsModel SrcModel SrcProps SolModel SolProps EigProps MgModel MgProps MocMaxProps MocEigProps MocBalProps MeshModel MeshProofs AngModel AngProofs AngProps AqModel AqProps AqwProps BcModel BcProofs StdAlg MatModel GeomModel CoreModel CoreProofs PmModel RatModel RayModel RayProofs EquivProps LatProps RayTrModel RayProps MocModel MocProofs VolModel VolProps OrdProps MocSetModel MocSetProofs MocSetProps MocBuildProofs.
Import ListNotations.
Open Scope R_scope.

(** ** Specification *)

(** A plane whose regions have an area and along whose rays tracing yields pieces of positive length in its regions (C110 on tracing). *)
Definition traceable (ulp : R -> R -> bool) (d : CoreDims) (counts : list (Z * Z)) (q : Quad) (u : UPlane) : Prop :=
  Forall (fun v => 0 < v) (up_areas u) /\
  forall k a N ends e, (k < 2 * q_ndir q)%nat -> nth_error counts k = Some N -> nth_error (q_angles q) k = Some a ->
    angle_rays ulp (cd_hx d) (cd_hy d) (fst N) (snd N) (spacing_of d N) (adir a) = Some ends -> In e ends ->
    exists s, up_trace u (re_p1 e) (re_p2 e) = Some s /\ Forall (fun sg => (fst sg < length (up_areas u))%nat /\ 0 < snd sg) s.
(** The rays of every angle are spread over the threads and swept in some order. *)
Definition scheduled (nt : nat) (rays : list (list Ray)) (work : list (list (nat * Ray))) : Prop :=
  Forall2 (fun rs w => Permutation (map snd w) rs /\ Forall (fun tr => (fst tr < nt)%nat) w) rays work.
(** The sweeper's data as its constructor makes them from ray data, unique planes and macroplanes. *)
Record set_up (d : CoreDims) (rd : RayData) (planes : list UPlane) (macro : list (nat * R)) (m : MocStatic) (ng : nat) : Prop := {
  su_sizes : bc_size_helper rd = Some (sizes (ms_in m)); su_out : sizes (ms_out m) = sizes (ms_in m); su_oct : n_oct (ms_in m) = q_ndir (rd_quad rd);
  su_bq : quad (ms_in m) = q_angles (rd_quad rd); su_ng : n_group (ms_in m) = ng; su_quad : ms_quad m = q_angles (rd_quad rd); su_space : ms_space m = map (spacing_of d) (rd_counts rd);
  su_vol : macro_volumes planes macro = Some (ms_vol m); su_reg : ms_nreg m = length (ms_vol m);
  su_planes : exists sl, sweep_list planes (map fst (rd_rays rd)) 0 macro = Some sl /\ Forall2 (fun x y => fst x = fst y /\ scheduled (ms_nt m) (snd x) (snd y)) sl (ms_planes m) }.

(** ** The quadrature *)

(** What C164 says, for use below. *)
Definition quad_fits (d : CoreDims) (counts : list (Z * Z)) (q : Quad) (new : list Angle) : Prop :=
  q_angles q = expand new /\ q_ndir q = length new /\ (0 < length new)%nat /\ wsum new = 1 /\ length counts = (4 * length new)%nat /\ (forall k, (k < 4 * length new)%nat -> nth_error counts k = nth_error counts (k mod length new)) /\
  forall i, (i < length new)%nat -> exists N b t, nth_error counts i = Some N /\ (1 <= fst N)%Z /\ (1 <= snd N)%Z /\ nth_error new i = Some b /\ adir b = mod_dir (cd_hx d) (cd_hy d) (fst N) (snd N) t /\ 0 < sin t /\ 0 < weight b.
Lemma laid_fits : forall same gauss yamamoto o d q oct1 counts q', (forall a, same a a = true) -> sensible o d -> usable gauss yamamoto q oct1 -> lay_quad same gauss yamamoto o d q = Got (counts, q') -> exists new, quad_fits d counts q' new.
Proof.
  intros same gauss yamamoto o d q oct1 counts q' Rf Se Us E. pose proof Us as (_ & _ & Ne & Snd & _). destruct (C164_matched same gauss yamamoto o d q oct1 counts q' Rf Se Us E) as (new & A1 & A2 & A3 & A4 & A5 & A6 & A7). exists new.
  unfold quad_fits. rewrite A3. split; [exact A1|]. split; [exact A2|]. split; [destruct oct1; [congruence|cbn; lia]|]. split; [exact A4|]. split; [exact A5|]. split; [exact A6|]. intros i Hi. destruct (nth_error oct1 i) as [a|] eqn:Ea; [|apply nth_error_None in Ea; lia].
  destruct (A7 i a Ea) as (N & b & B1 & _ & B2 & B3 & B4 & B5 & B6). exists N, b, (theta (adir a)). rewrite Forall_forall in Snd. destruct (Snd a (nth_error_In _ _ Ea)) as (_ & S2 & _). auto 8.
Qed.

Section Fits.
  Variables (ulp : R -> R -> bool) (d : CoreDims) (counts : list (Z * Z)) (q : Quad) (new : list Angle).
  Hypothesis (Hu : ulp_sound ulp) (Hx : 0 < cd_hx d) (Hy : 0 < cd_hy d) (Fit : quad_fits d counts q new) (Rs : Forall (fun N => resolved (cd_hx d) (cd_hy d) (fst N) (snd N)) counts).
  Let n := length new.

  Lemma new_sound : Forall (fun a => 0 < sin (theta (adir a)) /\ oz (adir a) = cos (theta (adir a)) /\ rsintheta (adir a) = 1 / sin (theta (adir a))) new /\ Forall (fun a => 0 < weight a) new.
  Proof.
    destruct Fit as (_ & _ & _ & _ & _ & _ & P). split; apply Forall_forall; intros a Ia; apply In_nth_error in Ia; destruct Ia as (i & Ei); assert (Li : (i < length new)%nat) by (apply nth_error_Some; congruence); destruct (P i Li) as (N & b & t & _ & _ & _ & E & D & St & Wp); rewrite Ei in E; injection E as <-.
    - rewrite D. unfold mod_dir, dir_angles. cbn [theta oz rsintheta]. auto.
    - exact Wp.
  Qed.
  Lemma quad_at : forall k b, nth_error (q_angles q) k = Some b -> exists a, nth_error new (k mod n) = Some a /\ weight b = weight a /\ sin (theta (adir b)) = sin (theta (adir a)) /\ 0 < sin (theta (adir b)) /\ 0 < weight b /\ rsintheta (adir b) = 1 / sin (theta (adir b)).
  Proof.
    intros k b E. destruct Fit as (A & _). rewrite A in E. destruct new_sound as [F W]. destruct (expand_angle new k b F E) as (a & E1 & E2 & E3 & E4). exists a. unfold n. rewrite Forall_forall in F, W. pose proof (nth_error_In _ _ E1) as I. destruct (F a I) as (F1 & _). specialize (W a I). rewrite E2, E3 in *. auto 8.
  Qed.
  Lemma count_at : forall k, (k < 4 * n)%nat -> exists N, nth_error counts k = Some N /\ nth_error counts (k mod n) = Some N /\ (1 <= fst N)%Z /\ (1 <= snd N)%Z /\ resolved (cd_hx d) (cd_hy d) (fst N) (snd N).
  Proof.
    intros k K. destruct Fit as (_ & _ & L0 & _ & L4 & Pe & P). destruct (P (k mod n)%nat) as (N & b & t & E & N1 & N2 & _); [apply Nat.mod_upper_bound; fold n in L0; lia|]. exists N. rewrite (Pe k K). fold n. rewrite Forall_forall in Rs. pose proof (nth_error_In _ _ E). auto 8.
  Qed.
  Lemma space_pos : forall N, (1 <= fst N)%Z -> (1 <= snd N)%Z -> 0 < spacing_of d N.
  Proof.
    intros N N1 N2. unfold spacing_of, mod_space. destruct (alpha_facts (cd_hx d) (cd_hy d) (fst N) (snd N) Hx Hy N1 N2) as (_ & C & _). apply IZR_le in N2. apply Rdiv_lt_0_compat; [now apply Rmult_lt_0_compat|lra].
  Qed.
  (** Rays from slot to slot for the angles of octants 1 and 2. *)
  Lemma two_octants : forall k a N, (k < 2 * n)%nat -> nth_error (q_angles q) k = Some a -> nth_error counts k = Some N -> exists ends, angle_rays ulp (cd_hx d) (cd_hy d) (fst N) (snd N) (spacing_of d N) (adir a) = Some ends /\ map re_in ends = zrange (fst N + snd N) /\ Permutation (map re_out ends) (zrange (fst N + snd N)).
  Proof.
    intros k a N K Ea EN. pose proof Fit as (A & _ & L0 & _ & _ & Pe & P). fold n in L0, Pe, P. assert (Km : (k mod n < n)%nat) by (apply Nat.mod_upper_bound; lia). destruct (P (k mod n)%nat Km) as (M & b & t & EM & M1 & M2 & Eb & Db & St & _).
    rewrite (Pe k ltac:(lia)) in EN. fold n in EN. rewrite EM in EN. injection EN as <-. destruct (count_at k ltac:(lia)) as (M' & _ & EM' & _ & _ & Re). rewrite EM in EM'. injection EM' as <-.
    destruct (C26_ray_layout ulp (cd_hx d) (cd_hy d) (fst M) (snd M) t Hu Hx Hy M1 M2 Re St) as (d2 & r1 & r2 & E2 & R1 & C1 & R2 & C2).
    pose proof (Nat.div_mod k n ltac:(lia)) as DM. assert (D2 : (k / n < 2)%nat) by (apply Nat.div_lt_upper_bound; lia). pose proof (expand_nth new (k / n) (k mod n) b ltac:(lia) Eb) as X. fold n in X. replace (k / n * n + k mod n)%nat with k in X by lia. rewrite A in Ea. rewrite Ea in X.
    destruct (k / n)%nat as [|[|o]]; [| |lia].
    - injection X as ->. rewrite Db. exists r1. destruct C1 as (C1 & C1' & _). auto.
    - unfold to_octant in X. rewrite Db, E2 in X. injection X as ->. cbn [adir]. exists r2. destruct C2 as (C2 & C2' & _). auto.
  Qed.
  Lemma ready_all : forall u, traceable ulp d counts q u -> forall j a, nth_error (firstn (2 * q_ndir q) (q_angles q)) j = Some a -> exists N ends, nth_error counts (0 + j) = Some N /\ angle_ready ulp d u N a ends.
  Proof.
    intros u [_ Tr] j a Ej. assert (Lj : (j < 2 * n)%nat). { apply Nat.lt_le_trans with (length (firstn (2 * q_ndir q) (q_angles q))); [apply nth_error_Some; congruence|]. rewrite firstn_length. destruct Fit as (_ & E & _). unfold n. lia. }
    assert (Ea : nth_error (q_angles q) j = Some a). { rewrite <- Ej. destruct Fit as (_ & E & _). symmetry. clear - Lj E n. unfold n in Lj. rewrite E. revert j Lj. generalize (2 * length new)%nat, (q_angles q). induction n0 as [|m IH]; intros l j Lj; [lia|]. destruct l as [|x l]; [destruct j; reflexivity|]. destruct j as [|j]; [reflexivity|]. cbn. apply IH. lia. }
    destruct (count_at j ltac:(lia)) as (N & EN & _ & N1 & N2 & _). destruct (two_octants j a N Lj Ea EN) as (ends & E1 & E2 & E3). exists N, ends. split; [exact EN|]. do 3 (split; [assumption|]). do 2 (split; [assumption|]). intros e Ie. apply (Tr j a N ends e); auto. destruct Fit as (_ & E & _). unfold n in Lj. lia.
  Qed.
  (** The angles of a plane, with their spacings and weights. *)
  Definition sw_list : list (R * R) := combine (map (spacing_of d) counts) (map weight (firstn (2 * q_ndir q) (q_angles q))).
  Lemma firstn_two : firstn (2 * q_ndir q) (q_angles q) = new ++ flat_map (fun a => match to_octant a 1 with Some b => [b] | None => [] end) new.
  Proof.
    destruct Fit as (A & E & _). rewrite A, E. unfold expand. cbn [flat_map]. assert (L : forall l, length (flat_map (fun a => match to_octant a 1 with Some b => [b] | None => [] end) l) = length l) by (induction l as [|a l IH]; [reflexivity|]; cbn; cbn in IH; rewrite IH; reflexivity).
    rewrite app_assoc. rewrite firstn_app, app_length, L. replace (2 * length new - (length new + length new))%nat with 0%nat by lia. rewrite firstn_O, app_nil_r. apply firstn_all2. rewrite app_length, L. lia.
  Qed.
  Lemma sw_facts : length sw_list = (2 * n)%nat /\ Forall (fun x => 0 < fst x /\ 0 < snd x) sw_list /\ lsum (fun x => snd x) sw_list = 2 /\
    forall j x, nth_error sw_list j = Some x -> fst x = at0 (map (spacing_of d) counts) j /\ snd x = at0 (map weight (q_angles q)) j.
  Proof.
    pose proof Fit as (A & E & L0 & W1 & L4 & _ & _). fold n in L0, L4. assert (Lf : length (firstn (2 * q_ndir q) (q_angles q)) = (2 * n)%nat) by (rewrite firstn_length, A, expand_length, E; unfold n; lia).
    assert (L : length sw_list = (2 * n)%nat) by (unfold sw_list; rewrite combine_length, !map_length, Lf, L4; lia). split; [exact L|].
    assert (At : forall j x, nth_error sw_list j = Some x -> exists N b, nth_error counts j = Some N /\ nth_error (q_angles q) j = Some b /\ x = (spacing_of d N, weight b)).
    { intros j x Ej. assert (Lj : (j < 2 * n)%nat) by (rewrite <- L; apply nth_error_Some; congruence). unfold sw_list in Ej. destruct (nth_error counts j) as [N|] eqn:EN; [|apply nth_error_None in EN; lia].
      assert (Eq : nth_error (firstn (2 * q_ndir q) (q_angles q)) j = nth_error (q_angles q) j). { rewrite E. unfold n in Lj. clear - Lj n. revert j Lj. generalize (2 * length new)%nat, (q_angles q). induction n0 as [|m IH]; intros l j Lj; [lia|]. destruct l as [|x l]; [destruct j; reflexivity|]. destruct j as [|j]; [reflexivity|]. cbn. apply IH. lia. }
      destruct (nth_error (q_angles q) j) as [b|] eqn:Eb; [|rewrite A in Eb; apply nth_error_None in Eb; rewrite expand_length in Eb; unfold n in Lj; lia]. exists N, b. split; [reflexivity|]. split; [reflexivity|].
      assert (C : forall (l : list R) (m : list R) j a b, nth_error l j = Some a -> nth_error m j = Some b -> nth_error (combine l m) j = Some (a, b)) by (clear; induction l as [|y l IH]; intros [|z m] [|j] a b H1 H2; try discriminate; cbn in *; [injection H1 as ->; injection H2 as ->; reflexivity|auto]).
      rewrite (C _ _ j (spacing_of d N) (weight b)) in Ej; [injection Ej as <-; reflexivity|rewrite nth_error_map, EN; reflexivity|rewrite nth_error_map, Eq; reflexivity]. }
    split; [|split].
    - apply Forall_forall. intros x Ix. apply In_nth_error in Ix. destruct Ix as (j & Ej). assert (Lj : (j < 2 * n)%nat) by (rewrite <- L; apply nth_error_Some; congruence). destruct (At j x Ej) as (N & b & EN & Eb & ->). cbn [fst snd].
      destruct (count_at j ltac:(lia)) as (N' & EN' & _ & N1 & N2 & _). rewrite EN in EN'. injection EN' as <-. split; [now apply space_pos|]. destruct (quad_at j b Eb) as (a & _ & _ & _ & _ & Wb & _). exact Wb.
    - assert (C : forall (l m : list R), (length m <= length l)%nat -> lsum (fun x => snd x) (combine l m) = fold_right Rplus 0 m) by (clear; induction l as [|y l IH]; intros [|z m] H; cbn in *; try lia; try reflexivity; rewrite IH by lia; reflexivity).
      unfold sw_list. rewrite C by (rewrite !map_length, Lf, L4; lia). fold (wsum (firstn (2 * q_ndir q) (q_angles q))). rewrite firstn_two, wsum_app, W1. assert (X : wsum (flat_map (fun a => match to_octant a 1 with Some b => [b] | None => [] end) new) = wsum new) by (clear; unfold wsum; induction new as [|a l IH]; [reflexivity|]; cbn; cbn in IH; rewrite IH; reflexivity). rewrite X, W1. lra.
    - intros j x Ej. destruct (At j x Ej) as (N & b & EN & Eb & ->). cbn [fst snd]. unfold at0. split; symmetry; apply nth_error_nth; rewrite nth_error_map; [rewrite EN|rewrite Eb]; reflexivity.
  Qed.
  (** What a plane's rays are like in the end. *)
  Definition plane_good (u : UPlane) (rays : list (list Ray)) : Prop :=
    length rays = (2 * n)%nat /\ (forall j rs N, nth_error rays j = Some rs -> nth_error counts j = Some N -> Permutation (map ray_bc1 rs) (seq 0 (Z.to_nat (fst N + snd N))) /\ Permutation (map ray_bc2 rs) (seq 0 (Z.to_nat (fst N + snd N)))) /\
    Forall (rays_fine (length (up_areas u))) rays /\ forall i, (i < length (up_areas u))%nat -> covered sw_list rays i <= 2 * at0 (up_areas u) i.
  Lemma plane_made : forall o u, op_corr o <> CorrNone -> traceable ulp d counts q u -> exists rays warn, plane_data ulp o d counts q u = Got (rays, warn) /\ plane_good u rays.
  Proof.
    intros o u Nc Tr. unfold plane_data. destruct (plane_rays_spec ulp d u counts (firstn (2 * q_ndir q) (q_angles q)) 0 (repeat 0%nat (length (up_areas u))) (repeat_length _ _) (ready_all u Tr)) as (rays & warn & E & L & _ & P & _). rewrite E. cbn [bind fst snd]. fold sw_list.
    destruct sw_facts as (S1 & S2 & S3 & _). pose proof Fit as (A & En & _). assert (L2 : length rays = (2 * n)%nat) by (rewrite L, firstn_length, A, expand_length, En; unfold n; lia).
    destruct (correct_spec (op_corr o) u sw_list rays Nc ltac:(lia) S2 (proj1 Tr)) as (rays' & Ec & Sl & Fn & Cv); [|exact S3|].
    { apply Forall_forall. intros rs Ir. apply In_nth_error in Ir. destruct Ir as (j & Ej). destruct (P j rs Ej) as (N & a & ends & _ & _ & _ & _ & Dn). apply Dn. }
    rewrite Ec. exists rays', warn. split; [reflexivity|]. assert (L3 : length rays' = length rays) by (clear - Sl; induction Sl; cbn; lia). split; [lia|]. split; [|split; [exact Fn|exact Cv]].
    intros j rs' N Ej EN. assert (Er : exists rs, nth_error rays j = Some rs /\ Forall2 same_slots rs rs'). { clear - Sl Ej. revert j Ej. induction Sl as [|x y l m H F IH]; intros [|j] Ej; try discriminate; cbn in Ej |- *; [injection Ej as ->; eauto|auto]. }
    destruct Er as (rs & Er & Fs). destruct (P j rs Er) as (N' & a & ends & EN' & _ & _ & _ & (D1 & D2 & _)). cbn [plus] in EN'. rewrite EN in EN'. injection EN' as <-.
    assert (M : map ray_bc1 rs' = map ray_bc1 rs /\ map ray_bc2 rs' = map ray_bc2 rs) by (clear - Fs; induction Fs as [|r r' l m [H1 H2] F [I1 I2]]; [auto|]; cbn [map]; rewrite I1, I2, H1, H2; auto). destruct M as [-> ->]. split; [rewrite D1; reflexivity|exact D2].
  Qed.
  Lemma all_made : forall o planes, op_corr o <> CorrNone -> Forall (traceable ulp d counts q) planes -> exists rs, all_out (plane_data ulp o d counts q) planes = Got rs /\ Forall2 (fun u r => plane_good u (fst r)) planes rs.
  Proof.
    intros o planes Nc. induction 1 as [|u planes Tr F (rs & E & G)]; [exists []; split; [reflexivity|constructor]|]. destruct (plane_made o u Nc Tr) as (rays & warn & Ep & Gp). exists ((rays, warn) :: rs). cbn [all_out]. rewrite Ep. cbn [bind]. rewrite E. cbn [bind]. split; [reflexivity|constructor; assumption].
  Qed.
  Lemma sizes_made : forall sz, bc_sizes n counts (seq 0 (2 * n)) (repeat (mkSize 0 0 0) (4 * n)) = Some sz -> length sz = (4 * n)%nat /\ forall k, (k < 4 * n)%nat -> exists N, nth_error counts (k mod n) = Some N /\ (1 <= fst N)%Z /\ (1 <= snd N)%Z /\ nth_error sz k = Some (size_of N).
  Proof.
    intros sz E. pose proof Fit as (_ & _ & L0 & _ & L4 & _ & _). fold n in L0, L4. destruct (bc_sizes_spec n counts (2 * n) 0 (repeat (mkSize 0 0 0) (4 * n)) (repeat_length _ _) ltac:(lia) ltac:(lia)) as (r & Er & Lr & P). rewrite E in Er. injection Er as <-. split; [exact Lr|].
    intros k K. destruct (count_at k K) as (N & E1 & E2 & N1 & N2 & _). exists N. do 3 (split; [assumption|]). destruct (Nat.lt_ge_cases k (2 * n)) as [C|C].
    - destruct (P k C) as [P1 _]. rewrite P1. cbn [Nat.leb andb]. destruct (Nat.ltb_spec k (0 + 2 * n)); [|lia]. rewrite E1. reflexivity.
    - destruct (P (k - 2 * n)%nat ltac:(lia)) as [_ P2]. replace (k - 2 * n + 2 * n)%nat with k in P2 by lia. rewrite P2. cbn [Nat.leb andb]. destruct (Nat.ltb_spec (k - 2 * n) (0 + 2 * n)); [|lia].
      destruct (count_at (k - 2 * n) ltac:(lia)) as (M & F1 & F2 & _). replace ((k - 2 * n) mod n)%nat with (k mod n)%nat in F2 by (replace k with (k - 2 * n + 2 * n)%nat at 1 by lia; apply Nat.mod_add; lia). rewrite E2 in F2. injection F2 as <-. rewrite F1. reflexivity.
  Qed.
End Fits.

(** Reflection keeps the place in the octant, and stays among the first four octants unless it is in z. *)
Lemma refl_place : forall b a x j, (0 < n_oct b)%nat -> refl_n b a x = Some j -> (j mod n_oct b = a mod n_oct b)%nat /\ ((a < 4 * n_oct b)%nat -> x <> Z_NORM -> (j < 4 * n_oct b)%nat).
Proof.
  intros b a x j P E. unfold refl_n, reflect in E. set (n := n_oct b) in *. destruct (Z.ltb_spec (Z.of_nat a / Z.of_nat n) 0) as [C|C]; [discriminate|]. pose proof (Nat.div_mod a n ltac:(lia)) as DM. pose proof (Nat.mod_upper_bound a n ltac:(lia)) as MU.
  assert (Q : (Z.of_nat a / Z.of_nat n = Z.of_nat (a / n))%Z) by (rewrite Nat2Z.inj_div; reflexivity). rewrite Q, Nat2Z.id in E. set (o := (a / n)%nat) in *. clearbody o.
  destruct (nth_error (reflection x) o) as [w|] eqn:Ew; [|discriminate]. injection E as <-.
  assert (W : (0 <= w < 8)%Z /\ ((o < 4)%nat -> x <> Z_NORM -> (w < 4)%Z)). { destruct x; do 8 (destruct o as [|o]; [cbn in Ew; injection Ew as <-; split; [lia|intros; try lia; congruence]|]); destruct o; discriminate. }
  destruct W as [W1 W2]. replace (Z.to_nat (Z.of_nat a + (w - Z.of_nat o) * Z.of_nat n)) with (a mod n + Z.to_nat w * n)%nat by nia. split; [rewrite Nat.mod_add by lia; apply Nat.mod_mod; lia|]. intros A X. assert (o < 4)%nat by nia. specialize (W2 H X). nia.
Qed.

(** ** What the rays cover *)

Lemma len_track : forall first k rays, len_in first (first + k) rays = track_len (map ray_segs rays) k.
Proof.
  intros first k rays. unfold len_in. induction rays as [|r rays IH]; [reflexivity|]. cbn [lsum map]. rewrite track_len_cons, IH. f_equal. unfold ray_len, track_len. cbn [concat]. rewrite app_nil_r. apply lsum_ext. intros sg _. destruct (Nat.eqb_spec (first + k) (fst sg + first)); destruct (Nat.eqb_spec (fst sg) k); try lia; reflexivity.
Qed.
Lemma len_out : forall first i n rays, rays_fine n rays -> (i < first \/ first + n <= i)%nat -> len_in first i rays = 0.
Proof.
  intros first i n rays F H. unfold len_in. induction rays as [|r rays IH]; [reflexivity|]. apply Forall_cons_iff in F. destruct F as [Fr F]. cbn [lsum]. rewrite (IH F), Rplus_0_r. unfold ray_len. revert Fr. generalize (ray_segs r). induction l as [|s l IHl]; intros Fr; [reflexivity|]. apply Forall_cons_iff in Fr. destruct Fr as [[Fs _] Fr]. cbn [lsum]. rewrite (IHl Fr). destruct (Nat.eqb_spec i (fst s + first)); [lia|lra].
Qed.
Lemma swept_is : forall e first h i nt rays work, scheduled nt rays work -> forall sw iang, length sw = length rays -> (forall j x, nth_error sw j = Some x -> fst x = at0 (me_space e) (iang + j) /\ snd x = at0 (map weight (me_quad e)) (iang + j)) ->
  swept_angles e first h iang work i = h * lsum (fun x => snd (fst x) * fst (fst x) * len_in first i (snd x)) (combine sw rays).
Proof.
  intros e first h i nt rays work Sc. induction Sc as [|rs w rays work [Pm _] Sc IH]; intros [|x sw] iang L H; try discriminate; [cbn; ring|]. cbn [swept_angles combine lsum fst snd]. rewrite (IH sw (S iang) ltac:(now injection L)) by (intros j y Ej; replace (S iang + j)%nat with (iang + S j)%nat by lia; now apply H).
  destruct (H 0%nat x eq_refl) as [H1 H2]. rewrite Nat.add_0_r in H1, H2. unfold angle_vol. rewrite H1, H2. unfold len_in. rewrite (lsum_perm _ _ _ Pm). ring.
Qed.

(** ** Planes in a column *)

Lemma list_in : forall {A} planes (rays : list A) macro first sl v f h a, sweep_list planes rays first macro = Some sl -> macro_volumes planes macro = Some v -> In (f, h, a) sl ->
  exists id u, In (id, h) macro /\ nth_error planes id = Some u /\ nth_error rays id = Some a /\ (f + length (up_areas u) <= first + length v)%nat.
Proof.
  intros A planes rays. induction macro as [|[id h0] macro IH]; intros first sl v f h a Es Ev I; cbn [sweep_list macro_volumes] in Es, Ev; [injection Es as <-; destruct I|].
  destruct (nth_error planes id) as [u|] eqn:Eu; [|discriminate]. destruct (nth_error rays id) as [a0|] eqn:Ea; [|discriminate]. destruct (sweep_list planes rays (first + length (up_areas u)) macro) as [sl'|] eqn:Es'; [|discriminate]. destruct (macro_volumes planes macro) as [v'|] eqn:Ev'; [|discriminate]. injection Es as <-. injection Ev as <-.
  rewrite app_length, map_length. destruct I as [[= <- <- <-]|I]; [exists id, u; repeat split; auto; [now left|lia]|]. destruct (IH _ _ _ _ _ _ Es' eq_refl I) as (id' & u' & I1 & I2 & I3 & I4). exists id', u'. repeat split; auto; [now right|lia].
Qed.
Lemma volumes_pos : forall planes macro v, Forall (fun u => Forall (fun a => 0 < a) (up_areas u)) planes -> Forall (fun p => 0 < snd p) macro -> macro_volumes planes macro = Some v -> Forall (fun x => 0 < x) v.
Proof.
  intros planes. induction macro as [|[id h] macro IH]; intros v Fp Fm E; cbn [macro_volumes] in E; [injection E as <-; constructor|]. apply Forall_cons_iff in Fm. destruct Fm as [Hh Fm]. destruct (nth_error planes id) as [u|] eqn:Eu; [|discriminate]. destruct (macro_volumes planes macro) as [v'|]; [|discriminate]. injection E as <-.
  apply Forall_app. split; [|now apply IH]. rewrite Forall_forall in Fp. specialize (Fp u (nth_error_In _ _ Eu)). apply Forall_forall. intros x Ix. apply in_map_iff in Ix. destruct Ix as (a & <- & Ia). rewrite Forall_forall in Fp. apply Rmult_lt_0_compat; [now apply Fp|exact Hh].
Qed.
(** Planes that cover no more than there is, stacked. *)
Lemma stacked : forall (e : MocEnv) nt planes (rays : list (list (list Ray))) i, (forall id u rs, nth_error planes id = Some u -> nth_error rays id = Some rs -> forall first h work, 0 < h -> scheduled nt rs work ->
    ((i < first \/ first + length (up_areas u) <= i)%nat -> swept_angles e first h 0 work i = 0) /\ (forall k, (k < length (up_areas u))%nat -> i = (first + k)%nat -> swept_angles e first h 0 work i <= 2 * (at0 (up_areas u) k * h))) ->
  forall macro first sl v ps, Forall (fun p => 0 < snd p) macro -> sweep_list planes rays first macro = Some sl -> macro_volumes planes macro = Some v -> Forall2 (fun x y => fst x = fst y /\ scheduled nt (snd x) (snd y)) sl ps ->
  let s := lsum (fun p => swept_angles e (fst (fst p)) (snd (fst p)) 0 (snd p) i) ps in ((i < first)%nat -> s = 0) /\ ((first <= i)%nat -> s <= 2 * at0 v (i - first)).
Proof.
  intros e nt planes rays i H. induction macro as [|[id h] macro IH]; intros first sl v ps Fm Es Ev F2; cbn [sweep_list macro_volumes] in Es, Ev.
  - injection Es as <-. injection Ev as <-. inversion F2. cbn [lsum]. split; intros; [reflexivity|]. unfold at0. destruct (i - first)%nat; cbn; lra.
  - apply Forall_cons_iff in Fm. destruct Fm as [Hh Fm]. cbn [snd] in Hh. destruct (nth_error planes id) as [u|] eqn:Eu; [|discriminate]. destruct (nth_error rays id) as [rs|] eqn:Er; [|discriminate]. destruct (sweep_list planes rays (first + length (up_areas u)) macro) as [sl'|] eqn:Es'; [|discriminate]. destruct (macro_volumes planes macro) as [v'|] eqn:Ev'; [|discriminate]. injection Es as <-. injection Ev as <-.
    inversion F2 as [|x y l ps' [Ef Sc] F2' E1 E2]. subst x l ps. destruct y as [fh work]. cbn [fst snd] in Ef, Sc. subst fh. cbn [lsum fst snd]. destruct (IH _ _ _ _ Fm Es' eq_refl F2') as [I1 I2]. destruct (H id u rs Eu Er first h work Hh Sc) as [H1 H2]. split; intros C.
    + rewrite H1, I1 by lia. lra.
    + destruct (Nat.lt_ge_cases i (first + length (up_areas u))) as [D|D].
      * rewrite I1 by lia. rewrite Rplus_0_r. apply Rle_trans with (2 * (at0 (up_areas u) (i - first) * h)); [apply H2; lia|]. right. f_equal. unfold at0. rewrite app_nth1 by (rewrite map_length; lia). assert (Q : forall l k, (k < length l)%nat -> nth k l 0 * h = nth k (map (fun a => a * h) l) 0) by (clear; induction l as [|y l IHl]; intros [|k] K; cbn in *; try lia; [reflexivity|apply IHl; lia]). apply Q. lia.
      * rewrite H1 by lia. rewrite Rplus_0_l. replace (at0 (map (fun a => a * h) (up_areas u) ++ v') (i - first)) with (at0 v' (i - (first + length (up_areas u)))); [apply I2; lia|]. unfold at0. rewrite app_nth2 by (rewrite map_length; lia). rewrite map_length. f_equal. lia.
Qed.

(** ** C165 *)

(** C165, set-up: options that were understood, angles that could be modularised and planes that can be traced give ray data and boundary sizes,
    and every macroplane of a known plane is swept. *)
Theorem C165_made : forall ulp same gauss yamamoto pin t o d q oct1 counts q' planes macro, ulp_sound ulp -> (forall a, same a a = true) -> sensible o d -> usable gauss yamamoto q oct1 ->
  ray_options pin t = Got o -> lay_quad same gauss yamamoto o d q = Got (counts, q') -> op_corr o <> CorrNone -> Forall (fun N => resolved (cd_hx d) (cd_hy d) (fst N) (snd N)) counts -> planes <> [] -> Forall (traceable ulp d counts q') planes ->
  Forall (fun p => (fst p < length planes)%nat) macro ->
  exists rd sz sl v, ray_data ulp same gauss yamamoto pin t d q planes = Got (o, rd) /\ rd_counts rd = counts /\ rd_quad rd = q' /\ bc_size_helper rd = Some sz /\ sweep_list planes (map fst (rd_rays rd)) 0 macro = Some sl /\ macro_volumes planes macro = Some v.
Proof.
  intros ulp same gauss yamamoto pin t o d q oct1 counts q' planes macro Hu Rf Se Us Eo El Nc Rs Np Tr Fm. destruct (laid_fits _ _ _ _ _ _ _ _ _ Rf Se Us El) as (new & Fit). pose proof Se as (_ & Hx & Hy & _).
  destruct (all_made ulp d counts q' new Hu Hx Hy Fit Rs o planes Nc Tr) as (rs & Er & G). exists (mkRayData counts q' rs). assert (Lr : length rs = length planes) by (clear - G; induction G; cbn; lia).
  pose proof Fit as (_ & Eq & _ & _ & L4 & _). destruct (bc_sizes_spec (length new) counts (2 * length new) 0 (repeat (mkSize 0 0 0) (4 * length new)) (repeat_length _ _) ltac:(lia) ltac:(lia)) as (sz & Ez & _). exists sz.
  assert (S : forall macro first, Forall (fun p => (fst p < length planes)%nat) macro -> exists sl v, sweep_list planes (map fst rs) first macro = Some sl /\ macro_volumes planes macro = Some v).
  { clear - Lr. induction macro as [|[id h] macro IH]; intros first F; [exists [], []; auto|]. apply Forall_cons_iff in F. destruct F as [F1 F]. cbn [fst] in F1. destruct (nth_error planes id) as [u|] eqn:Eu; [|apply nth_error_None in Eu; lia]. destruct (nth_error (map fst rs) id) as [a|] eqn:Ea; [|apply nth_error_None in Ea; rewrite map_length in Ea; lia].
    destruct (IH (first + length (up_areas u))%nat F) as (sl & v & E1 & E2). cbn [sweep_list macro_volumes]. rewrite Eu, Ea, E1, E2. eauto. }
  destruct (S macro 0%nat Fm) as (sl & v & Es & Ev). exists sl, v. split; [unfold ray_data; rewrite Eo; cbn [bind]; rewrite El; cbn [bind fst snd]; rewrite Er; reflexivity|]. split; [reflexivity|]. split; [reflexivity|]. cbn [rd_rays]. split; [|auto].
  unfold bc_size_helper. cbn [rd_rays rd_quad rd_counts]. destruct rs as [|r rs]; [destruct planes; [congruence|discriminate]|]. inversion G as [|? ? ? ? (Lg & _) _ E1 E2]. cbn [fst] in *. rewrite Eq, Lg. exact Ez.
Qed.
Print Assumptions C165_made.

(** C165: whatever ray tag is given, however the rays are spread over threads, with any supported boundary conditions and cross sections, a MoC
    sweeper set up with volume correction meets everything the sweep, the bounds on its fluxes (C153), the eigenvalue calculation (C148) and
    the neutron balance (C155) assume about boundaries, rays, spacings, volumes and directions. *)
Theorem C165_problem : forall ulp same gauss yamamoto pin t o d q oct1 rd planes macro m ng sct, ulp_sound ulp -> (forall a, same a a = true) -> sensible o d -> usable gauss yamamoto q oct1 ->
  ray_data ulp same gauss yamamoto pin t d q planes = Got (o, rd) -> op_corr o <> CorrNone -> Forall (fun N => resolved (cd_hx d) (cd_hy d) (fst N) (snd N)) (rd_counts rd) -> Forall (traceable ulp d (rd_counts rd) (rd_quad rd)) planes -> Forall (fun p => 0 < snd p) macro ->
  set_up d rd planes macro m ng -> all_supported (ms_in m) ->
  (forall g, (g < ng)%nat -> length (ms_xstr m g) = ms_nreg m /\ Forall (fun x => 0 < x) (ms_xstr m g)) -> (forall x g, In x (ms_xs m) -> (g < ng)%nat -> 0 < at0 (xr_tr x) g /\ 0 <= sct x g g) ->
  moc_problem m ng sct /\ Forall (fun p : nat * R * list (list (nat * Ray)) => length (snd p) = (2 * n_oct (ms_in m))%nat) (ms_planes m) /\ wt_sym (env_of m 0 []).
Proof.
  intros ulp same gauss yamamoto pin t o d q oct1 rd planes macro m ng sct Hu Rf Se Us Erd Nc Rs Tr Hm [U1 U2 U3 U4 U5 U6 U7 U8 U9 (sl & U10 & U11)] Sup Xs Xm. unfold ray_data in Erd. destruct (ray_options pin t) as [o'| |]; try discriminate. cbn [bind] in Erd. destruct (lay_quad same gauss yamamoto o' d q) as [[counts q']| |] eqn:El; try discriminate. cbn [bind fst snd] in Erd.
  destruct (all_out (plane_data ulp o' d counts q') planes) as [rs| |] eqn:Ea; try discriminate. cbn [bind] in Erd. injection Erd as -> <-. cbn [rd_counts rd_quad rd_rays] in *.
  destruct (laid_fits _ _ _ _ _ _ _ _ _ Rf Se Us El) as (new & Fit). pose proof Se as (_ & Hx & Hy & _). destruct (all_made ulp d counts q' new Hu Hx Hy Fit Rs o planes Nc Tr) as (rs' & Er & G). rewrite Ea in Er. injection Er as <-.
  set (n := length new) in *. pose proof Fit as (FA & FN & F0 & FW & F4 & FP & _). fold n in FN, F0, F4, FP. rewrite FN in U3.
  assert (Gn : forall id u r, nth_error planes id = Some u -> nth_error (map fst rs) id = Some r -> plane_good d counts q' new u r). { clear - G. induction G as [|u r planes rs H F IH]; intros [|id] u' r' E1 E2; try discriminate; cbn in E1, E2; [injection E1 as <-; injection E2 as <-; exact H|eauto]. }
  assert (Hz : length (sizes (ms_in m)) = (4 * n)%nat /\ forall k, (k < 4 * n)%nat -> exists N, nth_error counts (k mod n) = Some N /\ (1 <= fst N)%Z /\ (1 <= snd N)%Z /\ nth_error (sizes (ms_in m)) k = Some (size_of N)).
  { unfold bc_size_helper in U1. cbn [rd_rays rd_quad rd_counts] in U1. destruct rs as [|r rs]; [discriminate|]. inversion G as [|u ? ? ? (Lg & _) _ E1 E2]. fold n in Lg. rewrite FN, Lg in U1. exact (sizes_made d counts q' new Fit Rs _ U1). }
  destruct Hz as [Lz Az].
  assert (Sz : Forall (fun u => Forall (fun a => 0 < a) (up_areas u)) planes) by (eapply Forall_impl; [|exact Tr]; intros u Hu'; exact (proj1 Hu')). pose proof (volumes_pos planes macro _ Sz Hm U8) as Vp.
  (* one plane *)
  assert (One : forall g qq id u r first h work i, nth_error planes id = Some u -> nth_error (map fst rs) id = Some r -> 0 < h -> scheduled (ms_nt m) r work ->
    ((i < first \/ first + length (up_areas u) <= i)%nat -> swept_angles (env_of m g qq) first h 0 work i = 0) /\ (forall k, (k < length (up_areas u))%nat -> i = (first + k)%nat -> swept_angles (env_of m g qq) first h 0 work i <= 2 * (at0 (up_areas u) k * h))).
  { intros g qq id u r first h work i Eu Er Hh Sc. destruct (Gn id u r Eu Er) as (G1 & _ & G3 & G4). fold n in G1. destruct (sw_facts d counts q' new Hx Hy Fit Rs) as (S1 & _ & _ & S4). fold n in S1.
    rewrite (swept_is (env_of m g qq) first h i (ms_nt m) r work Sc (sw_list d counts q') 0 ltac:(lia)) by (intros j x Ej; cbn [env_of me_space me_quad]; rewrite U6, U7; exact (S4 j x Ej)). split.
    - intros C. rewrite (lsum_ext _ (fun _ => 0)); [|intros x Ix; destruct x as [s rr]; apply in_combine_r in Ix; rewrite Forall_forall in G3; cbn [fst snd]; rewrite (len_out first i _ rr (G3 rr Ix) C); ring]. assert (Z : forall {A} (l : list A), lsum (fun _ => 0) l = 0) by (induction l as [|y l IH]; [reflexivity|cbn; rewrite IH; ring]). rewrite Z. ring.
    - intros k K ->. rewrite (lsum_ext _ (fun x => snd (fst x) * fst (fst x) * track_len (map ray_segs (snd x)) k)) by (intros x _; rewrite len_track; reflexivity). fold (covered (sw_list d counts q') r k). specialize (G4 k K). assert (h * covered (sw_list d counts q') r k <= h * (2 * at0 (up_areas u) k)) by (apply Rmult_le_compat_l; lra). lra. }
  assert (In2 : forall f h work, In (f, h, work) (ms_planes m) -> exists id u r, In (id, h) macro /\ nth_error planes id = Some u /\ nth_error (map fst rs) id = Some r /\ (f + length (up_areas u) <= length (ms_vol m))%nat /\ scheduled (ms_nt m) r work).
  { intros f h work I. assert (X : exists a, In (f, h, a) sl /\ scheduled (ms_nt m) a work). { clear - U11 I. induction U11 as [|x y l ps [E S] F IH]; [destruct I|]. destruct I as [->|I]; [destruct x as [fh a]; cbn [fst snd] in E, S; subst fh; exists a; split; [now left|exact S]|]. destruct (IH I) as (a & Ia & Sa). exists a. split; [now right|exact Sa]. }
    destruct X as (a & Ia & Sa). destruct (list_in planes (map fst rs) macro 0 sl (ms_vol m) f h a U10 U8 Ia) as (id & u & I1 & I2 & I3 & I4). exists id, u, a. cbn [plus] in I4. auto 8. }
  assert (Lw : forall f h work, In (f, h, work) (ms_planes m) -> length work = (2 * n)%nat). { intros f h work I. destruct (In2 f h work I) as (id & u & r & _ & Eu & Er & _ & Sc). destruct (Gn id u r Eu Er) as (G1 & _). fold n in G1. rewrite <- G1. clear - Sc. unfold scheduled in Sc. induction Sc; cbn; lia. }
  assert (Bo : bc_ok (ms_in m)).
  { constructor; [lia|lia|rewrite U4, Lz, FA, expand_length; fold n; lia|]. intros a a' x s Es Ex Fx. destruct (refl_place (ms_in m) a x a' ltac:(lia) Ex) as [Pm Pl]. rewrite U3 in Pm, Pl. assert (Aa : (a < 4 * n)%nat) by (rewrite <- Lz; apply nth_error_Some; congruence). destruct (Az a Aa) as (N & EN & _ & _ & Ez). rewrite Es in Ez. injection Ez as ->.
    destruct x; [| |cbn in Fx; lia]; (destruct (Az a' (Pl Aa ltac:(discriminate))) as (N' & EN' & _ & _ & Ez'); rewrite Pm, EN in EN'; injection EN' as <-; eauto). }
  split; [constructor|split].
  - exact Bo.
  - exact U2.
  - exact Sup.
  - apply Forall_forall. intros s Is. apply In_nth_error in Is. destruct Is as (k & Ek). assert (Hk : (k < 4 * n)%nat) by (rewrite <- Lz; apply nth_error_Some; congruence). destruct (Az k Hk) as (N & _ & N1 & N2 & Ez). rewrite Ek in Ez. injection Ez as ->. unfold no_gap, size_of. cbn. lia.
  - exact U5.
  - lia.
  - exact Xs.
  - split; [auto|exact Vp].
  - rewrite U6, U7, map_length, FA, expand_length. fold n. split; [lia|]. apply Forall_forall. intros s Is. apply in_map_iff in Is. destruct Is as (N & <- & IN). apply In_nth_error in IN. destruct IN as (k & Ek). assert (Hk : (k < 4 * n)%nat) by (rewrite <- F4; apply nth_error_Some; congruence). destruct (count_at d counts q' new Fit Rs k Hk) as (N' & E' & _ & N1 & N2 & _). rewrite Ek in E'. injection E' as <-. left. now apply (space_pos d Hx Hy).
  - rewrite U6. apply Forall_forall. intros a Ia. apply In_nth_error in Ia. destruct Ia as (k & Ek). destruct (quad_at d counts q' new Fit k a Ek) as (b & _ & _ & _ & B1 & B2 & B3). rewrite B3. split; [lra|]. split; [apply Rdiv_lt_0_compat; lra|field; lra].
  - intros x g Ix Hg. apply (Xm x g Ix Hg).
  - intros x g Ix Hg. apply (Xm x g Ix Hg).
  - intros f h work I. pose proof (Lw f h work I) as L2. destruct (In2 f h work I) as (id & u & r & Im & Eu & Er & Lf & Sc). destruct (Gn id u r Eu Er) as (G1 & G2 & G3 & _). fold n in G1.
    assert (Nw : forall j w, nth_error work j = Some w -> exists rr, nth_error r j = Some rr /\ Permutation (map snd w) rr /\ Forall (fun tr => (fst tr < ms_nt m)%nat) w). { clear - Sc. unfold scheduled in Sc. induction Sc as [|x y l ps H F IH]; intros [|j] w E; try discriminate; cbn in E |- *; [injection E as <-; exists x; tauto|eauto]. }
    split; [rewrite Forall_forall in Hm; left; exact (Hm (id, h) Im)|]. split; [rewrite L2, U7, map_length, F4; lia|]. split; [lia|]. split; [intros _; lia|]. split; [|split].
    + apply Forall_forall. intros w Iw. apply In_nth_error in Iw. destruct Iw as (j & Ej). destruct (Nw j w Ej) as (rr & _ & _ & Ft). exact Ft.
    + intros g qq j w Ej. destruct (Nw j w Ej) as (rr & Err & Pm & _). assert (Hj : (j < 2 * n)%nat) by (rewrite <- L2; apply nth_error_Some; congruence). destruct (Az j ltac:(lia)) as (N & EN & N1 & N2 & Ez). destruct (Az (j + 2 * n)%nat ltac:(lia)) as (N' & EN' & _ & _ & Ez'). rewrite Nat.mod_add in EN' by lia. rewrite EN in EN'. injection EN' as <-.
      assert (Ej' : nth_error counts j = Some N) by (rewrite FP by lia; exact EN). destruct (G2 j rr N Err Ej') as [P1 P2]. assert (Lr : length rr = Z.to_nat (fst N + snd N)) by (rewrite <- (map_length ray_bc1), (Permutation_length P1); apply seq_length). assert (Lm : length (map snd w) = length rr) by (now rewrite (Permutation_length Pm)).
      exists (size_of N), (size_of N). cbn [env_of me_out me_in]. rewrite U2, U3. split; [exact Ez|]. split; [rewrite rev_low by lia; exact Ez'|]. unfold size_total, size_of. cbn [sx sy sz]. rewrite Lm, Lr. split; [lia|]. split; [lia|].
      split; [rewrite <- P1; now apply Permutation_map|rewrite <- P2; now apply Permutation_map].
    + apply Forall_forall. intros w Iw. apply In_nth_error in Iw. destruct Iw as (j & Ej). destruct (Nw j w Ej) as (rr & Err & Pm & _). rewrite Forall_forall in G3. pose proof (G3 rr (nth_error_In _ _ Err)) as Fr. apply Forall_forall. intros x Ix. unfold rays_fine in Fr. rewrite Forall_forall in Fr. specialize (Fr x (Permutation_in _ Pm Ix)). unfold ray_sound. eapply Forall_impl; [|exact Fr]. intros sg [B1 B2]. rewrite U9. split; [lia|exact B2].
  - intros g qq i Hi. unfold swept. rewrite lsum_map. destruct (stacked (env_of m g qq) (ms_nt m) planes (map fst rs) i (fun id u r Eu Er first h work Hh Sc => One g qq id u r first h work i Eu Er Hh Sc) macro 0 sl (ms_vol m) (ms_planes m) Hm U10 U8 U11) as [_ S]. specialize (S ltac:(lia)). rewrite Nat.sub_0_r in S.
    eapply Rle_trans; [|exact S]. right. apply lsum_ext. intros [[f h] work] _. reflexivity.
  - apply Forall_forall. intros [[f h] work] I. cbn [snd]. rewrite U3. exact (Lw f h work I).
  - intros h a x j Ha Hj Ex. cbn [env_of me_in] in *. rewrite U3 in Ha, Hj. destruct (refl_place (ms_in m) a x j ltac:(lia) Ex) as [Pm _]. unfold ray_wt. cbn [env_of me_in]. rewrite U3 in *.
    assert (K : forall k k', (k < 2 * n)%nat -> (k' < 2 * n)%nat -> (k mod n = k' mod n)%nat -> angle_wt (env_of m 0 []) h k = angle_wt (env_of m 0 []) h k').
    { intros k k' Hk Hk' E. unfold angle_wt. cbn [env_of me_quad me_space]. rewrite U6, U7, !nth_error_map. rewrite (FP k), (FP k') by lia. rewrite E. destruct (nth_error counts (k' mod n)) as [N|]; [|now destruct (nth_error (q_angles q') k); destruct (nth_error (q_angles q') k')]. cbn [option_map].
      destruct (nth_error (q_angles q') k) as [b|] eqn:Eb; [|apply nth_error_None in Eb; rewrite FA, expand_length in Eb; fold n in Eb; lia]. destruct (nth_error (q_angles q') k') as [b'|] eqn:Eb'; [|apply nth_error_None in Eb'; rewrite FA, expand_length in Eb'; fold n in Eb'; lia].
      destruct (quad_at d counts q' new Fit k b Eb) as (c & C1 & C2 & C3 & _). destruct (quad_at d counts q' new Fit k' b' Eb') as (c' & D1 & D2 & D3 & _). fold n in C1, D1. rewrite E, D1 in C1. injection C1 as <-. rewrite C2, C3, D2, D3. reflexivity. }
    assert (M2 : forall y, ((y mod (2 * n)) mod n = y mod n)%nat). { intros y. replace (2 * n)%nat with (n * 2)%nat by lia. rewrite Nat.mod_mul_r by lia. rewrite Nat.mul_comm, Nat.mod_add by lia. apply Nat.mod_mod. lia. }
    apply K; [apply Nat.mod_upper_bound; lia|apply Nat.mod_upper_bound; lia|]. rewrite !M2. symmetry. exact Pm.
Qed.
Print Assumptions C165_problem.

(** C165: so a whole eigenvalue calculation with such a sweeper either ends with a positive eigenvalue and a nonnegative flux, or its flux stops causing fission. *)
Theorem C165_eigenvalue : forall ulp same gauss yamamoto pin t o d q oct1 rd planes macro m ng sct p dumps src sw fs fsp, ulp_sound ulp -> (forall a, same a a = true) -> sensible o d -> usable gauss yamamoto q oct1 ->
  ray_data ulp same gauss yamamoto pin t d q planes = Got (o, rd) -> op_corr o <> CorrNone -> Forall (fun N => resolved (cd_hx d) (cd_hy d) (fst N) (snd N)) (rd_counts rd) -> Forall (traceable ulp d (rd_counts rd) (rd_quad rd)) planes -> Forall (fun x => 0 < snd x) macro ->
  set_up d rd planes macro m ng -> all_supported (ms_in m) ->
  (forall g, (g < ng)%nat -> length (ms_xstr m g) = ms_nreg m /\ Forall (fun x => 0 < x) (ms_xstr m g)) -> (forall x g, In x (ms_xs m) -> (g < ng)%nat -> 0 < at0 (xr_tr x) g /\ 0 <= sct x g g) ->
  physical (ms_nreg m) ng sct (ms_xs m) -> (Z.of_nat (ep_max p) < SolModel.INT_MAX)%Z -> moc_state m ng sw -> length src = ms_nreg m -> length fs = ms_nreg m ->
  (forall i h, (i < ms_nreg m)%nat -> (h < ng)%nat -> 0 <= phi (mg_flux sw) i h) -> 0 < production (ms_xs m) ng (mg_flux sw) (ms_vol m) ->
  let run := eigen_run MocState mg_flux (moc_sweep m) (ms_xs m) ng (ms_nreg m) (ms_vol m) p dumps src sw fs fsp in
  (exists s n du, run = Got (s, n, du) /\ 0 < e_k _ s /\ (forall i h, (i < ms_nreg m)%nat -> (h < ng)%nat -> 0 <= phi (mg_flux (e_sw _ s)) i h)) \/
  (run = Undef /\ exists s, sound mg_flux (moc_state m ng) (ms_nreg m) ng (ms_xs m) (ms_vol m) s /\ dies mg_flux (moc_sweep m) (ms_nreg m) ng (ms_xs m) (ms_vol m) s).
Proof.
  intros ulp same gauss yamamoto pin t o d q oct1 rd planes macro m ng sct p dumps src sw fs fsp Hu Rf Se Us Erd Nc Rs Tr Hm Su Sup Xs Xm Ph Hx St Ls Lf N P run.
  destruct (C165_problem _ _ _ _ _ _ _ _ _ _ _ _ _ _ _ sct Hu Rf Se Us Erd Nc Rs Tr Hm Su Sup Xs Xm) as (Pb & _). destruct (mp_vol m ng sct Pb) as [V1 V2].
  destruct (C148_moc m ng sct (ms_vol m) p dumps src sw fs fsp Pb Ph V1) as [(s & n & du & E & _ & K & Nn & _)|X]; auto.
  - intros i Hi. rewrite Forall_forall in V2. apply V2, nth_In. lia.
  - left. exists s, n, du. auto.
Qed.
Print Assumptions C165_eigenvalue.

(** One region of 4 by 4 and the rays of [C164_instance]; a vacuum all round, two planes of heights 1 and 2, three threads. *)
Definition sq_u : UPlane := mkUPlane [16] (fun p q => Some [(0%nat, dist2 p q)]).
Definition sq_t : RayTag := mkRayTag true (Some 1) (Some (list_ascii_of_string "FLAT"%string)) None (Some (list_ascii_of_string "trig"%string)).
Definition sq_macro : list (nat * R) := [(0%nat, 1); (0%nat, 2)].
Lemma apart : forall Nx Ny h k l ei eo, 0 < h -> (1 <= Nx)%Z -> (1 <= Ny)%Z -> (ei = 0 /\ eo = h \/ ei = h /\ eo = 0) -> (0 <= k < Nx + Ny)%Z -> (0 <= l < Nx + Ny)%Z -> 0 < dist2 (slot_point h h Nx Ny ei 0 k) (slot_point h h Nx Ny eo h l).
Proof.
  intros Nx Ny h k l ei eo H A B Ee K L. unfold dist2. apply sqrt_lt_R0. assert (G : forall j N, (0 <= j < N)%Z -> 0 < (IZR j + 1 / 2) * (h / IZR N) < h).
  { intros j N [J1 J2]. assert (J3 : (j + 1 <= N)%Z) by lia. apply IZR_le in J1, J3. rewrite plus_IZR in J3. assert (P : 0 < h / IZR N) by (apply Rdiv_lt_0_compat; lra). split; [apply Rmult_lt_0_compat; lra|]. apply Rlt_le_trans with (IZR N * (h / IZR N)); [apply Rmult_lt_compat_r; lra|right; field; lra]. }
  assert (Sq : forall a b, a <> 0 \/ b <> 0 -> 0 < a * a + b * b). { intros a b [N|N]; [pose proof (Rsqr_pos_lt a N) as Q; pose proof (Rle_0_sqr b)|pose proof (Rsqr_pos_lt b N) as Q; pose proof (Rle_0_sqr a)]; unfold Rsqr in *; lra. }
  apply Sq. unfold slot_point. destruct (Z.ltb_spec k Ny); destruct (Z.ltb_spec l Ny); cbn [ptx pty].
  - left. destruct Ee as [[-> ->]|[-> ->]]; lra.
  - pose proof (G (l - Ny)%Z Nx ltac:(lia)). left. destruct Ee as [[-> ->]|[-> ->]]; lra.
  - pose proof (G l Ny ltac:(lia)). right. lra.
  - right. lra.
Qed.
Lemma sq_resolved : resolved 4 4 2 4.
Proof. unfold resolved, tol. rewrite !Rabs_right, !Rmax_right by lra. unfold REAL_FUZZ. lra. Qed.
Lemma sq_theta : 0 < sin (PI / 2). Proof. rewrite sin_PI2. lra. Qed.
Lemma reqb_sound : ulp_sound Reqb.
Proof. exact (proj1 C26_instance). Qed.
Example C165_instance : forall gs, exists o q' rd m, sensible o so_d /\ ray_options true sq_t = Got o /\ op_corr o <> CorrNone /\ lay_quad Reqb None None o so_d so_q = Got (repeat (2, 4)%Z 4, q') /\
  Forall (fun N => resolved 4 4 (fst N) (snd N)) (repeat (2, 4)%Z 4) /\ Forall (traceable Reqb so_d (repeat (2, 4)%Z 4) q') [sq_u] /\ ray_data Reqb Reqb None None true sq_t so_d so_q [sq_u] = Got (o, rd) /\ rd_counts rd = repeat (2, 4)%Z 4 /\
  set_up so_d rd [sq_u] sq_macro m 1 /\ ms_gs m = gs /\ ms_vol m = [16 * 1; 16 * 2] /\ all_supported (ms_in m) /\ moc_problem m 1 (fun _ _ _ => 0) /\ wt_sym (env_of m 0 []).
Proof.
  intros gs. destruct C164_instance as (Rf & Se & Us & q' & El & Ea & En). set (cn := repeat (2, 4)%Z 4) in *. exists so_o, q'.
  assert (Eo : ray_options true sq_t = Got so_o). { unfold ray_options, sq_t. cbn [rt_there negb rt_spacing rt_volume rt_modularity rt_method]. destruct (Rleb_spec 1 0); [lra|]. vm_compute text_option. reflexivity. }
  assert (Nc : op_corr so_o <> CorrNone) by discriminate.
  assert (Rs : Forall (fun N => resolved 4 4 (fst N) (snd N)) cn) by (apply Forall_forall; intros N IN; unfold cn in IN; apply repeat_spec in IN; subst N; exact sq_resolved).
  assert (Tr : Forall (traceable Reqb so_d cn q') [sq_u]).
  { constructor; [|constructor]. split; [repeat constructor; cbn; lra|]. intros k a N ends e Hk EN Eq Er Ie. cbn [sq_u up_trace up_areas]. eexists. split; [reflexivity|]. constructor; [|constructor]. cbn [fst snd length]. split; [lia|].
    assert (N = (2, 4)%Z) by (unfold cn in EN; destruct k as [|[|[|[|k]]]]; cbn in EN; try (injection EN as <-; reflexivity); destruct k; discriminate). subst N. cbn [so_d cd_hx cd_hy fst snd] in Er. change (spacing_of so_d (2, 4)%Z) with (mod_space 4 4 2 4) in Er.
    destruct (C26_ray_layout Reqb 4 4 2 4 (PI / 2) reqb_sound ltac:(lra) ltac:(lra) ltac:(lia) ltac:(lia) sq_resolved sq_theta) as (d2 & r1 & r2 & E2 & R1 & C1 & R2 & C2).
    assert (Cs : forall rays ei eo, (ei = 0 /\ eo = 4 \/ ei = 4 /\ eo = 0) -> connects 4 4 2 4 ei eo rays -> In e rays -> 0 < dist2 (re_p1 e) (re_p2 e)).
    { intros rays ei eo Ee (I1 & I2 & I3) Ir. destruct (I3 e Ir) as [-> ->]. apply apart; [lra|lia|lia|exact Ee| |]; apply in_zrange; [rewrite <- I1; now apply in_map|eapply Permutation_in; [exact I2|]; now apply in_map]. }
    rewrite En in Hk. rewrite Ea in Eq. destruct k as [|[|k]]; [| |lia].
    - injection Eq as <-. change (adir so_b) with (mod_dir 4 4 2 4 (PI / 2)) in Er. rewrite R1 in Er. injection Er as <-. apply (Cs r1 0 4); auto.
    - pose proof (expand_nth [so_b] 1 0 so_b ltac:(lia) eq_refl) as X. cbn [length Nat.mul Nat.add] in X. rewrite Eq in X. unfold to_octant in X. change (adir so_b) with (mod_dir 4 4 2 4 (PI / 2)) in X. rewrite E2 in X. injection X as ->. cbn [adir] in Er. rewrite R2 in Er. injection Er as <-. apply (Cs r2 4 0); auto. }
  destruct (C165_made Reqb Reqb None None true sq_t so_o so_d so_q [so_a] cn q' [sq_u] sq_macro reqb_sound Rf Se Us Eo El Nc Rs ltac:(discriminate) Tr) as (rd & sz & sl & v & Er & Ec & Eq & Ez & Es & Ev); [repeat constructor; cbn; lia|].
  set (b := mkBC 1 sz (fun _ => VACUUM) 1 (q_angles q') []).
  set (m := mkMS b b (fun _ => [1; 1]) v (q_angles q') (map (spacing_of so_d) cn) gs 3 (length v) 1 [] (map (fun p => (fst p, map (map (fun r => (2%nat, r))) (snd p))) sl)).
  exists rd, m. split; [exact Se|]. split; [exact Eo|]. split; [exact Nc|]. split; [exact El|]. split; [exact Rs|]. split; [exact Tr|]. split; [exact Er|]. split; [exact Ec|].
  assert (SU : set_up so_d rd [sq_u] sq_macro m 1).
  { constructor; cbn [m ms_in ms_out ms_quad ms_space ms_vol ms_nreg ms_nt ms_planes b sizes n_oct quad n_group]; try reflexivity; try (rewrite ?Eq, ?Ec; auto; fail); auto. exists sl. split; [exact Es|]. clear. induction sl as [|[fh a] sl IH]; [constructor|]. cbn [map]. constructor; [|exact IH]. cbn [fst snd]. split; [reflexivity|].
    unfold scheduled. induction a as [|rs a IHa]; [constructor|]. cbn [map]. constructor; [|exact IHa]. split; [rewrite map_map; cbn [snd]; rewrite map_id; reflexivity|]. apply Forall_forall. intros tr I. apply in_map_iff in I. destruct I as (r & <- & _). cbn. lia. }
  split; [exact SU|]. split; [reflexivity|]. assert (Vv : v = [16 * 1; 16 * 2]) by (cbn in Ev; injection Ev as <-; reflexivity). split; [exact Vv|]. assert (Sp : all_supported (ms_in m)) by (intros s; left; reflexivity). split; [exact Sp|].
  destruct (C165_problem Reqb Reqb None None true sq_t so_o so_d so_q [so_a] rd [sq_u] sq_macro m 1 (fun _ _ _ => 0) reqb_sound Rf Se Us Er Nc) as (P & _ & W); [rewrite Ec; exact Rs|rewrite Ec, Eq; exact Tr|repeat constructor; cbn; lra|exact SU|exact Sp| |intros x g []|auto].
  intros g Hg. cbn [m ms_xstr ms_nreg]. rewrite Vv. split; [reflexivity|repeat constructor; lra].
Qed.

(** ** C166 *)

(** The regions the rays of an angle cross. *)
Definition hits (rays : list Ray) (i : nat) : Prop := exists r sg, In r rays /\ In sg (ray_segs r) /\ fst sg = i.
Lemma hits_seen : forall rays i, In i (seen rays) <-> hits rays i.
Proof.
  intros rays i. unfold seen, hits. rewrite in_map_iff. split; [intros (sg & E & I); apply in_flat_map in I; destruct I as (r & Ir & Is); eauto|intros (r & sg & Ir & Is & E); exists sg; split; [exact E|]; apply in_flat_map; eauto].
Qed.
(** C166: laying the rays of a plane, the warning at an angle is given exactly if some region has been hit by no ray of that angle or any before it. *)
Theorem C166_warned : forall ulp d u counts angs, (forall j a, nth_error angs j = Some a -> exists N ends, nth_error counts j = Some N /\ angle_ready ulp d u N a ends) ->
  exists rays warn, plane_rays ulp d u counts 0 angs (repeat 0%nat (length (up_areas u))) = Got (rays, warn) /\ length rays = length angs /\ length warn = length angs /\
    forall j w, nth_error warn j = Some w -> (w = true <-> exists i, (i < length (up_areas u))%nat /\ forall rs, In rs (firstn (S j) rays) -> ~ hits rs i).
Proof.
  intros ulp d u counts angs H. destruct (plane_rays_spec ulp d u counts angs 0 (repeat 0%nat (length (up_areas u))) (repeat_length _ _) H) as (rays & warn & E & L1 & L2 & _ & W). exists rays, warn. split; [exact E|]. split; [exact L1|]. split; [exact L2|].
  intros j w Ej. rewrite (W j w Ej), repeat_length. split; intros (i & Li & X); exists i; (split; [exact Li|]).
  - destruct X as [_ X]. intros rs Ir Hh. apply (X rs Ir). now apply hits_seen.
  - split; [apply nth_repeat|]. intros rs Ir Hh. apply (X rs Ir). now apply hits_seen.
Qed.
Print Assumptions C166_warned.

(** Two regions of 4 by 4, one above the other in the list; a ray crosses the second one if it enters the domain at [x] = xf. *)
Definition tw_u (xf : R) : UPlane := mkUPlane [16; 16] (fun p q => Some ((0%nat, dist2 p q) :: if Reqb (ptx p) xf then [(1%nat, dist2 p q)] else [])).
Lemma tw_rays : exists b2, to_octant so_b 1 = Some b2 /\ forall xf, xf = 0 \/ xf = 4 ->
  (forall j a, nth_error [so_b; b2] j = Some a -> exists N ends, nth_error (repeat (2, 4)%Z 4) j = Some N /\ angle_ready Reqb so_d (tw_u xf) N a ends) /\
  exists r1 r2 w1 w2, plane_rays Reqb so_d (tw_u xf) (repeat (2, 4)%Z 4) 0 [so_b; b2] [0%nat; 0%nat] = Got ([r1; r2], [w1; w2]) /\ hits r1 0 /\ hits r2 0 /\ (hits r1 1 <-> xf = 0) /\ (hits r2 1 <-> xf = 4) /\ (w1 = true <-> xf = 4) /\ w2 = false.
Proof.
  destruct (C26_ray_layout Reqb 4 4 2 4 (PI / 2) reqb_sound ltac:(lra) ltac:(lra) ltac:(lia) ltac:(lia) sq_resolved sq_theta) as (d2 & e1 & e2 & E2 & R1 & C1 & R2 & C2).
  change (mod_dir 4 4 2 4 (PI / 2)) with (adir so_b) in E2, R1. unfold to_octant. rewrite E2. eexists. split; [reflexivity|]. intros xf Hx. set (b2 := mkAngle d2 (weight so_b)).
  assert (G : forall j N, (0 <= j < N)%Z -> 0 < (IZR j + 1 / 2) * (4 / IZR N) < 4).
  { intros j N [J1 J2]. assert (J3 : (j + 1 <= N)%Z) by lia. apply IZR_le in J1, J3. rewrite plus_IZR in J3. assert (P : 0 < 4 / IZR N) by (apply Rdiv_lt_0_compat; lra). split; [apply Rmult_lt_0_compat; lra|]. apply Rlt_le_trans with (IZR N * (4 / IZR N)); [apply Rmult_lt_compat_r; lra|right; field; lra]. }
  assert (Rdy : forall a es ei eo, (ei = 0 /\ eo = 4 \/ ei = 4 /\ eo = 0) -> angle_rays Reqb 4 4 2 4 (mod_space 4 4 2 4) (adir a) = Some es -> connects 4 4 2 4 ei eo es -> angle_ready Reqb so_d (tw_u xf) (2, 4)%Z a es).
  { intros a es ei eo Ee Er (I1 & I2 & I3). split; [exact Er|]. split; [exact I1|]. split; [exact I2|]. split; [cbn; lia|]. split; [cbn; lia|]. intros e Ie. eexists. split; [reflexivity|]. destruct (I3 e Ie) as [P1 P2].
    assert (D : 0 < dist2 (re_p1 e) (re_p2 e)). { rewrite P1, P2. apply apart; [lra|lia|lia|exact Ee| |]; apply in_zrange; [rewrite <- I1; now apply in_map|eapply Permutation_in; [exact I2|]; now apply in_map]. }
    constructor; [split; [cbn; lia|exact D]|]. destruct (Reqb (ptx (re_p1 e)) xf); constructor; [split; [cbn; lia|exact D]|constructor]. }
  assert (H : forall j a, nth_error [so_b; b2] j = Some a -> exists N ends, nth_error (repeat (2, 4)%Z 4) j = Some N /\ angle_ready Reqb so_d (tw_u xf) N a ends).
  { intros [|[|j]] a Ej; [| |destruct j; discriminate]; injection Ej as <-; [exists (2, 4)%Z, e1|exists (2, 4)%Z, e2]; (split; [reflexivity|]); [apply (Rdy so_b e1 0 4)|apply (Rdy b2 e2 4 0)]; auto. }
  split; [exact H|].
  destruct (plane_rays_spec Reqb so_d (tw_u xf) (repeat (2, 4)%Z 4) [so_b; b2] 0 [0%nat; 0%nat] eq_refl H) as (rays & warn & E & L1 & L2 & P & _).
  destruct (C166_warned Reqb so_d (tw_u xf) (repeat (2, 4)%Z 4) [so_b; b2] H) as (rays' & warn' & E' & _ & _ & W). change (repeat 0%nat (length (up_areas (tw_u xf)))) with [0%nat; 0%nat] in E'. rewrite E in E'. injection E' as <- <-.
  destruct rays as [|r1 [|r2 [|]]]; try discriminate. destruct warn as [|w1 [|w2 [|]]]; try discriminate. exists r1, r2, w1, w2. split; [exact E|].
  assert (Hit : forall j a es ei eo rs, (ei = 0 /\ eo = 4 \/ ei = 4 /\ eo = 0) -> nth_error [so_b; b2] j = Some a -> angle_rays Reqb 4 4 2 4 (mod_space 4 4 2 4) (adir a) = Some es -> connects 4 4 2 4 ei eo es -> nth_error [r1; r2] j = Some rs -> hits rs 0 /\ (hits rs 1 <-> xf = ei)).
  { intros j a es ei eo rs Ee Ea Er (I1 & I2 & I3) Ers. destruct (P j rs Ers) as (N & a' & ends & EN & Ea' & Rd & F & _). rewrite Ea in Ea'. injection Ea' as <-.
    assert (N = (2, 4)%Z) by (destruct j as [|[|[|j]]]; cbn in EN; try (injection EN as <-; reflexivity); destruct j; discriminate). subst N. destruct Rd as (Rd & _). change (angle_rays Reqb 4 4 2 4 (mod_space 4 4 2 4) (adir a) = Some ends) in Rd. rewrite Er in Rd. injection Rd as <-.
    assert (First : exists e, In e es /\ re_in e = 0%Z). { assert (Iz : In 0%Z (map re_in es)) by (rewrite I1; vm_compute; now left). apply in_map_iff in Iz. destruct Iz as (e & Q & I). eauto. }
    destruct First as (e & Ie & Ze). assert (Pe : ptx (re_p1 e) = ei). { rewrite (proj1 (I3 e Ie)), Ze. unfold slot_point. destruct (Z.ltb_spec 0 4); [reflexivity|lia]. }
    assert (Get : forall e0, In e0 es -> exists r, In r rs /\ ray_for (tw_u xf) e0 r). { clear - F. intros e0. induction F as [|x r l l' X F IH]; [intros []|intros [->|I]; [exists r; split; [left; reflexivity|exact X]|destruct (IH I) as (r' & A & B); exists r'; split; [right; exact A|exact B]]]. }
    assert (Back : forall r, In r rs -> exists e0, In e0 es /\ ray_for (tw_u xf) e0 r). { clear - F. intros r. induction F as [|x r0 l l' X F IH]; [intros []|intros [->|I]; [exists x; split; [left; reflexivity|exact X]|destruct (IH I) as (e' & A & B); exists e'; split; [right; exact A|exact B]]]. }
    destruct (Get e Ie) as (r & Ir & (_ & _ & T & _)). cbn [tw_u up_trace] in T. injection T as T. split.
    - exists r, (0%nat, dist2 (re_p1 e) (re_p2 e)). split; [exact Ir|]. split; [rewrite <- T; left; reflexivity|reflexivity].
    - split.
      + intros (r0 & sg & Ir0 & Is & Fs). destruct (Back r0 Ir0) as (e0 & Ie0 & (_ & _ & T0 & _)). cbn [tw_u up_trace] in T0. injection T0 as T0. rewrite <- T0 in Is. destruct Is as [<-|Is]; [discriminate|]. destruct (Reqb_spec (ptx (re_p1 e0)) xf) as [Q|]; [|destruct Is].
        rewrite (proj1 (I3 e0 Ie0)) in Q. assert (Rg : (0 <= re_in e0 < 2 + 4)%Z) by (apply in_zrange; rewrite <- I1; now apply in_map). unfold slot_point in Q. destruct (Z.ltb_spec (re_in e0) 4); cbn [ptx] in Q; [now symmetry|]. pose proof (G (re_in e0 - 4)%Z 2%Z ltac:(lia)). destruct Hx as [-> | ->]; lra.
      + intros Q. exists r, (1%nat, dist2 (re_p1 e) (re_p2 e)). split; [exact Ir|]. split; [rewrite <- T; right; rewrite Pe, Q; destruct (Reqb_spec ei ei) as [|X]; [left; reflexivity|now elim X]|reflexivity]. }
  destruct (Hit 0%nat so_b e1 0 4 r1 ltac:(auto) eq_refl R1 C1 eq_refl) as [H10 H11]. destruct (Hit 1%nat b2 e2 4 0 r2 ltac:(auto) eq_refl R2 C2 eq_refl) as [H20 H21].
  split; [exact H10|]. split; [exact H20|]. split; [exact H11|]. split; [exact H21|]. split.
  - rewrite (W 0%nat w1 eq_refl). split.
    + intros (i & Li & X). cbn in Li. destruct i as [|[|i]]; [elim (X r1 ltac:(now left)); exact H10| |lia]. destruct Hx as [Hx|Hx]; [elim (X r1 ltac:(now left)); now apply H11|exact Hx].
    + intros Q. exists 1%nat. split; [cbn; lia|]. intros rs [<-|[]] Hh. apply H11 in Hh. lra.
  - destruct w2; [|reflexivity]. destruct (proj1 (W 1%nat true eq_refl) eq_refl) as (i & Li & X). cbn in Li. destruct i as [|[|i]]; [elim (X r1 ltac:(now left)); exact H10| |lia]. destruct Hx as [Hx|Hx]; [elim (X r1 ltac:(now left)); now apply H11|elim (X r2 ltac:(right; now left)); now apply H21].
Qed.
(** The hypotheses of [C166_warned] hold of these planes; both warnings are as it says. *)
Example C166_instance : exists b2 xf r1 r2, (forall j a, nth_error [so_b; b2] j = Some a -> exists N ends, nth_error (repeat (2, 4)%Z 4) j = Some N /\ angle_ready Reqb so_d (tw_u xf) N a ends) /\
  plane_rays Reqb so_d (tw_u xf) (repeat (2, 4)%Z 4) 0 [so_b; b2] (repeat 0%nat (length (up_areas (tw_u xf)))) = Got ([r1; r2], [true; false]).
Proof.
  destruct tw_rays as (b2 & _ & H). destruct (H 4 ltac:(auto)) as (A & r1 & r2 & w1 & w2 & E & _ & _ & _ & _ & W & Z). exists b2, 4, r1, r2. split; [exact A|]. rewrite (proj2 W eq_refl), Z in E. exact E.
Qed.
(** C166, refuted: an angle whose rays miss a region gives a warning.  Here the second angle misses the second region, and no warning is given. *)
Theorem C166_missed_refuted : exists ulp d u counts angs rays warn rs i, plane_rays ulp d u counts 0 angs (repeat 0%nat (length (up_areas u))) = Got (rays, warn) /\
  nth_error rays 1 = Some rs /\ (i < length (up_areas u))%nat /\ ~ hits rs i /\ Forall (fun w => w = false) warn.
Proof.
  destruct tw_rays as (b2 & _ & H). destruct (H 0 ltac:(auto)) as (_ & r1 & r2 & w1 & w2 & E & _ & _ & _ & H2 & W & Z). exists Reqb, so_d, (tw_u 0), (repeat (2, 4)%Z 4), [so_b; b2], [r1; r2], [w1; w2], r2, 1%nat.
  split; [exact E|]. split; [reflexivity|]. split; [cbn; lia|]. split; [intros X; apply H2 in X; lra|]. constructor; [|constructor; [exact Z|constructor]]. destruct w1; [|reflexivity]. pose proof (proj1 W eq_refl). lra.
Qed.
Print Assumptions C166_missed_refuted.
(** C166, refuted: a warning means that some region has no rays.  Here the rays of the second angle cross the region missed by those of the first, and a warning is given. *)
Theorem C166_early_refuted : exists ulp d u counts angs rays warn, plane_rays ulp d u counts 0 angs (repeat 0%nat (length (up_areas u))) = Got (rays, warn) /\ In true warn /\
  forall i, (i < length (up_areas u))%nat -> exists rs, In rs rays /\ hits rs i.
Proof.
  destruct tw_rays as (b2 & _ & H). destruct (H 4 ltac:(auto)) as (_ & r1 & r2 & w1 & w2 & E & H10 & _ & _ & H2 & W & Z). exists Reqb, so_d, (tw_u 4), (repeat (2, 4)%Z 4), [so_b; b2], [r1; r2], [w1; w2].
  split; [exact E|]. split; [left; now apply W|]. intros i Li. cbn in Li. destruct i as [|[|i]]; [exists r1|exists r2|lia]; (split; [cbn; auto|]); [exact H10|now apply H2].
Qed.
Print Assumptions C166_early_refuted.
