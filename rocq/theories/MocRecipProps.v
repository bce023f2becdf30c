(** C189-C190: reciprocity of MoC calculations, and what the transposed problem has to do with the problem itself. *)
From Coq Require Import List Bool Reals ZArith Arith Lia Lra Permutation.
From Verif Require Import RUtil ListUtil McModel MeshModel AngModel BcModel BcProofs StdAlg CoreModel CoreProofs ScatModel ScatProofs ScatProps MatModel ExpModel MocModel MocProofs MocProps XsModel HomProps SrcModel SrcProps SolModel SolProps MgModel MgProps MgInnerProps SnGroupProps EigProps EigSnProps MocMaxProps MocEigProps InfProps MocBalProps MocLinProofs MocConvProps FixModel FixProofs FixProps MocReflProofs MocReflProps MocRecipProofs.
Import ListNotations.
Open Scope nat_scope.

(** ** Boundaries at rest *)
(** What the two directions along a ray have to do with each other: as many boundary values on every face, and reflection in one axis followed by
    reversal comes from the same side of the core. *)
Record turned (b : BC) : Prop := {
  tu_size : forall a s, a < 4 * n_oct b -> nth_error (sizes b) a = Some s -> nth_error (sizes b) (rev_ang (n_oct b) a) = Some s;
  tu_type : forall a n, a < 4 * n_oct b -> mirror b a n < 4 * n_oct b -> type_at b (rev_ang (n_oct b) (mirror b a n)) n = type_at b a n }.

Lemma turned_total : forall b, length (sizes b) = 4 * n_oct b -> turned b -> rev_total b.
Proof. intros b Len T a s s' E1 E2. assert (H : a < 4 * n_oct b) by (rewrite <- Len; apply nth_error_Some; congruence). rewrite (tu_size b T a s H E1) in E2. now injection E2 as <-. Qed.
Lemma turned_face : forall b a n z o, length (sizes b) = 4 * n_oct b -> turned b -> a < 4 * n_oct b -> forall g g' z' o', get_face b g a n = Some (z, o) -> get_face b g' (rev_ang (n_oct b) a) n = Some (z', o') -> z' = z.
Proof.
  intros b a n z o Len T Ha g g' z' o' E1 E2. destruct (get_face_inv _ _ _ _ _ _ E1) as (s & x & Es & _ & -> & _). destruct (get_face_inv _ _ _ _ _ _ E2) as (s' & x' & Es' & _ & -> & _). rewrite (tu_size b T a s Ha Es) in Es'. now injection Es' as <-.
Qed.
(** Reflection on the sides commutes with reversal. *)
Lemma mirror_rev : forall b a n, bc_ok b -> a < 4 * n_oct b -> mirror b a n < 4 * n_oct b -> mirror b (rev_ang (n_oct b) a) n = rev_ang (n_oct b) (mirror b a n).
Proof.
  intros b a x K Ha Hm. pose proof (ok_oct b K) as Hn. set (n := n_oct b) in *. pose proof (Nat.div_mod a n ltac:(lia)) as DM. pose proof (Nat.mod_upper_bound a n ltac:(lia)) as MU. set (o := a / n) in *. set (r := a mod n) in *. assert (Ho : o < 4) by nia.
  assert (Rf : forall o' w, o' < 8 -> nth_error (reflection x) o' = Some w -> mirror b (o' * n + r) x = Z.to_nat w * n + r).
  { intros o' w Ho' Ew. unfold mirror, refl_n, reflect. fold n. assert (Q : (Z.of_nat (o' * n + r) / Z.of_nat n = Z.of_nat o')%Z) by (rewrite <- Nat2Z.inj_div; f_equal; rewrite Nat.div_add_l by lia; rewrite Nat.div_small by lia; lia). rewrite Q. destruct (Z.ltb_spec (Z.of_nat o') 0); [lia|]. rewrite Nat2Z.id, Ew.
    assert (0 <= w)%Z by (destruct x; do 8 (destruct o' as [|o']; [cbn in Ew; injection Ew as <-; lia|]); lia). nia. }
  replace a with (o * n + r) in * by lia. clear DM. clearbody o r.
  destruct x.
  - destruct o as [|[|[|[|o]]]]; [| | | |lia].
    + rewrite (Rf 0 1%Z ltac:(lia) eq_refl) in *. rewrite (rev_le n (0 * n + r)), (rev_le n (Z.to_nat 1 * n + r)) by lia. replace (0 * n + r + 2 * n) with (2 * n + r) by lia. rewrite (Rf 2 3%Z ltac:(lia) eq_refl). lia.
    + rewrite (Rf 1 0%Z ltac:(lia) eq_refl) in *. rewrite (rev_le n (1 * n + r)), (rev_le n (Z.to_nat 0 * n + r)) by lia. replace (1 * n + r + 2 * n) with (3 * n + r) by lia. rewrite (Rf 3 2%Z ltac:(lia) eq_refl). lia.
    + rewrite (Rf 2 3%Z ltac:(lia) eq_refl) in *. rewrite (rev_ge n (2 * n + r)), (rev_ge n (Z.to_nat 3 * n + r)) by lia. replace (2 * n + r - 2 * n) with (0 * n + r) by lia. rewrite (Rf 0 1%Z ltac:(lia) eq_refl). lia.
    + rewrite (Rf 3 2%Z ltac:(lia) eq_refl) in *. rewrite (rev_ge n (3 * n + r)), (rev_ge n (Z.to_nat 2 * n + r)) by lia. replace (3 * n + r - 2 * n) with (1 * n + r) by lia. rewrite (Rf 1 0%Z ltac:(lia) eq_refl). lia.
  - destruct o as [|[|[|[|o]]]]; [| | | |lia].
    + rewrite (Rf 0 3%Z ltac:(lia) eq_refl) in *. rewrite (rev_le n (0 * n + r)), (rev_ge n (Z.to_nat 3 * n + r)) by lia. replace (0 * n + r + 2 * n) with (2 * n + r) by lia. rewrite (Rf 2 1%Z ltac:(lia) eq_refl). lia.
    + rewrite (Rf 1 2%Z ltac:(lia) eq_refl) in *. rewrite (rev_le n (1 * n + r)), (rev_ge n (Z.to_nat 2 * n + r)) by lia. replace (1 * n + r + 2 * n) with (3 * n + r) by lia. rewrite (Rf 3 0%Z ltac:(lia) eq_refl). lia.
    + rewrite (Rf 2 1%Z ltac:(lia) eq_refl) in *. rewrite (rev_ge n (2 * n + r)), (rev_le n (Z.to_nat 1 * n + r)) by lia. replace (2 * n + r - 2 * n) with (0 * n + r) by lia. rewrite (Rf 0 3%Z ltac:(lia) eq_refl). lia.
    + rewrite (Rf 3 0%Z ltac:(lia) eq_refl) in *. rewrite (rev_ge n (3 * n + r)), (rev_le n (Z.to_nat 0 * n + r)) by lia. replace (3 * n + r - 2 * n) with (1 * n + r) by lia. rewrite (Rf 1 2%Z ltac:(lia) eq_refl). lia.
  - exfalso. destruct o as [|[|[|[|o]]]]; [| | | |lia]; [rewrite (Rf 0 4%Z ltac:(lia) eq_refl) in Hm|rewrite (Rf 1 5%Z ltac:(lia) eq_refl) in Hm|rewrite (Rf 2 6%Z ltac:(lia) eq_refl) in Hm|rewrite (Rf 3 7%Z ltac:(lia) eq_refl) in Hm]; lia.
Qed.

Section Rest.
  Variables (e : MocEnv).
  Let b := me_in e.
  Let g := me_group e.
  Let N := 4 * n_oct b.
  Let rv := rev_ang (n_oct b).
  Hypothesis K : bc_ok b.
  Hypothesis Len : length (sizes b) = 4 * n_oct b.
  Hypothesis Ws : wt_sym e.
  Hypothesis T : turned b.
  Hypothesis Ty : forall s, types b s = REFLECT \/ types b s = VACUUM.

  Lemma rv_lt : forall a, a < N -> rv a < N.
  Proof. intros a H. apply (rev_ang_spec _ _ H). Qed.
  Lemma rv_rv : forall a, a < N -> rv (rv a) = a.
  Proof. intros a H. apply rev_rev; [apply (ok_oct b K)|exact H]. Qed.
  Lemma rv_wt : forall h a, a < N -> ray_wt e h (rv a) = ray_wt e h a.
  Proof.
    intros h a H. pose proof (ok_oct b K) as Hn. unfold ray_wt. fold b. f_equal. unfold rv, N in *. destruct (Nat.lt_ge_cases a (2 * n_oct b)) as [C|C].
    - rewrite rev_le by exact C. replace (a + 2 * n_oct b) with (a + 1 * (2 * n_oct b)) by lia. apply Nat.mod_add. lia.
    - rewrite rev_ge by lia. replace (a mod (2 * n_oct b)) with ((a - 2 * n_oct b + 1 * (2 * n_oct b)) mod (2 * n_oct b)) by (f_equal; lia). rewrite Nat.mod_add by lia. reflexivity.
  Qed.

  (** The pairs on one face. *)
  Definition pair_face (a : nat) (n : Normal) (din out : list R) : R :=
    match get_face b g a n, get_face b 0 (rv a) n with Some (z, o), Some (_, o') => rsum (fun i => at0 din (o + i) * at0 out (o' + i))%R z | _, _ => 0%R end.
  Definition cross_face (a c : nat) (n : Normal) (o1 o2 : list R) : R :=
    match get_face b 0 a n, get_face b 0 c n with Some (z, o), Some (_, o') => rsum (fun i => at0 o1 (o + i) * at0 o2 (o' + i))%R z | _, _ => 0%R end.
  Lemma pair_faces : forall a din out, a < N -> pair_flow b g a din out = (pair_face a X_NORM din out + pair_face a Y_NORM din out + pair_face a Z_NORM din out)%R.
  Proof.
    intros a din out Ha. unfold pair_flow, pair_face, get_boundary, get_face. fold rv. destruct (nth_error (sizes b) a) as [s|] eqn:Es; [|cbn; lra]. pose proof (tu_size b T a s Ha Es) as Er. fold rv in Er. rewrite Er.
    destruct (nth_error (BcModel.offsets 0 (sizes b)) a) as [o|] eqn:Eo; [|cbn; lra]. destruct (nth_error (BcModel.offsets 0 (sizes b)) (rv a)) as [o'|] eqn:Eo'; [|cbn; lra].
    assert (G : forall l k a s o, nth_error l a = Some s -> nth_error (BcModel.offsets k l) a = Some o -> sy o = sx o + sx s /\ sz o = sx o + sx s + sy s).
    { induction l as [|t l IH]; intros k [|a'] s' o'' H1 H2; try discriminate; cbn in H1, H2; [|eauto]. injection H1 as <-. injection H2 as <-. auto. }
    destruct (G _ _ _ _ _ Es Eo) as [G1 G2]. destruct (G _ _ _ _ _ Er Eo') as [G3 G4]. unfold size_total. cbn [face_size]. rewrite !rsum_app. rewrite G1, G2, G3, G4. f_equal; [f_equal|]; apply rsum_ext; intros j Hj; f_equal; f_equal; lia.
  Qed.
  (** Incoming values that a sweep leaves as they are. *)
  Definition at_rest (d o : list R) : Prop := forall a n i k, slot b g a n i k -> exists a2, refl_n b a n = Some a2 /\ nth_error d k = made b o a a2 n i (nth_error d k).
  Lemma empty_face : forall a n g' z o, a < N -> N <= mirror b a n -> get_face b g' a n = Some (z, o) -> z = 0.
  Proof.
    intros a n g' z o Ha Hm Gf. destruct (get_face_inv _ _ _ _ _ _ Gf) as (s & x & Es & _ & -> & _). destruct (mirror_spec e K Len a n Ha) as [M1 _]. destruct (Nat.eq_dec (face_size s n) 0) as [->|Nz]; [reflexivity|].
    destruct (ok_mirror b K a (mirror b a n) n s Es M1 ltac:(lia)) as (s' & Es' & _). assert (mirror b a n < length (sizes b)) by (apply nth_error_Some; congruence). unfold N in *. lia.
  Qed.
  Lemma pair_rest : forall a n d o out, a < N -> at_rest d o -> pair_face a n d out = if (mirror b a n <? N) && reflects b a n then cross_face (mirror b a n) (rv a) n o out else 0%R.
  Proof.
    intros a n d o out Ha Rs. unfold pair_face. destruct (get_face_some b g a n ltac:(lia)) as (z & of & Gf). destruct (get_face_some b 0 (rv a) n ltac:(rewrite Len; now apply rv_lt)) as (zr & ofr & Gr). rewrite Gf, Gr.
    destruct (Nat.ltb_spec (mirror b a n) N) as [C|C]; [|rewrite (empty_face a n g z of Ha C Gf); reflexivity]. cbn [andb].
    destruct (mirror_spec e K Len a n Ha) as [M1 M2]. change (me_in e) with b in M1, M2. unfold cross_face. destruct (get_face_some b 0 (mirror b a n) n ltac:(unfold N in C; lia)) as (z' & of' & Gf'). rewrite Gf', Gr.
    destruct (get_face_inv _ _ _ _ _ _ Gf) as (s & x & Es & _ & Z & _). destruct (get_face_inv _ _ _ _ _ _ Gf') as (s' & x' & Es' & _ & Z' & _).
    assert (Ez : z' = z). { subst z z'. destruct (Nat.eq_dec (face_size s n) 0) as [Q|Q]; [|destruct (ok_mirror b K _ _ n s Es M1 ltac:(lia)) as (t & Et & Ft); congruence]. destruct (Nat.eq_dec (face_size s' n) 0) as [Q'|Q']; [congruence|]. destruct (ok_mirror b K _ _ n s' Es' M2 ltac:(lia)) as (t & Et & Ft). congruence. }
    rewrite Ez. assert (V : forall i, i < z -> at0 d (of + i) = if reflects b a n then at0 o (of' + i) else 0%R).
    { intros i Hi. destruct (Rs a n i (of + i)) as (a2 & R2 & V); [exists z, of; auto|]. rewrite M1 in R2. injection R2 as <-. unfold made in V. rewrite Gf' in V. unfold reflects. unfold type_at in *. destruct (nth_error (quad b) a) as [an|] eqn:E; [|apply nth_error_None in E; pose proof (ok_quad b K); unfold N in *; lia].
      unfold at0. destruct (Ty (upwind_surface (adir an) n)) as [Y|Y]; rewrite Y in V |- *; cbn [new_value] in V.
      - destruct (nth_error o (of' + i)) as [v|] eqn:Ev; [now rewrite (nth_error_nth _ _ 0%R V), (nth_error_nth _ _ 0%R Ev)|]. apply nth_error_None in V, Ev. now rewrite !nth_overflow by assumption.
      - now rewrite (nth_error_nth _ _ 0%R V). }
    destruct (reflects b a n).
    - apply rsum_ext. intros i Hi. now rewrite V.
    - rewrite (rsum_ext _ (fun _ => 0%R)); [apply rsum_const0|]. intros i Hi. rewrite V by exact Hi. ring.
  Qed.
  Lemma cross_sym : forall a n o1 o2, a < N -> mirror b a n < N -> cross_face (mirror b a n) (rv a) n o1 o2 = cross_face (rv a) (mirror b a n) n o2 o1.
  Proof.
    intros a n o1 o2 Ha C. unfold cross_face. destruct (mirror_spec e K Len a n Ha) as [M1 M2]. change (me_in e) with b in M1, M2. destruct (get_face_some b 0 (mirror b a n) n ltac:(unfold N in C; lia)) as (z' & of' & Gf'). destruct (get_face_some b 0 (rv a) n ltac:(rewrite Len; now apply rv_lt)) as (zr & ofr & Gr). rewrite Gf', Gr.
    destruct (get_face_some b 0 a n ltac:(lia)) as (z & of & Gf). pose proof (turned_face b a n z of Len T Ha 0 0 zr ofr Gf Gr) as E1.
    destruct (get_face_inv _ _ _ _ _ _ Gf) as (s & x & Es & _ & Z & _). destruct (get_face_inv _ _ _ _ _ _ Gf') as (s' & x' & Es' & _ & Z' & _).
    assert (Ez : z' = z). { subst z z'. destruct (Nat.eq_dec (face_size s n) 0) as [Q|Q]; [|destruct (ok_mirror b K _ _ n s Es M1 ltac:(lia)) as (t & Et & Ft); congruence]. destruct (Nat.eq_dec (face_size s' n) 0) as [Q'|Q']; [congruence|]. destruct (ok_mirror b K _ _ n s' Es' M2 ltac:(lia)) as (t & Et & Ft). congruence. }
    replace zr with z' by congruence. apply rsum_ext. intros. ring.
  Qed.
  (** With boundaries at rest, what the boundary contributes cancels: face by face between an angle and the reverse of its reflection. *)
  Lemma rest_cancels : forall h d1 o1 d2 o2, at_rest d1 o1 -> at_rest d2 o2 -> lsum (fun j => angle_wt e h j * pair_net b g j d1 o1 d2 o2)%R (seq 0 (2 * n_oct b)) = 0%R.
  Proof.
    intros h d1 o1 d2 o2 R1 R2.
    rewrite (lsum_ext _ (fun j => angle_wt e h j * ((pair_flow b g j d1 o2 - pair_flow b g j d2 o1) + (pair_flow b g (j + 2 * n_oct b) d1 o2 - pair_flow b g (j + 2 * n_oct b) d2 o1)))%R).
    2:{ intros j J. apply in_seq in J. unfold pair_net. cbn zeta. rewrite rev_le by lia. ring. }
    rewrite <- rsum_lsum. rewrite <- (rsum_double e Len (angle_wt e h) (fun a => pair_flow b g a d1 o2 - pair_flow b g a d2 o1)%R). replace (2 * n_oct b + 2 * n_oct b) with N by (unfold N; lia). change (2 * n_oct b) with (2 * n_oct (me_in e)).
    assert (One : forall n, rsum (fun a => ray_wt e h a * pair_face a n d2 o1)%R N = rsum (fun a => ray_wt e h a * pair_face a n d1 o2)%R N).
    { intros n. rewrite <- (reindex (ray_wt e h) (fun a => pair_face a n d2 o1) (fun a => if mirror b a n <? N then rv (mirror b a n) else a) N).
      - apply rsum_ext. intros a Ha. f_equal. destruct (Nat.ltb_spec (mirror b a n) N) as [C|C].
        + destruct (mirror_spec e K Len a n Ha) as [M1 M2]. change (me_in e) with b in M1, M2. assert (MM : mirror b (mirror b a n) n = a) by (unfold mirror at 1; now rewrite M2).
          assert (Mr : mirror b (rv (mirror b a n)) n = rv a) by (unfold rv; rewrite (mirror_rev b (mirror b a n) n K C); rewrite MM; [reflexivity|exact Ha]).
          rewrite (pair_rest (rv (mirror b a n)) n d2 o2 o1 (rv_lt _ C) R2), (pair_rest a n d1 o1 o2 Ha R1). rewrite Mr, (rv_rv _ C). rewrite (proj2 (Nat.ltb_lt _ _) (rv_lt a Ha)), (proj2 (Nat.ltb_lt _ _) C). cbn [andb].
          assert (Rf : reflects b (rv (mirror b a n)) n = reflects b a n) by (unfold reflects, rv; now rewrite (tu_type b T a n Ha C)). rewrite Rf. destruct (reflects b a n); [|reflexivity]. symmetry. now apply cross_sym.
        + rewrite (pair_rest a n d2 o2 o1 Ha R2), (pair_rest a n d1 o1 o2 Ha R1). destruct (Nat.ltb_spec (mirror b a n) N); [lia|]. reflexivity.
      - intros a Ha H. destruct (Nat.ltb_spec (mirror b a n) N) as [C|C]; [|destruct (Nat.ltb_spec (mirror b a n) N); [lia|auto]].
        destruct (mirror_spec e K Len a n Ha) as [M1 M2]. change (me_in e) with b in M1, M2. assert (MM : mirror b (mirror b a n) n = a) by (unfold mirror at 1; now rewrite M2).
        assert (Mr : mirror b (rv (mirror b a n)) n = rv a) by (unfold rv; rewrite (mirror_rev b (mirror b a n) n K C); rewrite MM; [reflexivity|exact Ha]). rewrite Mr, (proj2 (Nat.ltb_lt _ _) (rv_lt a Ha)), (rv_rv a Ha). split; [reflexivity|].
        rewrite rv_wt by exact C. apply (Ws h a n); assumption.
      - intros a Ha H. exfalso. destruct (Nat.ltb_spec (mirror b a n) N) as [C|C]; [pose proof (rv_lt _ C); lia|lia]. }
    rewrite (rsum_ext _ (fun a => (ray_wt e h a * pair_face a X_NORM d1 o2 + ray_wt e h a * pair_face a Y_NORM d1 o2 + ray_wt e h a * pair_face a Z_NORM d1 o2) + (-1) * (ray_wt e h a * pair_face a X_NORM d2 o1 + ray_wt e h a * pair_face a Y_NORM d2 o1 + ray_wt e h a * pair_face a Z_NORM d2 o1))%R)
      by (intros a Ha; rewrite !pair_faces by exact Ha; unfold ray_wt; ring).
    rewrite rsum_plus, rsum_scal, !rsum_plus, !One. ring.
  Qed.
End Rest.

(** ** One sweep *)
(** Two sets of planes with the same rays. *)
Definition same_rays_as (ps1 ps2 : list PlaneIn) : Prop := Forall2 same_geo ps1 ps2.

Lemma gap_flux : forall xstr vol q1 q2 nreg ts1 ts2 f1 f2, Forall (fun t => length t = nreg) ts1 -> Forall (fun t => length t = nreg) ts2 -> finish (sum_threads nreg ts1) xstr vol q1 = Some f1 -> finish (sum_threads nreg ts2) xstr vol q2 = Some f2 ->
  (rsum (fun i => at0 xstr i * at0 vol i * at0 q2 i * at0 f1 i) nreg - rsum (fun i => at0 xstr i * at0 vol i * at0 q1 i * at0 f2 i) nreg = gap q1 q2 nreg ts1 ts2)%R.
Proof.
  intros xstr vol q1 q2 nreg ts1 ts2 f1 f2 L1 L2 F1 F2. destruct (sum_threads_spec nreg ts1 L1) as [S1 A1]. destruct (sum_threads_spec nreg ts2 L2) as [S2 A2]. destruct (finish_spec _ _ _ _ _ F1) as [_ P1]. destruct (finish_spec _ _ _ _ _ F2) as [_ P2].
  unfold gap. rewrite <- rsum_minus. apply rsum_ext. intros i Hi. destruct (P1 i ltac:(lia)) as (x & w & c & Ex & Ew & Ec & Nz & Ev). destruct (P2 i ltac:(lia)) as (x' & w' & c' & Ex' & Ew' & Ec' & _ & Ev'). rewrite Ex in Ex'. injection Ex' as <-. rewrite Ew in Ew'. injection Ew' as <-. rewrite A1 in Ev. rewrite A2 in Ev'.
  unfold at0. rewrite (nth_error_nth _ _ 0%R Ex), (nth_error_nth _ _ 0%R Ew), (nth_error_nth _ _ 0%R Ec), (nth_error_nth _ _ 0%R Ec'), (nth_error_nth _ _ 0%R Ev), (nth_error_nth _ _ 0%R Ev'). field. split; intros Z; apply Nz; rewrite Z; ring.
Qed.

(** C189, a sweep: take any two sources and boundaries that reflect or are open, and boundary fluxes which the sweeps leave as they are.  The flux of the
    first source weighted with the second one is the flux of the second one weighted with the first. *)
Theorem C189_sweep : forall bi bo g xstr vol quad0 space gs q1 q2 nt nreg ps1 ps2 f1 bs1 f2 bs2, bc_ok bi -> sizes bo = sizes bi -> Forall no_gap (sizes bi) -> g < n_group bi -> length (sizes bi) = 4 * n_oct bi -> turned bi ->
  wt_sym (renv bi bo g xstr vol quad0 space gs q1) -> (forall s, types bi s = REFLECT \/ types bi s = VACUUM) -> same_rays_as ps1 ps2 ->
  Forall (plane_full (renv bi bo g xstr vol quad0 space gs q1) nt) ps1 -> Forall (plane_full (renv bi bo g xstr vol quad0 space gs q1) nt) ps2 ->
  sweep1g (renv bi bo g xstr vol quad0 space gs q1) nt nreg ps1 = Ok (f1, bs1) -> sweep1g (renv bi bo g xstr vol quad0 space gs q2) nt nreg ps2 = Ok (f2, bs2) ->
  Forall2 (settled bi g) ps1 bs1 -> Forall2 (settled bi g) ps2 bs2 ->
  rsum (fun i => at0 xstr i * at0 vol i * at0 q2 i * at0 f1 i)%R nreg = rsum (fun i => at0 xstr i * at0 vol i * at0 q1 i * at0 f2 i)%R nreg.
Proof.
  intros bi bo g xstr vol quad0 space gs q1 q2 nt nreg ps1 ps2 f1 bs1 f2 bs2 K So Ng Hg Len T Ws Ty Sg F1 F2 H1 H2 St1 St2. set (E := renv bi bo g xstr vol quad0 space gs) in *.
  assert (Su : all_supported bi) by (intros s; destruct (Ty s) as [-> | ->]; unfold supported; tauto). pose proof (turned_total bi Len T) as Rt. unfold sweep1g in H1, H2.
  destruct (sweep_planes (E q1) ps1 (repeat (repeat 0%R nreg) nt)) as [[b1 ts1]| |] eqn:E1; [|discriminate|discriminate]. destruct (sweep_planes (E q2) ps2 (repeat (repeat 0%R nreg) nt)) as [[b2 ts2]| |] eqn:E2; [|discriminate|discriminate]. cbn [rbind] in H1, H2. cbn [E renv me_xstr me_vol me_q] in H1, H2.
  destruct (finish (sum_threads nreg ts1) xstr vol q1) as [x1|] eqn:X1; [|discriminate]. destruct (finish (sum_threads nreg ts2) xstr vol q2) as [x2|] eqn:X2; [|discriminate]. cbn [of_opt rbind] in H1, H2. injection H1 as <- <-. injection H2 as <- <-.
  destruct (planes_gain (E q1) nreg nt K So Su Ng Hg Len ps1 _ _ _ F1 (ts_zero nreg nt) E1) as ([_ T1] & Lb1 & n1 & G1 & _). destruct (planes_gain (E q2) nreg nt K So Su Ng Hg Len ps2 _ _ _ F2 (ts_zero nreg nt) E2) as ([_ T2] & Lb2 & n2 & G2 & _).
  pose proof (planes_recip bi bo g xstr vol quad0 space gs q1 q2 nreg nt K So Su Ng Hg Len Rt ps1 ps2 _ _ _ _ _ _ Sg F1 F2 (ts_zero nreg nt) (ts_zero nreg nt) E1 E2 St1 St2) as G.
  assert (Z0 : gap q1 q2 nreg (repeat (repeat 0%R nreg) nt) (repeat (repeat 0%R nreg) nt) = 0%R) by (unfold gap; rewrite (rsum_ext _ (fun _ => 0%R)); [apply rsum_const0|]; intros; rewrite !tot_zero; ring). rewrite Z0, Rplus_0_l in G.
  apply Rminus_diag_uniq. rewrite (gap_flux _ _ _ _ _ _ _ _ _ T1 T2 X1 X2), G. clear - G1 G2 Lb1 Lb2 St1 St2 Sg K Len Ws T Ty.
  revert ps2 Sg b1 n1 G1 Lb1 St1 b2 n2 G2 Lb2 St2. induction ps1 as [|p1 ps1 IH]; intros ps2 Sg b1 n1 G1 Lb1 St1 b2 n2 G2 Lb2 St2; inversion Sg as [|? p2 ? ps2' S1 S2]; subst; [reflexivity|]. destruct b1 as [|d1 b1]; [discriminate|]. destruct b2 as [|d2 b2]; [discriminate|].
  cbn [combine] in *. inversion G1 as [|? ? ? n1' P1 G1']; subst. inversion G2 as [|? ? ? n2' P2 G2']; subst. inversion St1 as [|? ? ? ? A1 A2]; subst. inversion St2 as [|? ? ? ? B1 B2]; subst. cbn [lsum fst snd].
  rewrite (IH ps2' S2 b1 n1' G1' ltac:(now injection Lb1) A2 b2 n2' G2' ltac:(now injection Lb2) B2), Rplus_0_r. cbn [fst snd] in P1, P2. destruct P1 as (M1 & _). destruct P2 as (M2 & _). unfold plane_pair.
  apply (rest_cancels (E q1) K Len Ws T Ty (pi_height p1)).
  - intros a n i k Sx. destruct (M1 a n i k Sx) as (a2 & R2 & V). exists a2. split; [exact R2|]. rewrite <- (A1 a n i k Sx) at 1. exact V.
  - intros a n i k Sx. destruct (M2 a n i k Sx) as (a2 & R2 & V). exists a2. split; [exact R2|]. rewrite <- (B1 a n i k Sx) at 1. exact V.
Qed.
Print Assumptions C189_sweep.

(** C189, a sweep of a core that is open on all sides, with nothing coming in: nothing about the boundary needs to be assumed. *)
Theorem C189_vacuum : forall bi bo g xstr vol quad0 space gs q1 q2 nt nreg ps1 ps2 f1 bs1 f2 bs2, bc_ok bi -> sizes bo = sizes bi -> Forall no_gap (sizes bi) -> g < n_group bi -> length (sizes bi) = 4 * n_oct bi -> turned bi ->
  wt_sym (renv bi bo g xstr vol quad0 space gs q1) -> (forall s, types bi s = VACUUM) -> same_rays_as ps1 ps2 ->
  Forall (plane_full (renv bi bo g xstr vol quad0 space gs q1) nt) ps1 -> Forall (plane_full (renv bi bo g xstr vol quad0 space gs q1) nt) ps2 ->
  Forall (fun p => forall a n i k, slot bi g a n i k -> nth_error (pi_in p) k = Some 0%R) ps1 -> Forall (fun p => forall a n i k, slot bi g a n i k -> nth_error (pi_in p) k = Some 0%R) ps2 ->
  sweep1g (renv bi bo g xstr vol quad0 space gs q1) nt nreg ps1 = Ok (f1, bs1) -> sweep1g (renv bi bo g xstr vol quad0 space gs q2) nt nreg ps2 = Ok (f2, bs2) ->
  rsum (fun i => at0 xstr i * at0 vol i * at0 q2 i * at0 f1 i)%R nreg = rsum (fun i => at0 xstr i * at0 vol i * at0 q1 i * at0 f2 i)%R nreg.
Proof.
  intros bi bo g xstr vol quad0 space gs q1 q2 nt nreg ps1 ps2 f1 bs1 f2 bs2 K So Ng Hg Len T Ws Ty Sg F1 F2 Z1 Z2 H1 H2.
  assert (St : forall q ps f bs, Forall (plane_full (renv bi bo g xstr vol quad0 space gs q) nt) ps -> Forall (fun p => forall a n i k, slot bi g a n i k -> nth_error (pi_in p) k = Some 0%R) ps -> sweep1g (renv bi bo g xstr vol quad0 space gs q) nt nreg ps = Ok (f, bs) -> Forall2 (settled bi g) ps bs).
  { intros q ps f bs F Z H. assert (Su : all_supported bi) by (intros s; rewrite Ty; unfold supported; tauto). destruct (C155_sweep (renv bi bo g xstr vol quad0 space gs q) nreg nt ps f bs K So Su Ng Hg Len F H) as (Lb & nets & N & _). clear - Z Lb N Ty K.
    revert bs nets Lb N. induction ps as [|p ps IH]; intros [|d bs] nets Lb N; try discriminate; [constructor|]. apply Forall_cons_iff in Z. destruct Z as [Z1 Z]. cbn [combine] in N. inversion N as [|? ? ? ns P N']; subst. constructor; [|apply (IH Z bs ns); [now injection Lb|exact N']].
    intros a n i k Sx. rewrite (Z1 a n i k Sx). destruct P as (M & _). destruct (M a n i k Sx) as (a2 & R2 & V). cbn [snd fst] in V. rewrite V. unfold made. cbn [renv me_in]. destruct Sx as (z & o & Gf & Hi & _). destruct (get_face_inv _ _ _ _ _ _ Gf) as (s & x & Es & _ & Ez & _). destruct (ok_mirror bi K a a2 n s Es R2 ltac:(lia)) as (s' & Es' & _). destruct (get_face_some bi 0 a2 n ltac:(apply nth_error_Some; congruence)) as (z' & o' & Gf').
    assert (Hq : a < length (quad bi)) by (pose proof (ok_quad bi K); assert (a < length (sizes bi)) by (apply nth_error_Some; congruence); lia). unfold type_at. destruct (nth_error (quad bi) a) as [an|] eqn:E; [|apply nth_error_None in E; lia]. rewrite Ty, Gf'. reflexivity. }
  apply (C189_sweep bi bo g xstr vol quad0 space gs q1 q2 nt nreg ps1 ps2 f1 bs1 f2 bs2); auto; [exact (St q1 ps1 f1 bs1 F1 Z1 H1)|exact (St q2 ps2 f2 bs2 F2 Z2 H2)].
Qed.
Print Assumptions C189_vacuum.

(** ** Inner iterations *)
(** The same sweeper with other materials. *)
Definition with_xs (m : MocStatic) (xs : list XReg) : MocStatic := mkMS (ms_in m) (ms_out m) (ms_xstr m) (ms_vol m) (ms_quad m) (ms_space m) (ms_gs m) (ms_nt m) (ms_nreg m) (ms_inner m) xs (ms_planes m).
(** What reciprocity needs of a sweeper: sides that reflect or are open, a full set of rays, and boundaries and weights that treat both directions alike. *)
Record two_way (m : MocStatic) : Prop := {
  tw_turn : turned (ms_in m); tw_side : forall s, types (ms_in m) s = REFLECT \/ types (ms_in m) s = VACUUM; tw_sym : wt_sym (env_of m 0 []);
  tw_full : Forall (fun p : nat * R * list (list (nat * Ray)) => length (snd p) = 2 * n_oct (ms_in m)) (ms_planes m) }.
(** The sweeper's cross sections are those of the mesh. *)
Definition xs_used (m : MocStatic) (ng : nat) (xs : list XReg) : Prop := forall x i g, In x xs -> In i (xr_reg x) -> g < ng -> at0 (ms_xstr m g) i = at0 (xr_tr x) g.

Lemma bnd_sym : forall m h d1 d2, bnd_same m h d1 d2 -> bnd_same m h d2 d1.
Proof. intros m h d1 d2. apply F2_sym. intros a b H x n i k Sx. symmetry. eauto. Qed.
Lemma settled_of : forall m ng sct g ds bs, moc_problem m ng sct -> g < ng -> length ds = length (ms_planes m) -> Forall (bdry_shape m) ds -> Forall (bdry_shape m) bs -> bnd_same m g bs ds -> Forall2 (settled (ms_in m) g) (planes_of m ds) bs.
Proof.
  intros m ng sct g ds bs P Hg L F1 F2 S. unfold planes_of. revert L F1 F2 S. generalize (ms_planes m) as pl. intros pl. revert ds bs. induction pl as [|p pl IH]; intros [|d ds] bs L F1 F2 S; try discriminate; inversion S as [|b ? bs' ? S1 S2]; subst; [constructor|]. apply Forall_cons_iff in F1, F2. destruct F1 as [[A1 A2] F1], F2 as [[B1 B2] F2].
  cbn [combine map]. constructor; [|apply IH; auto]. intros a n i k Sx. cbn [fst snd plane_in pi_in]. specialize (S1 a n i k Sx). assert (Hk : k < length (fst d)).
  { rewrite A1. destruct (slot_pos m _ _ _ _ _ Sx) as (t & Ht & ->). rewrite (mp_ng m ng sct P). nia. }
  rewrite (nth_error_at0 (fst b) k), (nth_error_at0 (fst d) k) by lia. now rewrite S1.
Qed.
Lemma inner_recip : forall m xs2 ng sct1 sct2 g src1 src2 s1 s2, let m2 := with_xs m xs2 in moc_problem m ng sct1 -> moc_problem m2 ng sct2 -> physical (ms_nreg m) ng sct1 (ms_xs m) -> physical (ms_nreg m) ng sct2 xs2 -> two_way m -> xs_used m ng (ms_xs m) -> xs_used m ng xs2 ->
  Forall2 (fun x1 x2 => xr_reg x2 = xr_reg x1 /\ sct2 x2 g g = sct1 x1 g g) (ms_xs m) xs2 -> g < ng -> length src1 = ms_nreg m -> length src2 = ms_nreg m -> moc_shape m ng s1 -> moc_shape m ng s2 -> g_fixed m g src1 s1 -> g_fixed m2 g src2 s2 ->
  rsum (fun i => at0 (ms_vol m) i * (at0 src2 i * phi (mg_flux s1) i g))%R (ms_nreg m) = rsum (fun i => at0 (ms_vol m) i * (at0 src1 i * phi (mg_flux s2) i g))%R (ms_nreg m).
Proof.
  intros m xs2 ng sct1 sct2 g src1 src2 s1 s2 m2 P1 P2 Ph1 Ph2 Tw U1 U2 Pr Hg L1 L2 F1 F2 (t1 & E1 & V1 & B1) (t2 & E2 & V2 & B2). pose proof PI_RGT_0 as PP.
  destruct (inner_parts m ng sct1 P1 Ph1 g src1 s1 Hg L1 F1) as (q1 & f1 & bs1 & s1' & Lq1 & Q1 & Sw1 & I1 & Bn1 & Sh1 & O1). rewrite E1 in I1. injection I1 as <-. destruct (inner_parts m2 ng sct2 P2 Ph2 g src2 s2 Hg L2 F2) as (q2 & f2 & bs2 & s2' & Lq2 & Q2 & Sw2 & I2 & Bn2 & Sh2 & O2). rewrite E2 in I2. injection I2 as <-.
  assert (Full : forall s q, moc_shape m ng s -> Forall (plane_full (env_of m g q) (ms_nt m)) (planes_of m (mg_bnd s))).
  { intros s q (_ & _ & _ & Fb). apply Forall_forall. intros p I. apply in_map_iff in I. destruct I as ([[[f0 h] rays] d] & <- & I). apply in_combine_l in I as I1. apply in_combine_r in I as I2. destruct (mp_planes m ng sct1 P1 f0 h rays I1) as (_ & _ & _ & _ & A5 & A6 & _). pose proof (proj1 (Forall_forall _ _) Fb d I2) as (C1 & C2). pose proof (proj1 (Forall_forall _ _) (tw_full m Tw) _ I1) as A8.
    unfold plane_full. cbn [pi_rays pi_in pi_out env_of me_in fst snd plane_in]. split; [exact A8|]. split; [exact A5|]. split; [intros j rs Ej; now apply A6|]. auto. }
  assert (Sg : same_rays_as (planes_of m (mg_bnd s1)) (planes_of m (mg_bnd s2))).
  { unfold same_rays_as, planes_of. destruct F1 as (_ & _ & La & _), F2 as (_ & _ & Lb & _). change (ms_planes m2) with (ms_planes m) in Lb. revert La Lb. generalize (mg_bnd s1) (mg_bnd s2) (ms_planes m). intros d1 d2 pl. revert d1 d2. induction pl as [|p pl IH]; intros [|x d1] [|y d2] La Lb; try discriminate; cbn [combine map]; constructor; [repeat split|apply IH; auto]. }
  assert (S1 : Forall2 (settled (ms_in m) g) (planes_of m (mg_bnd s1)) bs1) by (rewrite <- Bn1; apply (settled_of m ng sct1); auto; [apply F1|apply F1|apply Sh1]).
  assert (S2 : Forall2 (settled (ms_in m) g) (planes_of m (mg_bnd s2)) bs2) by (rewrite <- Bn2; apply (settled_of m2 ng sct2); auto; [apply F2|apply F2|apply Sh2]).
  pose proof (C189_sweep (ms_in m) (ms_out m) g (ms_xstr m g) (ms_vol m) (ms_quad m) (ms_space m) (ms_gs m) q1 q2 (ms_nt m) (ms_nreg m) (planes_of m (mg_bnd s1)) (planes_of m (mg_bnd s2)) f1 bs1 f2 bs2 (mp_bc m ng sct1 P1) (mp_out m ng sct1 P1) (mp_gap m ng sct1 P1)
    ltac:(rewrite (mp_ng m ng sct1 P1); exact Hg) (mp_len m ng sct1 P1) (tw_turn m Tw) (tw_sym m Tw) (tw_side m Tw) Sg (Full s1 q1 F1) (Full s2 q1 F2) Sw1 Sw2 S1 S2) as G.
  apply Rminus_diag_uniq. apply (Rmult_eq_reg_l (/ (4 * PI))); [|apply Rinv_neq_0_compat; lra]. rewrite Rmult_0_r, <- rsum_minus, <- rsum_scal. apply Rminus_diag_eq in G. rewrite <- rsum_minus in G. rewrite <- G. apply rsum_ext. intros i Hi.
  destruct Ph1 as (_ & _ & Cov & _). pose proof (Cov i Hi) as Ci.
  assert (Xi : exists x1 x2, In x1 (ms_xs m) /\ In x2 xs2 /\ In i (xr_reg x1) /\ In i (xr_reg x2) /\ sct2 x2 g g = sct1 x1 g g).
  { clear - Pr Ci. induction Pr as [|x1 x2 l1 l2 [H1 H2] _ IH]; cbn in Ci; [contradiction|]. apply in_app_iff in Ci. destruct Ci as [Ci|Ci]; [exists x1, x2; rewrite H1; repeat split; auto; left; reflexivity|]. destruct (IH Ci) as (y1 & y2 & A1 & A2 & A3 & A4 & A5). exists y1, y2. repeat split; auto; right; assumption. }
  destruct Xi as (x1 & x2 & X1 & X2 & J1 & J2 & Sc). rewrite (Q1 x1 i X1 J1), (Q2 x2 i X2 J2), Sc. pose proof (O1 i g Hi) as W1. rewrite Nat.eqb_refl in W1. pose proof (O2 i g Hi) as W2. rewrite Nat.eqb_refl in W2. rewrite <- W1, <- W2, (V1 i Hi), (V2 i Hi).
  rewrite <- (U1 x1 i g X1 J1 Hg), <- (U2 x2 i g X2 J2 Hg). pose proof (mp_tr m ng sct1 P1 x1 g X1 Hg) as Tp. rewrite <- (U1 x1 i g X1 J1 Hg) in Tp. field. split; lra.
Qed.
(** C189, converged inner iterations: the flux of source 1 in a detector with response source 2 is the flux of source 2 in a detector with response source 1. *)
Theorem C189_source : forall m ng sct g src1 src2 s1 s2, moc_problem m ng sct -> physical (ms_nreg m) ng sct (ms_xs m) -> two_way m -> xs_used m ng (ms_xs m) -> g < ng -> length src1 = ms_nreg m -> length src2 = ms_nreg m -> moc_shape m ng s1 -> moc_shape m ng s2 ->
  g_fixed m g src1 s1 -> g_fixed m g src2 s2 ->
  rsum (fun i => at0 (ms_vol m) i * (at0 src2 i * phi (mg_flux s1) i g))%R (ms_nreg m) = rsum (fun i => at0 (ms_vol m) i * (at0 src1 i * phi (mg_flux s2) i g))%R (ms_nreg m).
Proof.
  intros m ng sct g src1 src2 s1 s2 P Ph Tw U Hg L1 L2 F1 F2 G1 G2. assert (Em : with_xs m (ms_xs m) = m) by (destruct m; reflexivity).
  apply (inner_recip m (ms_xs m) ng sct sct g src1 src2 s1 s2); rewrite ?Em; auto. clear. induction (ms_xs m); constructor; auto.
Qed.
Print Assumptions C189_source.

(** ** Solutions of fixed-source calculations *)
(** Where several inner iterations leave the flux of a group as it is, so does one. *)
Section Still.
Variables (m : MocStatic) (ng : nat) (sct : XReg -> nat -> nat -> R) (g : nat) (src : list R) (c th : R).
Hypothesis P : moc_problem m ng sct.
Hypothesis Ph : physical (ms_nreg m) ng sct (ms_xs m).
Hypothesis Cr : crossed m.
Hypothesis Hc : (0 <= c < 1)%R.
Hypothesis Ht : (0 <= th < 1)%R.
Hypothesis Th : thin_all m ng th.
Hypothesis Hg : g < ng.
Hypothesis Ls : length src = ms_nreg m.
Hypothesis Sc : forall x, In x (ms_xs m) -> (sct x g g <= c * at0 (xr_tr x) g)%R.
Definition same_g (s t : MocState) : Prop := (forall i, i < ms_nreg m -> phi (mg_flux s) i g = phi (mg_flux t) i g) /\ bnd_same m g (mg_bnd s) (mg_bnd t).
Lemma same_trans : forall s t u, same_g s t -> same_g t u -> same_g s u.
Proof. intros s t u [A1 A2] [B1 B2]. split; [intros i Hi; now rewrite A1, B1|exact (bnd_trans _ _ _ _ _ A2 B2)]. Qed.
Lemma same_sym : forall s t, same_g s t -> same_g t s.
Proof. intros s t [A1 A2]. split; [intros i Hi; now rewrite A1|now apply bnd_sym]. Qed.
Lemma inner_same : forall s t s' t', moc_shape m ng s -> moc_shape m ng t -> same_g s t -> moc_inner m g src s = Some s' -> moc_inner m g src t = Some t' -> same_g s' t'.
Proof.
  intros s t s' t' F1 F2 Sg E1 E2. destruct (g_tot m ng sct g src P Ph Hg Ls s F1) as (x & X & G1). rewrite E1 in X. injection X as <-. destruct (g_tot m ng sct g src P Ph Hg Ls t F2) as (x & X & G2). rewrite E2 in X. injection X as <-.
  assert (A : wapart MocState (g_val m g c) (n_all m) 1 (fun _ => 1%R) 0 s t).
  { intros i h Hi _. unfold g_val. rewrite (proj2 (g_zero m ng sct g c P Hc Hg s t F1 F2) Sg i Hi). replace (rval m (rho c) t i g - rval m (rho c) t i g)%R with 0%R by ring. rewrite Rabs_R0. lra. }
  destruct (g_con m ng sct g src c th P Ph Cr Hc Ht Th Hg Ls Sc 0 s t s' t' (Rle_refl _) F1 F2 (bnd_pres _ _ _ _ (proj2 Sg)) A E1 E2) as [B _].
  apply (proj1 (g_zero m ng sct g c P Hc Hg s' t' G1 G2)). intros i Hi. specialize (B i 0 Hi ltac:(lia)). cbv beta in B. unfold g_val in B. rewrite Rmult_0_r, Rmult_0_l in B. apply abs_in in B. lra.
Qed.
Lemma inners_same : forall n s t s' t', moc_shape m ng s -> moc_shape m ng t -> same_g s t -> moc_inners m g src n s = Some s' -> moc_inners m g src n t = Some t' -> same_g s' t'.
Proof.
  induction n as [|n IH]; intros s t s' t' F1 F2 Sg E1 E2; cbn [moc_inners] in *; [injection E1 as <-; injection E2 as <-; exact Sg|]. destruct (g_tot m ng sct g src P Ph Hg Ls s F1) as (x & X & G1). destruct (g_tot m ng sct g src P Ph Hg Ls t F2) as (y & Y & G2). rewrite X in E1. rewrite Y in E2. apply (IH x y); auto. exact (inner_same s t x y F1 F2 Sg X Y).
Qed.
Lemma inners_add : forall a b s, moc_inners m g src (a + b) s = match moc_inners m g src a s with Some t => moc_inners m g src b t | None => None end.
Proof. induction a as [|a IH]; intros b s; cbn [Nat.add moc_inners]; [reflexivity|]. destruct (moc_inner m g src s); [apply IH|reflexivity]. Qed.
Lemma inners_still : forall n s s', 1 <= n -> moc_shape m ng s -> moc_inners m g src n s = Some s' -> same_g s' s -> g_fixed m g src s.
Proof.
  intros n s s' Hn F E Sg. pose proof (kap_range c th Hc Ht) as [K _]. destruct (g_converge m ng sct g src c th P Ph Cr Hc Ht Th Hg Ls Sc s F) as (it & sol & D & It & D0 & Fs & _ & (sol' & Es & Es1 & Es2) & Cv & _).
  assert (Sh : forall k, moc_shape m ng (it k)) by (intros k; destruct (inners_shape m ng sct P Ph g src k s Hg Ls F) as (x & X & G); rewrite It in X; now injection X as <-).
  assert (Cy : forall k, same_g (it (k * n)%nat) s).
  { induction k as [|k IH]; [change (0 * n) with 0; pose proof (It 0) as X; cbn in X; injection X as X; rewrite <- X; split; [auto|apply bnd_refl]|]. pose proof (It (k * n + n)) as X. rewrite inners_add, It in X. replace (S k * n) with (k * n + n) by lia. apply (same_trans _ s'); [|exact Sg]. exact (inners_same n (it (k * n)) s _ _ (Sh _) F IH X E). }
  assert (Sol : same_g s sol).
  { apply (proj1 (g_zero m ng sct g c P Hc Hg s sol F Fs)). intros i Hi. apply Rminus_diag_uniq. pose proof (rho_range c Hc) as [[R1 _] _]. apply (small_zero _ (kap c th) (D * (1 + 4 * PI / rho c))%R K). intros k.
    rewrite <- (proj2 (g_zero m ng sct g c P Hc Hg (it (S k * n)) s (Sh _) F) (Cy (S k)) i Hi). destruct (Cv (S k * n - 1)) as [C1 C2]. replace (S (S k * n - 1)) with (S k * n) in C1, C2 by lia.
    pose proof PI_RGT_0 as PP. assert (Q0 : (0 <= kap c th ^ (S k * n - 1) * D)%R) by (apply Rmult_le_pos; [apply pow_le; lra|exact D0]). assert (Qk : (kap c th ^ (S k * n - 1) * D <= kap c th ^ k * D)%R).
    { apply Rmult_le_compat_r; [exact D0|]. replace (S k * n - 1) with (k + (S k * n - 1 - k)) by nia. rewrite pow_add. rewrite <- (Rmult_1_r (kap c th ^ k)) at 2. apply Rmult_le_compat_l; [apply pow_le; lra|]. rewrite <- (pow1 (S k * n - 1 - k)). apply pow_incr. lra. }
    set (q := (kap c th ^ (S k * n - 1) * D)%R) in *. assert (W : (0 < 4 * PI / rho c)%R) by (apply Rdiv_lt_0_compat; lra).
    eapply Rle_trans with (q * (1 + 4 * PI / rho c))%R; [|rewrite <- Rmult_assoc; apply Rmult_le_compat_r; lra].
    apply (proj2 (rap_iff m ng sct (rho c) P R1 g (q * (1 + 4 * PI / rho c))%R _ _ Hg (Sh _) Fs)); [|exact Hi]. split.
    - intros j Hj. specialize (C1 j Hj). assert (0 <= q * (4 * PI / rho c))%R by (apply Rmult_le_pos; lra). lra.
    - assert (Lq : (q <= rho c * (q * (1 + 4 * PI / rho c)) / (4 * PI))%R). { replace (rho c * (q * (1 + 4 * PI / rho c)) / (4 * PI))%R with (q + rho c * q / (4 * PI))%R by (field; split; lra). assert (0 <= rho c * q / (4 * PI))%R by (unfold Rdiv; apply Rmult_le_pos; [apply Rmult_le_pos; lra|left; apply Rinv_0_lt_compat; lra]). lra. }
      exact (near_mono _ _ _ _ _ _ Lq C2). }
  destruct (g_tot m ng sct g src P Ph Hg Ls s F) as (t & Et & Ft). exists t. split; [exact Et|]. pose proof (inner_same s sol t sol' F Fs Sol Et Es) as A. exact (same_trans _ _ _ A (same_trans _ _ _ (conj Es1 Es2) (same_sym _ _ Sol))).
Qed.
End Still.

(** What a solution of a fixed-source calculation is, group by group. *)
Lemma grps_still : forall m ng sct ext, moc_problem m ng sct -> physical (ms_nreg m) ng sct (ms_xs m) -> crossed m -> 1 <= ms_inner m -> ext_fits (ms_nreg m) ng ext ->
  forall cnt ig src sw src' sw', ig + cnt <= ng -> length src = ms_nreg m -> moc_shape m ng sw -> fss_groups MocState mg_flux (moc_sweep m) (ms_xs m) (ms_nreg m) ext None ig cnt (src, sw) = Some (src', sw') ->
  (forall i h, i < ms_nreg m -> h < ng -> phi (mg_flux sw') i h = phi (mg_flux sw) i h) -> (forall h, h < ng -> bnd_same m h (mg_bnd sw') (mg_bnd sw)) ->
  forall g, ig <= g < ig + cnt -> exists u t t', length u = ms_nreg m /\ moc_shape m ng t /\ moc_inners m g u (ms_inner m) t = Some t' /\ same_g m g t' t /\ (forall i h, i < ms_nreg m -> h < ng -> phi (mg_flux t) i h = phi (mg_flux sw) i h) /\
    forall x i, In x (ms_xs m) -> In i (xr_reg x) -> at0 u i = (ext_at ext i g + rsum (fun h => if (h =? g)%nat then 0 else sct x g h * phi (mg_flux sw) i h) ng)%R.
Proof.
  intros m ng sct ext P Ph Cr Hn Ex. induction cnt as [|k IH]; intros ig src sw src' sw' Hk Ls F E Vs Bs g Hg; [lia|]. cbn [fss_groups] in E. destruct (grp_ok m ng sct ext P Ph Ex ig src sw ltac:(lia) Ls F) as (u & w & G & K & S1 & I1 & O1 & Q1). rewrite G in E.
  destruct (inners_keep m ng sct P Ph Cr ig u (ms_inner m) sw w ltac:(lia) K F I1) as [_ Kb]. destruct (grps_ok m ng sct ext P Ph Ex k (S ig) u w ltac:(lia) K S1) as (x1 & y1 & J1 & _ & _ & Z1). rewrite E in J1. injection J1 as <- <-. destruct (grps_keep m ng sct ext P Ph Cr Hn Ex k (S ig) u w src' sw' ltac:(lia) K S1 E) as [_ Kc].
  assert (Wg : forall i, i < ms_nreg m -> phi (mg_flux w) i ig = phi (mg_flux sw) i ig) by (intros i Hi; rewrite <- (Z1 i ig Hi ltac:(lia)); apply Vs; [exact Hi|lia]).
  assert (Wb : bnd_same m ig (mg_bnd w) (mg_bnd sw)) by (apply (bnd_trans _ _ _ (mg_bnd sw')); [apply bnd_sym, Kc; lia|apply Bs; lia]).
  assert (Wv : forall i h, i < ms_nreg m -> h < ng -> phi (mg_flux w) i h = phi (mg_flux sw) i h) by (intros i h Hi Hh; destruct (Nat.eq_dec h ig) as [->|N]; [now apply Wg|now apply O1]).
  destruct (Nat.eq_dec g ig) as [->|N].
  - exists u, sw, w. split; [exact K|]. split; [exact F|]. split; [exact I1|]. split; [split; assumption|]. split; [auto|exact Q1].
  - destruct (IH (S ig) u w src' sw' ltac:(lia) K S1 E) with (g := g) as (u2 & t & t' & A1 & A2 & A3 & A4 & A5 & A6); [intros i h Hi Hh; rewrite Wv by assumption; now apply Vs| |lia|].
    + intros h Hh. destruct (Nat.eq_dec h ig) as [->|Nh]; [apply Kc; lia|]. apply (bnd_trans _ _ _ (mg_bnd sw)); [now apply Bs|apply bnd_sym; now apply Kb].
    + exists u2, t, t'. do 4 (split; [assumption|]). split; [intros i h Hi Hh; rewrite A5 by assumption; now apply Wv|]. intros x i Ix Ii. rewrite (A6 x i Ix Ii). f_equal. apply rsum_ext. intros h Hh. destruct (h =? g); [reflexivity|]. rewrite Wv; [reflexivity| |exact Hh]. destruct Ph as (M & _). exact (reg_bound _ _ _ _ M Ix Ii).
Qed.
Lemma fixed_groups : forall m ng sct ext v c s, moc_problem m ng sct -> physical (ms_nreg m) ng sct (ms_xs m) -> crossed m -> 1 <= ms_inner m -> ext_fits (ms_nreg m) ng ext -> (0 <= c < 1)%R -> dominated m ng sct v c -> fx_shape m ng s -> fx_fixed m ng ext s ->
  forall g, g < ng -> exists u t, length u = ms_nreg m /\ moc_shape m ng t /\ g_fixed m g u t /\ (forall i, i < ms_nreg m -> phi (mg_flux t) i g = phi (fx_flux s) i g) /\
    forall x i, In x (ms_xs m) -> In i (xr_reg x) -> at0 u i = (ext_at ext i g + rsum (fun h => if (h =? g)%nat then 0 else sct x g h * phi (fx_flux s) i h) ng)%R.
Proof.
  intros m ng sct ext v c s P Ph Cr Hn Ex Hc Dm F (s' & E & Vs & Bs) g Hg. destruct (thin_some m ng sct P Cr) as (th & Ht & Th). destruct (step_parts m ng ext _ _ E) as [G _]. destruct s as [o [a b]], s' as [o' [a' b']]. destruct F as [La Fb]. cbn [snd fst fx_flux] in *. unfold fx_flux in *. cbn [snd fst] in *.
  destruct (grps_still m ng sct ext P Ph Cr Hn Ex ng 0 a b a' b' (le_n _) La Fb G Vs Bs g ltac:(lia)) as (u & t & t' & A1 & A2 & A3 & A4 & A5 & A6). exists u, t. split; [exact A1|]. split; [exact A2|]. split; [|split; [intros i Hi; now apply A5|exact A6]].
  apply (inners_still m ng sct g u c th P Ph Cr Hc Ht Th Hg A1) with (n := ms_inner m) (s' := t'); auto.
  destruct Dm as [Hv Dom]. intros x Ix. pose proof (Dom x g Ix Hg) as Do. rewrite (rsum_split m ng sct v c Hv Dom _ ng g Hg) in Do. pose proof (Hv g Hg) as Vg. apply (Rmult_le_reg_r (v g)); [exact Vg|]. eapply Rle_trans; [|exact Do]. destruct Ph as (_ & D & _). destruct (D x Ix) as (_ & Nn & _).
  assert (0 <= rsum (fun h => if h =? g then 0 else sct x g h * v h) ng)%R; [|lra]. apply rsum_nonneg. intros h Hh. destruct (Nat.eqb_spec h g) as [|N]; [lra|]. apply Rmult_le_pos; [apply Nn; auto|left; now apply Hv].
Qed.

(** The transposed problem: the same regions, with scattering from group to group the other way round. *)
Definition transposed (ng : nat) (sct1 sct2 : XReg -> nat -> nat -> R) (xs1 xs2 : list XReg) : Prop := Forall2 (fun x1 x2 => xr_reg x2 = xr_reg x1 /\ forall g h, g < ng -> h < ng -> sct2 x2 g h = sct1 x1 h g) xs1 xs2.
(** The integral over the core of a response [ext] to a flux. *)
Definition response (m : MocStatic) (ng : nat) (ext : option (list (list R))) (fl : list (list R)) : R := rsum (fun g => rsum (fun i => at0 (ms_vol m) i * (ext_at ext i g * phi fl i g))%R (ms_nreg m)) ng.
Lemma rsum_swap2 : forall (f : nat -> nat -> R) a b, rsum (fun i => rsum (f i) b) a = rsum (fun j => rsum (fun i => f i j) a) b.
Proof. intros f a b. induction a as [|a IH]; cbn [rsum]; [symmetry; apply rsum_const0|]. rewrite IH, <- rsum_plus. reflexivity. Qed.
Lemma pick : forall (A : Type) n (Q : nat -> A -> Prop), (forall i, i < n -> exists x, Q i x) -> forall a : A, exists f, forall i, i < n -> Q i (f i).
Proof.
  intros A n Q H a. induction n as [|n IH]; [exists (fun _ => a); intros; lia|]. destruct IH as (f & Hf); [intros i Hi; apply H; lia|]. destruct (H n ltac:(lia)) as (x & Hx). exists (fun i => if i =? n then x else f i). intros i Hi. destruct (Nat.eqb_spec i n) as [->|N]; [exact Hx|apply Hf; lia].
Qed.
(** C190: the response 2 to the flux of source 1 is the response 1 to the flux of source 2 in the transposed problem. *)
Theorem C190_adjoint : forall m xs2 ng sct1 sct2 ext1 ext2 v1 v2 c1 c2 s1 s2, let m2 := with_xs m xs2 in
  moc_problem m ng sct1 -> moc_problem m2 ng sct2 -> physical (ms_nreg m) ng sct1 (ms_xs m) -> physical (ms_nreg m) ng sct2 xs2 -> two_way m -> xs_used m ng (ms_xs m) -> xs_used m ng xs2 -> transposed ng sct1 sct2 (ms_xs m) xs2 ->
  crossed m -> 1 <= ms_inner m -> ext_fits (ms_nreg m) ng ext1 -> ext_fits (ms_nreg m) ng ext2 -> (0 <= c1 < 1)%R -> dominated m ng sct1 v1 c1 -> (0 <= c2 < 1)%R -> dominated m2 ng sct2 v2 c2 ->
  fx_shape m ng s1 -> fx_shape m ng s2 -> fx_fixed m ng ext1 s1 -> fx_fixed m2 ng ext2 s2 -> response m ng ext2 (fx_flux s1) = response m ng ext1 (fx_flux s2).
Proof.
  intros m xs2 ng sct1 sct2 ext1 ext2 v1 v2 c1 c2 s1 s2 m2 P1 P2 Ph1 Ph2 Tw U1 U2 Tr Cr Hn X1 X2 Hc1 D1 Hc2 D2 F1 F2 G1 G2.
  pose proof (fixed_groups m ng sct1 ext1 v1 c1 s1 P1 Ph1 Cr Hn X1 Hc1 D1 F1 G1) as A1. pose proof (fixed_groups m2 ng sct2 ext2 v2 c2 s2 P2 Ph2 Cr Hn X2 Hc2 D2 F2 G2) as A2.
  set (f1 := fx_flux s1) in *. set (f2 := fx_flux s2) in *.
  destruct Ph1 as (M1 & D1' & Cov & Z1). assert (Own : forall i, i < ms_nreg m -> exists x1, exists x2, In x1 (ms_xs m) /\ In x2 xs2 /\ In i (xr_reg x1) /\ In i (xr_reg x2) /\ forall g h, g < ng -> h < ng -> sct2 x2 g h = sct1 x1 h g).
  { intros i Hi. pose proof (Cov i Hi) as Ci. clear - Tr Ci. induction Tr as [|x1 x2 l1 l2 [H1 H2] _ IH]; cbn in Ci; [contradiction|]. apply in_app_iff in Ci. destruct Ci as [Ci|Ci]; [exists x1, x2; rewrite H1; repeat split; auto; left; reflexivity|]. destruct (IH Ci) as (y1 & y2 & B1 & B2 & B3 & B4 & B5). exists y1, y2. repeat split; auto; right; assumption. }
  (* what one group gives *)
  assert (One : forall g, g < ng -> exists u1 u2, (rsum (fun i => at0 (ms_vol m) i * (at0 u2 i * phi f1 i g)) (ms_nreg m) = rsum (fun i => at0 (ms_vol m) i * (at0 u1 i * phi f2 i g)) (ms_nreg m))%R /\
    (forall x i, In x (ms_xs m) -> In i (xr_reg x) -> at0 u1 i = (ext_at ext1 i g + rsum (fun h => if (h =? g)%nat then 0 else sct1 x g h * phi f1 i h) ng)%R) /\ (forall x i, In x xs2 -> In i (xr_reg x) -> at0 u2 i = (ext_at ext2 i g + rsum (fun h => if (h =? g)%nat then 0 else sct2 x g h * phi f2 i h) ng)%R)).
  { intros g Hg. destruct (A1 g Hg) as (u1 & t1 & L1 & S1 & Fx1 & V1 & Q1). destruct (A2 g Hg) as (u2 & t2 & L2 & S2 & Fx2 & V2 & Q2). exists u1, u2. split; [|split; [exact Q1|exact Q2]].
    pose proof (inner_recip m xs2 ng sct1 sct2 g u1 u2 t1 t2 P1 P2 (conj M1 (conj D1' (conj Cov Z1))) Ph2 Tw U1 U2) as Rc. etransitivity; [|etransitivity; [apply Rc; auto|]].
    - apply rsum_ext. intros i Hi. now rewrite (V1 i Hi).
    - clear - Tr Hg. induction Tr as [|x1 x2 l1 l2 [H1 H2] _ IH]; constructor; auto.
    - apply rsum_ext. intros i Hi. now rewrite (V2 i Hi). }
  destruct (pick XReg (ms_nreg m) _ Own (mkXR [] false [] [] [] [] [] (mkSM 0 [] [] []))) as (f & Of). set (sc := fun i g h => sct1 (f i) g h).
  assert (Sp : forall g, g < ng -> (rsum (fun i => at0 (ms_vol m) i * (ext_at ext2 i g * phi f1 i g)) (ms_nreg m) + rsum (fun i => rsum (fun h => if h =? g then 0 else at0 (ms_vol m) i * (sc i h g * phi f2 i h * phi f1 i g)) ng) (ms_nreg m) =
    rsum (fun i => at0 (ms_vol m) i * (ext_at ext1 i g * phi f2 i g)) (ms_nreg m) + rsum (fun i => rsum (fun h => if h =? g then 0 else at0 (ms_vol m) i * (sc i g h * phi f1 i h * phi f2 i g)) ng) (ms_nreg m))%R).
  { intros g Hg. destruct (One g Hg) as (u1 & u2 & E & Q1 & Q2). rewrite <- !rsum_plus. etransitivity; [|etransitivity; [exact E|]]; apply rsum_ext; intros i Hi; destruct (Of i Hi) as (x2 & B1 & B2 & B3 & B4 & B5).
    - rewrite (Q2 x2 i B2 B4), Rmult_plus_distr_r, Rmult_plus_distr_l. f_equal. rewrite <- rsum_scal_r, <- rsum_scal. apply rsum_ext. intros h Hh. destruct (h =? g); [ring|]. rewrite B5 by assumption. unfold sc. ring.
    - rewrite (Q1 (f i) i B1 B3), Rmult_plus_distr_r, Rmult_plus_distr_l. f_equal. rewrite <- rsum_scal_r, <- rsum_scal. apply rsum_ext. intros h Hh. destruct (h =? g); [ring|]. unfold sc. ring. }
  unfold response. apply (Rplus_eq_reg_r (rsum (fun g => rsum (fun i => rsum (fun h => if h =? g then 0 else at0 (ms_vol m) i * (sc i h g * phi f2 i h * phi f1 i g))%R ng) (ms_nreg m)) ng)). rewrite <- rsum_plus, (rsum_ext _ _ _ Sp), rsum_plus. f_equal.
  rewrite (rsum_swap2 (fun g i => rsum (fun h => if h =? g then 0 else at0 (ms_vol m) i * (sc i g h * phi f1 i h * phi f2 i g))%R ng)), (rsum_swap2 (fun g i => rsum (fun h => if h =? g then 0 else at0 (ms_vol m) i * (sc i h g * phi f2 i h * phi f1 i g))%R ng)). apply rsum_ext. intros i _.
  rewrite (rsum_swap2 (fun g h => if h =? g then 0 else at0 (ms_vol m) i * (sc i g h * phi f1 i h * phi f2 i g))%R). apply rsum_ext. intros h _. apply rsum_ext. intros g _. rewrite (Nat.eqb_sym g h). destruct (h =? g); [reflexivity|ring].
Qed.
Print Assumptions C190_adjoint.

Lemma rsum_abs_le : forall (f b : nat -> R) n, (forall i, i < n -> (Rabs (f i) <= b i)%R) -> (Rabs (rsum f n) <= rsum b n)%R.
Proof. intros f b n H. induction n as [|n IH]; cbn [rsum]; [rewrite Rabs_R0; lra|]. eapply Rle_trans; [apply Rabs_triang|]. pose proof (H n ltac:(lia)). specialize (IH ltac:(intros i Hi; apply H; lia)). lra. Qed.
(** C190: the two calculations from any starting values, each with its own number of iterations: what is missing from reciprocity fades. *)
Theorem C190_limit : forall m xs2 ng sct1 sct2 ext1 ext2 v1 v2 c1 c2 s1 s2, let m2 := with_xs m xs2 in
  moc_problem m ng sct1 -> moc_problem m2 ng sct2 -> physical (ms_nreg m) ng sct1 (ms_xs m) -> physical (ms_nreg m) ng sct2 xs2 -> two_way m -> xs_used m ng (ms_xs m) -> xs_used m ng xs2 -> transposed ng sct1 sct2 (ms_xs m) xs2 ->
  crossed m -> 1 <= ms_inner m -> ext_fits (ms_nreg m) ng ext1 -> ext_fits (ms_nreg m) ng ext2 -> (0 <= c1 < 1)%R -> dominated m ng sct1 v1 c1 -> (0 <= c2 < 1)%R -> dominated m2 ng sct2 v2 c2 -> fx_shape m ng s1 -> fx_shape m ng s2 ->
  exists (it1 it2 : nat -> FxState) k D, it1 0 = s1 /\ it2 0 = s2 /\ (forall n, fx_step m ng ext1 (it1 n) = Got (it1 (S n))) /\ (forall n, fx_step m2 ng ext2 (it2 n) = Got (it2 (S n))) /\ (0 <= k < 1)%R /\
    forall p q, (Rabs (response m ng ext2 (fx_flux (it1 (S p))) - response m ng ext1 (fx_flux (it2 (S q)))) <= (k ^ p + k ^ q) * D)%R.
Proof.
  intros m xs2 ng sct1 sct2 ext1 ext2 v1 v2 c1 c2 s1 s2 m2 P1 P2 Ph1 Ph2 Tw U1 U2 Tr Cr Hn X1 X2 Hc1 D1 Hc2 D2 F1 F2.
  destruct (C186_converge m ng sct1 ext1 v1 c1 P1 Ph1 Cr Hn X1 Hc1 D1) as (k1 & K1 & C1). destruct (C186_converge m2 ng sct2 ext2 v2 c2 P2 Ph2 Cr Hn X2 Hc2 D2) as (k2 & K2 & C2).
  destruct (C1 s1 F1) as (it1 & sol1 & B1 & I1 & St1 & B10 & Fs1 & _ & Fx1 & Cv1 & _). destruct (C2 s2 F2) as (it2 & sol2 & B2 & I2 & St2 & B20 & Fs2 & _ & Fx2 & Cv2 & _).
  pose proof (C190_adjoint m xs2 ng sct1 sct2 ext1 ext2 v1 v2 c1 c2 sol1 sol2 P1 P2 Ph1 Ph2 Tw U1 U2 Tr Cr Hn X1 X2 Hc1 D1 Hc2 D2 Fs1 Fs2 Fx1 Fx2) as A.
  assert (Rs : forall ext f f' (v : nat -> R) e, (0 <= e)%R -> (forall i h, i < ms_nreg m -> h < ng -> (Rabs (phi f i h - phi f' i h) <= e * v h)%R) -> (Rabs (response m ng ext f - response m ng ext f') <= e * rsum (fun g => rsum (fun i => Rabs (at0 (ms_vol m) i * ext_at ext i g) * v g) (ms_nreg m)) ng)%R).
  { intros ext f f' v e He H. unfold response. rewrite <- rsum_minus, <- rsum_scal. eapply Rle_trans; [apply (rsum_abs_le _ (fun g => e * rsum (fun i => Rabs (at0 (ms_vol m) i * ext_at ext i g) * v g) (ms_nreg m))%R)|apply Rle_refl].
    intros g Hg. rewrite <- rsum_minus, <- rsum_scal. apply rsum_abs_le. intros i Hi. replace (at0 (ms_vol m) i * (ext_at ext i g * phi f i g) - at0 (ms_vol m) i * (ext_at ext i g * phi f' i g))%R with (at0 (ms_vol m) i * ext_at ext i g * (phi f i g - phi f' i g))%R by ring.
    rewrite Rabs_mult. replace (e * (Rabs (at0 (ms_vol m) i * ext_at ext i g) * v g))%R with (Rabs (at0 (ms_vol m) i * ext_at ext i g) * (e * v g))%R by ring. apply Rmult_le_compat_l; [apply Rabs_pos|now apply H]. }
  set (W1 := rsum (fun g => rsum (fun i => Rabs (at0 (ms_vol m) i * ext_at ext2 i g) * v1 g)%R (ms_nreg m)) ng) in *. set (W2 := rsum (fun g => rsum (fun i => Rabs (at0 (ms_vol m) i * ext_at ext1 i g) * v2 g)%R (ms_nreg m)) ng) in *.
  assert (W10 : (0 <= W1)%R) by (apply rsum_nonneg; intros g Hg; apply rsum_nonneg; intros i _; apply Rmult_le_pos; [apply Rabs_pos|left; now apply (proj1 D1)]). assert (W20 : (0 <= W2)%R) by (apply rsum_nonneg; intros g Hg; apply rsum_nonneg; intros i _; apply Rmult_le_pos; [apply Rabs_pos|left; now apply (proj1 D2)]).
  exists it1, it2, (Rmax k1 k2), (B1 * W1 + B2 * W2)%R. split; [exact I1|]. split; [exact I2|]. split; [exact St1|]. split; [exact St2|]. pose proof (Rmax_l k1 k2) as M1. pose proof (Rmax_r k1 k2) as M2. split; [split; [lra|apply Rmax_lub_lt; lra]|]. intros p q.
  assert (Pw : forall a n, (0 <= a <= Rmax k1 k2)%R -> (a ^ n <= Rmax k1 k2 ^ n)%R) by (intros a n Ha; now apply pow_incr). pose proof (pow_le k1 p (proj1 K1)) as Q1. pose proof (pow_le k2 q (proj1 K2)) as Q2. pose proof (Pw k1 p ltac:(lra)) as R1. pose proof (Pw k2 q ltac:(lra)) as R2.
  assert (E1 : (Rabs (response m ng ext2 (fx_flux (it1 (S p))) - response m ng ext2 (fx_flux sol1)) <= k1 ^ p * B1 * W1)%R) by (unfold W1; apply Rs; [now apply Rmult_le_pos|apply Cv1]). assert (E2 : (Rabs (response m ng ext1 (fx_flux (it2 (S q))) - response m ng ext1 (fx_flux sol2)) <= k2 ^ q * B2 * W2)%R) by (unfold W2; apply Rs; [now apply Rmult_le_pos|apply Cv2]).
  rewrite A in E1. set (z := response m ng ext1 (fx_flux sol2)) in *. apply abs_in in E1. apply abs_in in E2. set (P := (Rmax k1 k2 ^ p)%R) in *. set (Q := (Rmax k1 k2 ^ q)%R) in *.
  assert (V1 : (k1 ^ p * B1 * W1 <= P * (B1 * W1))%R) by (rewrite Rmult_assoc; apply Rmult_le_compat_r; [now apply Rmult_le_pos|exact R1]). assert (V2 : (k2 ^ q * B2 * W2 <= Q * (B2 * W2))%R) by (rewrite Rmult_assoc; apply Rmult_le_compat_r; [now apply Rmult_le_pos|exact R2]).
  assert (V3 : (0 <= P * (B2 * W2))%R) by (apply Rmult_le_pos; [lra|now apply Rmult_le_pos]). assert (V4 : (0 <= Q * (B1 * W1))%R) by (apply Rmult_le_pos; [lra|now apply Rmult_le_pos]). rewrite Rmult_plus_distr_r, !Rmult_plus_distr_l. apply Rabs_le. lra.
Qed.
Print Assumptions C190_limit.

(** Examples: two groups and two regions with mirrors all round, scattering down in one problem and up in the other. *)
Lemma mq_two_way : forall gs, two_way (mq_static gs).
Proof.
  intros gs. constructor.
  - constructor; cbn [mq_static ms_in mq_bc n_oct sizes].
    + intros a s Ha E. assert (s = mkSize 1 1 0) as -> by (apply nth_error_In, repeat_spec in E; exact E). assert (H : rev_ang 1 a < 4) by apply (rev_ang_spec 1 a Ha). destruct (rev_ang 1 a) as [|[|[|[|k]]]]; try reflexivity; lia.
    + intros a n Ha Hm. assert (H : rev_ang 1 (mirror (mkBC 2 (repeat (mkSize 1 1 0) 4) (fun _ => REFLECT) 1 (repeat mx_a 4) []) a n) < 4) by apply (rev_ang_spec 1 _ Hm). fold mq_bc in H. change (mkBC 2 (repeat (mkSize 1 1 0) 4) (fun _ => REFLECT) 1 (repeat mx_a 4) []) with mq_bc in *. unfold type_at. cbn [mq_bc quad types]. assert (Q : forall k, k < 4 -> nth_error (repeat mx_a 4) k = Some mx_a) by (intros [|[|[|[|k]]]] Hk; try reflexivity; lia). now rewrite !Q by assumption.
  - intros s. left. reflexivity.
  - intros h a n j Ha Hj _. cbn in Ha, Hj. unfold ray_wt, angle_wt. cbn [env_of me_in me_quad me_space mq_static ms_in ms_quad ms_space mq_bc n_oct]. change (2 * 1) with 2. assert (W : forall b, b < 2 -> (match nth_error (repeat mx_a 4) b, nth_error [1; 1]%R b with Some ang, Some sp => weight ang * sp * h * sin (theta (adir ang)) * PI | _, _ => 0 end = weight mx_a * 1 * h * sin (theta (adir mx_a)) * PI)%R) by (intros [|[|b]] Hb; [reflexivity|reflexivity|lia]).
    rewrite !W by (apply Nat.mod_upper_bound; lia). reflexivity.
  - repeat constructor.
Qed.
Lemma mq_used : forall gs, xs_used (mq_static gs) 2 [mf_x0; mf_x1].
Proof. intros gs x i g [<-|[<-|[]]] Ii Hg; cbn in Ii; destruct Ii as [<-|[]]; destruct g as [|[|g]]; try lia; reflexivity. Qed.
(** What source 1 in region 0 gives in region 1 is what source 2 in region 1 gives in region 0. *)
Example C189_instance : forall gs, moc_problem (mq_static gs) 2 (fun _ => mf_sc) /\ two_way (mq_static gs) /\ xs_used (mq_static gs) 2 (ms_xs (mq_static gs)) /\
  exists s1 s2, moc_shape (mq_static gs) 2 s1 /\ moc_shape (mq_static gs) 2 s2 /\ g_fixed (mq_static gs) 1 [1; 0]%R s1 /\ g_fixed (mq_static gs) 1 [0; 1]%R s2 /\ phi (mg_flux s1) 1 1 = phi (mg_flux s2) 0 1.
Proof.
  intros gs. pose proof (mq_problem gs) as P. pose proof mf_physical as Ph. pose proof (mq_two_way gs) as Tw. pose proof (mq_used gs) as U. split; [exact P|]. split; [exact Tw|]. split; [exact U|].
  destruct (C185_converge (mq_static gs) 2 (fun _ => mf_sc) 1 (1 / 2) P Ph (mq_crossed gs) ltac:(lia) ltac:(lra)) as (k & _ & H); [intros x [<-|[<-|[]]]; unfold mf_sc, at0; cbn; lra|].
  pose proof (proj2 (mf_shape gs 1)) as F. change (moc_shape (mq_static gs) 2 (snd (snd (mf_start 1)))) in F. destruct (H [1; 0]%R _ eq_refl F) as (_ & s1 & _ & _ & _ & F1 & _ & X1 & _). destruct (H [0; 1]%R _ eq_refl F) as (_ & s2 & _ & _ & _ & F2 & _ & X2 & _). exists s1, s2. do 4 (split; [assumption|]).
  pose proof (C189_source (mq_static gs) 2 (fun _ => mf_sc) 1 [1; 0]%R [0; 1]%R s1 s2 P Ph Tw U ltac:(lia) eq_refl eq_refl F1 F2 X1 X2) as E. cbn [mq_static ms_nreg ms_vol rsum] in E. unfold at0 in E. cbn [nth] in E. lra.
Qed.
Definition mt_sc : nat -> nat -> R := fun to from => mf_sc from to.
Definition mt_sm := mkSM 2 [1 / 2; 1 / 4; 1 / 2]%R [0 + 1 / 2; 0 + 1 / 4 + 1 / 2]%R [mkRow 0 1 0; mkRow 1 1 2].
Definition mt_x0 : XReg := mkXR [0] false [1; 1]%R [0; 0]%R [0; 0]%R [0; 0]%R [1 / 2; 1 / 4]%R mt_sm.
Definition mt_x1 : XReg := mkXR [1] false [2; 2]%R [0; 0]%R [0; 0]%R [0; 0]%R [3 / 2; 5 / 4]%R mt_sm.
Lemma mt_physical : physical 2 2 (fun _ => mt_sc) [mt_x0; mt_x1].
Proof.
  split; [split; [repeat constructor; cbn; intuition lia|cbn; intuition lia]|]. split.
  - intros x [<-|[<-|[]]]; (split; [unfold compress, band, mt_sc, mf_sc; cbn [first_bound last_bound map seq]; rewrite ?(Rltb_true 0 (1 / 2)), ?(Rltb_true 0 (1 / 4)), ?(Rltb_false 0 0) by lra; reflexivity|]; split; [intros i g Hi Hg _; destruct i as [|[|i]]; destruct g as [|[|g]]; try lia; unfold mt_sc, mf_sc; lra|]; repeat split; reflexivity).
  - split; [intros i Hi; cbn; lia|]. intros x g [<-|[<-|[]]] Hg; destruct g as [|[|g]]; try lia; unfold at0; cbn; lra.
Qed.
Lemma mt_problem : forall gs, moc_problem (with_xs (mq_static gs) [mt_x0; mt_x1]) 2 (fun _ => mt_sc).
Proof.
  intros gs. destruct (mq_problem gs) as [A1 A2 A3 A4 A5 A6 A7 A8 A9 A10 A11 A12 A13 A14]. constructor; [exact A1|exact A2|exact A3|exact A4|exact A5|exact A6|exact A7|exact A8|exact A9|exact A10| | |exact A13|exact A14].
  - intros x g [<-|[<-|[]]] Hg; destruct g as [|[|g]]; try lia; unfold at0; cbn; lra.
  - intros x g _ Hg. destruct g as [|[|g]]; try lia; unfold mt_sc, mf_sc; lra.
Qed.
Example C190_instance : forall gs, let m := mq_static gs in let m2 := with_xs m [mt_x0; mt_x1] in moc_problem m2 2 (fun _ => mt_sc) /\ physical 2 2 (fun _ => mt_sc) [mt_x0; mt_x1] /\ xs_used m 2 [mt_x0; mt_x1] /\ transposed 2 (fun _ => mf_sc) (fun _ => mt_sc) (ms_xs m) [mt_x0; mt_x1] /\ dominated m2 2 (fun _ => mt_sc) (fun _ => 1%R) (3 / 4) /\
  exists s1 s2, fx_shape m 2 s1 /\ fx_shape m 2 s2 /\ fx_fixed m 2 (Some [[1; 0]; [0; 0]]%R) s1 /\ fx_fixed m2 2 (Some [[0; 0]; [0; 1]]%R) s2 /\ phi (fx_flux s1) 1 1 = phi (fx_flux s2) 0 0.
Proof.
  intros gs m m2. pose proof (mt_problem gs) as P2. pose proof mt_physical as Ph2. pose proof (mq_problem gs) as P. pose proof mf_physical as Ph.
  assert (U2 : xs_used m 2 [mt_x0; mt_x1]) by (intros x i g [<-|[<-|[]]] Ii Hg; cbn in Ii; destruct Ii as [<-|[]]; destruct g as [|[|g]]; try lia; reflexivity). assert (Tr : transposed 2 (fun _ => mf_sc) (fun _ => mt_sc) (ms_xs m) [mt_x0; mt_x1]) by (repeat constructor).
  assert (D2 : dominated m2 2 (fun _ => mt_sc) (fun _ => 1%R) (3 / 4)) by (split; [intros; lra|]; intros x g [<-|[<-|[]]] Hg; destruct g as [|[|g]]; try lia; unfold at0, mt_sc, mf_sc; cbn; lra). split; [exact P2|]. split; [exact Ph2|]. split; [exact U2|]. split; [exact Tr|]. split; [exact D2|].
  pose proof (mf_dominated gs) as D1. change (dominated m 2 (fun _ => mf_sc) (fun _ => 1%R) (3 / 4)) in D1. pose proof (mf_shape gs 1) as F. change (fx_shape m 2 (mf_start 1)) in F. assert (X1 : ext_fits 2 2 (Some [[1; 0]; [0; 0]]%R)) by (intros [|[|i]] [|[|g]] Hi Hg; try lia; eexists; reflexivity). assert (X2 : ext_fits 2 2 (Some [[0; 0]; [0; 1]]%R)) by (intros [|[|i]] [|[|g]] Hi Hg; try lia; eexists; reflexivity).
  destruct (C186_converge m 2 _ _ _ (3 / 4) P Ph (mq_crossed gs) ltac:(cbn; lia) X1 ltac:(lra) D1) as (k1 & _ & H1). destruct (C186_converge m2 2 _ _ _ (3 / 4) P2 Ph2 (mq_crossed gs) ltac:(cbn; lia) X2 ltac:(lra) D2) as (k2 & _ & H2).
  destruct (H1 _ F) as (_ & s1 & _ & _ & _ & _ & F1 & _ & Fx1 & _). destruct (H2 _ F) as (_ & s2 & _ & _ & _ & _ & F2 & _ & Fx2 & _). exists s1, s2. do 4 (split; [assumption|]).
  pose proof (C190_adjoint m [mt_x0; mt_x1] 2 _ _ _ _ _ _ (3 / 4) (3 / 4) s1 s2 P P2 Ph Ph2 (mq_two_way gs) (mq_used gs) U2 Tr (mq_crossed gs) ltac:(cbn; lia) X1 X2 ltac:(lra) D1 ltac:(lra) D2 F1 F2 Fx1 Fx2) as E.
  unfold response in E. cbn [m mq_static ms_nreg ms_vol rsum] in E. unfold ext_at, at2, at0 in E. cbn [nth nth_error] in E. lra.
Qed.
