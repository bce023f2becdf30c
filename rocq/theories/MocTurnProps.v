(** C189: reciprocity holds for sweepers as they are set up. *)
From Coq Require Import String Ascii ZArith List Lia Bool Sorted Permutation Reals Lra.
From Verif Require Import RUtil ListUtil McModel XsModel SrcModel SrcProps SolModel SolProps EigProps MgModel MgProps MocMaxProps MocEigProps MocBalProps MeshModel MeshProofs AngModel AngProofs AngProps AqModel AqProps AqwProps BcModel BcProofs StdAlg MatModel GeomModel CoreModel CoreProofs PmModel RatModel RayModel RayProofs EquivProps LatProps RayTrModel RayProps MocModel MocProofs VolModel VolProps OrdProps MocSetModel MocSetProofs MocSetProps MocBuildProofs MocBuildProps MocRecipProofs MocRecipProps.
Import ListNotations.
Open Scope nat_scope.

(** ** Sweepers as they are set up *)
Lemma dir_turn : forall a x o b c, (0 < ox (adir a))%R -> (0 < oy (adir a))%R -> o < 4 -> x <> Z_NORM ->
  (match o with O => Some a | _ => to_octant a o end) = Some b ->
  (match Z.to_nat (nth (Z.to_nat (nth o (reflection x) 0%Z)) [2; 3; 0; 1]%Z 0%Z) with O => Some a | q => to_octant a q end) = Some c -> upwind_surface (adir c) x = upwind_surface (adir b) x.
Proof.
  intros a x o b c Hx Hy Ho Nz E1 E2. assert (Ax : Rabs (ox (adir a)) = ox (adir a)) by (apply Rabs_pos_eq; lra). assert (Ay : Rabs (oy (adir a)) = oy (adir a)) by (apply Rabs_pos_eq; lra).
  unfold to_octant, dir_octant in *. rewrite Ax, Ay in *. destruct x; [| |congruence]; (destruct o as [|[|[|[|o]]]]; [| | | |lia]); cbn in E1, E2; injection E1 as <-; injection E2 as <-; cbn [adir upwind_surface dir_cosines ox oy]; reflexivity.
Qed.
(** C189: a sweeper set up from any ray tag with volume correction (C165), with sides that reflect or are open, is one for which reciprocity holds. *)
Theorem C189_built : forall ulp same gauss yamamoto pin t o d q oct1 rd planes macro m ng sct, ulp_sound ulp -> (forall a, same a a = true) -> sensible o d -> usable gauss yamamoto q oct1 ->
  ray_data ulp same gauss yamamoto pin t d q planes = Got (o, rd) -> op_corr o <> CorrNone -> Forall (fun N => resolved (cd_hx d) (cd_hy d) (fst N) (snd N)) (rd_counts rd) -> Forall (traceable ulp d (rd_counts rd) (rd_quad rd)) planes -> Forall (fun p => (0 < snd p)%R) macro ->
  set_up d rd planes macro m ng -> (forall s, types (ms_in m) s = REFLECT \/ types (ms_in m) s = VACUUM) ->
  (forall g, g < ng -> length (ms_xstr m g) = ms_nreg m /\ Forall (fun x => 0 < x)%R (ms_xstr m g)) -> (forall x g, In x (ms_xs m) -> g < ng -> (0 < at0 (xr_tr x) g)%R /\ (0 <= sct x g g)%R) ->
  moc_problem m ng sct /\ two_way m.
Proof.
  intros ulp same gauss yamamoto pin t o d q oct1 rd planes macro m ng sct Hu Rf Se Us Erd Nc Rs Tr Hm Su Ty Xs Xm.
  assert (Sup : all_supported (ms_in m)) by (intros s; destruct (Ty s) as [-> | ->]; unfold supported; tauto).
  destruct (C165_problem ulp same gauss yamamoto pin t o d q oct1 rd planes macro m ng sct Hu Rf Se Us Erd Nc Rs Tr Hm Su Sup Xs Xm) as (P & Full & Sym). split; [exact P|]. constructor; [|exact Ty|exact Sym|exact Full].
  destruct Su as [U1 U2 U3 U4 _ _ _ _ _ _]. unfold ray_data in Erd. destruct (ray_options pin t) as [o'| |]; try discriminate. cbn [bind] in Erd. destruct (lay_quad same gauss yamamoto o' d q) as [[counts q']| |] eqn:El; try discriminate. cbn [bind fst snd] in Erd.
  destruct (all_out (plane_data ulp o' d counts q') planes) as [rs| |] eqn:Ea; try discriminate. cbn [bind] in Erd. injection Erd as -> <-. cbn [rd_counts rd_quad rd_rays] in *.
  destruct (laid_fits _ _ _ _ _ _ _ _ _ Rf Se Us El) as (new & Fit). pose proof Se as (_ & Hx & Hy & _). destruct (all_made ulp d counts q' new Hu Hx Hy Fit Rs o planes Nc Tr) as (rs' & Er & G). rewrite Ea in Er. injection Er as <-.
  set (n := length new) in *. pose proof Fit as (FA & FN & F0 & FW & F4 & FP & FD). fold n in FN, F0, F4, FP, FD. rewrite FN in U3.
  assert (Hz : forall k, k < 4 * n -> exists N, nth_error counts (k mod n) = Some N /\ (1 <= fst N)%Z /\ (1 <= snd N)%Z /\ nth_error (sizes (ms_in m)) k = Some (size_of N)).
  { unfold bc_size_helper in U1. cbn [rd_rays rd_quad rd_counts] in U1. destruct rs as [|r rs]; [discriminate|]. inversion G as [|u ? ? ? (Lg & _) _ E1 E2]. fold n in Lg. rewrite FN, Lg in U1. exact (proj2 (sizes_made d counts q' new Fit Rs _ U1)). }
  pose proof (mp_bc m ng sct P) as K. constructor; rewrite U3.
  - intros a s Ha Es. destruct (Hz a Ha) as (N & E1 & _ & _ & E2). rewrite Es in E2. injection E2 as ->. assert (Hr : rev_ang n a < 4 * n) by apply (rev_ang_spec _ _ Ha). destruct (Hz _ Hr) as (N' & E1' & _ & _ & E2'). assert (Md : (rev_ang n a) mod n = a mod n).
    { destruct (Nat.lt_ge_cases a (2 * n)) as [C|C]; [rewrite rev_le by exact C; apply Nat.mod_add; lia|rewrite rev_ge by lia; replace a with (a - 2 * n + 2 * n) at 2 by lia; symmetry; apply Nat.mod_add; lia]. }
    rewrite Md, E1 in E1'. injection E1' as <-. exact E2'.
  - intros a x Ha Hm2. pose proof (Nat.div_mod a n ltac:(lia)) as DM. pose proof (Nat.mod_upper_bound a n ltac:(lia)) as MU. set (oc := a / n) in *. set (r := a mod n) in *. assert (Ho : oc < 4) by nia. destruct (FD r MU) as (N & b & th & _ & N1 & N2 & Eb & Db & St & _).
    assert (Dp : (0 < ox (adir b))%R /\ (0 < oy (adir b))%R).
    { rewrite Db. unfold mod_dir, dir_angles. cbn [ox oy]. unfold mod_alpha. set (w := (cd_hy d * IZR (fst N) / (cd_hx d * IZR (snd N)))%R). assert (N1' : (0 < IZR (fst N))%R) by (apply IZR_lt; lia). assert (N2' : (0 < IZR (snd N))%R) by (apply IZR_lt; lia). assert (Wp : (0 < w)%R) by (unfold w; apply Rdiv_lt_0_compat; now apply Rmult_lt_0_compat).
      pose proof (atan_bound w) as [_ Ab]. assert (A0 : (0 < atan w)%R) by (rewrite <- atan_0; now apply atan_increasing). split; apply Rmult_lt_0_compat; auto; [apply cos_gt_0; lra|apply sin_gt_0; lra]. }
    assert (Rm : mirror (ms_in m) a x = Z.to_nat (nth oc (reflection x) 0%Z) * n + r /\ (Z.to_nat (nth oc (reflection x) 0%Z) < 4 -> x <> Z_NORM)).
    { unfold mirror, refl_n, reflect. rewrite U3. assert (Q : (Z.of_nat a / Z.of_nat n = Z.of_nat oc)%Z) by (unfold oc; rewrite Nat2Z.inj_div; reflexivity). rewrite Q. destruct (Z.ltb_spec (Z.of_nat oc) 0); [lia|]. rewrite Nat2Z.id. clearbody oc r. replace a with (oc * n + r) by lia. clear - Ho MU. destruct x; (destruct oc as [|[|[|[|oc]]]]; [| | | |lia]); cbn [reflection nth_error nth]; (split; [|try congruence; cbn; lia]); change (Z.to_nat 0) with 0; nia. }
    destruct Rm as [Rm Nz]. assert (Ho' : Z.to_nat (nth oc (reflection x) 0%Z) < 4) by (rewrite Rm in Hm2; nia). specialize (Nz Ho'). set (oc' := Z.to_nat (nth oc (reflection x) 0%Z)) in *. unfold type_at. rewrite U4, FA. rewrite Rm.
    assert (Rv : rev_ang n (oc' * n + r) = Z.to_nat (nth oc' [2; 3; 0; 1]%Z 0%Z) * n + r). { clearbody oc'. clear - Ho' MU. destruct oc' as [|[|[|[|oc']]]]; [| | | |lia]; [rewrite rev_le by lia|rewrite rev_le by lia|rewrite rev_ge by lia|rewrite rev_ge by lia]; cbn [nth]; change (Z.to_nat 0) with 0; lia. }
    rewrite Rv. assert (Hov : Z.to_nat (nth oc' [2; 3; 0; 1]%Z 0%Z) < 4) by (clearbody oc'; clear - Ho'; destruct oc' as [|[|[|[|oc']]]]; cbn; lia).
    assert (Ex : forall p, p < 4 -> nth_error (expand new) (p * n + r) = match p with O => Some b | _ => to_octant b p end) by (intros p Hp; apply (expand_nth new p r b); [lia|exact Eb]).
    replace a with (oc * n + r) at 1 by lia. rewrite (Ex _ Hov), (Ex _ Ho). destruct (match oc with O => Some b | S _ => to_octant b oc end) as [y|] eqn:Ey; [|exfalso; clear - Ey Ho; destruct oc as [|[|[|[|oc]]]]; [discriminate|discriminate|discriminate|discriminate|lia]].
    destruct (match Z.to_nat (nth oc' [2; 3; 0; 1]%Z 0%Z) with O => Some b | S _ => to_octant b (Z.to_nat (nth oc' [2; 3; 0; 1]%Z 0%Z)) end) as [z|] eqn:Ez; [|exfalso; clear - Ez Hov; destruct (Z.to_nat (nth oc' [2; 3; 0; 1]%Z 0%Z)) as [|[|[|[|k]]]]; [discriminate|discriminate|discriminate|discriminate|lia]].
    do 2 f_equal. apply (dir_turn b x oc y z (proj1 Dp) (proj2 Dp) Ho Nz Ey). fold oc'. rewrite <- Ez. destruct (Z.to_nat (nth oc' [2; 3; 0; 1]%Z 0%Z)); reflexivity.
Qed.
Print Assumptions C189_built.
(** The square core of C165 with mirrors all round. *)
Definition mirrored (b : BC) : BC := mkBC (n_group b) (sizes b) (fun _ => REFLECT) (n_oct b) (quad b) (data b).
Example C189_built_instance : forall gs, exists o rd m, ray_data Reqb Reqb None None true sq_t so_d so_q [sq_u] = Got (o, rd) /\ op_corr o <> CorrNone /\ Forall (traceable Reqb so_d (rd_counts rd) (rd_quad rd)) [sq_u] /\ set_up so_d rd [sq_u] sq_macro m 1 /\ ms_gs m = gs /\
  (forall s, types (ms_in m) s = REFLECT) /\ ms_planes m <> [] /\ moc_problem m 1 (fun _ _ _ => 0%R) /\ two_way m.
Proof.
  intros gs. destruct (C165_instance gs) as (o & q' & rd & m & Se & Eo & Nc & El & Rs & Tr & Er & Ec & Su & Gs & Vm & _ & P & _). destruct C164_instance as (Rf & _ & Us & _).
  assert (Eq : rd_quad rd = q'). { unfold ray_data in Er. rewrite Eo in Er. cbn [bind] in Er. rewrite El in Er. cbn [bind fst snd] in Er. destruct (all_out _ _) as [rs| |]; try discriminate. cbn [bind] in Er. injection Er as <-. reflexivity. }
  set (m' := mkMS (mirrored (ms_in m)) (ms_out m) (ms_xstr m) (ms_vol m) (ms_quad m) (ms_space m) (ms_gs m) (ms_nt m) (ms_nreg m) (ms_inner m) (ms_xs m) (ms_planes m)). assert (Su' : set_up so_d rd [sq_u] sq_macro m' 1) by (destruct Su; constructor; assumption).
  exists o, rd, m'. split; [exact Er|]. split; [exact Nc|]. assert (Tr' : Forall (traceable Reqb so_d (rd_counts rd) (rd_quad rd)) [sq_u]) by (rewrite Ec, Eq; exact Tr). split; [exact Tr'|]. split; [exact Su'|]. split; [exact Gs|]. split; [reflexivity|]. split.
  - destruct Su as [_ _ _ _ _ _ _ Mv _ (sl & Es & F)]. cbn [m' ms_planes]. intros E. rewrite E in F. inversion F as [L|]. rewrite <- L in Es. unfold sq_macro in Es. cbn [sweep_list nth_error] in Es. destruct (map fst (rd_rays rd)); [discriminate|]. discriminate.
  - apply (C189_built Reqb Reqb None None true sq_t o so_d so_q [so_a] rd [sq_u] sq_macro m' 1 (fun _ _ _ => 0%R) reqb_sound Rf Se Us Er Nc); auto.
    + rewrite Ec. exact Rs.
    + repeat constructor; cbn; lra.
    + exact (mp_xstr m 1 _ P).
    + intros x g Ix Hg. split; [exact (mp_tr m 1 _ P x g Ix Hg)|lra].
Qed.
