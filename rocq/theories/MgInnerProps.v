(** C98: the inner iterations of a group sweep; C99: the convergence record of the eigenvalue solver. *)
From Coq Require Import List Lia Bool Reals ZArith Arith Permutation Lra.
From Verif Require Import RUtil ListUtil McModel MeshModel AngModel BcModel StdAlg CoreModel ExpModel MocModel ScatModel ScatProofs MatModel MocProofs MocProps XsModel XsProps SrcModel SrcProps SolModel SolProps MgModel MgProps.
Import ListNotations.
Open Scope nat_scope.

(** ** C98: specification *)
(** One pass from [s] to [s'] for group [g]: the source is external plus within-group scattering of the flux before, per
    cross section and solid angle; the sweep starts from the boundary flux before; the group's flux is the sweep's result and
    the other groups are untouched. *)
Definition passes (m : MocStatic) (sct : XReg -> nat -> nat -> R) (g : nat) (src : list R) (s s' : MocState) : Prop :=
  exists f, (forall x i, In x (ms_xs m) -> In i (xr_reg x) -> (at0 (mg_q s') i * (4 * PI * at0 (xr_tr x) g) = at0 src i + sct x g g * phi (mg_flux s) i g)%R)
  /\ sweep1g (mkME (ms_in m) (ms_out m) g (ms_xstr m g) (ms_vol m) (fun _ => mg_q s') (ms_quad m) (ms_space m) (ms_gs m)) (ms_nt m) (ms_nreg m)
       (map (fun pb => plane_in (fst pb) (snd pb)) (combine (ms_planes m) (mg_bnd s))) = Ok (f, mg_bnd s')
  /\ length f = length (mg_flux s) /\ forall i h, i < length f -> phi (mg_flux s') i h = if h =? g then at0 f i else phi (mg_flux s) i h.
(** States linked one to the next. *)
Fixpoint linked {A} (r : A -> A -> Prop) (a : A) (l : list A) : Prop := match l with [] => True | b :: t => r a b /\ linked r b t end.

Lemma set_col_spec : forall g f fl fl', set_col g f fl = Some fl' -> length f = length fl /\ length fl' = length fl /\ map (@length R) fl' = map (@length R) fl /\
  forall i h, i < length f -> phi fl' i h = if h =? g then at0 f i else phi fl i h.
Proof.
  intros g. induction f as [|v f IH]; intros [|row fl] fl' E; cbn [set_col] in E; try discriminate.
  - injection E as <-. repeat split; auto. cbn. intros; lia.
  - destruct (set_nth row g v) as [r|] eqn:Er; [|discriminate]. destruct (set_col g f fl) as [l|] eqn:El; [|discriminate]. injection E as <-.
    destruct (IH _ _ El) as (A & B & C & D). destruct (set_at0 _ _ _ _ Er) as (La & Pa). split; [cbn; lia|]. split; [cbn; lia|]. split; [cbn; congruence|].
    intros [|i] h Hi; [|exact (D i h ltac:(cbn in Hi; lia))]. unfold phi. cbn [nth]. exact (Pa h).
Qed.
Lemma fits_map : forall nreg ng fl fl', flux_fits nreg ng fl -> length fl' = length fl -> map (@length R) fl' = map (@length R) fl -> flux_fits nreg ng fl'.
Proof.
  intros nreg ng fl fl' [A B] L M. split; [lia|]. intros row I. apply (in_map (@length R)) in I. rewrite M in I. apply in_map_iff in I. destruct I as (r & <- & I). now apply B.
Qed.
Lemma inner_spec : forall m ng sct g src s s', mesh_fits (ms_xs m) (ms_nreg m) -> data_fits ng sct (ms_xs m) -> flux_fits (ms_nreg m) ng (mg_flux s) ->
  length src = ms_nreg m -> length (mg_q s) = ms_nreg m -> g < ng -> (forall x, In x (ms_xs m) -> at0 (xr_tr x) g <> 0%R) ->
  moc_inner m g src s = Some s' -> passes m sct g src s s' /\ flux_fits (ms_nreg m) ng (mg_flux s') /\ length (mg_q s') = ms_nreg m.
Proof.
  intros m ng sct g src s s' M D F Ls Lq Hg Nz E. unfold moc_inner in E.
  destruct (self_scatter_ok true (ms_nreg m) ng sct (ms_xs m) (mg_flux s) src g (mg_q s) M D F Ls Lq Hg (fun _ => Nz)) as (q' & Eq & L & P & _). rewrite Eq in E.
  destruct (sweep1g _ _ _ _) as [[f bs]| |] eqn:Es; [|discriminate|discriminate]. destruct (set_col g f (mg_flux s)) as [fl|] eqn:Ec; [|discriminate]. injection E as <-. cbn [mg_flux mg_q mg_bnd].
  destruct (set_col_spec _ _ _ _ Ec) as (A & B & C & V). split; [|split; [exact (fits_map _ _ _ _ F B C)|exact L]].
  exists f. cbn [mg_flux mg_q mg_bnd]. split; [|split; [exact Es|split; [exact A|exact V]]].
  intros x i I Ii. rewrite (P x i I Ii). pose proof PI_RGT_0. specialize (Nz x I). field. split; [lra|exact Nz].
Qed.
(** C98: a group sweep is exactly the given number of passes, each starting where the one before stopped. *)
Theorem C98_sweep : forall m ng sct g src s s', mesh_fits (ms_xs m) (ms_nreg m) -> data_fits ng sct (ms_xs m) -> flux_fits (ms_nreg m) ng (mg_flux s) ->
  length src = ms_nreg m -> length (mg_q s) = ms_nreg m -> g < ng -> (forall x, In x (ms_xs m) -> at0 (xr_tr x) g <> 0%R) ->
  moc_sweep m g src s = Some s' ->
  exists l, length l = ms_inner m /\ linked (passes m sct g src) s l /\ last l s = s' /\ forall h i, h <> g -> i < ms_nreg m -> phi (mg_flux s') i h = phi (mg_flux s) i h.
Proof.
  intros m ng sct g src s s' M D F Ls Lq Hg Nz E. unfold moc_sweep in E. revert s F Lq E. induction (ms_inner m) as [|n IH]; intros s F Lq E; cbn [moc_inners] in E.
  - injection E as <-. exists []. repeat split; auto.
  - destruct (moc_inner m g src s) as [t|] eqn:Ei; [|discriminate]. destruct (inner_spec m ng sct g src s t M D F Ls Lq Hg Nz Ei) as (P & Ft & Lt).
    destruct (IH t Ft Lt E) as (l & A & B & C & V). exists (t :: l). split; [cbn; lia|]. split; [split; [exact P|exact B]|]. split.
    + destruct l as [|u l]; [exact C|]. change (last (t :: u :: l) s) with (last (u :: l) s). rewrite <- C. clear. revert u. induction l as [|w l IH]; intros u; [reflexivity|]. exact (IH w).
    + intros h i Hh Hi. rewrite (V h i Hh Hi). destruct P as (f & _ & _ & Lf & Pf). destruct F as [F _]. rewrite Pf by lia. destruct (Nat.eqb_spec h g); [contradiction|reflexivity].
Qed.
Print Assumptions C98_sweep.
Example C98_instance : exists s', moc_sweep mg_static 0 [6 * PI; 12 * PI]%R mg_start = Some s' /\ ms_inner mg_static = 1 /\ passes mg_static (fun x _ _ => at0 (scat (xr_sc x)) 0) 0 [6 * PI; 12 * PI]%R mg_start s'.
Proof.
  destruct (mg_one (6 * PI)%R (12 * PI)%R 0%R 0%R eq_refl eq_refl) as (bs & E). eexists. split; [exact E|]. split; [reflexivity|].
  destruct (C98_sweep mg_static 1 (fun x _ _ => at0 (scat (xr_sc x)) 0) 0 [6 * PI; 12 * PI]%R mg_start (mkMG [[4 * PI * 3]; [4 * PI * 3]]%R [3; 3]%R bs)) as (l & L & K & La & _); [| | | | | | |exact E|].
  - split; [cbn; repeat constructor; cbn; intuition lia|]. cbn. intros r I. intuition lia.
  - intros x [<-|[<-|[]]]; cbn [xr_sc xr_ch xr_nf xr_f xr_tr length]; (split; [|split; [|auto]]).
    + unfold compress, mg_sm. cbn. unfold band, first_bound, last_bound. rewrite !(Rltb_true 0 (1 / 2)) by lra. reflexivity.
    + intros i j Hi Hj. cbn. lra.
    + unfold compress, mg_sm. cbn. unfold band, first_bound, last_bound. rewrite !(Rltb_true 0 1) by lra. reflexivity.
    + intros i j Hi Hj. cbn. lra.
  - split; [reflexivity|]. cbn. intros row [<-|[<-|[]]]; reflexivity.
  - reflexivity.
  - reflexivity.
  - lia.
  - intros x [<-|[<-|[]]]; cbn; lra.
  - cbn [ms_inner mg_static] in L. destruct l as [|t [|? ?]]; try discriminate. cbn [linked last] in K, La. subst t. exact (proj1 K).
Qed.

(** ** C99: what the convergence record says *)
(** Sum of the squares of the differences of the first [n] entries. *)
Definition sum_diff2 (n : nat) (a b : list R) : R := fold_right Rplus 0%R (map (fun i => (nth i a 0 - nth i b 0) * (nth i a 0 - nth i b 0))%R (seq 0 n)).
(** Regions whose material produces fission neutrons. *)
Definition fissile (xs : list XReg) : list nat := concat (map xr_reg (filter (fun x => existsb (fun v => Rltb 0 v) (xr_nf x)) xs)).
Lemma n_fissile_count : forall xs, n_fissile xs = length (fissile xs).
Proof.
  unfold n_fissile, fissile. induction xs as [|x xs IH]; [reflexivity|]. cbn [map list_sum fold_right filter]. change (fold_right Nat.add 0) with list_sum. rewrite IH. destruct (existsb _ _); [cbn [map concat]; rewrite app_length|]; lia.
Qed.
Lemma sum_sq_spec : forall n a b e, sum_sq n a b = Some e -> e = sum_diff2 n a b /\ n <= length a /\ n <= length b.
Proof.
  unfold sum_diff2. induction n as [|n IH]; intros a b e E; [cbn in E; injection E as <-; cbn; repeat split; lia|]. destruct a as [|x a], b as [|y b]; cbn [sum_sq] in E; try discriminate.
  destruct (sum_sq n a b) as [r|] eqn:Er; [|discriminate]. injection E as <-. destruct (IH a b r Er) as (-> & A & B). cbn [length]. split; [|lia]. cbn [seq map fold_right nth]. f_equal. rewrite <- seq_shift, map_map. reflexivity.
Qed.
Lemma sum_diff2_nonneg : forall n a b, (0 <= sum_diff2 n a b)%R.
Proof. intros n a b. unfold sum_diff2. induction (seq 0 n) as [|i l IH]; cbn [map fold_right]; [lra|]. pose proof (Rle_0_sqr (nth i a 0%R - nth i b 0%R)%R) as Q. unfold Rsqr in Q. lra. Qed.
Lemma sum_diff2_zero : forall n a b, sum_diff2 n a b = 0%R <-> forall i, i < n -> nth i a 0%R = nth i b 0%R.
Proof.
  intros n a b. unfold sum_diff2. assert (Q : forall l, (0 <= fold_right Rplus 0 (map (fun i => (nth i a 0 - nth i b 0) * (nth i a 0 - nth i b 0)) l))%R /\ (fold_right Rplus 0 (map (fun i => (nth i a 0 - nth i b 0) * (nth i a 0 - nth i b 0)) l) = 0 <-> forall i, In i l -> nth i a 0 = nth i b 0)%R).
  { induction l as [|i l [I J]]; cbn [map fold_right]; [split; [lra|split; [intros _ i []|reflexivity]]|]. pose proof (Rle_0_sqr (nth i a 0%R - nth i b 0%R)%R) as Q. unfold Rsqr in Q. split; [lra|]. split.
    - intros E k [<-|K]; [|apply (proj1 J); [lra|exact K]]. assert (Z : ((nth i a 0 - nth i b 0) * (nth i a 0 - nth i b 0) = 0)%R) by lra. apply Rmult_integral in Z. lra.
    - intros H. rewrite (proj2 J) by (intros k K; apply H; now right). rewrite (H i (or_introl eq_refl)). lra. }
  destruct (Q (seq 0 n)) as [_ [A B]]. split.
  - intros E i Hi. apply (A E). apply in_seq. lia.
  - intros H. apply B. intros i I. apply in_seq in I. apply H. lia.
Qed.
(** C99: each iteration appends the eigenvalue, its change, and the root mean square difference, over fissile regions,
    of the new and previous fission sources, both normalised. *)
Theorem C99_record : forall Sw flux sweep xs ngr nreg vol (s s' : ESt Sw), eigen_iter Sw flux sweep xs ngr nreg vol s = Got s' ->
  exists err f g, e_hist Sw s' = e_hist Sw s ++ [(e_k Sw s', Rabs (e_k Sw s' - e_k Sw s), err)%R] /\ (0 <= err)%R /\
    (err * err * INR (length (fissile xs)) = sum_diff2 nreg (e_fs Sw s') (e_fsp Sw s'))%R /\
    calc_fission_source (e_k Sw s) xs ngr (flux (e_sw Sw s)) (e_fs Sw s) = Some g /\ calc_fission_source (e_k Sw s') xs ngr (flux (e_sw Sw s')) g = Some f /\
    (exists c, e_fs Sw s' = map (fun v => v * c)%R f) /\ (exists c, e_fsp Sw s' = map (fun v => v * c)%R g) /\
    total (e_fs Sw s') = INR (count_pos f) /\ total (e_fsp Sw s') = INR (count_pos g).
Proof.
  intros Sw flux sweep xs ngr nreg vol s s' E. unfold eigen_iter in E. destruct (eigen_step Sw flux sweep xs ngr nreg vol s) as [s1|] eqn:E1; [|discriminate].
  destruct (normalize (e_fs Sw s1)) as [[f a]|] eqn:Na; [|discriminate]. destruct (normalize (e_fsp Sw s1)) as [[g b]|] eqn:Nb; [|discriminate]. destruct (sum_sq nreg f g) as [e|] eqn:Es; [|discriminate].
  destruct (Nat.eqb_spec (n_fissile xs) 0) as [|Hn]; [discriminate|]. injection E as <-. cbn [e_hist e_k e_fs e_fsp e_sw].
  unfold eigen_step in E1. destruct (calc_fission_source (e_k Sw s) xs ngr (flux (e_sw Sw s)) (e_fs Sw s)) as [f1|] eqn:C1; [|discriminate]. destruct (fss_groups Sw flux sweep xs nreg None (Some f1) 0 ngr (e_src Sw s, e_sw Sw s)) as [[src' sw']|]; [|discriminate].
  destruct (total_fission xs ngr (flux sw') vol) as [t1|]; [|discriminate]. destruct (total_fission xs ngr (flux (e_sw Sw s)) vol) as [t2|]; [|discriminate]. destruct (Reqb t2 0); [discriminate|].
  destruct (calc_fission_source (e_k Sw s * t1 / t2)%R xs ngr (flux sw') f1) as [f2|] eqn:C2; [|discriminate]. injection E1 as <-. cbn [e_hist e_k e_kp e_fs e_fsp e_sw] in *.
  destruct (sum_sq_spec _ _ _ _ Es) as (-> & _ & _). pose proof (sum_diff2_nonneg nreg f g) as P. assert (Hp : (0 < INR (n_fissile xs))%R) by (apply lt_0_INR; lia).
  exists (sqrt (sum_diff2 nreg f g / INR (n_fissile xs)))%R, f2, f1. split; [reflexivity|]. split; [apply sqrt_pos|]. split.
  { rewrite sqrt_sqrt by (apply Rmult_le_pos; [exact P|apply Rlt_le, Rinv_0_lt_compat, Hp]). rewrite <- n_fissile_count. field. lra. }
  split; [reflexivity|]. split; [exact C2|].
  assert (Q : forall l l' c, normalize l = Some (l', c) -> (exists c, l' = map (fun v => v * c)%R l) /\ total l' = INR (count_pos l)).
  { clear. intros l l' c E. assert (H : total l <> 0%R) by (intros Z; unfold normalize in E; destruct (Reqb_spec (total l) 0); [discriminate|contradiction]). destruct (C52_sum l H) as (m & d & E' & -> & T). rewrite E in E'. injection E' as -> ->. split; [exists d; reflexivity|exact T]. }
  destruct (Q _ _ _ Na) as [A1 A2]. destruct (Q _ _ _ Nb) as [B1 B2]. auto.
Qed.
Print Assumptions C99_record.
(** C99: the recorded source error vanishes exactly when the two normalised sources agree in every region. *)
Theorem C99_zero : forall Sw flux sweep xs ngr nreg vol (s s' : ESt Sw) h k dk, eigen_iter Sw flux sweep xs ngr nreg vol s = Got s' -> e_hist Sw s' = h ++ [(k, dk, 0%R)] ->
  forall i, i < nreg -> nth i (e_fs Sw s') 0%R = nth i (e_fsp Sw s') 0%R.
Proof.
  intros Sw flux sweep xs ngr nreg vol s s' h k dk E H. destruct (C99_record _ _ _ _ _ _ _ _ _ E) as (err & f & g & A & _ & B & _). rewrite H in A. apply app_inj_tail in A. destruct A as [_ A]. injection A as _ _ <-.
  apply sum_diff2_zero. lra.
Qed.
Print Assumptions C99_zero.
(** C99: a run that stops before its iteration limit stops on errors below both tolerances, and they are the errors of its
    last iteration. *)
Theorem C99_converged : forall Sw flux sweep xs ngr nreg vol p dumps src sw fs fsp s n du, ep_min p <= ep_max p -> eigen_run Sw flux sweep xs ngr nreg vol p dumps src sw fs fsp = Got (s, n, du) -> n < ep_max p ->
  exists h k dk err t, e_hist Sw s = h ++ [(k, dk, err)] /\ length h + 1 = n /\ (dk < ep_ktol p)%R /\ (err < ep_ptol p)%R /\ eigen_iter Sw flux sweep xs ngr nreg vol t = Got s /\ e_hist Sw t = h /\ dk = Rabs (e_k Sw s - e_k Sw t).
Proof.
  intros Sw flux sweep xs ngr nreg vol p dumps src sw fs fsp s n du Hm E Hn. unfold eigen_run in E. destruct (calc_fission_source 1 xs ngr (flux sw) fs) as [f|]; [|discriminate].
  destruct (C48_limits_partial _ _ _ _ _ _ _ _ _ Hm E) as (_ & _ & St & C & _). destruct (C Hn) as [Cv Mn]. clear C E. destruct n as [|n]; [lia|].
  assert (Q : forall n (a b : ESt Sw), steps (eigen_iter Sw flux sweep xs ngr nreg vol) (S n) a = Got b -> exists t, steps (eigen_iter Sw flux sweep xs ngr nreg vol) n a = Got t /\ eigen_iter Sw flux sweep xs ngr nreg vol t = Got b).
  { clear. induction n as [|n IH]; intros a b E.
    - exists a. split; [reflexivity|]. cbn [steps] in E. destruct (eigen_iter _ _ _ _ _ _ _ a); cbn in E; congruence.
    - cbn [steps] in E. destruct (eigen_iter Sw flux sweep xs ngr nreg vol a) as [c| |] eqn:Ea; try discriminate. destruct (IH c b E) as (t & A & B). exists t. split; [|exact B]. cbn [steps]. rewrite Ea. exact A. }
  destruct (Q _ _ _ St) as (t & A & B). destruct (C99_record _ _ _ _ _ _ _ _ _ B) as (err & f2 & g & H & _). destruct (history _ _ _ _ _ _ _ _ _ _ A) as (h & Hh & Lh). cbn [e_hist app] in Hh.
  exists h, (e_k Sw s), (Rabs (e_k Sw s - e_k Sw t)), err, t. unfold eigen_conv in Cv. rewrite H in Cv. rewrite rev_app_distr in Cv. cbn [rev app] in Cv. apply andb_prop in Cv. destruct Cv as [C1 C2].
  split; [rewrite <- Hh; exact H|]. split; [lia|]. split; [destruct (Rltb_spec (Rabs (e_k Sw s - e_k Sw t)) (ep_ktol p)); [assumption|discriminate]|]. split; [destruct (Rltb_spec err (ep_ptol p)); [assumption|discriminate]|]. auto.
Qed.
Print Assumptions C99_converged.
Example C99_instance : exists s, eigen_run _ (fun fl => fl) half_sweep [xr_one] 1 1 [1]%R (mkEP 1 1 5 0) [] [0]%R [[2]]%R [0]%R [0]%R = Got (s, 1, []) /\ e_hist _ s = [(3 / 2, 1 / 2, 0)]%R.
Proof.
  unfold eigen_run, calc_fission_source, eigen_solve. cbn [ep_max ep_min sort_z fold_right first_dump]. cbn [eigen_loop]. destruct (Reqb_spec 1 0) as [|_]; [lra|]. cbn [fs_mesh fs_groups xr_one xr_nf xr_reg nth_error map add_regs at2 set_nth].
  match goal with |- context [eigen_iter ?a ?b ?c ?d ?e ?f ?g ?st] => set (x := eigen_iter a b c d e f g st) end.
  assert (X : exists s, x = Got s /\ e_hist _ s = [(3 / 2, 1 / 2, 0)]%R).
  { unfold x, eigen_iter, eigen_step, calc_fission_source. cbn [e_k e_sw e_fs e_src e_hist e_kp e_fsp map]. destruct (Reqb_spec 1 0) as [|_]; [lra|]. cbn [fs_mesh fs_groups xr_one xr_nf xr_reg nth_error map add_regs at2 set_nth].
    cbn [fss_groups fss_group initialize_group map fission xr_one xr_ch xr_reg nth_error add_regs set_nth in_scatter xr_sc sm_one rows min_g max_g Nat.add Nat.sub scatter_row scat rpos Nat.eqb half_sweep repeat]. unfold total_fission. cbn [fis_mesh fis_groups xr_one xr_nf xr_reg nth_error fis_regs at2].
    destruct (Reqb_spec (0 + 2 * 1 * 3) 0) as [|_]; [lra|]. match goal with |- context [Reqb ?e 0] => destruct (Reqb_spec e 0) as [Z|_]; [exfalso; lra|] end.
    cbn [fs_mesh fs_groups xr_one xr_nf xr_reg nth_error map add_regs at2 set_nth e_fs e_fsp]. unfold normalize, total. cbn [fold_left].
    repeat match goal with |- context [Reqb ?e 0] => destruct (Reqb_spec e 0) as [Z|_]; [exfalso; field_simplify in Z; lra|] end. cbn [map sum_sq]. unfold n_fissile. cbn [map existsb xr_one xr_nf xr_reg]. rewrite (Rltb_true 0 3) by lra. cbn [orb length list_sum fold_right Nat.add Nat.eqb].
    eexists. split; [reflexivity|]. cbn [e_hist e_k e_kp app]. unfold count_pos. cbn [filter].
    match goal with |- context [Rltb 0 ?a] => rewrite (Rltb_true 0 a) by lra end. match goal with |- context [Rltb 0 ?a] => rewrite ?(Rltb_true 0 a) by lra end. cbn [length INR].
    f_equal. f_equal; [f_equal|].
    - lra.
    - match goal with |- Rabs ?a = _ => replace a with (1 / 2)%R by lra end. apply Rabs_right. lra.
    - match goal with |- sqrt ?a = _ => replace a with 0%R by (field; lra) end. exact sqrt_0. }
  destruct X as (s & -> & H). exists s. cbn [ep_max ep_min]. unfold eigen_conv. rewrite H. cbn [rev app ep_ktol ep_ptol]. rewrite (Rltb_true (1 / 2) 1), (Rltb_true 0 1) by lra. cbn [andb Nat.leb Nat.add]. match goal with |- context [(?a =? ?b)%Z] => change (a =? b)%Z with false end. split; reflexivity.
Qed.
