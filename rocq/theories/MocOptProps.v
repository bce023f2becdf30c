(** C167: which ray options are accepted.  C168: which options of the MoC sweeper are accepted, and what zero inner iterations do.
    C169: which macroplanes are accepted. *)
From Coq Require Import String Ascii ZArith List Lia Bool Reals Lra.
From Verif Require Import RUtil ListUtil McModel XsModel SrcModel HomProps MocProofs SrcProps SolModel SolProps EigProps MgModel MgProps MocMaxProps MocEigProps StrModel AqxModel MatModel RatModel AqxProps MocSetModel MocOptModel.
Import ListNotations.
Open Scope nat_scope.

(** ** Specification *)

(** The option [o] says [v]: it is absent and [v] is the default, or its text, without surrounding blanks and in lower case, is a name of [v]. *)
Definition says {A} (o : option (list ascii)) (dflt : A) (names : list (string * A)) (v : A) : Prop :=
  match o with None => v = dflt | Some s => exists w, sanitize s = SVal (list_ascii_of_string w) /\ In (w, v) names end.
(** A text of 7-bit characters. *)
Definition plain (o : option (list ascii)) : Prop := forall s, o = Some s -> Forall (fun c => nat_of_ascii c < 128) s.

Lemma plain_sanitize : forall s, Forall (fun c => nat_of_ascii c < 128) s -> exists t, sanitize s = SVal t.
Proof.
  intros s F. unfold sanitize. destruct (existsb high s) eqn:E; [|eauto]. apply existsb_exists in E. destruct E as (c & I & H). rewrite Forall_forall in F. specialize (F c I). unfold high in H. apply Nat.leb_le in H. lia.
Qed.
(** Choosing by a list of names. *)
Definition table {A} (choose : list ascii -> Out A) (names : list (string * A)) : Prop := forall t, choose t <> Undef /\ forall v, choose t = Got v <-> exists w, t = list_ascii_of_string w /\ In (w, v) names.
Lemma text_says : forall A (dflt : A) o choose names v, table choose names -> (text_option dflt o choose = Got v <-> says o dflt names v).
Proof.
  intros A dflt o choose names v T. unfold text_option, says. destruct o as [s|]; [|split; congruence]. destruct (sanitize s) as [t| | |] eqn:E; [|split; [discriminate|intros (w & Q & _); discriminate]..].
  rewrite (proj2 (T t) v). split; intros (w & Q & I); exists w; (split; [congruence|exact I]).
Qed.
Lemma text_plain : forall A (dflt : A) o choose names, table choose names -> plain o -> text_option dflt o choose <> Undef.
Proof. intros A dflt o choose names T P. unfold text_option. destruct o as [s|]; [|discriminate]. destruct (plain_sanitize s (P s eq_refl)) as (t & ->). apply T. Qed.
Lemma table_nil : forall A, table (fun _ => @Threw A) [].
Proof. intros A t. split; [discriminate|]. intros v. split; [discriminate|]. intros (w & _ & []). Qed.
Lemma table_cons : forall A w (v : A) choose names, table choose names -> (forall v', ~ In (w, v') names) -> table (fun t => if is_type t w then Got v else choose t) ((w, v) :: names).
Proof.
  intros A w v choose names T N t. destruct (is_type t w) eqn:E.
  - apply is_type_spec in E. split; [discriminate|]. intros v'. split; [intros Q; injection Q as <-; exists w; split; [exact E|now left]|]. intros (w' & Q & I). rewrite E in Q. assert (w' = w) by (rewrite <- (string_of_list_ascii_of_string w'), <- Q; apply string_of_list_ascii_of_string). subst w'.
    destruct I as [I|I]; [now injection I as <-|destruct (N _ I)].
  - destruct (T t) as [T1 T2]. split; [exact T1|]. intros v'. rewrite T2. split; intros (w' & Q & I); exists w'; (split; [exact Q|]); [now right|]. destruct I as [I|I]; [|exact I]. injection I as -> ->. assert (is_type t w' = true) by (now apply is_type_spec). congruence.
Qed.
Lemma table_ext : forall A (f g : list ascii -> Out A) names, (forall t, f t = g t) -> table f names -> table g names.
Proof. intros A f g names E T t. rewrite <- (E t). exact (T t). Qed.
Lemma bind_got : forall A B (o : Out A) (f : A -> Out B) b, bind o f = Got b <-> exists a, o = Got a /\ f a = Got b.
Proof. intros A B o f b. unfold bind. destruct o; split; try discriminate; [eauto|intros (a' & E & H); now injection E as <-|intros (a' & E & _); discriminate|intros (a' & E & _); discriminate]. Qed.
Lemma bind_def : forall A B (o : Out A) (f : A -> Out B), o <> Undef -> (forall a, o = Got a -> f a <> Undef) -> bind o f <> Undef.
Proof. intros A B o f H K. destruct o; cbn; [now apply K|discriminate|congruence]. Qed.

Ltac names_apart := intros v' Hn; cbn in Hn; repeat (destruct Hn as [Hn|Hn]; [discriminate|]); exact Hn.

(** ** C167 *)

Definition volume_names : list (string * VolCorr) := [("flat"%string, CorrFlat); ("angle"%string, CorrAngle); ("none"%string, CorrNone)].
Definition modularity_names (pin : bool) : list (string * bool) := if pin then [("pin"%string, false); ("core"%string, true)] else [("core"%string, true)].
Definition method_names : list (string * ModMethod) := [("trig"%string, ModTrig); ("rational_fraction"%string, ModRational)].
Lemma volume_table : table (fun v => if is_type v "flat"%string then Got CorrFlat else if is_type v "angle"%string then Got CorrAngle else if is_type v "none"%string then Got CorrNone else Threw) volume_names.
Proof. repeat (apply table_cons; [|names_apart]). apply table_nil. Qed.
Lemma modularity_table : forall pin : bool, table (fun v => if is_type v "pin"%string then (if pin then Got false else Threw) else if is_type v "core"%string then Got true else Threw) (modularity_names pin).
Proof.
  intros [|]; unfold modularity_names; [repeat (apply table_cons; [|names_apart]); apply table_nil|]. apply (table_ext _ (fun t => if is_type t "core"%string then Got true else Threw)).
  - intros t. destruct (is_type t "pin"%string) eqn:E; [|reflexivity]. apply is_type_spec in E. subst t. reflexivity.
  - apply table_cons; [apply table_nil|names_apart].
Qed.
Lemma method_table : table (fun v => if is_type v "trig"%string then Got ModTrig else if is_type v "rational_fraction"%string then Got ModRational else Threw) method_names.
Proof. repeat (apply table_cons; [|names_apart]). apply table_nil. Qed.

(** C167: the options of the rays are accepted, and are those the tag asks for, exactly if there is a tag, it gives a spacing, which is
    positive, and its texts are among the known names; "pin" is known only if all pins have the same size. *)
Theorem C167_rays : forall pin t o, ray_options pin t = Got o <->
  rt_there t = true /\ rt_spacing t = Some (op_spacing o) /\ (0 < op_spacing o)%R /\ says (rt_volume t) CorrFlat volume_names (op_corr o) /\
  says (rt_modularity t) true (modularity_names pin) (op_core o) /\ says (rt_method t) ModRational method_names (op_method o).
Proof.
  intros pin t o. unfold ray_options. destruct (rt_there t); cbn [negb]; [|split; [discriminate|intros (Q & _); discriminate]].
  rewrite <- (text_says _ _ _ _ _ _ volume_table), <- (text_says _ _ _ _ _ _ (modularity_table pin)), <- (text_says _ _ _ _ _ _ method_table).
  destruct (rt_spacing t) as [s|].
  - destruct (Rleb_spec s 0) as [L|L]; [split; [discriminate|intros (_ & Q & P & _); injection Q as ->; lra]|]. split.
    + intros E. apply bind_got in E. destruct E as (c & E1 & E). apply bind_got in E. destruct E as (m & E2 & E). apply bind_got in E. destruct E as (h & E3 & E). injection E as <-. cbn [op_spacing op_corr op_core op_method]. repeat (split; [first [reflexivity|assumption|lra]|]). exact E3.
    + intros (_ & Q & P & E1 & E2 & E3). injection Q as Q. apply bind_got. eexists. split; [exact E1|]. apply bind_got. eexists. split; [exact E2|]. apply bind_got. eexists. split; [exact E3|]. destruct o. cbn in Q. subst. reflexivity.
  - destruct (Rleb_spec (-1) 0) as [L|L]; [|lra]. split; [discriminate|intros (_ & Q & _); discriminate].
Qed.
Print Assumptions C167_rays.
(** C167: with texts of 7-bit characters a tag that is not accepted is refused with an exception. *)
Theorem C167_refused : forall pin t, plain (rt_volume t) -> plain (rt_modularity t) -> plain (rt_method t) -> (forall o, ray_options pin t <> Got o) -> ray_options pin t = Threw.
Proof.
  intros pin t P1 P2 P3 N. destruct (ray_options pin t) as [o| |] eqn:E; [destruct (N o eq_refl)|reflexivity|]. exfalso. revert E. unfold ray_options. destruct (rt_there t); cbn [negb]; [|discriminate]. destruct (Rleb _ 0); [discriminate|].
  apply bind_def; [exact (text_plain _ _ _ _ _ volume_table P1)|]. intros c _. apply bind_def; [exact (text_plain _ _ _ _ _ (modularity_table pin) P2)|]. intros m _. apply bind_def; [exact (text_plain _ _ _ _ _ method_table P3)|]. discriminate.
Qed.
Print Assumptions C167_refused.
(** C167: pins count as having the same size if all their pitches compare equal to those of the first pin. *)
Theorem C167_pins : forall ulp dx dy, is_pin_modular ulp dx dy = true <-> (forall v w, In v dx -> hd_error dx = Some w -> ulp v w = true) /\ (forall v w, In v dy -> hd_error dy = Some w -> ulp v w = true).
Proof.
  assert (G : forall ulp l, forallb (fun v => ulp v (hd 0%R l)) l = true <-> forall v w, In v l -> hd_error l = Some w -> ulp v w = true).
  { intros ulp l. rewrite forallb_forall. split.
    - intros H v w I E. destruct l as [|x l]; [destruct I|]. injection E as <-. exact (H v I).
    - intros H v I. destruct l as [|x l]; [destruct I|]. exact (H v x I eq_refl). }
  intros ulp dx dy. unfold is_pin_modular. rewrite andb_true_iff, !G. reflexivity.
Qed.
Print Assumptions C167_pins.
Definition text (s : string) : option (list ascii) := Some (list_ascii_of_string s).
Example C167_instance : let t := mkRayTag true (Some 1%R) (text " Angle "%string) (text "PIN"%string) None in
  ray_options true t = Got (mkRayOpts 1 CorrAngle false ModRational) /\ ray_options false t = Threw /\ plain (rt_volume t) /\ plain (rt_modularity t) /\ plain (rt_method t) /\ (forall o, ray_options false t <> Got o) /\ is_pin_modular Reqb [1; 1]%R [2; 2; 2]%R = true.
Proof.
  assert (V : text_option CorrFlat (text " Angle "%string) (fun v => if is_type v "flat"%string then Got CorrFlat else if is_type v "angle"%string then Got CorrAngle else if is_type v "none"%string then Got CorrNone else Threw) = Got CorrAngle) by (vm_compute; reflexivity).
  assert (M : forall pin : bool, text_option true (text "PIN"%string) (fun v => if is_type v "pin"%string then (if pin then Got false else Threw) else if is_type v "core"%string then Got true else Threw) = if pin then Got false else Threw) by (intros [|]; vm_compute; reflexivity).
  assert (Tt : ray_options true (mkRayTag true (Some 1%R) (text " Angle "%string) (text "PIN"%string) None) = Got (mkRayOpts 1 CorrAngle false ModRational)). { unfold ray_options. cbn [rt_there rt_spacing rt_volume rt_modularity rt_method negb]. destruct (Rleb_spec 1 0); [lra|]. rewrite V. pose proof (M true) as M1. cbn [bind] in M1 |- *. rewrite M1. reflexivity. }
  assert (Tf : ray_options false (mkRayTag true (Some 1%R) (text " Angle "%string) (text "PIN"%string) None) = Threw). { unfold ray_options. cbn [rt_there rt_spacing rt_volume rt_modularity rt_method negb]. destruct (Rleb_spec 1 0); [lra|]. rewrite V. pose proof (M false) as M1. cbn [bind] in M1 |- *. rewrite M1. reflexivity. }
  intros t. split; [exact Tt|]. split; [exact Tf|]. split; [intros s Q; injection Q as <-; apply Forall_forall; intros c I; cbn in I; repeat (destruct I as [<-|I]; [vm_compute; lia|]); destruct I|].
  split; [intros s Q; injection Q as <-; apply Forall_forall; intros c I; cbn in I; repeat (destruct I as [<-|I]; [vm_compute; lia|]); destruct I|]. split; [intros s Q; discriminate|]. split; [unfold t; rewrite Tf; discriminate|].
  unfold is_pin_modular. cbn [hd forallb]. destruct (Reqb_spec 1 1) as [_|X]; [|congruence]. destruct (Reqb_spec 2 2) as [_|X]; [reflexivity|congruence].
Qed.

(** ** C168 *)

Definition update_names : list (string * bool) := [("jacobi"%string, false); ("j"%string, false); ("gs"%string, true)].
Lemma update_table : table (fun v => if is_type v "jacobi"%string || is_type v "j"%string then Got false else if is_type v "gs"%string then Got true else Threw) update_names.
Proof.
  apply (table_ext _ (fun v => if is_type v "jacobi"%string then Got false else if is_type v "j"%string then Got false else if is_type v "gs"%string then Got true else Threw)); [intros t; destruct (is_type t "jacobi"%string); reflexivity|].
  repeat (apply table_cons; [|names_apart]). apply table_nil.
Qed.
(** C168: the options of the sweeper are accepted, and are those asked for, exactly if there is a tag, it gives a number of inner iterations,
    which is not negative, and the way to update the boundary is "gs" (also the default), "jacobi" or "j". *)
Theorem C168_options : forall t o, sweep_options t = Got o <->
  st_there t = true /\ st_inner t = Some (so_inner o) /\ (0 <= so_inner o)%Z /\ says (st_update t) true update_names (so_gs o) /\ so_split o = match st_split t with Some b => b | None => false end.
Proof.
  intros t o. unfold sweep_options. destruct (st_there t); cbn [negb]; [|split; [discriminate|intros (Q & _); discriminate]]. rewrite <- (text_says _ _ _ _ _ _ update_table). destruct (st_inner t) as [n|].
  - destruct (Z.ltb_spec n 0) as [L|L]; [split; [discriminate|intros (_ & Q & P & _); injection Q as ->; lia]|]. split.
    + intros E. apply bind_got in E. destruct E as (c & E1 & E). injection E as <-. cbn [so_inner so_gs so_split]. auto.
    + intros (_ & Q & P & E1 & E2). injection Q as Q. apply bind_got. eexists. split; [exact E1|]. destruct o. cbn in Q, E2. subst. reflexivity.
  - split; [discriminate|intros (_ & Q & _); discriminate].
Qed.
Print Assumptions C168_options.
(** C168: the quadrature used is the one of the nearest enclosing tag that has one; there is an exception exactly if none has. *)
Theorem C168_quadrature : forall A (path : list (option A)), (forall q, find_angquad path = Got q <-> exists k, nth_error path k = Some (Some q) /\ forall j, j < k -> nth_error path j = Some None) /\
  (find_angquad path = Threw <-> Forall (fun x => x = None) path) /\ find_angquad path <> Undef.
Proof.
  intros A. induction path as [|[q0|] path (I1 & I2 & I3)]; cbn [find_angquad].
  - split; [intros q; split; [discriminate|intros ([|k] & E & _); discriminate]|]. split; [split; auto|discriminate].
  - split.
    + intros q. split; [intros E; injection E as <-; exists 0; split; [reflexivity|intros; lia]|]. intros ([|k] & E & H); [now injection E as <-|]. specialize (H 0 ltac:(lia)). discriminate.
    + split; [|discriminate]. split; [discriminate|]. intros F. inversion F. discriminate.
  - split.
    + intros q. rewrite I1. split.
      * intros (k & E & H). exists (S k). split; [exact E|]. intros [|j] Hj; [reflexivity|]. apply H. lia.
      * intros ([|k] & E & H); [discriminate|]. exists k. split; [exact E|]. intros j Hj. apply (H (S j)). lia.
    + split; [|exact I3]. rewrite I2. split; [now constructor|]. intros F. now inversion F.
Qed.
Print Assumptions C168_quadrature.

(** *** Zero inner iterations *)
Section Idle.
Context {Sw : Type} (flux : Sw -> list (list R)) (sweep : nat -> list R -> Sw -> option Sw) (sw : Sw) (nreg ng : nat) (sct : XReg -> nat -> nat -> R) (xs : list XReg) (vol : list R).
Hypothesis Idle : forall g src, sweep g src sw = Some sw.
Hypothesis Ff : flux_fits nreg ng (flux sw).
Hypothesis Ph : physical nreg ng sct xs.
Lemma idle_groups : forall ext fs cnt ig src src' sw', fss_groups Sw flux sweep xs nreg ext fs ig cnt (src, sw) = Some (src', sw') -> sw' = sw.
Proof.
  intros ext fs. induction cnt as [|cnt IH]; intros ig src src' sw' E; cbn [fss_groups] in E; [now injection E|]. unfold fss_group in E.
  destruct (initialize_group ext nreg ig src) as [s0|]; [|discriminate]. destruct (match fs with Some f => fission xs f ig s0 | None => Some s0 end) as [s1|]; [|discriminate]. destruct (in_scatter xs (flux sw) ig s1) as [s2|]; [|discriminate]. rewrite Idle in E. exact (IH _ _ _ _ E).
Qed.
Lemma sum_sq_same : forall n a e, sum_sq n a a = Some e -> e = 0%R.
Proof.
  induction n as [|n IH]; intros [|x a] e E; cbn [sum_sq] in E; try discriminate; try (now injection E as <-). destruct (sum_sq n a a) as [v|] eqn:Q; [|discriminate]. injection E as <-. rewrite (IH a v Q). ring.
Qed.
Lemma idle_iter : forall s s', e_sw Sw s = sw -> length (e_fs Sw s) = nreg -> eigen_iter Sw flux sweep xs ng nreg vol s = Got s' ->
  e_sw Sw s' = sw /\ e_k Sw s' = e_k Sw s /\ length (e_fs Sw s') = nreg /\ e_hist Sw s' = e_hist Sw s ++ [(e_k Sw s, 0, 0)%R].
Proof.
  intros s s' Es Lf E. unfold eigen_iter, eigen_step in E. rewrite Es in E. destruct (calc_fission_source (e_k Sw s) xs ng (flux sw) (e_fs Sw s)) as [f1|] eqn:E1; [|discriminate].
  destruct (fss_groups Sw flux sweep xs nreg None (Some f1) 0 ng (e_src Sw s, sw)) as [[src' sw']|] eqn:E2; [|discriminate]. apply idle_groups in E2. subst sw'.
  destruct (total_fission xs ng (flux sw) vol) as [t|]; [|discriminate]. destruct (Reqb_spec t 0) as [|Nt]; [discriminate|]. cbv zeta in E. replace (e_k Sw s * t / t)%R with (e_k Sw s) in E by (field; exact Nt).
  assert (K : e_k Sw s <> 0%R) by (intros Q; unfold calc_fission_source in E1; destruct (Reqb_spec (e_k Sw s) 0); [discriminate|contradiction]).
  destruct Ph as (M & D & _). destruct (C51_fission_source nreg ng sct (e_k Sw s) xs (flux sw) (e_fs Sw s) K M D Ff Lf) as (f & Q & L & _). rewrite E1 in Q. injection Q as <-.
  assert (E3 : calc_fission_source (e_k Sw s) xs ng (flux sw) f1 = Some f1).
  { rewrite <- E1. unfold calc_fission_source. destruct (Reqb (e_k Sw s) 0); [reflexivity|]. f_equal. rewrite <- Lf in L. clear - L. revert L. generalize (e_fs Sw s). induction f1 as [|x l IH]; intros [|y k] L; cbn in *; try discriminate; [reflexivity|]. f_equal. apply IH. lia. }
  rewrite E3 in E. cbn [e_fs e_fsp e_src e_sw e_k e_kp e_hist] in E. unfold normalize in E. destruct (Reqb (total f1) 0); [discriminate|]. destruct (sum_sq nreg _ _) as [e|] eqn:Eq; [|discriminate]. apply sum_sq_same in Eq. subst e. destruct (n_fissile xs =? 0); [discriminate|]. injection E as <-. cbn [e_fs e_fsp e_src e_sw e_k e_kp e_hist].
  split; [reflexivity|]. split; [reflexivity|]. split; [now rewrite map_length|]. repeat f_equal; [replace (e_k Sw s - e_k Sw s)%R with 0%R by ring; apply Rabs_R0|]. unfold Rdiv. rewrite Rmult_0_l. apply sqrt_0.
Qed.
Lemma idle_steps : forall n s s', e_sw Sw s = sw -> length (e_fs Sw s) = nreg -> steps (eigen_iter Sw flux sweep xs ng nreg vol) n s = Got s' -> e_hist Sw s' = e_hist Sw s ++ repeat (e_k Sw s, 0, 0)%R n.
Proof.
  induction n as [|n IH]; intros s s' Es Lf E; cbn [steps] in E; [injection E as <-; now rewrite app_nil_r|]. destruct (eigen_iter Sw flux sweep xs ng nreg vol s) as [s1| |] eqn:E1; try discriminate.
  destruct (idle_iter s s1 Es Lf E1) as (A & B & C & H). rewrite (IH s1 s' A C E), H, B, <- app_assoc. reflexivity.
Qed.
End Idle.

(** C168: with zero inner iterations a sweep changes nothing, and every eigenvalue calculation converges at once, as soon as its least
    number of iterations allows, to an eigenvalue of one and the flux it started from, whatever the core. *)
Theorem C168_idle : forall m ng sct vol p dumps src sw fs fsp, ms_inner m = 0 -> physical (ms_nreg m) ng sct (ms_xs m) -> length vol = ms_nreg m -> (forall i, i < ms_nreg m -> (0 < at0 vol i)%R) ->
  (Z.of_nat (ep_max p) < INT_MAX)%Z -> ep_min p < ep_max p -> (0 < ep_ktol p)%R -> (0 < ep_ptol p)%R -> flux_fits (ms_nreg m) ng (mg_flux sw) -> length src = ms_nreg m -> length fs = ms_nreg m ->
  (forall i h, i < ms_nreg m -> h < ng -> (0 <= phi (mg_flux sw) i h)%R) -> (0 < production (ms_xs m) ng (mg_flux sw) vol)%R ->
  (forall g q, moc_sweep m g q sw = Some sw) /\
  exists s du, eigen_run MocState mg_flux (moc_sweep m) (ms_xs m) ng (ms_nreg m) vol p dumps src sw fs fsp = Got (s, ep_min p + 1, du) /\ e_k _ s = 1%R /\ e_sw _ s = sw /\ e_hist _ s = repeat (1, 0, 0)%R (ep_min p + 1).
Proof.
  intros m ng sct vol p dumps src sw fs fsp Z0 Ph Lv Pv Hm Hmm K1 K2 Ff Ls Lf N P.
  assert (Idle : forall g q, moc_sweep m g q sw = Some sw) by (intros g q; unfold moc_sweep; rewrite Z0; reflexivity). split; [exact Idle|].
  assert (G : good_sweeper mg_flux (moc_sweep m) (fun s => s = sw) (ms_nreg m) ng). { split; [intros s ->; exact Ff|]. intros g q s Hg Lq -> Nq Ns. exists sw. split; [apply Idle|]. split; [reflexivity|]. split; [reflexivity|]. intros i Hi. now apply Ns. }
  destruct (C148_run mg_flux (moc_sweep m) (fun s => s = sw) (ms_nreg m) ng sct (ms_xs m) vol p dumps src sw fs fsp G Ph Lv Pv Hm eq_refl Ls Lf N P) as [(s & n & du & E & Fs & _ & _ & _ & Ek)|(_ & f & j & t & _ & _ & _ & (So & _ & _ & _ & _ & Pp) & (fs' & src' & sw' & _ & Q & Z))].
  - exists s, du. rewrite Fs in Ek.
    assert (E' := E). unfold eigen_run in E'. destruct (calc_fission_source 1 (ms_xs m) ng (mg_flux sw) fs) as [f|] eqn:Ef; [|discriminate].
    destruct (C51_fission_source (ms_nreg m) ng sct 1 (ms_xs m) (mg_flux sw) fs ltac:(lra) (proj1 Ph) (proj1 (proj2 Ph)) Ff Lf) as (f' & Q & Lf' & _). rewrite Ef in Q. injection Q as <-.
    set (it := eigen_iter MocState mg_flux (moc_sweep m) (ms_xs m) ng (ms_nreg m) vol) in *. set (s0 := mkE MocState src sw 1 1 f fsp []) in *.
    assert (Hi : forall i t, steps it i s0 = Got t -> e_hist _ t = repeat (1, 0, 0)%R i) by (intros i t Si; exact (idle_steps mg_flux (moc_sweep m) sw (ms_nreg m) ng sct (ms_xs m) vol Idle Ff Ph i s0 t eq_refl Lf' Si)).
    assert (Cv : forall i t, 0 < i -> steps it i s0 = Got t -> eigen_conv _ p t = true).
    { intros i t H0 Si. unfold eigen_conv. rewrite (Hi i t Si). destruct i as [|i]; [lia|]. replace (S i) with (i + 1) by lia. rewrite repeat_app, rev_app_distr. cbn [repeat rev app]. rewrite (Rltb_true 0 (ep_ktol p)), (Rltb_true 0 (ep_ptol p)) by assumption. reflexivity. }
    assert (Pre : forall a b x y, a <= b -> steps it b x = Got y -> exists t, steps it a x = Got t).
    { clear. induction a as [|a IH]; intros b x y L E; [cbn; eauto|]. destruct b as [|b]; [lia|]. cbn [steps] in *. destruct (it x) as [x1| |]; try discriminate. apply (IH b x1 y); [lia|exact E]. }
    assert (Hle : ep_min p <= ep_max p) by lia. destruct (C48_limits_partial _ _ _ _ _ _ _ _ _ Hle E') as (A & B & C & D & F).
    assert (En : n = ep_min p + 1).
    { destruct (Nat.lt_trichotomy n (ep_min p + 1)) as [L|[L|L]]; [destruct (D ltac:(lia)); lia|exact L|]. destruct (Pre (ep_min p + 1) n s0 s ltac:(lia) C) as (t & Et). specialize (F (ep_min p + 1) t ltac:(lia) Et (Cv (ep_min p + 1) t ltac:(lia) Et)). lia. }
    subst n. split; [exact E|]. split; [rewrite Ek; field; lra|]. split; [exact Fs|]. exact (Hi _ _ C).
  - exfalso. rewrite So in Q. apply (idle_groups mg_flux (moc_sweep m) sw (ms_nreg m) (ms_xs m) Idle) in Q. subst sw'. lra.
Qed.
Print Assumptions C168_idle.

(** The core of [C148_moc_instance] without inner iterations. *)
Definition id_static : MocStatic := mkMS mx_bc mx_bc (fun _ => [1; 2]%R) [1; 1]%R (repeat mx_a 4) [1; 1]%R true 2 2 0 [mo_x0; mo_x1] [(0, 1%R, [mx_rays; mx_rays])].
Example C168_instance : sweep_options (mkSweepTag true (Some 0%Z) (text " Jacobi"%string) None) = Got (mkSweepOpts 0 false false) /\ sweep_options (mkSweepTag true None None None) = Threw /\
  find_angquad [None; Some 3; None; Some 5] = Got 3 /\
  ms_inner id_static = 0 /\ physical (ms_nreg id_static) 1 (fun _ => mo_sc) (ms_xs id_static) /\ flux_fits (ms_nreg id_static) 1 (mg_flux mo_start) /\ (forall i h, i < ms_nreg id_static -> h < 1 -> (0 <= phi (mg_flux mo_start) i h)%R) /\ (0 < production (ms_xs id_static) 1 (mg_flux mo_start) [1; 1])%R /\
  exists s du, eigen_run MocState mg_flux (moc_sweep id_static) (ms_xs id_static) 1 2 [1; 1]%R (mkEP (1 / 100) (1 / 100) 10 2) [] [0; 0]%R mo_start [0; 0]%R [0; 0]%R = Got (s, 3, du) /\ e_k _ s = 1%R /\ e_sw _ s = mo_start.
Proof.
  split; [vm_compute; reflexivity|]. split; [reflexivity|]. split; [reflexivity|]. split; [reflexivity|]. assert (Ph : physical (ms_nreg id_static) 1 (fun _ => mo_sc) (ms_xs id_static)) by exact mo_physical. assert (Ff : flux_fits (ms_nreg id_static) 1 (mg_flux mo_start)) by exact (proj1 (mo_state true)).
  assert (N : forall i h, i < ms_nreg id_static -> h < 1 -> (0 <= phi (mg_flux mo_start) i h)%R) by (intros [|[|i]] [|h] Hi Hh; cbn in Hi; try lia; unfold phi; cbn; lra). assert (P : (0 < production (ms_xs id_static) 1 (mg_flux mo_start) [1; 1])%R) by (unfold production, phi; cbn; lra).
  do 4 (split; [assumption|]). destruct (C168_idle id_static 1 (fun _ => mo_sc) [1; 1]%R (mkEP (1 / 100) (1 / 100) 10 2) [] [0; 0]%R mo_start [0; 0]%R [0; 0]%R) as (_ & s & du & E & K & W & _); auto; try (cbn; lra || lia || reflexivity).
  - intros [|[|i]] Hi; cbn in Hi; try lia; unfold at0; cbn; lra.
  - exists s, du. auto.
Qed.

(** ** C169 *)

(** Planes [i] and [j] are in the same macroplane; [macro] holds the sizes of the macroplanes from the bottom up. *)
Definition together (macro : list nat) (i j : nat) : Prop := exists k, k < length macro /\ list_sum (firstn k macro) <= i < list_sum (firstn (S k) macro) /\ list_sum (firstn k macro) <= j < list_sum (firstn (S k) macro).
Lemma same_spec : forall ids lat is, Forall (fun i => i < length ids) is -> same_lattice ids lat is = if forallb (fun i => (nth i ids 0 =? lat)%Z) is then Got tt else Threw.
Proof.
  intros ids lat. induction is as [|i is IH]; intros F; [reflexivity|]. apply Forall_cons_iff in F. destruct F as [F1 F2]. cbn [same_lattice forallb]. rewrite (nth_error_nth' ids 0%Z F1). destruct (nth i ids 0 =? lat)%Z; [exact (IH F2)|reflexivity].
Qed.
Lemma check_spec : forall ids macro ip, Forall (fun n => 0 < n) macro -> ip + list_sum macro <= length ids ->
  (check_assembly ids ip macro = Got tt /\ forall i j, together macro i j -> nth (ip + i) ids 0%Z = nth (ip + j) ids 0%Z) \/ (check_assembly ids ip macro = Threw /\ exists i j, together macro i j /\ nth (ip + i) ids 0%Z <> nth (ip + j) ids 0%Z).
Proof.
  intros ids. induction macro as [|n macro IH]; intros ip F L.
  - left. split; [reflexivity|]. intros i j (k & K & _). cbn in K. lia.
  - apply Forall_cons_iff in F. destruct F as [F1 F2]. cbn [list_sum fold_right] in L. change (fold_right Nat.add 0 macro) with (list_sum macro) in L. cbn [check_assembly]. rewrite (nth_error_nth' ids 0%Z) by lia.
    rewrite same_spec by (apply Forall_forall; intros i Hi; apply in_seq in Hi; lia).
    assert (Tg : forall i j, together (n :: macro) i j <-> (i < n /\ j < n) \/ (n <= i /\ n <= j /\ together macro (i - n) (j - n))).
    { assert (Fs : forall k, list_sum (firstn (S k) (n :: macro)) = n + list_sum (firstn k macro)) by reflexivity. intros i j. split.
      - intros ([|k] & K & A & B); [left; rewrite Fs in A, B; cbn in A, B; lia|right]. rewrite !Fs in A, B. split; [lia|]. split; [lia|]. exists k. cbn [length] in K. split; [lia|]. lia.
      - intros [[A B]|(A & B & k & K & C & D)]; [exists 0; rewrite Fs; cbn; lia|]. exists (S k). rewrite !Fs. cbn [length]. split; [lia|]. lia. }
    destruct (forallb (fun i => (nth i ids 0 =? nth ip ids 0)%Z) (seq (ip + 1) (n - 1))) eqn:Eb.
    + assert (H1 : forall i, i < n -> nth (ip + i) ids 0%Z = nth ip ids 0%Z). { intros i Hi. destruct i as [|i]; [now rewrite Nat.add_0_r|]. rewrite forallb_forall in Eb. apply Z.eqb_eq. apply Eb. apply in_seq. lia. }
      cbn [bind]. destruct (IH (ip + n) F2 ltac:(lia)) as [[E H]|[E (i & j & T & Ne)]]; [left|right]; (split; [exact E|]).
      * intros i j T. apply Tg in T. destruct T as [[A B]|(A & B & T)]; [now rewrite !H1|]. specialize (H _ _ T). replace (ip + n + (i - n)) with (ip + i) in H by lia. replace (ip + n + (j - n)) with (ip + j) in H by lia. exact H.
      * exists (n + i), (n + j). split; [apply Tg; right; split; [lia|]; split; [lia|]; replace (n + i - n) with i by lia; replace (n + j - n) with j by lia; exact T|]. rewrite !Nat.add_assoc. exact Ne.
    + right. split; [reflexivity|]. assert (X : exists i, In i (seq (ip + 1) (n - 1)) /\ nth i ids 0%Z <> nth ip ids 0%Z).
      { clear - Eb. induction (seq (ip + 1) (n - 1)) as [|x l IH]; [discriminate|]. cbn [forallb] in Eb. destruct (Z.eqb_spec (nth x ids 0%Z) (nth ip ids 0%Z)) as [Q|Q]; [destruct (IH Eb) as (i & I & H); exists i; split; [now right|exact H]|exists x; split; [now left|exact Q]]. }
      destruct X as (i & I & Ne). apply in_seq in I. exists (i - ip), 0. split; [apply Tg; left; lia|]. rewrite Nat.add_0_r. replace (ip + (i - ip)) with i by lia. exact Ne.
Qed.
(** C169: for macroplanes that make up the height of the core, the sweeper is made exactly if in every assembly the planes of a macroplane have
    the same lattice; otherwise there is an exception. *)
Theorem C169_macroplanes : forall core macro, Forall (fun n => 0 < n) macro -> Forall (fun a => length a = list_sum macro) core ->
  (check_lattices core macro = Got tt <-> forall a i j, In a core -> together macro i j -> nth_error a i = nth_error a j) /\ (check_lattices core macro = Got tt \/ check_lattices core macro = Threw).
Proof.
  intros core macro Fm Fc. assert (Bd : forall i j, together macro i j -> i < list_sum macro /\ j < list_sum macro).
  { intros i j (k & K & A & B). assert (Q : list_sum (firstn (S k) macro) <= list_sum macro) by (rewrite <- (firstn_skipn (S k) macro) at 2; rewrite list_sum_app; lia). lia. }
  induction core as [|a core IH]; [cbn; split; [split; [intros _ b i j []|auto]|auto]|]. apply Forall_cons_iff in Fc. destruct Fc as [La Fc]. destruct (IH Fc) as [I1 I2]. cbn [check_lattices].
  assert (Nth : forall i j, together macro i j -> nth_error a i = Some (nth i a 0%Z) /\ nth_error a j = Some (nth j a 0%Z)) by (intros i j T; destruct (Bd i j T); split; apply nth_error_nth'; lia).
  destruct (check_spec a macro 0 Fm ltac:(lia)) as [[E H]|[E (i & j & T & Ne)]]; rewrite E; cbn [bind].
  - split; [|exact I2]. rewrite I1. split.
    + intros X b i j [<-|Ib] T; [destruct (Nth i j T) as [-> ->]; f_equal; exact (H i j T)|now apply X].
    + intros X b i j Ib. apply X. now right.
  - split; [|now right]. split; [discriminate|]. intros X. exfalso. specialize (X a i j ltac:(now left) T). destruct (Nth i j T) as [Q1 Q2]. rewrite Q1, Q2 in X. injection X as X. exact (Ne X).
Qed.
Print Assumptions C169_macroplanes.
Example C169_instance : check_lattices [[1; 1; 2]; [3; 3; 3]]%Z [2; 1] = Got tt /\ check_lattices [[1; 1; 2]; [3; 4; 4]]%Z [2; 1] = Threw /\ Forall (fun n => 0 < n) [2; 1] /\ Forall (fun a => length a = list_sum [2; 1]) [[1; 1; 2]; [3; 4; 4]]%Z.
Proof. split; [reflexivity|]. split; [reflexivity|]. split; repeat constructor. Qed.
