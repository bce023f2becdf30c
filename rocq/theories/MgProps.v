(** The MoC group sweep is homogeneous, so power iteration with it ignores the scale of the flux (C51). *)
From Coq Require Import List Lia Bool Reals ZArith Arith Permutation Lra.
From Verif Require Import RUtil ListUtil McModel MeshModel AngModel BcModel StdAlg CoreModel ExpModel MocModel ScatModel MatModel MocProofs MocProps XsModel SrcModel SolModel SolProps MgModel.
Import ListNotations.
Open Scope nat_scope.

Definition rmap {A B} (f : A -> B) (r : Res A) : Res B := match r with Ok a => Ok (f a) | Throw => Throw | UB => UB end.
Lemma sc_app : forall c a b, sc c (a ++ b) = sc c a ++ sc c b.
Proof. intros. unfold sc. apply map_app. Qed.
Lemma sc_rev : forall c l, rev (sc c l) = sc c (rev l).
Proof. intros. unfold sc. symmetry. apply map_rev. Qed.
Lemma sc_length : forall c l, length (sc c l) = length l.
Proof. intros. unfold sc. apply map_length. Qed.
Definition scp (c : R) (l : list (nat * R)) : list (nat * R) := map (fun p => (fst p, snd p * c)%R) l.
Lemma sc_track : forall c q es psi, track (sc c q) es (psi * c)%R = option_map (fun r => (scp c (fst r), sc c (snd r))) (track q es psi).
Proof.
  intros c q. induction es as [|[i e] es IH]; intros psi; cbn [track]; [reflexivity|]. rewrite sc_nth. destruct (nth_error q i) as [qb|]; cbn [option_map]; [|reflexivity].
  replace (psi * c - (psi * c - qb * c) * e)%R with ((psi - (psi - qb) * e) * c)%R by ring. rewrite IH. destruct (track q es (psi - (psi - qb) * e)%R) as [[ds ps]|]; cbn [option_map fst snd]; [|reflexivity]. cbn [scp sc map fst snd]. do 3 f_equal. f_equal. ring.
Qed.
Lemma sc_sweep_ray : forall c xstr q first rst i1 i2 ray, sweep_ray xstr (sc c q) first rst (i1 * c)%R (i2 * c)%R ray =
  option_map (fun o => mkRO (scp c (ro_fw o)) (scp c (ro_bw o)) (sc c (ro_psi1 o)) (sc c (ro_psi2 o))) (sweep_ray xstr q first rst i1 i2 ray).
Proof.
  intros. unfold sweep_ray. destruct (all_some _) as [es|]; [|reflexivity]. rewrite !sc_track. destruct (track q es i1) as [[d1 p1]|]; cbn [option_map fst snd]; [|reflexivity]. destruct (track q (rev es) i2) as [[d2 p2]|]; cbn [option_map fst snd ro_fw ro_bw ro_psi1 ro_psi2]; [|reflexivity]. now rewrite sc_rev.
Qed.
Lemma sc_add_at : forall c l i v, add_at (sc c l) i (v * c)%R = option_map (sc c) (add_at l i v).
Proof. intros c. induction l as [|x l IH]; intros [|i] v; cbn; auto; [do 2 f_equal; ring|]. specialize (IH i v). unfold sc in IH. rewrite IH. destruct (add_at l i v); reflexivity. Qed.
Lemma sc_deposit : forall c wt ds t, deposit wt (scp c ds) (sc c t) = option_map (sc c) (deposit wt ds t).
Proof.
  intros c wt. induction ds as [|[i d] ds IH]; intros t; cbn [scp map deposit fst snd]; [reflexivity|]. replace (d * c * wt)%R with (d * wt * c)%R by ring. rewrite sc_add_at. destruct (add_at t i (d * wt)%R); cbn [option_map]; [apply IH|reflexivity].
Qed.
Definition sc_store (c : R) (s : Store) : Store := mkSt (sc c (st_out s)) (map (sc c) (st_t s)).
Lemma sc_last : forall c l, last (sc c l) 0%R = (last l 0 * c)%R.
Proof. intros c. induction l as [|x l IH]; [cbn; ring|]. destruct l as [|y l]; [reflexivity|]. exact IH. Qed.
Lemma sc_hd : forall c l, hd 0%R (sc c l) = (hd 0 l * c)%R.
Proof. intros c [|x l]; cbn; ring. Qed.
Lemma sc_set_t : forall c (l : list (list R)) i v, set_nth (map (sc c) l) i (sc c v) = option_map (map (sc c)) (set_nth l i v).
Proof. intros c. induction l as [|a l IH]; intros [|i] v; cbn; auto. rewrite IH. destruct (set_nth l i v); reflexivity. Qed.
Lemma sc_ray_step : forall c xstr q first ctx bin tr s, ray_step xstr (sc c q) first ctx (sc c bin) tr (sc_store c s) = option_map (sc_store c) (ray_step xstr q first ctx bin tr s).
Proof.
  intros c xstr q first ctx bin [tid ray] s. unfold ray_step. rewrite !sc_nth. cbn [sc_store st_t st_out]. rewrite nth_error_map. destruct (nth_error bin (ac_in1 ctx + ray_bc1 ray)) as [i1|]; cbn [option_map]; [|reflexivity]. destruct (nth_error bin (ac_in2 ctx + ray_bc2 ray)) as [i2|]; cbn [option_map]; [|reflexivity].
  destruct (nth_error (st_t s) tid) as [t|]; cbn [option_map]; [|reflexivity]. rewrite sc_sweep_ray. destruct (sweep_ray _ _ _ _ _ _ _) as [o|]; cbn [option_map ro_fw ro_bw ro_psi1 ro_psi2]; [|reflexivity].
  replace (scp c (ro_fw o) ++ scp c (ro_bw o)) with (scp c (ro_fw o ++ ro_bw o)) by (unfold scp; apply map_app). rewrite sc_deposit, sc_last, sc_set, sc_hd. destruct (deposit _ _ _) as [t'|]; cbn [option_map]; [|reflexivity]. destruct (set_nth (st_out s) _ _) as [b1|]; cbn [option_map]; [|reflexivity].
  rewrite sc_set, sc_set_t. destruct (set_nth b1 _ _); cbn [option_map]; [|reflexivity]. destruct (set_nth (st_t s) tid t'); reflexivity.
Qed.
Lemma sc_sweep_rays : forall c xstr q first ctx bin rays s, sweep_rays xstr (sc c q) first ctx (sc c bin) rays (sc_store c s) = option_map (sc_store c) (sweep_rays xstr q first ctx bin rays s).
Proof. intros c xstr q first ctx bin. induction rays as [|r rays IH]; intros s; cbn [sweep_rays]; [reflexivity|]. rewrite sc_ray_step. destruct (ray_step _ _ _ _ _ _ _); cbn [option_map]; [apply IH|reflexivity]. Qed.

Lemma sc_repeat0 : forall c n, sc c (repeat 0%R n) = repeat 0%R n.
Proof. intros c. induction n as [|n IH]; [reflexivity|]. cbn. f_equal; [ring|exact IH]. Qed.
Lemma sc_firstn : forall c n l, firstn n (sc c l) = sc c (firstn n l).
Proof. intros. unfold sc. apply firstn_map. Qed.
Lemma sc_skipn : forall c n l, skipn n (sc c l) = sc c (skipn n l).
Proof. intros. unfold sc. apply skipn_map. Qed.
Lemma sc_write : forall c d off v, write_range (sc c d) off (sc c v) = option_map (sc c) (write_range d off v).
Proof.
  intros c d off v. unfold write_range. rewrite !sc_length. destruct (_ <=? _); [|reflexivity]. cbn [option_map]. rewrite !sc_firstn, !sc_skipn. now rewrite !sc_app.
Qed.
Lemma sc_read : forall c d off n, read_range (sc c d) off n = option_map (sc c) (read_range d off n).
Proof. intros c d off n. unfold read_range. rewrite sc_length. destruct (_ <=? _); [|reflexivity]. cbn [option_map]. now rewrite sc_skipn, sc_firstn. Qed.
Lemma sc_face : forall c t d out oi oo n, apply_face t (sc c d) (sc c out) oi oo n = rmap (sc c) (apply_face t d out oi oo n).
Proof.
  intros c t d out oi oo n.
  assert (V : write_range (sc c d) oi (repeat 0%R n) = option_map (sc c) (write_range d oi (repeat 0%R n))) by (rewrite <- (sc_repeat0 c n) at 1; apply sc_write).
  assert (W : match read_range (sc c out) oo n with Some v => match write_range (sc c d) oi v with Some d' => Ok d' | None => UB end | None => UB end = rmap (sc c) match read_range out oo n with Some v => match write_range d oi v with Some d' => Ok d' | None => UB end | None => UB end).
  { rewrite sc_read. destruct (read_range _ _ _); cbn [option_map]; [|reflexivity]. rewrite sc_write. destruct (write_range d oi l); reflexivity. }
  destruct t; try reflexivity; cbn [apply_face]; first [exact W | rewrite V; destruct (write_range d oi _); reflexivity].
Qed.
Lemma sc_faces : forall c b out o g a norms d, update_faces b (with_data out (sc c o)) g a norms (sc c d) = rmap (sc c) (update_faces b (with_data out o) g a norms d).
Proof.
  intros c b out o g a. induction norms as [|n norms IH]; intros d; cbn [update_faces]; [reflexivity|]. destruct (nth_error (sizes b) a) as [s|]; [|reflexivity]. destruct (reflect _ _ _) as [ai|]; [|reflexivity]. destruct (_ =? 0); [reflexivity|].
  destruct (nth_error (quad b) _); [|reflexivity]. destruct (nth_error (BcModel.offsets 0 (sizes b)) _); [|reflexivity]. cbn [with_data sizes data]. destruct (nth_error (BcModel.offsets 0 (sizes out)) a); [|reflexivity]. rewrite sc_face. destruct (apply_face _ _ _ _ _ _); cbn [rmap]; [apply IH|reflexivity|reflexivity].
Qed.
Lemma sc_update_group : forall c b out o g d, update_group b (with_data out (sc c o)) g (sc c d) = rmap (sc c) (update_group b (with_data out o) g d).
Proof.
  intros c b out o g d. unfold update_group. revert d. generalize (seq 0 (length (sizes b))) as l. induction l as [|a l IH]; intros d; cbn [update_angles]; [reflexivity|]. unfold update_angle. rewrite sc_faces. destruct (update_faces _ _ _ _ _ _); cbn [rmap]; [apply IH|reflexivity|reflexivity].
Qed.

(** Environments that differ only in the source. *)
Definition sc_env (c : R) (e : MocEnv) : MocEnv := mkME (me_in e) (me_out e) (me_group e) (me_xstr e) (me_vol e) (fun a => sc c (me_q e a)) (me_quad e) (me_space e) (me_gs e).
Definition sc_ds (c : R) (p : list R * Store) : list R * Store := (sc c (fst p), sc_store c (snd p)).
Lemma sc_angle : forall c e first h iang rays din s, sweep_angle (sc_env c e) first h iang rays (sc c din) (sc_store c s) = rmap (sc_ds c) (sweep_angle e first h iang rays din s).
Proof.
  intros c e first h iang rays din s. unfold sweep_angle. change (ang_ctx (sc_env c e) h iang) with (ang_ctx e h iang). destruct (ang_ctx e h iang) as [ctx|]; [|reflexivity]. cbn [of_opt rbind sc_env me_xstr me_q me_gs me_in me_out me_group]. rewrite sc_sweep_rays.
  destruct (sweep_rays _ _ _ _ _ _ _) as [s'|]; cbn [option_map of_opt rbind]; [|reflexivity]. destruct (me_gs e); [|reflexivity]. cbn [sc_store st_out]. unfold update_angle. rewrite sc_faces. destruct (update_faces _ _ _ _ _ _); cbn [rmap rbind]; [|reflexivity|reflexivity]. rewrite sc_faces. destruct (update_faces _ _ _ _ _ _); reflexivity.
Qed.
Lemma sc_angles : forall c e first h angs iang din s, sweep_angles (sc_env c e) first h iang angs (sc c din) (sc_store c s) = rmap (sc_ds c) (sweep_angles e first h iang angs din s).
Proof.
  intros c e first h. induction angs as [|r angs IH]; intros iang din s; cbn [sweep_angles]; [reflexivity|]. rewrite sc_angle. destruct (sweep_angle _ _ _ _ _ _ _) as [[d' s']| |]; cbn [rmap rbind sc_ds fst snd]; [apply IH|reflexivity|reflexivity].
Qed.
Definition sc_plane (c : R) (p : PlaneIn) : PlaneIn := mkPI (pi_first p) (pi_height p) (pi_rays p) (sc c (pi_in p)) (sc c (pi_out p)).
Definition sc_bnd (c : R) (b : list R * list R) : list R * list R := (sc c (fst b), sc c (snd b)).
Lemma sc_planes : forall c e ps ts, sweep_planes (sc_env c e) (map (sc_plane c) ps) (map (sc c) ts) = rmap (fun r => (map (sc_bnd c) (fst r), map (sc c) (snd r))) (sweep_planes e ps ts).
Proof.
  intros c e. induction ps as [|p ps IH]; intros ts; cbn [map sweep_planes]; [reflexivity|]. cbn [sc_plane pi_first pi_height pi_rays pi_in pi_out]. change (mkSt (sc c (pi_out p)) (map (sc c) ts)) with (sc_store c (mkSt (pi_out p) ts)). rewrite sc_angles.
  destruct (sweep_angles _ _ _ _ _ _ _) as [[d s]| |]; cbn [rmap rbind sc_ds fst snd]; [|reflexivity|reflexivity]. cbn [sc_env me_gs me_in me_out me_group sc_store st_out st_t].
  assert (U : (if me_gs e then Ok (sc c d) else update_group (me_in e) (with_data (me_out e) (sc c (st_out s))) (me_group e) (sc c d)) = rmap (sc c) (if me_gs e then Ok d else update_group (me_in e) (with_data (me_out e) (st_out s)) (me_group e) d)) by (destruct (me_gs e); [reflexivity|apply sc_update_group]).
  rewrite U. clear U. destruct (if me_gs e then Ok d else _) as [d'| |]; cbn [rmap rbind]; [|reflexivity|reflexivity]. fold (sc_env c e). rewrite IH. destruct (sweep_planes e ps (st_t s)) as [[bs ts']| |]; reflexivity.
Qed.
Lemma sc_add_lists : forall c a b, add_lists (sc c a) (sc c b) = sc c (add_lists a b).
Proof. intros c. induction a as [|x a IH]; intros [|y b]; cbn; auto. f_equal; [ring|apply IH]. Qed.
Lemma sc_sum_threads : forall c n ts, sum_threads n (map (sc c) ts) = sc c (sum_threads n ts).
Proof.
  intros c n ts. unfold sum_threads. rewrite <- (sc_repeat0 c n) at 1. generalize (repeat 0%R n) as a. induction ts as [|t ts IH]; intros a; cbn [map fold_left]; [reflexivity|]. rewrite sc_add_lists. apply IH.
Qed.
Lemma sc_finish : forall c a x v q, finish (sc c a) x v (sc c q) = option_map (sc c) (finish a x v q).
Proof.
  intros c. induction a as [|a0 a IH]; intros x v q; [reflexivity|]. destruct x as [|x0 x]; [reflexivity|]. destruct v as [|v0 v]; [reflexivity|]. destruct q as [|q0 q]; [reflexivity|].
  change (sc c (a0 :: a)) with ((a0 * c)%R :: sc c a). change (sc c (q0 :: q)) with ((q0 * c)%R :: sc c q). cbn [finish]. destruct (Reqb_spec (x0 * v0) 0) as [|H]; [reflexivity|]. rewrite IH. destruct (finish a x v q); cbn [option_map]; [|reflexivity]. unfold sc; cbn [map]. do 2 f_equal. field. split; intros Z; apply H; rewrite Z; ring.
Qed.
(** C51: the one-group MoC sweep is homogeneous: scaling the source and all boundary fluxes scales scalar and boundary
    fluxes, whatever the geometry, rays, threads and boundary conditions. *)
Theorem C51_moc_sweep : forall c e nt n ps, sweep1g (sc_env c e) nt n (map (sc_plane c) ps) = rmap (fun r => (sc c (fst r), map (sc_bnd c) (snd r))) (sweep1g e nt n ps).
Proof.
  intros c e nt n ps. unfold sweep1g. assert (Z : repeat (repeat 0%R n) nt = map (sc c) (repeat (repeat 0%R n) nt)). { clear. induction nt as [|k IH]; [reflexivity|]. cbn. rewrite sc_repeat0. now f_equal. }
  rewrite Z at 1. rewrite sc_planes. destruct (sweep_planes _ _ _) as [[bs ts]| |]; cbn [rmap rbind fst snd]; [|reflexivity|reflexivity]. rewrite sc_sum_threads. cbn [sc_env me_xstr me_vol me_q]. rewrite sc_finish. destruct (finish _ _ _ _); reflexivity.
Qed.
Print Assumptions C51_moc_sweep.

Lemma sc_set_regs : forall c regs f f' v, (forall r, f' r = option_map (fun v => v * c)%R (f r)) -> set_regs regs f' (sc c v) = option_map (sc c) (set_regs regs f v).
Proof.
  intros c. induction regs as [|r regs IH]; intros f f' v H; cbn [set_regs]; [reflexivity|]. rewrite H. destruct (f r) as [x|]; cbn [option_map]; [|reflexivity]. rewrite sc_set. destruct (set_nth v r x); cbn [option_map]; [now apply IH|reflexivity].
Qed.
Lemma sc_self : forall c div xs fl src g q, self_scatter div xs (map (sc c) fl) (sc c src) g (sc c q) = option_map (sc c) (self_scatter div xs fl src g q).
Proof.
  intros c div. induction xs as [|x xs IH]; intros fl src g q; cbn [self_scatter]; [reflexivity|]. destruct (self_scat (xr_sc x) g) as [ss|]; [|reflexivity]. destruct (nth_error (xr_tr x) g) as [t|]; [|reflexivity]. destruct (div && Reqb t 0); [reflexivity|].
  set (f := if div then _ else _). rewrite (sc_set_regs c (xr_reg x) (fun i => match nth_error src i, at2 fl i g with Some s, Some p => Some ((s + p * ss) * f)%R | _, _ => None end)); [destruct (set_regs _ _ _); cbn [option_map]; [apply IH|reflexivity]|].
  intros r. rewrite sc_nth, sc_at2. destruct (nth_error src r); cbn [option_map]; [|reflexivity]. destruct (at2 fl r g); cbn [option_map]; [|reflexivity]. f_equal. ring.
Qed.
Lemma sc_set_col : forall c g f fl, set_col g (sc c f) (map (sc c) fl) = option_map (map (sc c)) (set_col g f fl).
Proof.
  intros c g. induction f as [|v f IH]; intros [|row fl]; cbn [sc map set_col]; try reflexivity. fold (sc c row). rewrite sc_set. specialize (IH fl). unfold sc at 1 in IH. destruct (set_nth row g v); cbn [option_map]; [|reflexivity]. rewrite IH. destruct (set_col g f fl); reflexivity.
Qed.
Definition sc_state (c : R) (s : MocState) : MocState := mkMG (map (sc c) (mg_flux s)) (sc c (mg_q s)) (map (sc_bnd c) (mg_bnd s)).
Lemma sc_moc : forall c m g src s, moc_sweep m g (sc c src) (sc_state c s) = option_map (sc_state c) (moc_sweep m g src s).
Proof.
  intros c m g src. unfold moc_sweep. generalize (ms_inner m) as n. induction n as [|n IH]; intros s; cbn [moc_inners]; [reflexivity|].
  assert (I : moc_inner m g (sc c src) (sc_state c s) = option_map (sc_state c) (moc_inner m g src s)).
  { unfold moc_inner. cbn [sc_state mg_flux mg_q mg_bnd]. rewrite sc_self. destruct (self_scatter _ _ _ _ _ _) as [q|]; cbn [option_map]; [|reflexivity].
    set (e := mkME (ms_in m) (ms_out m) g (ms_xstr m g) (ms_vol m) (fun _ => q) (ms_quad m) (ms_space m) (ms_gs m)).
    assert (P : map (fun pb => plane_in (fst pb) (snd pb)) (combine (ms_planes m) (map (sc_bnd c) (mg_bnd s))) = map (sc_plane c) (map (fun pb => plane_in (fst pb) (snd pb)) (combine (ms_planes m) (mg_bnd s)))).
    { generalize (ms_planes m) as a, (mg_bnd s) as b. induction a as [|p a IHa]; intros [|b0 b]; cbn; auto. f_equal. apply IHa. }
    rewrite P. pose proof (C51_moc_sweep c e (ms_nt m) (ms_nreg m) (map (fun pb => plane_in (fst pb) (snd pb)) (combine (ms_planes m) (mg_bnd s)))) as W. unfold sc_env in W. cbn [me_in me_out me_group me_xstr me_vol me_q me_quad me_space me_gs e] in W. rewrite W. fold e.
    destruct (sweep1g e _ _ _) as [[f bs]| |]; cbn [rmap fst snd]; [|reflexivity|reflexivity]. rewrite sc_set_col. destruct (set_col g f (mg_flux s)); reflexivity. }
  rewrite I. destruct (moc_inner m g src s); cbn [option_map]; [apply IH|reflexivity].
Qed.
(** C51: the MoC group sweep with its inner iterations is homogeneous ... *)
Theorem C51_moc_homogeneous : forall m, homogeneous mg_flux (moc_sweep m) (fun c a b => b = sc_state c a).
Proof.
  intros m. split; [intros c a b ->; reflexivity|]. intros c g src a b a' Hc -> E. exists (sc_state c a'). split; [|reflexivity]. rewrite sc_moc, E. reflexivity.
Qed.
Print Assumptions C51_moc_homogeneous.
(** ... so the whole eigenvalue calculation does not depend on the scale of the starting flux. *)
Theorem C51_moc_scale : forall m xs ngr nreg vol p dumps src sw fs fsp c s' n du, (0 < c)%R -> eigen_run MocState mg_flux (moc_sweep m) xs ngr nreg vol p dumps src sw fs fsp = Got (s', n, du) ->
  exists t', eigen_run MocState mg_flux (moc_sweep m) xs ngr nreg vol p dumps src (sc_state c sw) fs fsp = Got (t', n, du) /\ e_k _ t' = e_k _ s' /\ e_hist _ t' = e_hist _ s'.
Proof.
  intros m xs ngr nreg vol p dumps src sw fs fsp c s' n du Hc E. destruct (C51_scale MocState mg_flux (moc_sweep m) (fun c a b => b = sc_state c a) xs ngr nreg vol p dumps src sw (sc_state c sw) fs fsp c s' n du (C51_moc_homogeneous m) Hc eq_refl E) as (t' & A & B & C & _). eauto.
Qed.
Print Assumptions C51_moc_scale.

(** The reflected two-region problem of C27 with production equal to absorption: one outer iteration from the flat flux
    12 pi keeps it and finds k = 1; the same holds from any multiple of it. *)
Definition mg_sm (v : R) : SM := mkSM 1 [v]%R [0 + v]%R [mkRow 0 0 0].
Definition mg_xs : list XReg := [mkXR [0] true [1]%R [1 / 2]%R [1]%R [1]%R [1]%R (mg_sm (1 / 2)); mkXR [1] true [2]%R [1]%R [1]%R [1]%R [1]%R (mg_sm 1)].
Definition mg_static : MocStatic := mkMS ex_bc ex_bc (fun _ => [1; 2]%R) [1; 1 / 2]%R (repeat ex_a 4) [1; 1]%R true 2 2 1 mg_xs [(0, 1%R, [[(0, ex_r1); (1, ex_r2)]; [(0, ex_r1); (1, ex_r2)]])].
Definition mg_start : MocState := mkMG [[4 * PI * 3]; [4 * PI * 3]]%R [0; 0]%R [(repeat 3%R 8, repeat 0%R 8)].
Lemma mg_one : forall s0 s1 q0 q1, s0 = (6 * PI)%R -> s1 = (12 * PI)%R -> exists bs, moc_sweep mg_static 0 [s0; s1] (mkMG [[4 * PI * 3]; [4 * PI * 3]]%R [q0; q1] [(repeat 3%R 8, repeat 0%R 8)]) = Some (mkMG [[4 * PI * 3]; [4 * PI * 3]]%R [3; 3]%R bs).
Proof.
  intros s0 s1 q0 q1 -> ->. destruct C27_instance as (_ & _ & bs & E). exists bs. unfold moc_sweep. cbn [ms_inner mg_static moc_inners]. unfold moc_inner. cbn [ms_xs mg_static mg_xs mg_flux mg_q mg_bnd self_scatter xr_sc xr_tr xr_reg mg_sm nth_error].
  change (self_scat (mg_sm (1 / 2)) 0) with (Some (1 / 2)%R). change (self_scat (mg_sm 1) 0) with (Some 1%R). cbv iota. cbn [andb]. pose proof PI_RGT_0. destruct (Reqb_spec 1 0) as [|_]; [lra|]. cbn [set_regs nth_error at2 set_nth]. destruct (Reqb_spec 2 0) as [|_]; [lra|]. cbn [set_regs nth_error at2 set_nth].
  match goal with |- context [[?a; ?b]] => match a with context [(6 * PI)%R] => replace a with 3%R by (field; lra); replace b with 3%R by (field; lra) end end.
  change (map _ _) with [ex_plane [(0, ex_r1); (1, ex_r2)]]. change (mkME _ _ _ _ _ _ _ _ _) with ex_env. cbn [ms_nt ms_nreg mg_static]. rewrite E. reflexivity.
Qed.
Example C51_moc_instance : exists s, eigen_run MocState mg_flux (moc_sweep mg_static) mg_xs 1 2 [1; 1 / 2]%R (mkEP 1 1 1 0) [] [0; 0]%R mg_start [0; 0]%R [0; 0]%R = Got (s, 1, []) /\ e_k _ s = 1%R /\
  mg_flux (e_sw _ s) = [[4 * PI * 3]; [4 * PI * 3]]%R.
Proof.
  pose proof PI_RGT_0 as P. unfold eigen_run, calc_fission_source, eigen_solve, eigen_loop. cbn [ep_max ep_min sort_z fold_right first_dump]. destruct (Reqb_spec 1 0) as [|_]; [lra|]. cbn [mg_start mg_flux fs_mesh fs_groups mg_xs xr_nf xr_reg nth_error map add_regs at2 set_nth].
  unfold eigen_iter, eigen_step, calc_fission_source. cbn [e_k e_sw e_fs e_src e_hist e_kp e_fsp map]. destruct (Reqb_spec 1 0) as [|_]; [lra|]. cbn [mg_start mg_flux fs_mesh fs_groups mg_xs xr_nf xr_reg nth_error map add_regs at2 set_nth].
  cbn [mg_xs mg_flux mg_start at2 fss_groups fss_group initialize_group map fission xr_ch xr_reg nth_error add_regs set_nth in_scatter xr_sc mg_sm rows min_g max_g Nat.add Nat.sub scatter_row scat rpos Nat.eqb].
  unfold mg_start.   match goal with |- context [moc_sweep mg_static 0 [?a; ?b] _] => destruct (mg_one a b 0 0 ltac:(field; lra) ltac:(field; lra)) as (bs & E) end. rewrite E. cbn [mg_flux].
  unfold total_fission. cbn [mg_xs fis_mesh fis_groups xr_nf xr_reg nth_error fis_regs at2].
  match goal with |- context [Reqb ?e 0] => destruct (Reqb_spec e 0) as [Z|_]; [exfalso; lra|] end. match goal with |- context [(1 * ?e / ?e)%R] => replace (1 * e / e)%R with 1%R by (field; lra) end. destruct (Reqb_spec 1 0) as [|_]; [lra|].
  cbn [fs_mesh fs_groups xr_nf xr_reg nth_error map add_regs at2 set_nth e_fs e_fsp]. unfold normalize, total. cbn [fold_left].
  repeat match goal with |- context [Reqb ?e 0] => destruct (Reqb_spec e 0) as [Z|_]; [exfalso; field_simplify in Z; lra|] end. cbn [map sum_sq]. unfold n_fissile. cbn [mg_xs map existsb xr_nf xr_reg]. rewrite (Rltb_true 0 (1 / 2)) by lra. rewrite (Rltb_true 0 1) by lra. cbn [orb length list_sum fold_right Nat.add Nat.eqb].
  match goal with |- context [(?a =? ?b)%Z] => change (a =? b)%Z with false end. cbv iota. match goal with |- context [if ?b then _ else _] => destruct b end; eexists; (split; [reflexivity|]); cbn [e_k e_sw mg_flux]; auto.
Qed.
