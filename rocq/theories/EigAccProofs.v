(** Pin fluxes written back unchanged, and loops in step with each other (for C174 to C176). *)
From Coq Require Import List Bool Reals ZArith Arith Lia Lra.
From Verif Require Import RUtil ListUtil McModel MatModel XsModel SrcModel SolModel MocModel MgModel PflModel.
From Verif Require Import MeshModel CmfdModel CmsModel EigAccModel.
From Verif Require Import HomProps MocProofs ScatProofs SrcProps SolProps PflProps.
Import ListNotations.
Open Scope nat_scope.

(** ** Reading pin fluxes and writing them back *)
Lemma wsum_right : forall h fl w, wsum fl (map (fun a => a * h)%R w) = (wsum fl w * h)%R.
Proof. intros h fl w. rewrite !wsum_lsum. revert w. induction fl as [|x fl IH]; intros [|y w]; cbn [map combine lsum fst snd]; try lra. rewrite IH. lra. Qed.
Lemma set_pins_same : forall cell nxy z h pins ipin input fl vs X V, h <> 0%R -> (forall p, In p pins -> good_pin p) -> plane_means pins fl (plane_vols h pins ++ V) = Some (vs, (X, V)) ->
  (forall j, j < length pins -> nth_error input (cell (ipin + j) + nxy * z) = Some (nth j vs 0%R)) -> (forall v, In v vs -> v <> 0%R) -> exists new, set_pins cell nxy z ipin pins input fl = Some (new, X, 0%R) /\ fl = new ++ X.
Proof.
  intros cell nxy z h. induction pins as [|p pins IH]; intros ipin input fl vs X V Hh G E I N; cbn [plane_means] in E.
  - cbn in E. injection E as <- <-. exists []. auto.
  - set (n := length (pg_areas p)) in *. destruct (pin_mean n fl _) as [v|] eqn:Em; [|discriminate]. unfold plane_vols in E, Em. cbn [flat_map] in E, Em. fold (plane_vols h pins) in E, Em. rewrite <- app_assoc in E, Em.
    destruct (firstn_skipn_app n (map (fun a => a * h)%R (pg_areas p)) (plane_vols h pins ++ V)) as [F2 S2]; [now rewrite map_length|]. rewrite S2 in E. destruct (plane_means pins (skipn n fl) _) as [[vs' rest]|] eqn:Er; [|discriminate]. injection E as <- ->.
    destruct (G p (or_introl eq_refl)) as [Gs Gn]. unfold pin_mean in Em. rewrite F2 in Em. destruct (Nat.ltb_spec (length fl) n) as [|Lf]; [discriminate|]. cbn [orb] in Em. destruct (length _ <? n); [discriminate|].
    rewrite vsum_scale, Gs in Em. destruct (Reqb_spec (pg_area p * h) 0) as [|Nz]; [discriminate|]. injection Em as Em. rewrite wsum_right in Em.
    assert (Fm : (wsum (firstn n fl) (pg_areas p) / pg_area p)%R = v) by (rewrite <- Em; field; auto).
    cbn [set_pins]. fold n. rewrite (proj2 (Nat.ltb_ge _ _) Lf). pose proof (I 0 ltac:(cbn; lia)) as I0. rewrite Nat.add_0_r in I0. cbn [nth] in I0. rewrite I0. destruct (Reqb_spec (pg_area p) 0) as [|_]; [contradiction|]. rewrite Fm.
    pose proof (N v (or_introl eq_refl)) as Nv. destruct (Reqb_spec v 0) as [|_]; [contradiction|].
    destruct (IH (S ipin) input (skipn n fl) vs' X V Hh (fun q Q => G q (or_intror Q)) Er) as (new & Es & Ef); [|intros w W; apply N; now right|].
    { intros j Hj. specialize (I (S j) ltac:(cbn; lia)). cbn [nth] in I. rewrite <- I. f_equal. f_equal. f_equal. lia. }
    rewrite Es. exists (firstn n fl ++ new). split; [|rewrite <- app_assoc, <- Ef; symmetry; apply firstn_skipn].
    assert (map (fun x => x * (v / v))%R (firstn n fl) = firstn n fl) as ->. { rewrite <- (map_id (firstn n fl)) at 2. apply map_ext. intros x. field. exact Nv. }
    f_equal. f_equal. ring.
Qed.
Lemma plane_means_rest : forall h pins fl V vs r, plane_means pins fl (plane_vols h pins ++ V) = Some (vs, r) -> exists X, r = (X, V) /\ length vs = length pins.
Proof.
  intros h. induction pins as [|p pins IH]; intros fl V vs r E; cbn [plane_means] in E; [cbn in E; injection E as <- <-; eauto|].
  destruct (pin_mean _ _ _); [|discriminate]. unfold plane_vols in E. cbn [flat_map] in E. fold (plane_vols h pins) in E. rewrite <- app_assoc in E.
  destruct (firstn_skipn_app (length (pg_areas p)) (map (fun a => a * h)%R (pg_areas p)) (plane_vols h pins ++ V)) as [_ S2]; [now rewrite map_length|]. rewrite S2 in E.
  destruct (plane_means pins _ _) as [[vs' r']|] eqn:Er; [|discriminate]. injection E as <- <-. destruct (IH _ _ _ _ Er) as (X & -> & L). exists X. split; [reflexivity|]. cbn. congruence.
Qed.
Lemma set_planes_same : forall cell nxy input ms hs z fl vss, length hs = length ms -> (forall h, In h hs -> h <> 0%R) -> (forall m, In m ms -> length (ml_pins m) = nxy /\ forall p, In p (ml_pins m) -> good_pin p) ->
  macro_means ms fl (mvols hs ms) = Some vss -> (forall k i, k < length ms -> i < nxy -> nth_error input (cell i + nxy * (z + k)) = Some (nth i (nth k vss []) 0%R)) -> (forall vs v, In vs vss -> In v vs -> v <> 0%R) ->
  set_planes cell nxy z ms input fl = Some (fl, 0%R).
Proof.
  intros cell nxy input. induction ms as [|m ms IH]; intros hs z fl vss Lh Hh G E I N; cbn [macro_means] in E; [reflexivity|]. destruct hs as [|h hs]; [discriminate|]. unfold mvols in E. cbn [combine flat_map fst snd] in E. fold (mvols hs ms) in E.
  destruct (plane_means (ml_pins m) fl _) as [[vs [X V]]|] eqn:Ep; [|discriminate]. destruct (plane_means_rest _ _ _ _ _ _ Ep) as (X' & [= -> ->] & Lv). destruct (macro_means ms X' _) as [vss'|] eqn:Em; [|discriminate]. injection E as <-.
  destruct (G m (or_introl eq_refl)) as [Lm Gm]. destruct (set_pins_same cell nxy z h _ 0 input _ _ _ _ (Hh h (or_introl eq_refl)) Gm Ep) as (new & Es & Ef).
  { intros j Hj. rewrite Lm in Hj. specialize (I 0 j ltac:(cbn; lia) Hj). rewrite Nat.add_0_r in I. exact I. }
  { intros v Iv. apply (N vs); [now left|exact Iv]. }
  cbn [set_planes]. rewrite Es. rewrite (IH hs (S z) X' vss'); [rewrite Ef; f_equal; f_equal; ring|now injection Lh|intros; apply Hh; now right|intros; apply G; now right|exact Em| |intros ws v Iw Iv; apply (N ws); [now right|exact Iv]].
  intros k i Hk Hi. specialize (I (S k) i ltac:(cbn; lia) Hi). cbn [nth] in I. rewrite <- I. f_equal. f_equal. f_equal. lia.
Qed.
Lemma macro_means_shape : forall ms fl hs vss, length hs = length ms -> macro_means ms fl (mvols hs ms) = Some vss -> length vss = length ms /\ forall k m, nth_error ms k = Some m -> length (nth k vss []) = length (ml_pins m).
Proof.
  induction ms as [|m ms IH]; intros fl hs vss Lh E; cbn [macro_means] in E; [injection E as <-; split; [reflexivity|]; intros [|k] m' K; discriminate|]. destruct hs as [|h hs]; [discriminate|]. unfold mvols in E. cbn [combine flat_map fst snd] in E. fold (mvols hs ms) in E.
  destruct (plane_means (ml_pins m) fl _) as [[vs [X V]]|] eqn:Ep; [|discriminate]. destruct (plane_means_rest _ _ _ _ _ _ Ep) as (X' & [= -> ->] & Lv). destruct (macro_means ms X' _) as [vss'|] eqn:Em; [|discriminate]. injection E as <-.
  destruct (IH X' hs vss' ltac:(now injection Lh) Em) as [L P]. split; [cbn; congruence|]. intros [|k] m' K; cbn in K |- *; [injection K as <-; exact Lv|now apply P].
Qed.
(** What is read of pin fluxes, when written back, changes nothing. *)
Lemma put_back : forall cell nxy hs ms fl pf, mesh_good cell nxy hs ms -> get_pin_flux cell nxy (nxy * length ms) zs_plane ms fl (mvols hs ms) = Some pf -> (forall v, In v pf -> (0 < v)%R) ->
  length pf = nxy * length ms /\ set_pin_flux cell nxy ms pf fl = Got (fl, 0%R).
Proof.
  intros cell nxy hs ms fl pf [F P [Lh Hh]] E Pos. unfold get_pin_flux in E. destruct (macro_means ms fl (mvols hs ms)) as [vss|] eqn:Em; [|discriminate]. destruct (macro_means_shape _ _ _ _ Lh Em) as [Lv Lr]. assert (F' := F). destruct F' as (F1 & F2 & F3).
  set (inv := fun c => match find (fun i => cell i =? c) (seq 0 nxy) with Some i => i | None => 0 end).
  assert (Inv : forall i, i < nxy -> inv (cell i) = i). { intros i Hi. unfold inv. destruct (find _ _) as [j|] eqn:Ef; [apply find_some in Ef; destruct Ef as [Ij Ej]; apply in_seq in Ij; apply Nat.eqb_eq in Ej; apply F2; auto; lia|]. apply (find_none _ _ Ef) in Hi as Hn || idtac. pose proof (find_none _ _ Ef i) as Hn. cbn beta in Hn. rewrite Nat.eqb_refl in Hn. discriminate Hn. apply in_seq. lia. }
  set (val := fun c => nth (inv (c mod nxy)) (nth (c / nxy) vss []) 0%R).
  assert (Val : forall k i, k < length ms -> i < nxy -> val (cell i + nxy * k) = nth i (nth k vss []) 0%R). { intros k i Hk Hi. unfold val. pose proof (F1 i Hi). replace (cell i + nxy * k) with (k * nxy + cell i) by lia. rewrite Nat.div_add_l by lia. rewrite (Nat.div_small (cell i)) by lia. rewrite (Nat.add_comm (k * nxy)), Nat.mod_add by lia. rewrite Nat.mod_small by lia. rewrite Inv by exact Hi. f_equal. f_equal. lia. }
  assert (Ev : vss = map (fun k => map (fun i => val (cell i + nxy * k)) (seq 0 nxy)) (seq 0 (length ms))).
  { apply (nth_ext _ _ [] []); [now rewrite map_length, seq_length|]. intros k Hk. rewrite Lv in Hk. rewrite (nth_map_seq _ [] _ k Hk). destruct (nth_error ms k) as [m|] eqn:Ek; [|apply nth_error_None in Ek; lia]. pose proof (Lr k m Ek) as Lk. rewrite (proj1 (P m (nth_error_In _ _ Ek))) in Lk.
    apply (nth_ext _ _ 0%R 0%R); [now rewrite map_length, seq_length|]. intros i Hi. rewrite Lk in Hi. rewrite (nth_map_seq _ 0%R _ i Hi). now rewrite Val. }
  destruct (deposit_cells cell nxy ms val F) as (out & Eo & Lo & Po). rewrite <- Ev in Eo. rewrite Eo in E. injection E as ->. split; [exact Lo|]. unfold set_pin_flux.
  assert (existsb (fun v => Rleb v 0) pf = false) as ->. { apply Bool.not_true_is_false. intros H. apply existsb_exists in H. destruct H as (v & Iv & Q). specialize (Pos v Iv). destruct (Rleb_spec v 0); [lra|discriminate]. }
  rewrite (proj2 (Nat.eqb_eq _ _) Lo). cbn [negb].
  assert (Nth : forall k i, k < length ms -> i < nxy -> nth_error pf (cell i + nxy * (0 + k)) = Some (nth i (nth k vss []) 0%R)). { intros k i Hk Hi. cbn [Nat.add]. pose proof (F1 i Hi). assert (Hc : cell i + nxy * k < nxy * length ms) by nia. rewrite (nth_error_nth' pf 0%R) by lia. f_equal. change (nth (cell i + nxy * k) pf 0%R) with (at0 pf (cell i + nxy * k)). rewrite Po by exact Hc. now apply Val. }
  rewrite (set_planes_same cell nxy pf ms hs 0 fl vss Lh Hh P Em Nth).
  - f_equal. f_equal. rewrite sqrt_0. unfold Rdiv. ring.
  - intros vs v Iv Iw. apply (In_nth _ _ []) in Iv. destruct Iv as (k & Hk & <-). apply (In_nth _ _ 0%R) in Iw. destruct Iw as (i & Hi & <-). rewrite Lv in Hk. destruct (nth_error ms k) as [m|] eqn:Ek; [|apply nth_error_None in Ek; lia]. rewrite (Lr k m Ek), (proj1 (P m (nth_error_In _ _ Ek))) in Hi.
    apply Rgt_not_eq. apply Pos. exact (nth_error_In _ _ (Nth k i Hk Hi)).
Qed.

(** ** All groups *)
Lemma col_made : forall nreg ng fl g, flux_fits nreg ng fl -> g < ng -> exists f, col g fl = Some f /\ length f = nreg /\ forall i, i < nreg -> at0 f i = phi fl i g.
Proof.
  intros nreg ng fl g [L W] Hg. revert nreg L. induction fl as [|row fl IH]; intros nreg L; cbn in L; [exists []; split; [reflexivity|]; split; [exact L|]; intros; lia|].
  destruct nreg as [|n]; [discriminate|]. destruct (IH (fun r I => W r (or_intror I)) n ltac:(lia)) as (f & E & Lf & P). pose proof (W row (or_introl eq_refl)) as Lr. destruct (nth_error row g) as [v|] eqn:Ev; [|apply nth_error_None in Ev; lia].
  exists (v :: f). unfold col in *. cbn [fold_right]. rewrite Ev, E. split; [reflexivity|]. split; [cbn; congruence|]. intros [|i] Hi; [unfold phi, at0; cbn [nth]; symmetry; now apply nth_error_nth|]. apply (P i). lia.
Qed.
Lemma set_col_same : forall g fl f, col g fl = Some f -> set_col g f fl = Some fl.
Proof.
  intros g. induction fl as [|row fl IH]; intros f E; unfold col in E; cbn [fold_right] in E; [injection E as <-; reflexivity|]. fold (col g fl) in E. destruct (nth_error row g) as [v|] eqn:Ev; [|discriminate]. destruct (col g fl) as [l|] eqn:El; [|discriminate]. injection E as <-. cbn [set_col]. rewrite (IH l eq_refl).
  assert (set_nth row g v = Some row) as ->; [|reflexivity]. clear - Ev. revert g Ev. induction row as [|x row IH]; intros [|g] E; cbn in *; try discriminate; [now injection E as ->|]. now rewrite (IH g E).
Qed.
Lemma getp_nth : forall cell nxy mps vol ng a fl pfs, fold_right (fun g acc => match col g fl with Some f => match get_pin_flux cell nxy (nxy * length mps) zs_plane mps f vol, acc with Some pf, Got l => Got (pf :: l) | _, _ => Undef end | None => Undef end) (Got []) (seq a ng) = Got pfs ->
  length pfs = ng /\ forall j, j < ng -> exists f, col (a + j) fl = Some f /\ get_pin_flux cell nxy (nxy * length mps) zs_plane mps f vol = Some (nth j pfs []).
Proof.
  intros cell nxy mps vol. induction ng as [|n IH]; intros a fl pfs E; cbn [seq fold_right] in E; [injection E as <-; split; [reflexivity|]; intros; lia|].
  destruct (col a fl) as [f|] eqn:Ec; [|discriminate]. destruct (get_pin_flux cell nxy _ zs_plane mps f vol) as [pf|] eqn:Eg; [|discriminate]. destruct (fold_right _ _ _) as [l| |] eqn:El; try discriminate. injection E as <-. destruct (IH (S a) fl l El) as [L P]. split; [cbn; congruence|].
  intros [|j] Hj; [rewrite Nat.add_0_r; exists f; auto|]. destruct (P j ltac:(lia)) as (f' & A & B). exists f'. rewrite <- A. split; [f_equal; lia|exact B].
Qed.
(** Writing back all groups. *)
Lemma put_all : forall cell nxy hs mps fl, mesh_good cell nxy hs mps -> forall pfs g, (forall j, j < length pfs -> exists f, col (g + j) fl = Some f /\ get_pin_flux cell nxy (nxy * length mps) zs_plane mps f (mvols hs mps) = Some (nth j pfs [])) ->
  (forall pf v, In pf pfs -> In v pf -> (0 < v)%R) -> moc_setp cell nxy mps g pfs fl = Got fl.
Proof.
  intros cell nxy hs mps fl M. induction pfs as [|pf pfs IH]; intros g H Pos; cbn [moc_setp]; [reflexivity|]. destruct (H 0 ltac:(cbn; lia)) as (f & Ec & Eg). rewrite Nat.add_0_r in Ec. cbn [nth] in Eg. rewrite Ec.
  destruct (put_back cell nxy hs mps f pf M Eg (fun v Iv => Pos pf v (or_introl eq_refl) Iv)) as [_ Es]. rewrite Es, (set_col_same g fl f Ec). apply IH; [|intros; eapply Pos; [right; eassumption|assumption]].
  intros j Hj. destruct (H (S j) ltac:(cbn; lia)) as (f' & A & B). exists f'. split; [rewrite <- A; f_equal; lia|exact B].
Qed.

(** ** Two loops in step *)
Lemma loops_agree : forall A B (sa : A -> Out A) (sb : B -> Out B) (ca : A -> bool) (cb : B -> bool) (pr : B -> A), (forall b, cb b = ca (pr b)) ->
  (forall b, match sb b with Got b' => sa (pr b) = Got (pr b') | Threw => sa (pr b) = Threw | Undef => sa (pr b) = Undef end) ->
  forall left n mn dl next b du, match eigen_loop B sb cb left n mn dl next b du with
    | Got (b', n', du') => eigen_loop A sa ca left n mn dl next (pr b) du = Got (pr b', n', du')
    | Threw => eigen_loop A sa ca left n mn dl next (pr b) du = Threw
    | Undef => eigen_loop A sa ca left n mn dl next (pr b) du = Undef
    end.
Proof.
  intros A B sa sb ca cb pr C H. induction left as [|l IH]; intros n mn dl next b du; cbn [eigen_loop]; [reflexivity|]. specialize (H b). destruct (sb b) as [b1| |]; rewrite H; [|reflexivity|reflexivity]. rewrite (C b1).
  destruct (Z.of_nat (n + 1) =? next)%Z; [destruct dl; [reflexivity|]|]; destruct (ca (pr b1) && (mn <=? n)); try reflexivity; apply IH.
Qed.
