(** Properties C61 and C62: unique planes and macroplanes of the core mesh. *)
From Coq Require Import List Lia Bool Reals Lra ZArith Arith.
From Verif Require Import RUtil McModel McProofs ListUtil StdAlg StdAlgProofs MatModel MatProps BcModel CoreModel CoreProofs BcProofs LatProps PlaneProps EquivProps AsmModel AsmProps CoreMapProps.
Import ListNotations.
Open Scope nat_scope.

Lemma fold_out_app : forall {S X} (f : S -> X -> Out S) l m s,
  fold_out f s (l ++ m) = match fold_out f s l with Got s' => fold_out f s' m | Threw => Threw | Undef => Undef end.
Proof. intros S X f. induction l as [|x l IH]; intros m s; cbn [fold_out app]; auto. destruct (f s x); auto. Qed.
Lemma seq_snoc : forall n, seq 0 (S n) = seq 0 n ++ [n].
Proof. intros n. replace (S n) with (n + 1) by lia. rewrite seq_app. reflexivity. Qed.
Lemma offsets_snoc : forall l a x, offsets a (l ++ [x]) = offsets a l ++ [a + list_sum l].
Proof.
  induction l as [|y l IH]; intros a x; cbn [app offsets]; [now rewrite Nat.add_0_r|]. rewrite IH. cbn [app]. do 3 f_equal.
  change (list_sum (y :: l)) with (y + list_sum l). lia.
Qed.
Lemma nth_snoc : forall {A} (l : list A) x k y, nth_error (l ++ [x]) k = Some y <-> (nth_error l k = Some y \/ (k = length l /\ y = x)).
Proof.
  intros A l x k y. destruct (Nat.lt_ge_cases k (length l)) as [H|H].
  - rewrite nth_error_app1 by auto. split; auto. intros [E|[E _]]; auto. lia.
  - rewrite nth_error_app2 by auto. split.
    + intros E. right. destruct (k - length l) as [|d] eqn:D; cbn in E; [|destruct d; discriminate]. split; [lia|congruence].
    + intros [E|[-> ->]]; [assert (k < length l) by (apply nth_error_Some; congruence); lia|]. now rewrite Nat.sub_diag.
Qed.

(* ------------------------------------------------------------ axial planes *)
(** Specification: the pins of the whole core. *)
Definition all_pins (C : Core) : list Pin := flat_map (fun A => flat_map lat_pins (as_lats A)) (co_asys C).
(** Specification: the lattice of assembly (x, y) in axial plane iz. *)
Definition lat_of (C : Core) (iz k : nat) : option Lattice := match nth_error (co_asys C) k with Some A => nth_error (as_lats A) iz | None => None end.

Section Scan.
  Variable ulp : R -> R -> bool.
  Variable C : Core.
  Hypothesis W : wf_core ulp C.
  Variable A0 : Assembly.
  Hypothesis F0 : nth_error (co_asys C) 0 = Some A0.
  Hypothesis IDS : ids_identify (all_pins C) (all_pins C).

  Lemma plane_lats_ex : forall iz, iz < as_nz A0 -> exists ls, plane_lats (co_asys C) iz = Some ls /\ length ls = co_nx C * co_ny C /\
    (forall L, In L ls -> wf_lat L) /\ (forall p, In p (flat_map lat_pins ls) -> In p (all_pins C)) /\
    (forall k, nth_error ls k = lat_of C iz k).
  Proof.
    intros iz Hz. unfold plane_lats.
    destruct (all_some_ex (map (fun a => nth_error (as_lats a) iz) (co_asys C))) as [ls E].
    { intros k K. rewrite map_length in K. destruct (nth_error (co_asys C) k) as [A|] eqn:EA; [|apply nth_error_None in EA; lia].
      rewrite nth_error_map, EA. cbn [option_map]. pose proof (nth_error_In _ _ EA) as I. destruct (wc_stack ulp C W A0 F0 A I) as (N & _ & _).
      pose proof (wa_len A (wc_asy ulp C W A I)) as L. destruct (nth_error (as_lats A) iz) eqn:EL; [eauto|]. apply nth_error_None in EL. lia. }
    exists ls. assert (all_some (map (fun a => nth_error (as_lats a) iz) (co_asys C)) = Some ls) as -> by now apply all_some_spec.
    assert (G : forall k, nth_error ls k = lat_of C iz k).
    { intros k. unfold lat_of. assert (nth_error (map (fun a => nth_error (as_lats a) iz) (co_asys C)) k = nth_error (map Some ls) k) as Q by now rewrite E.
      rewrite !nth_error_map in Q. destruct (nth_error (co_asys C) k), (nth_error ls k); cbn in Q; congruence. }
    assert (I : forall L, In L ls -> exists A, In A (co_asys C) /\ In L (as_lats A)).
    { intros L IL. apply In_nth_error in IL. destruct IL as [k K]. rewrite G in K. unfold lat_of in K. destruct (nth_error (co_asys C) k) as [A|] eqn:EA; [|discriminate].
      exists A. split; eapply nth_error_In; eauto. }
    split; auto. split. { rewrite <- (wc_len ulp C W). rewrite <- (map_length Some ls), <- E. apply map_length. }
    split. { intros L IL. destruct (I L IL) as (A & IA & IA2). apply (wa_lat A (wc_asy ulp C W A IA) L IA2). }
    split; auto. intros p Ip. apply in_flat_map in Ip. destruct Ip as (L & IL & IL2). destruct (I L IL) as (A & IA & IA2).
    apply in_flat_map. exists A. split; auto. apply in_flat_map. eauto.
  Qed.

  Lemma eqv_iff : forall iz jz ls ms P Q, iz < as_nz A0 -> jz < as_nz A0 -> plane_lats (co_asys C) iz = Some ls -> plane_lats (co_asys C) jz = Some ms ->
    make_plane ulp ls (co_nx C) (co_ny C) = Got P -> make_plane ulp ms (co_nx C) (co_ny C) = Got Q ->
    (exists b, pl_equiv P Q = Some b) /\ (pl_equiv P Q = Some true <-> Forall2 alike ls ms).
  Proof.
    intros iz jz ls ms P Q Hi Hj El Em EP EQ.
    destruct (plane_lats_ex iz Hi) as (ls' & E1 & L1 & W1 & I1 & _). assert (ls' = ls) by congruence. subst ls'.
    destruct (plane_lats_ex jz Hj) as (ms' & E2 & L2 & W2 & I2 & _). assert (ms' = ms) by congruence. subst ms'.
    pose proof (wc_nx ulp C W). pose proof (wc_ny ulp C W).
    destruct (C62_equivalent_planes ulp ls ms (co_nx C) (co_ny C) (co_nx C) (co_ny C) P Q) as (T & E & _); auto.
    { intros p q Ip Iq. apply IDS; auto. }
    split; auto. rewrite E. tauto.
  Qed.

  Lemma alike_refl : forall ls, Forall2 alike ls ls.
  Proof. induction ls; constructor; auto. repeat split. Qed.
  Lemma alike_sym : forall ls ms, Forall2 alike ls ms -> Forall2 alike ms ls.
  Proof. induction 1 as [|? ? ? ? (A & B & D)]; constructor; auto. repeat split; auto. Qed.
  Lemma alike_trans : forall ls ms ns, Forall2 alike ls ms -> Forall2 alike ms ns -> Forall2 alike ls ns.
  Proof.
    intros ls ms ns H. revert ns. induction H as [|? ? ? ? (A & B & D) H IH]; intros ns K; inversion K as [|? ? ? ? (A' & B' & D')]; subst; constructor; auto.
    repeat split; congruence.
  Qed.

  Definition regs_of (iz : nat) : nat := match plane_lats (co_asys C) iz with Some ls => list_sum (map lat_nreg ls) | None => 0 end.
  Definition pins_of (iz : nat) : list Pin := match plane_lats (co_asys C) iz with Some ls => flat_map lat_pins ls | None => [] end.
  Definition fuel_of (iz : nat) : nat := length (filter pin_fuel (pins_of iz)).
  Definition max_list (l : list nat) : nat := fold_left Nat.max l 0.

  Record Inv (n : nat) (s : Scan) : Prop := {
    i_len : length (sc_uid s) = n; i_freg : sc_freg s = offsets 0 (map regs_of (seq 0 n)); i_reg : sc_reg s = list_sum (map regs_of (seq 0 n));
    i_pins : sc_pins s = flat_map pins_of (seq 0 n); i_fuel : sc_nfuel s = max_list (map fuel_of (seq 0 n));
    i_pl : length (sc_firstu s) = length (sc_planes s);
    i_u : forall iz, iz < n -> exists ls P u Q, plane_lats (co_asys C) iz = Some ls /\ make_plane ulp ls (co_nx C) (co_ny C) = Got P /\
       nth_error (sc_uid s) iz = Some u /\ nth_error (sc_planes s) u = Some Q /\ pl_equiv Q P = Some true;
    i_f : forall u Q, nth_error (sc_planes s) u = Some Q -> exists iz ls, iz < n /\ nth_error (sc_firstu s) u = Some iz /\ plane_lats (co_asys C) iz = Some ls /\
       make_plane ulp ls (co_nx C) (co_ny C) = Got Q /\ nth_error (sc_uid s) iz = Some u /\ forall jz, jz < iz -> nth_error (sc_uid s) jz <> Some u;
    i_d : forall u v P Q, u < v -> nth_error (sc_planes s) u = Some P -> nth_error (sc_planes s) v = Some Q -> pl_equiv P Q = Some false
  }.

  Lemma find_plane_spec : forall planes P i, (forall Q, In Q planes -> exists b, pl_equiv Q P = Some b) ->
    exists k, find_plane planes P i = Some (i + k) /\ k <= length planes /\ (forall j Q, j < k -> nth_error planes j = Some Q -> pl_equiv Q P = Some false) /\
      (forall Q, nth_error planes k = Some Q -> pl_equiv Q P = Some true).
  Proof.
    induction planes as [|Q planes IH]; intros P i T; cbn [find_plane].
    - exists 0. rewrite Nat.add_0_r. repeat split; auto; try (intros; lia). intros Q H. discriminate.
    - destruct (T Q (or_introl eq_refl)) as [[|] E]; rewrite E.
      + exists 0. rewrite Nat.add_0_r. repeat split; auto; try (intros; lia). intros R' [= <-]. exact E.
      + destruct (IH P (S i)) as (k & F & L & N & K). { intros R' I. apply T. now right. }
        exists (S k). rewrite F. split; [f_equal; lia|]. split; [cbn; lia|]. split.
        * intros [|j] R' J H; cbn in H; [congruence|]. apply (N j R'); auto. lia.
        * intros R' H. apply K. exact H.
  Qed.

  Lemma max_list_snoc : forall l x, max_list (l ++ [x]) = Nat.max (max_list l) x.
  Proof. intros l x. unfold max_list. now rewrite fold_left_app. Qed.

  Lemma scan_inv : forall n s, n <= as_nz A0 -> scan_planes ulp C n = Got s -> Inv n s.
  Proof.
    induction n as [|n IH]; intros s Hn E.
    - unfold scan_planes in E. cbn in E. injection E as <-. constructor; cbn; auto; intros; try lia.
      + destruct u; discriminate.
      + destruct u; discriminate.
    - unfold scan_planes in E. rewrite seq_snoc, fold_out_app in E. destruct (fold_out (scan_plane ulp C) _ (seq 0 n)) as [t| |] eqn:Et; try discriminate.
      specialize (IH t ltac:(lia) Et). cbn [fold_out] in E. destruct (scan_plane ulp C t n) as [t'| |] eqn:Es; try discriminate. injection E as <-.
      unfold scan_plane in Es. destruct (plane_lats (co_asys C) n) as [ls|] eqn:El; [|discriminate].
      destruct (make_plane ulp ls (co_nx C) (co_ny C)) as [P| |] eqn:EP; try discriminate.
      assert (T : forall Q, In Q (sc_planes t) -> exists b, pl_equiv Q P = Some b).
      { intros Q I. apply In_nth_error in I. destruct I as [u U]. destruct (i_f n t IH u Q U) as (iz & ms & Hz & _ & Em & EQ & _).
        now destruct (eqv_iff iz n ms ls Q P ltac:(lia) ltac:(lia) Em El EQ EP). }
      destruct (find_plane_spec (sc_planes t) P 0 T) as (k & Fk & Lk & Nk & Kk). rewrite Fk in Es. cbn [Nat.add] in Es. injection Es as <-.
      assert (SelfP : pl_equiv P P = Some true). { destruct (eqv_iff n n ls ls P P ltac:(lia) ltac:(lia) El El EP EP) as [_ H]. apply H. apply alike_refl. }
      assert (Fuel : pl_nfuel P = fuel_of n).
      { destruct (plane_lats_ex n ltac:(lia)) as (ls' & E1 & L1 & W1 & _). assert (ls' = ls) by congruence. subst ls'.
        pose proof (wc_nx ulp C W). pose proof (wc_ny ulp C W).
        destruct (made_plane ulp ls (co_nx C) (co_ny C) P ltac:(lia) ltac:(lia) L1 W1 EP) as (WP & LP & _).
        rewrite (wp_nfuel P WP), LP. unfold fuel_of, pins_of. now rewrite El. }
      assert (Lk' : k < length (sc_planes t) \/ k = length (sc_planes t)) by lia.
      constructor; cbn [sc_planes sc_uid sc_firstu sc_freg sc_reg sc_pins sc_nfuel].
      + rewrite app_length, (i_len n t IH). cbn. lia.
      + rewrite (i_freg n t IH), (i_reg n t IH), seq_snoc, map_app. cbn [map]. rewrite offsets_snoc. reflexivity.
      + rewrite (i_reg n t IH), seq_snoc, map_app, list_sum_app. cbn [map]. unfold regs_of at 3. rewrite El. cbn. lia.
      + rewrite (i_pins n t IH), seq_snoc, flat_map_app. cbn [flat_map]. unfold pins_of at 3. now rewrite El, app_nil_r.
      + rewrite (i_fuel n t IH), seq_snoc, map_app. cbn [map]. now rewrite max_list_snoc, Fuel.
      + destruct (Nat.eqb_spec k (length (sc_planes t))); [|apply (i_pl n t IH)]. rewrite !app_length, (i_pl n t IH). reflexivity.
      + intros iz Hz. destruct (Nat.eq_dec iz n) as [->|Ne].
        * exists ls, P, k. destruct (Nat.eqb_spec k (length (sc_planes t))) as [->|Ne].
          -- exists P. split; auto. split; auto. split; [apply nth_snoc; right; now rewrite (i_len n t IH)|]. split; auto. apply nth_snoc. auto.
          -- destruct (nth_error (sc_planes t) k) as [Q|] eqn:EQ; [|apply nth_error_None in EQ; lia]. exists Q. split; auto. split; auto.
             split; [apply nth_snoc; right; now rewrite (i_len n t IH)|]. split; auto.
        * destruct (i_u n t IH iz ltac:(lia)) as (ms & R' & u & Q & E1 & E2 & E3 & E4 & E5). exists ms, R', u, Q. split; auto. split; auto.
          split; [apply nth_snoc; auto|]. split; auto. destruct (k =? _); auto. apply nth_snoc. auto.
      + intros u Q U.
        assert (Old : nth_error (sc_planes t) u = Some Q -> exists iz ls0, iz < S n /\
           nth_error (if k =? length (sc_planes t) then sc_firstu t ++ [n] else sc_firstu t) u = Some iz /\ plane_lats (co_asys C) iz = Some ls0 /\
           make_plane ulp ls0 (co_nx C) (co_ny C) = Got Q /\ nth_error (sc_uid t ++ [k]) iz = Some u /\ (forall jz, jz < iz -> nth_error (sc_uid t ++ [k]) jz <> Some u)).
        { intros U2. destruct (i_f n t IH u Q U2) as (iz & ms & Hz & E1 & E2 & E3 & E4 & E5). exists iz, ms. split; [lia|]. split.
          { destruct (k =? _); auto. apply nth_snoc. auto. }
          split; auto. split; auto. split; [apply nth_snoc; auto|]. intros jz Hj. rewrite nth_error_app1 by (rewrite (i_len n t IH); lia). auto. }
        destruct (Nat.eqb_spec k (length (sc_planes t))) as [->|Ne]; [|auto]. apply nth_snoc in U. destruct U as [U|[-> ->]]; [auto|].
        exists n, ls. split; [lia|]. split; [apply nth_snoc; right; split; auto; symmetry; apply (i_pl n t IH)|]. split; auto. split; auto.
        split; [apply nth_snoc; right; now rewrite (i_len n t IH)|]. intros jz Hj. rewrite nth_error_app1 by (rewrite (i_len n t IH); lia).
        destruct (i_u n t IH jz Hj) as (ms & R' & u & Q & _ & _ & E3 & E4 & _). rewrite E3. intros [= ->].
        assert (length (sc_planes t) < length (sc_planes t)) by (apply nth_error_Some; congruence). lia.
      + intros u v Q R' Huv EQ ER. destruct (Nat.eqb_spec k (length (sc_planes t))) as [->|Ne]; [|exact (i_d n t IH u v Q R' Huv EQ ER)].
        apply nth_snoc in ER. destruct ER as [ER|[-> ->]].
        * assert (v < length (sc_planes t)) by (apply nth_error_Some; congruence). apply nth_snoc in EQ. destruct EQ as [EQ|[-> _]]; [|lia]. exact (i_d n t IH u v Q R' Huv EQ ER).
        * apply nth_snoc in EQ. destruct EQ as [EQ|[-> _]]; [|lia]. exact (Nk u Q Huv EQ).
  Qed.

  Lemma scan_defined : forall n, n <= as_nz A0 -> scan_planes ulp C n <> Undef.
  Proof.
    induction n as [|n IH]; intros Hn; [discriminate|]. unfold scan_planes. rewrite seq_snoc, fold_out_app.
    fold (scan_planes ulp C n). specialize (IH ltac:(lia)). destruct (scan_planes ulp C n) as [t| |] eqn:Et; [|discriminate|congruence].
    pose proof (scan_inv n t ltac:(lia) Et) as I. cbn [fold_out]. unfold scan_plane.
    destruct (plane_lats_ex n ltac:(lia)) as (ls & E1 & L1 & W1 & _). rewrite E1.
    destruct (make_plane ulp ls (co_nx C) (co_ny C)) as [P| |] eqn:EP; [|discriminate|].
    - destruct (find_plane_spec (sc_planes t) P 0) as (k & Fk & _).
      { intros Q IQ. apply In_nth_error in IQ. destruct IQ as [u U]. destruct (i_f n t I u Q U) as (iz & ms & Hz & _ & Em & EQ & _).
        now destruct (eqv_iff iz n ms ls Q P ltac:(lia) ltac:(lia) Em E1 EQ EP). }
      rewrite Fk. discriminate.
    - exfalso. pose proof (wc_nx ulp C W). pose proof (wc_ny ulp C W). unfold make_plane in EP.
      destruct (reads_spec ls lat_hx (seq 0 (co_nx C))) as (dx & Ex & Lx & _). { intros i J. apply in_seq in J. rewrite L1. pose proof (index_bound (co_nx C) (co_ny C) 0 i ltac:(lia) ltac:(lia)). lia. }
      destruct (reads_spec ls lat_nx (seq 0 (co_nx C))) as (cx & Ecx & _). { intros i J. apply in_seq in J. rewrite L1. pose proof (index_bound (co_nx C) (co_ny C) 0 i ltac:(lia) ltac:(lia)). lia. }
      assert (B2 : forall i, In i (map (fun iy => co_nx C * iy) (seq 0 (co_ny C))) -> i < length ls).
      { intros i J. apply in_map_iff in J. destruct J as (y & <- & J). apply in_seq in J. rewrite L1. pose proof (index_bound (co_nx C) (co_ny C) y 0 ltac:(lia) ltac:(lia)). lia. }
      destruct (reads_spec ls lat_hy _ B2) as (dy & Ey & Ly & _). destruct (reads_spec ls lat_ny _ B2) as (cy & Ecy & _).
      rewrite Ex, Ecx, Ey, Ecy in EP. rewrite seq_length in Lx. rewrite map_length, seq_length in Ly. rewrite fold_check in EP.
      + destruct (forallb _ _); discriminate.
      + intros [y x] J. apply yx_loop_in in J. destruct J as [Y X]. unfold size_ok, lats_at.
        destruct (nth_error ls (x + co_nx C * y)) eqn:N1; [|apply nth_error_None in N1; pose proof (index_bound (co_nx C) (co_ny C) y x Y X); lia].
        destruct (nth_error dx x) eqn:N2; [|apply nth_error_None in N2; lia]. destruct (nth_error dy y) eqn:N3; [|apply nth_error_None in N3; lia]. eauto.
  Qed.
End Scan.

(** C62.  The unique-plane table of an accepted core: every axial plane is mapped to a stored plane that answers every
    point lookup and pin position as the plane built from its own lattices would; two axial planes are mapped to the
    same stored plane exactly when they hold the same meshes in the same places; every stored plane is the first
    occurrence of its geometry; first-region offsets are running sums of region counts; and the list of pins is plane
    by plane, lattice by lattice. *)
Theorem C62_unique_planes : forall ulp C A0 s, wf_core ulp C -> nth_error (co_asys C) 0 = Some A0 -> ids_identify (all_pins C) (all_pins C) ->
  scan_planes ulp C (as_nz A0) = Got s ->
  length (sc_uid s) = as_nz A0 /\
  (forall iz, iz < as_nz A0 -> exists ls P u Q, plane_lats (co_asys C) iz = Some ls /\ (forall k, nth_error ls k = lat_of C iz k) /\
     make_plane ulp ls (co_nx C) (co_ny C) = Got P /\ nth_error (sc_uid s) iz = Some u /\ nth_error (sc_planes s) u = Some Q /\
     (forall px py f a b, pl_get_pinmesh ulp Q px py f a b = pl_get_pinmesh ulp P px py f a b) /\ (forall k, pin_position Q k = pin_position P k) /\
     pl_nreg Q = pl_nreg P /\ pl_nreg Q = regs_of C iz /\ nth_error (sc_freg s) iz = Some (list_sum (map (regs_of C) (seq 0 iz)))) /\
  (forall iz jz ls ms, iz < as_nz A0 -> jz < as_nz A0 -> plane_lats (co_asys C) iz = Some ls -> plane_lats (co_asys C) jz = Some ms ->
     (nth_error (sc_uid s) iz = nth_error (sc_uid s) jz <-> Forall2 alike ls ms)) /\
  (forall u, u < length (sc_planes s) -> exists iz, nth_error (sc_firstu s) u = Some iz /\ iz < as_nz A0 /\ nth_error (sc_uid s) iz = Some u /\
     forall jz, jz < iz -> nth_error (sc_uid s) jz <> Some u) /\
  sc_pins s = flat_map (pins_of C) (seq 0 (as_nz A0)) /\ sc_nfuel s = max_list (map (fuel_of C) (seq 0 (as_nz A0))).
Proof.
  intros ulp C A0 s W F0 IDS E. pose proof (scan_inv ulp C W A0 F0 IDS (as_nz A0) s ltac:(lia) E) as I.
  pose proof (wc_nx ulp C W) as Hx. pose proof (wc_ny ulp C W) as Hy.
  split; [apply (i_len _ _ _ _ I)|]. split; [|split; [|split; [|split; [apply (i_pins _ _ _ _ I)|apply (i_fuel _ _ _ _ I)]]]].
  - intros iz Hz. destruct (i_u _ _ _ _ I iz Hz) as (ls & P & u & Q & E1 & E2 & E3 & E4 & E5).
    destruct (plane_lats_ex ulp C W A0 F0 iz Hz) as (ls' & E1' & L1 & W1 & I1 & G). assert (ls' = ls) by congruence. subst ls'.
    exists ls, P, u, Q. split; auto. split; auto. split; auto. split; auto. split; auto.
    destruct (i_f _ _ _ _ I u Q E4) as (jz & ms & Hj & _ & Em & EQ & _).
    destruct (plane_lats_ex ulp C W A0 F0 jz Hj) as (ms' & Em' & L2 & W2 & I2 & _). assert (ms' = ms) by congruence. subst ms'.
    destruct (C62_equivalent_planes ulp ms ls (co_nx C) (co_ny C) (co_nx C) (co_ny C) Q P) as (_ & _ & K); auto.
    { intros p q Ip Iq. apply IDS; auto. }
    destruct (K E5) as (K1 & K2 & K3 & _). split; auto. split; auto. split; auto. split.
    + rewrite K3. destruct (made_plane ulp ls (co_nx C) (co_ny C) P ltac:(lia) ltac:(lia) L1 W1 E2) as (WP & LP & _). rewrite (wp_nreg P WP), LP. unfold regs_of. now rewrite E1.
    + rewrite (i_freg _ _ _ _ I), offsets_nth by (rewrite map_length, seq_length; auto). f_equal. cbn [Nat.add]. f_equal. rewrite firstn_map. f_equal.
      clear - Hz. revert Hz. generalize (as_nz A0) as n. intros n Hz. replace n with (iz + (n - iz)) by lia. rewrite seq_app, firstn_app, seq_length, Nat.sub_diag.
      cbn [firstn]. rewrite app_nil_r. apply firstn_all2. rewrite seq_length. lia.
  - intros iz jz ls ms Hi Hj El Em. destruct (i_u _ _ _ _ I iz Hi) as (ls' & P & u & Q & E1 & E2 & E3 & E4 & E5).
    destruct (i_u _ _ _ _ I jz Hj) as (ms' & P' & u' & Q' & E1' & E2' & E3' & E4' & E5'). assert (ls' = ls) by congruence. assert (ms' = ms) by congruence. subst ls' ms'.
    destruct (i_f _ _ _ _ I u Q E4) as (kz & ns & Hk & _ & En & EQ & _). destruct (i_f _ _ _ _ I u' Q' E4') as (kz' & ns' & Hk' & _ & En' & EQ' & _).
    apply (eqv_iff ulp C W A0 F0 IDS kz iz ns ls Q P) in E5; auto. apply (eqv_iff ulp C W A0 F0 IDS kz' jz ns' ms Q' P') in E5'; auto.
    rewrite E3, E3'. split.
    + intros [= ->]. assert (Q = Q') by congruence. subst Q'. assert (S : pl_equiv Q Q = Some true).
      { apply (eqv_iff ulp C W A0 F0 IDS kz kz ns ns Q Q); auto. apply alike_refl. }
      apply (eqv_iff ulp C W A0 F0 IDS kz kz' ns ns' Q Q) in S; auto. eapply alike_trans; [apply alike_sym; exact E5|]. eapply alike_trans; eauto.
    + intros F. assert (S : Forall2 alike ns ns') by (eapply alike_trans; [exact E5|]; eapply alike_trans; [exact F|]; now apply alike_sym).
      destruct (Nat.lt_trichotomy u u') as [L|[->|L]]; auto; exfalso.
      * pose proof (i_d _ _ _ _ I u u' Q Q' L E4 E4') as D. apply (eqv_iff ulp C W A0 F0 IDS kz kz' ns ns' Q Q') in S; auto. congruence.
      * pose proof (i_d _ _ _ _ I u' u Q' Q L E4' E4) as D. apply alike_sym in S. apply (eqv_iff ulp C W A0 F0 IDS kz' kz ns' ns Q' Q) in S; auto. congruence.
  - intros u Hu. destruct (nth_error (sc_planes s) u) as [Q|] eqn:EQ; [|apply nth_error_None in EQ; lia].
    destruct (i_f _ _ _ _ I u Q EQ) as (iz & ls & Hz & E1 & _ & _ & E3 & E4). exists iz. auto.
Qed.
Print Assumptions C62_unique_planes.

(** The scan never reads outside its tables: it throws or succeeds. *)
Theorem C62_scan_defined : forall ulp C A0, wf_core ulp C -> nth_error (co_asys C) 0 = Some A0 -> ids_identify (all_pins C) (all_pins C) ->
  scan_planes ulp C (as_nz A0) <> Undef.
Proof. intros ulp C A0 W F0 IDS. now apply (scan_defined ulp C W A0 F0 IDS). Qed.
Print Assumptions C62_scan_defined.

(* ------------------------------------------------------------ macroplanes *)
Lemma rsum_nth_app : forall a b n, rsum (fun k => nth k (a ++ b) 0%R) (length a + n) = (rsum (fun k => nth k a 0%R) (length a) + rsum (fun k => nth k b 0%R) n)%R.
Proof.
  intros a b n. rewrite rsum_app. f_equal.
  - apply rsum_ext. intros k K. now rewrite app_nth1.
  - apply rsum_ext. intros k K. rewrite app_nth2 by lia. f_equal. lia.
Qed.
Lemma fold_sum : forall l, fold_left Rplus l 0%R = rsum (fun k => nth k l 0%R) (length l).
Proof. intros l. rewrite fold_plus_rsum. lra. Qed.

Lemma heights_spec : forall sub dz, list_sum sub = length dz -> exists h, macro_heights sub dz = Some h /\ length h = length sub /\
  (forall i n v, nth_error sub i = Some n -> nth_error h i = Some v -> v = rsum (fun k => nth (before sub i + k) dz 0%R) n) /\
  rsum (fun i => nth i h 0%R) (length h) = rsum (fun k => nth k dz 0%R) (length dz).
Proof.
  induction sub as [|n sub IH]; intros dz H.
  - cbn in H. destruct dz; [|discriminate]. exists []. cbn. repeat split; auto. intros [|i] ? ? E; discriminate.
  - change (list_sum (n :: sub)) with (n + list_sum sub) in H. cbn [macro_heights]. destruct (Nat.ltb_spec (length dz) n); [lia|].
    destruct (IH (skipn n dz)) as (h & E & L & N & Sm). { rewrite skipn_length. lia. }
    rewrite E. eexists. split; [reflexivity|]. split; [cbn; lia|].
    assert (Lf : length (firstn n dz) = n) by (rewrite firstn_length; lia).
    assert (Head : fold_left Rplus (firstn n dz) 0%R = rsum (fun k => nth k dz 0%R) n).
    { rewrite fold_sum, Lf. apply rsum_ext. intros k K. rewrite <- (firstn_skipn n dz) at 2. rewrite app_nth1 by lia. reflexivity. }
    assert (Tail : forall k, nth k (skipn n dz) 0%R = nth (n + k) dz 0%R).
    { intros k. rewrite <- (firstn_skipn n dz) at 2. rewrite app_nth2 by lia. f_equal. lia. }
    split.
    + intros [|i] m v Em Ev; cbn in Em, Ev.
      * injection Em as <-. injection Ev as <-. exact Head.
      * rewrite (N i m v Em Ev). apply rsum_ext. intros k K. rewrite Tail, before_cons. f_equal. lia.
    + cbn [length]. change (S (length h)) with (1 + length h). rewrite rsum_app. cbn [rsum nth Nat.add]. rewrite Sm, Head.
      rewrite skipn_length. replace (length dz) with (n + (length dz - n)) at 2 by lia. rewrite rsum_app.
      rewrite Rplus_0_l. f_equal. apply rsum_ext. intros k K. apply Tail.
Qed.

Lemma macros_spec : forall planes uid nx ny sub h iz, (forall z, z < iz + list_sum sub -> exists u P, nth_error uid z = Some u /\ nth_error planes u = Some P) ->
  (forall n, In n sub -> 1 <= n) -> length h = length sub ->
  exists ms, make_macros planes uid nx ny iz sub h = Some ms /\ length ms = length sub /\
    forall i n v, nth_error sub i = Some n -> nth_error h i = Some v -> exists m u, nth_error ms i = Some m /\ mp_min m = iz + before sub i /\
      mp_max m = Z.of_nat (iz + before sub i + n - 1) /\ mp_height m = v /\ nth_error uid (mp_min m) = Some u /\ nth_error planes u = Some (mp_plane m) /\
      mp_stt m = mp_min m * nx * ny /\ mp_stp m = mp_stt m + nx * ny.
Proof.
  intros planes uid nx ny. induction sub as [|n sub IH]; intros h iz H Hn L.
  - exists []. cbn [make_macros]. repeat split; auto. intros [|i] ? ? E; discriminate.
  - destruct h as [|v h]; [discriminate|]. change (list_sum (n :: sub)) with (n + list_sum sub) in H. cbn [make_macros].
    pose proof (Hn n (or_introl eq_refl)) as Hn1. destruct (H iz ltac:(lia)) as (u & P & Eu & EP). rewrite Eu, EP.
    destruct (IH h (iz + n)) as (ms & E & Lm & G). { intros z Hz. apply H. lia. } { intros k K. apply Hn. now right. } { cbn in L. lia. }
    rewrite E. eexists. split; [reflexivity|]. split; [cbn; lia|]. intros [|i] m w Em Ew; cbn in Em, Ew.
    + injection Em as <-. injection Ew as <-. eexists. exists u. split; [reflexivity|]. cbn [mp_min mp_max mp_height mp_plane mp_stt mp_stp].
      change (before (n :: sub) 0) with 0. rewrite Nat.add_0_r. repeat split; auto. lia.
    + destruct (G i m w Em Ew) as (mp & u' & E1 & E2 & E3 & E4 & E5 & E6 & E7 & E8). exists mp, u'. cbn [nth_error]. rewrite before_cons. split; auto. split; [lia|]. split; [rewrite E3; f_equal; lia|]. auto.
Qed.

Lemma write_run : forall ks (idx : list nat) v, (forall k, In k ks -> k < length idx) ->
  exists idx', fold_left (fun o iz => match o with Some l => set_nth l iz v | None => None end) ks (Some idx) = Some idx' /\ length idx' = length idx /\
    forall j, nth_error idx' j = if in_dec Nat.eq_dec j ks then Some v else nth_error idx j.
Proof.
  induction ks as [|k ks IH]; intros idx v H; cbn [fold_left].
  - exists idx. repeat split; auto.
  - destruct (set_nth_lt idx k v (H k (or_introl eq_refl))) as [l E]. rewrite E. destruct (set_nth_spec _ _ _ _ E) as (L & _ & N).
    destruct (IH l v) as (idx' & E' & L' & N'). { intros j J. rewrite L. apply H. now right. }
    exists idx'. split; auto. split; [congruence|]. intros j. rewrite N'. destruct (in_dec Nat.eq_dec j ks) as [I|I].
    + destruct (in_dec Nat.eq_dec j (k :: ks)) as [|J]; auto. exfalso. apply J. now right.
    + rewrite N. destruct (Nat.eqb_spec j k) as [->|Ne].
      * destruct (in_dec Nat.eq_dec k (k :: ks)) as [|J]; auto. exfalso. apply J. now left.
      * destruct (in_dec Nat.eq_dec j (k :: ks)) as [[->|J]|J]; auto; contradiction.
Qed.
Lemma index_spec : forall ms idx i lo, (forall k m, nth_error ms k = Some m -> mp_min m < length idx /\ (0 <= mp_max m < Z.of_nat (length idx))%Z) ->
  (forall k m, nth_error ms k = Some m -> lo <= mp_min m) ->
  (forall k l m p, k < l -> nth_error ms k = Some m -> nth_error ms l = Some p -> (mp_max m < Z.of_nat (mp_min p))%Z) ->
  exists idx', macro_index idx i ms = Some idx' /\ length idx' = length idx /\ (forall z, z < lo -> nth_error idx' z = nth_error idx z) /\
    forall k m z, nth_error ms k = Some m -> (Z.of_nat (mp_min m) <= Z.of_nat z <= mp_max m)%Z -> nth_error idx' z = Some (i + k).
Proof.
  induction ms as [|m ms IH]; intros idx i lo B Lo D; cbn [macro_index].
  - exists idx. repeat split; auto. intros [|k] ? ? E; discriminate.
  - destruct (B 0 m eq_refl) as [B1 B2]. unfold write_span.
    destruct (write_run (seq (mp_min m) (Z.to_nat (mp_max m + 1) - mp_min m)) idx i) as (idx1 & E1 & L1 & N1). { intros k K. apply in_seq in K. lia. }
    rewrite E1. pose proof (Lo 0 m eq_refl) as Lo0.
    assert (HI : forall z, In z (seq (mp_min m) (Z.to_nat (mp_max m + 1) - mp_min m)) <-> (Z.of_nat (mp_min m) <= Z.of_nat z <= mp_max m)%Z). { intros z. rewrite in_seq. lia. }
    destruct (IH idx1 (S i) (Nat.max lo (Z.to_nat (mp_max m + 1)))) as (idx' & E & L & N & G).
    { intros k p K. rewrite L1. apply (B (S k) p K). }
    { intros k p K. pose proof (Lo (S k) p K). pose proof (D 0 (S k) m p ltac:(lia) eq_refl K). lia. }
    { intros k l p q K Ep Eq. apply (D (S k) (S l) p q); auto. lia. }
    exists idx'. split; auto. split; [congruence|]. split.
    + intros z Hz. rewrite N by lia. rewrite N1. destruct (in_dec Nat.eq_dec z _) as [I|]; auto. apply HI in I. lia.
    + intros [|k] p z Ep Hz; cbn in Ep.
      * injection Ep as <-. rewrite N by lia. rewrite N1. destruct (in_dec Nat.eq_dec z _) as [I|I]; [f_equal; lia|]. exfalso. apply I. now apply HI.
      * rewrite (G k p z Ep Hz). f_equal. lia.
Qed.

(** Specification: planes [lo, hi) added up. *)
Definition span_height (dz : list R) (lo n : nat) : R := rsum (fun k => nth (lo + k) dz 0%R) n.

(** C61 (partition).  In an accepted core mesh whose lattice blocks are non-empty there is one macroplane per block;
    macroplane i starts after the planes of the earlier blocks and spans its block; every axial plane lies in exactly
    one macroplane, the one the index table gives; a macroplane's height is the sum of its plane heights, the heights
    add up to the core height, and its plane and pins are those of its lowest axial plane. *)
Theorem C61_macroplanes : forall ulp C A0 M, wf_core ulp C -> nth_error (co_asys C) 0 = Some A0 -> ids_identify (all_pins C) (all_pins C) ->
  (forall n, In n (as_sub A0) -> 1 <= n) -> make_core_mesh ulp C = Got M ->
  cm_nz M = as_nz A0 /\ length (cm_macros M) = length (as_sub A0) /\
  (forall i n, nth_error (as_sub A0) i = Some n -> exists m u, nth_error (cm_macros M) i = Some m /\ mp_min m = before (as_sub A0) i /\
     mp_max m = Z.of_nat (mp_min m + n - 1) /\ mp_height m = span_height (as_dz A0) (mp_min m) n /\ nth_error (cm_heights M) i = Some (mp_height m) /\
     nth_error (sc_uid (cm_scan M)) (mp_min m) = Some u /\ nth_error (sc_planes (cm_scan M)) u = Some (mp_plane m) /\
     mp_stt m = mp_min m * cm_nx M * cm_ny M /\ mp_stp m = mp_stt m + cm_nx M * cm_ny M) /\
  (forall iz, iz < cm_nz M -> exists i m, nth_error (cm_mindex M) iz = Some i /\ nth_error (cm_macros M) i = Some m /\
     (Z.of_nat (mp_min m) <= Z.of_nat iz <= mp_max m)%Z /\
     forall j p, nth_error (cm_macros M) j = Some p -> (Z.of_nat (mp_min p) <= Z.of_nat iz <= mp_max p)%Z -> j = i) /\
  rsum (fun i => nth i (cm_heights M) 0%R) (length (cm_heights M)) = cm_hz M /\ cm_hz M = rsum (fun k => nth k (as_dz A0) 0%R) (as_nz A0).
Proof.
  intros ulp C A0 M W F0 IDS Hn E. unfold make_core_mesh in E.
  destruct (co_asys C) as [|a rest] eqn:Ea; [discriminate|]. rewrite <- Ea in *. assert (a = A0) by (rewrite Ea in F0; cbn in F0; congruence). subst a.
  pose proof (wc_asy ulp C W A0 (nth_error_In _ _ F0)) as WA.
  destruct (reads (co_asys C) as_hx _) as [wx|]; [|discriminate]. destruct (reads (co_asys C) as_hy _) as [wy|]; [|discriminate].
  destruct (scan_planes ulp C (as_nz A0)) as [s| |] eqn:Es; try discriminate.
  destruct (row_widths C) as [dx|]; [|discriminate]. destruct (col_heights C) as [dy|]; [|discriminate].
  destruct (heights_spec (as_sub A0) (as_dz A0)) as (h & Eh & Lh & Nh & Sh). { rewrite (wa_sub A0 WA), (wa_dz A0 WA). auto. }
  rewrite Eh in E.
  destruct (C62_unique_planes ulp C A0 s W F0 IDS Es) as (_ & U & _).
  destruct (macros_spec (sc_planes s) (sc_uid s) (co_npinx C) (co_npiny C) (as_sub A0) h 0) as (ms & Em & Lm & Gm); auto.
  { intros z Hz. rewrite (wa_sub A0 WA) in Hz. destruct (U z Hz) as (_ & _ & u & Q & _ & _ & _ & E1 & E2 & _). eauto. }
  rewrite Em in E.
  assert (B : forall k n, nth_error (as_sub A0) k = Some n -> 1 <= n /\ before (as_sub A0) k + n <= as_nz A0).
  { intros k n K. assert (1 <= n) by (apply Hn; eapply nth_error_In; eauto). split; auto. rewrite <- (wa_sub A0 WA).
    pose proof (before_bound (as_sub A0) k n (n - 1) K ltac:(lia)). lia. }
  assert (Mk : forall k m, nth_error ms k = Some m -> exists n v, nth_error (as_sub A0) k = Some n /\ nth_error h k = Some v /\
     mp_min m = before (as_sub A0) k /\ mp_max m = Z.of_nat (before (as_sub A0) k + n - 1)).
  { intros k m K. assert (k < length ms) as Hk by (apply nth_error_Some; congruence).
    destruct (nth_error (as_sub A0) k) as [n|] eqn:En; [|apply nth_error_None in En; lia]. destruct (nth_error h k) as [v|] eqn:Ev; [|apply nth_error_None in Ev; lia].
    destruct (Gm k n v En Ev) as (m' & u & E1 & E2 & E3 & _). assert (m' = m) by congruence. subst. exists n, v. repeat split; auto. }
  destruct (index_spec ms (repeat 0 (as_nz A0)) 0 0) as (mi & Ei & Li & _ & Gi).
  { intros k m K. destruct (Mk k m K) as (n & v & En & _ & E1 & E2). destruct (B k n En). rewrite repeat_length, E1, E2. lia. }
  { intros. lia. }
  { intros k l m p Hkl Ekm Elp. destruct (Mk k m Ekm) as (n & v & En & _ & E1 & E2). destruct (Mk l p Elp) as (n' & v' & En' & _ & E1' & E2').
    destruct (B k n En). pose proof (before_mono (as_sub A0) (S k) l ltac:(lia)) as Mo. rewrite (before_S _ k n En) in Mo. rewrite E2, E1'. lia. }
  rewrite Ei in E. injection E as <-. cbn [cm_nz cm_macros cm_heights cm_scan cm_mindex cm_hz cm_nx cm_ny].
  split; auto. split; [congruence|]. split; [|split; [|split]].
  - intros i n En. destruct (nth_error h i) as [v|] eqn:Ev; [|apply nth_error_None in Ev; assert (i < length (as_sub A0)) by (apply nth_error_Some; congruence); lia].
    destruct (Gm i n v En Ev) as (m & u & E1 & E2 & E3 & E4 & E5 & E6 & E7 & E8). exists m, u. split; auto. split; auto. cbn [Nat.add] in E2.
    split; [rewrite E3, E2; reflexivity|]. split; [rewrite E4, E2; apply (Nh i n v En Ev)|]. split; [congruence|]. auto.
  - intros iz Hz. destruct (before_find (as_sub A0) iz) as (i & n & r & En & Hr & Eiz). { rewrite (wa_sub A0 WA). auto. }
    destruct (nth_error h i) as [v|] eqn:Ev; [|apply nth_error_None in Ev; assert (i < length (as_sub A0)) by (apply nth_error_Some; congruence); lia].
    destruct (Gm i n v En Ev) as (m & u & E1 & E2 & E3 & _). cbn [Nat.add] in E2, E3. exists i, m.
    assert ((Z.of_nat (mp_min m) <= Z.of_nat iz <= mp_max m)%Z) as R1 by (rewrite E2, E3; lia).
    split; [apply (Gi i m iz E1 R1)|]. split; auto. split; auto.
    intros j p Ej Rj. pose proof (Gi j p iz Ej Rj) as G1. pose proof (Gi i m iz E1 R1) as G2. rewrite G1 in G2. injection G2. auto.
  - rewrite Sh, fold_sum. reflexivity.
  - rewrite fold_sum, (wa_dz A0 WA). reflexivity.
Qed.
Print Assumptions C61_macroplanes.

Lemma bounds_nth : forall sub p i n, nth_error sub i = Some n -> nth_error (sub_bounds p sub) i = Some (p + before sub i + n).
Proof.
  induction sub as [|a sub IH]; intros p [|i] n E; try discriminate; cbn [sub_bounds nth_error] in *.
  - injection E as ->. change (before (n :: sub) 0) with 0. f_equal. lia.
  - rewrite (IH (p + a) i n E), before_cons. f_equal. lia.
Qed.
Lemma bounds_len : forall sub p, length (sub_bounds p sub) = length sub.
Proof. induction sub; intros p; cbn; auto. Qed.

(** C61 (lookup).  The MoC sweeper's plane lookup returns, for every axial plane, the block that contains it. *)
Theorem C61_moc_plane_index : forall sub i n r, nth_error sub i = Some n -> r < n -> moc_plane_index sub (before sub i + r) = Some i.
Proof.
  intros sub i n r E Hr. unfold moc_plane_index.
  assert (Inv : forall k v, nth_error (sub_bounds 0 sub) k = Some v -> v = before sub (S k)).
  { intros k v K. assert (k < length sub) as Hk by (rewrite <- (bounds_len sub 0); apply nth_error_Some; congruence).
    destruct (nth_error sub k) as [m|] eqn:Em; [|apply nth_error_None in Em; lia]. rewrite (bounds_nth sub 0 k m Em) in K. rewrite (before_S _ _ _ Em). injection K as <-. lia. }
  destruct (upper_bound_spec nat Nat.ltb (sub_bounds 0 sub) (before sub i + r)) as (u & Eu & Lu & Below & Above).
  { intros a b x y Hab Ex Ey. rewrite (Inv a x Ex), (Inv b y Ey). pose proof (before_mono sub (S a) (S b) ltac:(lia)).
    intros T. apply Nat.ltb_lt in T. apply Nat.ltb_lt. lia. }
  rewrite Eu. f_equal. rewrite bounds_len in Lu. assert (i < length sub) as Hi by (apply nth_error_Some; congruence).
  destruct (Nat.lt_trichotomy u i) as [L|[->|L]]; auto; exfalso.
  - destruct (nth_error sub u) as [m|] eqn:Em; [|apply nth_error_None in Em; lia].
    pose proof (Above u _ ltac:(lia) (bounds_nth sub 0 u m Em)) as T. apply Nat.ltb_lt in T. pose proof (before_mono sub (S u) i ltac:(lia)) as Mo. rewrite (before_S _ _ _ Em) in Mo. lia.
  - pose proof (Below i _ L (bounds_nth sub 0 i n E)) as T. apply Nat.ltb_ge in T. lia.
Qed.
Print Assumptions C61_moc_plane_index.

Lemma same_ids_spec : forall ls ip id ks, same_ids ls ip id ks = Some true -> forall k, In k ks -> exists l, nth_error ls (ip + k) = Some l /\ lat_id l = id.
Proof.
  induction ks as [|a ks IH]; intros E k I; [destruct I|]. cbn [same_ids] in E. destruct (nth_error ls (ip + a)) as [l|] eqn:El; [|discriminate].
  destruct (Z.eqb_spec (lat_id l) id) as [Ei|]; [|discriminate]. destruct I as [<-|I]; eauto.
Qed.
Lemma moc_check_spec : forall ls sub ip, moc_check_assembly ls ip sub = Some true -> forall i n r, nth_error sub i = Some n -> r < n ->
  exists l l', nth_error ls (ip + before sub i) = Some l /\ nth_error ls (ip + before sub i + r) = Some l' /\ lat_id l' = lat_id l.
Proof.
  intros ls. induction sub as [|a sub IH]; intros ip E i n r En Hr; [destruct i; discriminate|]. cbn [moc_check_assembly] in E.
  destruct (nth_error ls ip) as [l|] eqn:El; [|discriminate]. destruct (same_ids ls ip (lat_id l) (seq 1 (a - 1))) as [[|]|] eqn:Es; try discriminate.
  destruct i as [|i]; cbn in En.
  - injection En as ->. change (before (n :: sub) 0) with 0. rewrite Nat.add_0_r. exists l. destruct (Nat.eq_dec r 0) as [->|Hr0].
    + exists l. rewrite Nat.add_0_r. auto.
    + destruct (same_ids_spec _ _ _ _ Es r) as (l' & E1 & E2); [apply in_seq; lia|]. exists l'. auto.
  - rewrite before_cons. destruct (IH (ip + a) E i n r En Hr) as (x & y & E1 & E2 & E3). exists x, y. rewrite !Nat.add_assoc in *. auto.
Qed.

(** C61 (identical geometry).  When the MoC sweeper's constructor accepts the core, every axial plane of a macroplane
    holds the very lattices of the macroplane's lowest plane, so all of them share one unique plane -- the macroplane's.
    Hypothesis: lattice ids identify lattices (they are map keys in the input). *)
Theorem C61_moc_geometry : forall ulp C A0 s, wf_core ulp C -> nth_error (co_asys C) 0 = Some A0 -> ids_identify (all_pins C) (all_pins C) ->
  (forall A B l m, In A (co_asys C) -> In B (co_asys C) -> In l (as_lats A) -> In m (as_lats B) -> lat_id l = lat_id m -> l = m) ->
  scan_planes ulp C (as_nz A0) = Got s -> moc_check (co_asys C) (as_sub A0) = Got tt ->
  forall i n r, nth_error (as_sub A0) i = Some n -> r < n ->
    (forall A, In A (co_asys C) -> nth_error (as_lats A) (before (as_sub A0) i + r) = nth_error (as_lats A) (before (as_sub A0) i)) /\
    nth_error (sc_uid s) (before (as_sub A0) i + r) = nth_error (sc_uid s) (before (as_sub A0) i).
Proof.
  intros ulp C A0 s W F0 IDS U Es Ck i n r En Hr.
  assert (Same : forall A, In A (co_asys C) -> nth_error (as_lats A) (before (as_sub A0) i + r) = nth_error (as_lats A) (before (as_sub A0) i)).
  { intros A I. assert (moc_check_assembly (as_lats A) 0 (as_sub A0) = Some true) as Ca.
    { clear -Ck I. unfold moc_check in Ck. revert Ck. induction (co_asys C) as [|a l IH]; [destruct I|]. cbn [fold_out].
      destruct (moc_check_assembly (as_lats a) 0 (as_sub A0)) as [[|]|] eqn:E; try discriminate. destruct I as [->|I]; auto. }
    destruct (moc_check_spec _ _ _ Ca i n r En Hr) as (l & l' & E1 & E2 & E3). cbn [Nat.add] in E1, E2. rewrite E1, E2. f_equal.
    apply (U A A l' l); auto; eapply nth_error_In; eauto. }
  split; auto.
  pose proof (wc_asy ulp C W A0 (nth_error_In _ _ F0)) as WA.
  assert (before (as_sub A0) i + r < as_nz A0) as B by (rewrite <- (wa_sub A0 WA); apply (before_bound _ i n r); auto).
  destruct (C62_unique_planes ulp C A0 s W F0 IDS Es) as (_ & Un & Iff & _).
  destruct (Un _ B) as (ls & _ & _ & _ & El & _). destruct (Un (before (as_sub A0) i) ltac:(lia)) as (ms & _ & _ & _ & Em & _).
  assert (ls = ms) as Elm.
  { unfold plane_lats in El, Em. rewrite (map_ext_in _ (fun a => nth_error (as_lats a) (before (as_sub A0) i)) (co_asys C)) in El; [congruence|]. intros a I. now apply Same. }
  apply (Iff _ _ ls ms); auto; [lia|]. subst ms. clear. induction ls; constructor; auto. unfold alike. auto.
Qed.
Print Assumptions C61_moc_geometry.

(** C61 fails for the core mesh by itself: one block may hold two lattices whose pin meshes differ, and its macroplane
    then claims both axial planes while only the lower one has its plane; the MoC sweeper refuses such a core. *)
Definition pin9 : Pin := mkPin 9 (mkPM 9 4 1 2 2) [1%Z] false.
Definition latA9 : Lattice := mkLat 9 1 1 4 1 2 2 [2%R] [2%R] [0%R; (0 + 2)%R] [0%R; (0 + 2)%R] [pin9] [0].
Lemma wf_A9 : wf_lat latA9.
Proof. constructor; cbn; auto; try lra. intros x y p X Y. assert (x = 0) by lia. assert (y = 0) by lia. subst. cbn. intros [= <-]. auto. Qed.
Definition coreM : Core := mkCore 1 1 1 1 [] [mkAsy 7 2 [1%R; 2%R] 2 2 5 2 [2] [latA; latA9]].
Lemma meshM : exists M, make_core_mesh Reqb coreM = Got M /\ sc_uid (cm_scan M) = [0; 1] /\ cm_mindex M = [0; 0] /\ map pl_nreg (sc_planes (cm_scan M)) = [1; 4].
Proof.
  assert (Reqb 2 2 = true) as E2 by (destruct (Reqb_spec 2 2); auto; lra).
  assert (make_plane Reqb [latA] 1 1 = Got (mkPlane [latA] 1 1 1 1 1 1 (psums 0 [2%R]) (psums 0 [2%R]) [0] 0 1)) as P1.
  { unfold make_plane. cbn -[Reqb size_ok psums]. unfold size_ok. cbn -[Reqb psums]. rewrite E2. reflexivity. }
  assert (make_plane Reqb [latA9] 1 1 = Got (mkPlane [latA9] 1 1 1 1 4 1 (psums 0 [2%R]) (psums 0 [2%R]) [0] 0 1)) as P2.
  { unfold make_plane. cbn -[Reqb size_ok psums]. unfold size_ok. cbn -[Reqb psums]. rewrite E2. reflexivity. }
  unfold make_core_mesh. cbn [co_asys coreM as_nz]. unfold scan_planes. cbn [seq fold_out]. unfold scan_plane at 1. cbn [plane_lats co_asys coreM map as_lats nth_error all_some co_nx co_ny].
  rewrite P1. cbn [find_plane sc_planes length Nat.eqb app]. unfold scan_plane at 1.
  cbn [plane_lats co_asys coreM map as_lats nth_error all_some co_nx co_ny]. rewrite P2.
  cbn -[psums Rplus]. eexists. repeat split.
Qed.
Theorem C61_identical_geometry_refuted : exists C A0 M m, wf_core Reqb C /\ nth_error (co_asys C) 0 = Some A0 /\ ids_identify (all_pins C) (all_pins C) /\
  make_core_mesh Reqb C = Got M /\ nth_error (cm_macros M) 0 = Some m /\ (mp_min m = 0 /\ mp_max m = 1%Z) /\
  nth_error (sc_uid (cm_scan M)) 0 <> nth_error (sc_uid (cm_scan M)) 1 /\ moc_check (co_asys C) (as_sub A0) = Threw.
Proof.
  destruct meshM as (M & E & U & I & N).
  assert (wf_core Reqb coreM) as W.
  { constructor; cbn; auto.
    - intros A [<- | []]. constructor; cbn; auto.
      + intros L [<- | [<- | []]]; auto using wf_A, wf_A9.
      + intros L K [<- | [<- | []]] [<- | [<- | []]]; cbn; repeat split.
    - intros A0 [= <-] A [<- | []]. split; auto. split; auto. intros k u v Eu Ev. assert (u = v) by congruence. subst. destruct (Reqb_spec v v); auto. }
  assert (ids_identify (all_pins coreM) (all_pins coreM)) as IDS. { intros p q P Q. cbn in P, Q. destruct P as [<- | [<- | []]]; destruct Q as [<- | [<- | []]]; cbn; congruence || auto. }
  destruct (C61_macroplanes Reqb coreM _ M W eq_refl IDS) as (_ & _ & Mp & _); auto. { cbn. intros n [<- | []]. lia. }
  destruct (Mp 0 2 eq_refl) as (m & u & Em & E1 & E2 & _). exists coreM. eexists. exists M, m. split; auto. split; [reflexivity|]. split; auto. split; auto. split; auto.
  cbn in E1. rewrite E1 in E2. split; [auto|]. rewrite U. split; [cbn; congruence|]. reflexivity.
Qed.
Print Assumptions C61_identical_geometry_refuted.

(** An accepted core of two different blocks meeting the hypotheses of the theorems above. *)
Definition coreK : Core := mkCore 1 1 1 1 [] [mkAsy 7 3 [1%R; 2%R; 4%R] 2 2 6 3 [2; 1] [latA; latA; latA9]].
Example C61_instance : exists A0 s, wf_core Reqb coreK /\ nth_error (co_asys coreK) 0 = Some A0 /\ ids_identify (all_pins coreK) (all_pins coreK) /\
  scan_planes Reqb coreK (as_nz A0) = Got s /\ moc_check (co_asys coreK) (as_sub A0) = Got tt /\ sc_uid s = [0; 0; 1].
Proof.
  eexists. 
  assert (wf_core Reqb coreK) as W.
  { constructor; cbn; auto.
    - intros A [<- | []]. constructor; cbn; auto.
      + intros L [<- | [<- | [<- | []]]]; auto using wf_A, wf_A9.
      + intros L K [<- | [<- | [<- | []]]] [<- | [<- | [<- | []]]]; cbn; repeat split.
    - intros A0 [= <-] A [<- | []]. split; auto. split; auto. intros k u v Eu Ev. assert (u = v) by congruence. subst. destruct (Reqb_spec v v); auto. }
  assert (ids_identify (all_pins coreK) (all_pins coreK)) as IDS.
  { intros p q P Q. cbn in P, Q. destruct P as [<- | [<- | [<- | []]]]; destruct Q as [<- | [<- | [<- | []]]]; cbn; congruence || auto. }
  assert (Reqb 2 2 = true) as E2 by (destruct (Reqb_spec 2 2); auto; lra).
  assert (make_plane Reqb [latA] 1 1 = Got (mkPlane [latA] 1 1 1 1 1 1 (psums 0 [2%R]) (psums 0 [2%R]) [0] 0 1)) as P1.
  { unfold make_plane. cbn -[Reqb size_ok psums]. unfold size_ok. cbn -[Reqb psums]. rewrite E2. reflexivity. }
  assert (make_plane Reqb [latA9] 1 1 = Got (mkPlane [latA9] 1 1 1 1 4 1 (psums 0 [2%R]) (psums 0 [2%R]) [0] 0 1)) as P2.
  { unfold make_plane. cbn -[Reqb size_ok psums]. unfold size_ok. cbn -[Reqb psums]. rewrite E2. reflexivity. }
  eexists. split; auto. split; [reflexivity|]. split; auto. cbn [as_nz as_sub coreK co_asys]. split.
  - unfold scan_planes. cbn [seq fold_out]. unfold scan_plane at 1. cbn [plane_lats co_asys coreK map as_lats nth_error all_some co_nx co_ny].
    rewrite P1. cbn [find_plane sc_planes length Nat.eqb app]. unfold scan_plane at 1.
    cbn [plane_lats co_asys coreK map as_lats nth_error all_some co_nx co_ny]. rewrite P1. cbn -[psums Rplus scan_plane]. unfold scan_plane.
    cbn [plane_lats co_asys coreK map as_lats nth_error all_some co_nx co_ny]. rewrite P2. cbn -[psums Rplus]. reflexivity.
  - split; reflexivity.
Qed.

(** Two planes with the same meshes but different materials are one geometry; a plane of other pins is another. *)
Example C62_instance : exists P Q S, make_plane Reqb [latA] 1 1 = Got P /\ make_plane Reqb [latA2] 1 1 = Got Q /\ make_plane Reqb [latA9] 1 1 = Got S /\
  P <> Q /\ pl_equiv P Q = Some true /\ pl_equiv P S = Some false.
Proof.
  assert (Reqb 2 2 = true) as E2 by (destruct (Reqb_spec 2 2); auto; lra).
  assert (forall L, lat_hx L = 2%R -> lat_hy L = 2%R -> exists P, make_plane Reqb [L] 1 1 = Got P /\ pl_lats P = [L] /\ pl_nx P = 1 /\ pl_ny P = 1 /\ pl_nreg P = lat_nreg L + 0 /\ pl_nxs P = lat_nxs L + 0) as G.
  { intros L A B. unfold make_plane. cbn -[Reqb size_ok psums]. unfold size_ok. cbn -[Reqb psums]. rewrite A, B, E2. eexists. repeat split. }
  destruct (G latA eq_refl eq_refl) as (P & EP & LP & XP & YP & RP & SP). destruct (G latA2 eq_refl eq_refl) as (Q & EQ & LQ & XQ & YQ & RQ & SQ).
  destruct (G latA9 eq_refl eq_refl) as (S & ES & LS & XS & YS & RS & SS). exists P, Q, S. repeat split; auto.
  - intros ->. rewrite LP in LQ. discriminate.
  - unfold pl_equiv. rewrite LP, LQ, XP, YP, XQ, YQ, RP, SP, RQ, SQ. reflexivity.
  - unfold pl_equiv. rewrite LP, LS, XP, YP, XS, YS, RP, SP, RS, SS. reflexivity.
Qed.
