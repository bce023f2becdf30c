(** Properties C57 and C60: lattices and pins. *)
From Coq Require Import List Lia Bool Reals Lra ZArith Arith.
From Verif Require Import RUtil McModel McProofs ListUtil StdAlg StdAlgProofs MatModel MatProps CoreModel CoreProofs BcProofs.
Import ListNotations.
Open Scope nat_scope.

(* ------------------------------------------------------------ construction *)
(** Specification: the pin drawn in column [x] from the left and row [y] from the bottom of the input map. *)
Definition drawn {P} (pins : list (Z * P)) (ids : list Z) (nx ny x y : nat) : option P :=
  match nth_error ids ((ny - 1 - y) * nx + x) with Some id => map_at Z.eqb pins id | None => None end.
(** Specification: every identifier of the map names a pin. *)
Definition known {P} (pins : list (Z * P)) (ids : list Z) : Prop := forall id, In id ids -> map_at Z.eqb pins id <> None.
(** Specification: pins of one column have one width, pins of one row one height. *)
Definition congruent (pins : list (Z * Pin)) (ids : list Z) (nx ny : nat) : Prop :=
  forall x y p q r, x < nx -> y < ny -> drawn pins ids nx ny x y = Some p -> drawn pins ids nx ny x 0 = Some q ->
    drawn pins ids nx ny 0 y = Some r -> pm_px (pin_mesh p) = pm_px (pin_mesh q) /\ pm_py (pin_mesh p) = pm_py (pin_mesh r).
(** Specification: the regions of the first [k] pins. *)
Definition regions_before (l : list Pin) (k : nat) : nat := list_sum (firstn k (map (fun p => pm_nreg (pin_mesh p)) l)).

(** The facts about an accepted lattice used below. *)
Record wf_lat (L : Lattice) : Prop := {
  wl_nx : 1 <= lat_nx L; wl_ny : 1 <= lat_ny L; wl_len : length (lat_pins L) = lat_nx L * lat_ny L;
  wl_hxl : length (lat_hxv L) = lat_nx L; wl_hyl : length (lat_hyv L) = lat_ny L;
  wl_pitch : forall x y p, x < lat_nx L -> y < lat_ny L -> lat_at L x y = Some p ->
     nth_error (lat_hxv L) x = Some (pm_px (pin_mesh p)) /\ nth_error (lat_hyv L) y = Some (pm_py (pin_mesh p));
  wl_xv : lat_xv L = psums 0 (lat_hxv L); wl_yv : lat_yv L = psums 0 (lat_hyv L);
  wl_hx : lat_hx L = fold_left Rplus (lat_hxv L) 0%R; wl_hy : lat_hy L = fold_left Rplus (lat_hyv L) 0%R;
  wl_first : lat_first L = offsets 0 (map (fun p => pm_nreg (pin_mesh p)) (lat_pins L));
  wl_nreg : lat_nreg L = list_sum (map (fun p => pm_nreg (pin_mesh p)) (lat_pins L));
  wl_nxs : lat_nxs L = list_sum (map (fun p => pm_nxs (pin_mesh p)) (lat_pins L))
}.

Lemma place_ok : forall {P} (pins : list (Z * P)) ids nx ny, length ids = nx * ny -> known pins ids ->
  exists ps, place_pins pins ids nx ny (nx * ny) = Got (map Some ps) /\ length ps = nx * ny /\
    forall x y, x < nx -> y < ny -> nth_error ps (y * nx + x) = drawn pins ids nx ny x y.
Proof.
  intros P pins ids nx ny Hl Hk. unfold place_pins.
  set (get := fun q : nat * nat => match nth_error ids (fst q * nx + snd q) with
                                   | None => Undef
                                   | Some id => match map_at Z.eqb pins id with None => Threw | Some p => Got p end end).
  set (w := fun q : nat * nat => (ny - fst q - 1) * nx + snd q).
  rewrite (fold_out_ext _ (fun s x => match get x with
      | Got p => match set_nth s (w x) (Some p) with Some s' => Got s' | None => Undef end
      | Threw => Threw | Undef => Undef end)).
  2:{ intros s [iy ix]. unfold get, w. cbn [fst snd]. destruct (nth_error ids (iy * nx + ix)); auto. destruct (map_at Z.eqb pins z); auto. }
  assert (forall q, In q (yx_loop nx ny) -> exists p, get q = Got p) as G.
  { intros [iy ix] Q. apply yx_loop_in in Q. destruct Q as [Y X]. unfold get. cbn [fst snd].
    pose proof (index_bound nx ny iy ix Y X). destruct (nth_error ids (iy * nx + ix)) eqn:E.
    - specialize (Hk z (nth_error_In _ _ E)). destruct (map_at Z.eqb pins z); [eauto|congruence].
    - apply nth_error_None in E. lia. }
  destruct (fold_write get w (yx_loop nx ny) (repeat None (nx * ny)) G) as (st & E & L & A & _).
  { intros [iy ix] Q. apply yx_loop_in in Q. rewrite repeat_length. unfold w. cbn [fst snd]. apply index_bound; lia. }
  { apply NoDup_yx. intros a b c d A C B D. unfold w. cbn [fst snd]. intros E.
    destruct (index_inj nx (ny - a - 1) b (ny - c - 1) d B D E). split; lia. }
  rewrite repeat_length in L. rewrite E.
  assert (forall x y, x < nx -> y < ny -> exists p, drawn pins ids nx ny x y = Some p /\ nth_error st (y * nx + x) = Some (Some p)) as S.
  { intros x y X Y. destruct (G (ny - 1 - y, x)) as [p Ep]. { apply yx_loop_in. lia. }
    pose proof (A (ny - 1 - y, x) p ltac:(apply yx_loop_in; lia) Ep) as N. unfold w in N. cbn [fst snd] in N.
    replace (ny - (ny - 1 - y) - 1) with y in N by lia.
    exists p. split; [|exact N]. unfold get in Ep. cbn [fst snd] in Ep. unfold drawn.
    destruct (nth_error ids ((ny - 1 - y) * nx + x)); [|discriminate]. destruct (map_at Z.eqb pins z); congruence. }
  destruct (all_some_ex st) as [ps ->].
  { intros k K. rewrite L in K. destruct (index_split nx ny k K) as (y & x & Y & X & ->).
    destruct (S x y X Y) as (p & _ & N). eauto. }
  exists ps. rewrite map_length in L. split; [reflexivity|]. split; [exact L|]. intros x y X Y.
  destruct (S x y X Y) as (p & -> & N). rewrite nth_error_map in N. destruct (nth_error ps (y * nx + x)); cbn in N; congruence.
Qed.

Lemma place_throws : forall {P} (pins : list (Z * P)) ids nx ny, length ids = nx * ny -> ~ known pins ids ->
  place_pins pins ids nx ny (nx * ny) = Threw.
Proof.
  intros P pins ids nx ny Hl Hk. unfold place_pins.
  set (get := fun q : nat * nat => match nth_error ids (fst q * nx + snd q) with
                                   | None => Undef
                                   | Some id => match map_at Z.eqb pins id with None => Threw | Some p => Got p end end).
  set (w := fun q : nat * nat => (ny - fst q - 1) * nx + snd q).
  rewrite (fold_out_ext _ (fun s x => match get x with
      | Got p => match set_nth s (w x) (Some p) with Some s' => Got s' | None => Undef end
      | Threw => Threw | Undef => Undef end)).
  2:{ intros s [iy ix]. unfold get, w. cbn [fst snd]. destruct (nth_error ids (iy * nx + ix)); auto. destruct (map_at Z.eqb pins z); auto. }
  apply fold_threw.
  - intros [iy ix] Q. apply yx_loop_in in Q. destruct Q as [Y X]. unfold get. cbn [fst snd].
    pose proof (index_bound nx ny iy ix Y X). destruct (nth_error ids (iy * nx + ix)) eqn:E.
    + destruct (map_at Z.eqb pins z); discriminate.
    + apply nth_error_None in E. lia.
  - intros [iy ix] Q. apply yx_loop_in in Q. rewrite repeat_length. unfold w. cbn [fst snd]. apply index_bound; lia.
  - assert (exists id, In id ids /\ map_at Z.eqb pins id = None) as (id & I & N).
    { clear - Hk. induction ids as [|a r IH].
      - exfalso. apply Hk. intros ? [].
      - destruct (map_at Z.eqb pins a) eqn:E.
        + destruct IH as (id & I & N). { intros K. apply Hk. intros b [<- | B]; [congruence|auto]. } exists id. split; auto. now right.
        + exists a. split; auto. now left. }
    apply In_nth_error in I. destruct I as [k K].
    assert (k < nx * ny) as B by (rewrite <- Hl; apply nth_error_Some; congruence).
    destruct (index_split nx ny k B) as (y & x & Y & X & ->). exists (y, x). split; [now apply yx_loop_in|].
    unfold get. cbn [fst snd]. now rewrite K, N.
Qed.

(** The whole constructor for dimensions that fit. *)
Lemma make_lattice_spec : forall pins id nx0 ny0 ids, id <> 0%Z -> (0 < nx0)%Z -> (0 < ny0)%Z -> (nx0 * ny0 < 2 ^ 32)%Z ->
  Z.of_nat (length ids) = (nx0 * ny0)%Z ->
  let nx := Z.to_nat nx0 in let ny := Z.to_nat ny0 in
  (~ known pins ids -> make_lattice pins id nx0 ny0 ids = Threw) /\
  (known pins ids -> ~ congruent pins ids nx ny -> make_lattice pins id nx0 ny0 ids = Threw) /\
  (known pins ids -> congruent pins ids nx ny -> exists L, make_lattice pins id nx0 ny0 ids = Got L /\
     lat_id L = id /\ lat_nx L = nx /\ lat_ny L = ny /\ wf_lat L /\
     forall x y, x < nx -> y < ny -> lat_at L x y = drawn pins ids nx ny x y).
Proof.
  intros pins id nx0 ny0 ids Hid Hx Hy Hxy Hl nx ny.
  assert (nx0 < 2 ^ 32 /\ ny0 < 2 ^ 32)%Z as [Bx By] by (split; nia).
  assert (length ids = nx * ny) as Hl' by (unfold nx, ny; nia).
  assert (1 <= nx /\ 1 <= ny) as [Px Py] by (unfold nx, ny; lia).
  assert (make_lattice pins id nx0 ny0 ids =
    match place_pins pins ids nx ny (nx * ny) with
    | Threw => Threw
    | Undef => Undef
    | Got st =>
        match all_some st with
        | None => Undef
        | Some ps =>
            match reads ps (fun p => pm_px (pin_mesh p)) (seq 0 nx),
                  reads ps (fun p => pm_py (pin_mesh p)) (map (fun iy => iy * nx) (seq 0 ny)) with
            | Some hxv, Some hyv =>
                match check_pitches nx ny ps hxv hyv with
                | Threw => Threw
                | Undef => Undef
                | Got _ =>
                    let nr := map (fun p => pm_nreg (pin_mesh p)) ps in
                    Got (mkLat id nx ny (list_sum nr) (list_sum (map (fun p => pm_nxs (pin_mesh p)) ps))
                               (fold_left Rplus hxv 0%R) (fold_left Rplus hyv 0%R) hxv hyv (psums 0 hxv) (psums 0 hyv)
                               ps (offsets 0 nr))
                end
            | _, _ => Undef
            end
        end
    end) as ->.
  { unfold make_lattice. destruct (Z.eqb_spec id 0); [contradiction|].
    destruct (Z.eqb_spec nx0 0); [lia|]. destruct (Z.eqb_spec ny0 0); [lia|]. cbn [orb].
    rewrite !(u32_small nx0), !(u32_small ny0) by lia. rewrite (u32_small (nx0 * ny0)) by lia.
    rewrite (proj2 (Z.eqb_eq _ _) Hl). cbn [negb].
    fold nx ny. replace (Z.to_nat (nx0 * ny0)) with (nx * ny) by (unfold nx, ny; nia). reflexivity. }
  split; [intros K; now rewrite place_throws|].
  assert (K : known pins ids -> exists ps, place_pins pins ids nx ny (nx * ny) = Got (map Some ps) /\ length ps = nx * ny /\
    forall x y, x < nx -> y < ny -> nth_error ps (y * nx + x) = drawn pins ids nx ny x y) by (intros; now apply place_ok).
  assert (M : known pins ids -> exists ps hxv hyv, place_pins pins ids nx ny (nx * ny) = Got (map Some ps) /\ length ps = nx * ny /\
    (forall x y, x < nx -> y < ny -> nth_error ps (y * nx + x) = drawn pins ids nx ny x y) /\
    (forall x y, x < nx -> y < ny -> exists p, drawn pins ids nx ny x y = Some p) /\
    reads ps (fun p => pm_px (pin_mesh p)) (seq 0 nx) = Some hxv /\ length hxv = nx /\
    (forall x p, x < nx -> drawn pins ids nx ny x 0 = Some p -> nth_error hxv x = Some (pm_px (pin_mesh p))) /\
    reads ps (fun p => pm_py (pin_mesh p)) (map (fun iy => iy * nx) (seq 0 ny)) = Some hyv /\ length hyv = ny /\
    (forall y p, y < ny -> drawn pins ids nx ny 0 y = Some p -> nth_error hyv y = Some (pm_py (pin_mesh p)))).
  { intros Q. destruct (K Q) as (ps & E & L & N).
    assert (D : forall x y, x < nx -> y < ny -> exists p, drawn pins ids nx ny x y = Some p).
    { intros x y X Y. rewrite <- N by auto. pose proof (index_bound nx ny y x Y X).
      destruct (nth_error ps (y * nx + x)) eqn:F; [eauto|]. apply nth_error_None in F. lia. }
    destruct (reads_spec ps (fun p => pm_px (pin_mesh p)) (seq 0 nx)) as (hxv & E1 & L1 & N1).
    { intros i I. apply in_seq in I. pose proof (index_bound nx ny 0 i ltac:(lia) ltac:(lia)). lia. }
    destruct (reads_spec ps (fun p => pm_py (pin_mesh p)) (map (fun iy => iy * nx) (seq 0 ny))) as (hyv & E2 & L2 & N2).
    { intros i I. apply in_map_iff in I. destruct I as (y & <- & I). apply in_seq in I.
      pose proof (index_bound nx ny y 0 ltac:(lia) ltac:(lia)). lia. }
    rewrite seq_length in L1. rewrite map_length, seq_length in L2.
    exists ps, hxv, hyv. repeat (split; [assumption|]). split.
    { intros x p X P. apply (N1 x x).
      - rewrite nth_error_nth' with (d := 0) by (rewrite seq_length; lia). rewrite seq_nth by lia. reflexivity.
      - rewrite <- N in P by lia. exact P. }
    repeat (split; [assumption|]).
    intros y p Y P. apply (N2 y (y * nx)).
    - rewrite nth_error_map, nth_error_nth' with (d := 0) by (rewrite seq_length; lia). rewrite seq_nth by lia. reflexivity.
    - rewrite <- N in P by lia. rewrite Nat.add_0_r in P. exact P. }
  assert (C : forall ps hxv hyv, length ps = nx * ny -> length hxv = nx -> length hyv = ny ->
     check_pitches nx ny ps hxv hyv = if forallb (fun q => match pitch_ok nx ps hxv hyv q with Got b => b | _ => false end) (yx_loop nx ny)
                                      then Got tt else Threw).
  { intros ps hxv hyv L1 L2 L3. unfold check_pitches. apply fold_check. intros [iy ix] I. apply yx_loop_in in I. destruct I as [Y X].
    unfold pitch_ok. pose proof (index_bound nx ny iy ix Y X).
    destruct (nth_error ps (iy * nx + ix)) eqn:F1; [|apply nth_error_None in F1; lia].
    destruct (nth_error hxv ix) eqn:F2; [|apply nth_error_None in F2; lia].
    destruct (nth_error hyv iy) eqn:F3; [|apply nth_error_None in F3; lia]. eauto. }
  split.
  - intros Q NC. destruct (M Q) as (ps & hxv & hyv & -> & L & N & D & E1 & L1 & N1 & E2 & L2 & N2).
    rewrite (proj2 (all_some_spec _ ps) eq_refl), E1, E2, C by auto.
    destruct (forallb _ (yx_loop nx ny)) eqn:F; auto. exfalso. apply NC. intros x y p q r X Y P Q' R'.
    rewrite forallb_forall in F. specialize (F (y, x) ltac:(now apply yx_loop_in)). unfold pitch_ok in F.
    rewrite (N x y X Y), P, (N1 x q X Q'), (N2 y r Y R') in F. apply andb_true_iff in F. destruct F as [F1 F2].
    destruct (Reqb_spec (pm_px (pin_mesh p)) (pm_px (pin_mesh q))); [|discriminate].
    destruct (Reqb_spec (pm_py (pin_mesh p)) (pm_py (pin_mesh r))); [|discriminate]. auto.
  - intros Q NC. destruct (M Q) as (ps & hxv & hyv & -> & L & N & D & E1 & L1 & N1 & E2 & L2 & N2).
    rewrite (proj2 (all_some_spec _ ps) eq_refl), E1, E2, C by auto.
    assert (T : forall x y p, x < nx -> y < ny -> drawn pins ids nx ny x y = Some p ->
       nth_error hxv x = Some (pm_px (pin_mesh p)) /\ nth_error hyv y = Some (pm_py (pin_mesh p))).
    { intros x y p X Y P. destruct (D x 0 X ltac:(lia)) as [q Q']. destruct (D 0 y ltac:(lia) Y) as [r R'].
      destruct (NC x y p q r X Y P Q' R') as [-> ->]. split; [now apply N1|now apply N2]. }
    replace (forallb (fun q => match pitch_ok nx ps hxv hyv q with Got b => b | _ => false end) (yx_loop nx ny)) with true.
    2:{ symmetry. apply forallb_forall. intros [y x] I. apply yx_loop_in in I. destruct I as [Y X]. unfold pitch_ok.
        destruct (D x y X Y) as [p P]. destruct (T x y p X Y P) as [-> ->]. rewrite (N x y X Y), P.
        apply andb_true_iff. split; rdec; auto. }
    cbv zeta. eexists. split; [reflexivity|]. cbn [lat_id lat_nx lat_ny]. repeat (split; [reflexivity|]). split.
    + constructor; cbn; auto. intros x y p X Y P. apply (T x y); auto. rewrite <- N by auto. exact P.
    + intros x y X Y. unfold lat_at. cbn. now apply N.
Qed.

(** C57 (layout).  For every accepted map, column x / row y (from the bottom) of the lattice is the pin drawn there,
    the region offset of each pin is the number of regions of the pins before it, and the total is the sum. *)
Theorem C57_lattice_layout : forall pins id nx0 ny0 ids L, (0 < nx0)%Z -> (0 < ny0)%Z -> (nx0 * ny0 < 2 ^ 32)%Z ->
  make_lattice pins id nx0 ny0 ids = Got L ->
  lat_nx L = Z.to_nat nx0 /\ lat_ny L = Z.to_nat ny0 /\ length (lat_pins L) = lat_nx L * lat_ny L /\
  lat_nreg L = regions_before (lat_pins L) (length (lat_pins L)) /\
  (forall x y, x < lat_nx L -> y < lat_ny L ->
     exists p, lat_at L x y = Some p /\ drawn pins ids (lat_nx L) (lat_ny L) x y = Some p /\
       nth_error (lat_first L) (y * lat_nx L + x) = Some (regions_before (lat_pins L) (y * lat_nx L + x)) /\
       nth_error (lat_hxv L) x = Some (pm_px (pin_mesh p)) /\ nth_error (lat_hyv L) y = Some (pm_py (pin_mesh p))).
Proof.
  intros pins id nx0 ny0 ids L Hx Hy Hxy E.
  assert (id <> 0%Z /\ Z.of_nat (length ids) = (nx0 * ny0)%Z) as [Hid Hl].
  { unfold make_lattice in E. destruct (Z.eqb_spec id 0); [discriminate|]. split; auto.
    destruct ((nx0 =? 0) || (ny0 =? 0))%Z; [discriminate|].
    rewrite (u32_small nx0), (u32_small ny0), (u32_small (nx0 * ny0)) in E by nia.
    destruct (Z.eqb_spec (Z.of_nat (length ids)) (nx0 * ny0)); [auto|discriminate]. }
  destruct (make_lattice_spec pins id nx0 ny0 ids Hid Hx Hy Hxy Hl) as (A & B & C).
  assert (NT : make_lattice pins id nx0 ny0 ids <> Threw) by congruence.
  assert (known pins ids) as K.
  { intros i I M. apply NT. apply A. intros KK. exact (KK i I M). }
  assert (congruent pins ids (Z.to_nat nx0) (Z.to_nat ny0)) as Cg.
  { intros x y p q r X Y P Q R'.
    destruct (Req_EM_T (pm_px (pin_mesh p)) (pm_px (pin_mesh q))) as [|N1]; [destruct (Req_EM_T (pm_py (pin_mesh p)) (pm_py (pin_mesh r))) as [|N2]; auto|].
    - exfalso. apply NT. apply B; auto. intros CC. apply N2. eapply CC; eauto.
    - exfalso. apply NT. apply B; auto. intros CC. apply N1. eapply CC; eauto. }
  destruct (C K Cg) as (L' & E' & _ & Nx & Ny & W & D). assert (L' = L) by congruence. subst L'.
  split; auto. split; auto. split; [apply W|]. split.
  { unfold regions_before. rewrite firstn_all2 by (rewrite map_length; lia). apply W. }
  intros x y X Y. pose proof (index_bound _ _ _ _ Y X) as IB. pose proof (wl_len L W) as WL.
  destruct (lat_at L x y) as [p|] eqn:P; [|apply nth_error_None in P; lia].
  exists p. split; auto. split. { rewrite Nx, Ny. rewrite <- D by lia. exact P. }
  split. { rewrite (wl_first L W), offsets_nth by (rewrite map_length; lia). reflexivity. }
  exact (wl_pitch L W x y p X Y P).
Qed.
Print Assumptions C57_lattice_layout.

(** C57 (acceptance).  A map of the right size is accepted exactly when every identifier names a pin and the pitches
    are congruent; otherwise it is rejected, never undefined. *)
Theorem C57_lattice_acceptance : forall pins id nx0 ny0 ids, id <> 0%Z -> (0 < nx0)%Z -> (0 < ny0)%Z -> (nx0 * ny0 < 2 ^ 32)%Z ->
  Z.of_nat (length ids) = (nx0 * ny0)%Z ->
  (known pins ids /\ congruent pins ids (Z.to_nat nx0) (Z.to_nat ny0) -> exists L, make_lattice pins id nx0 ny0 ids = Got L) /\
  (~ (known pins ids /\ congruent pins ids (Z.to_nat nx0) (Z.to_nat ny0)) -> make_lattice pins id nx0 ny0 ids = Threw).
Proof.
  intros pins id nx0 ny0 ids Hid Hx Hy Hxy Hl. destruct (make_lattice_spec pins id nx0 ny0 ids Hid Hx Hy Hxy Hl) as (A & B & C).
  split.
  - intros [K Cg]. destruct (C K Cg) as (L & E & _). eauto.
  - intros N. assert (known pins ids \/ ~ known pins ids) as [K|K].
    { unfold known. clear. induction ids as [|a r IH]; [left; intros ? []|].
      destruct (map_at Z.eqb pins a) eqn:E.
      - destruct IH as [K|K]; [left; intros b [<- | I]; [congruence|auto]|right; intros Q; apply K; intros b I; apply Q; now right].
      - right. intros Q. apply (Q a); auto. now left. }
    + apply B; auto.
    + apply A; auto.
Qed.
Print Assumptions C57_lattice_acceptance.

(** C57 (rejection of the wrong number of identifiers and of zero sizes). *)
Theorem C57_lattice_size_rejected : forall pins id nx0 ny0 ids, (0 <= nx0)%Z -> (0 <= ny0)%Z -> (nx0 * ny0 < 2 ^ 32)%Z ->
  (nx0 < 2 ^ 32)%Z -> (ny0 < 2 ^ 32)%Z ->
  id = 0%Z \/ nx0 = 0%Z \/ ny0 = 0%Z \/ Z.of_nat (length ids) <> (nx0 * ny0)%Z -> make_lattice pins id nx0 ny0 ids = Threw.
Proof.
  intros pins id nx0 ny0 ids Hx Hy Hxy Bx By H. unfold make_lattice. destruct (Z.eqb_spec id 0); auto.
  destruct (Z.eqb_spec nx0 0); auto. destruct (Z.eqb_spec ny0 0); auto. cbn [orb].
  rewrite (u32_small nx0), (u32_small ny0), (u32_small (nx0 * ny0)) by lia.
  destruct (Z.eqb_spec (Z.of_nat (length ids)) (nx0 * ny0)); auto. exfalso. tauto.
Qed.
Print Assumptions C57_lattice_size_rejected.

Lemma fold_second : forall {S X} (f : S -> X -> Out S) s a b r, f s a <> Threw -> (forall t, f t b = Undef) -> fold_out f s (a :: b :: r) = Undef.
Proof. intros S X f s a b r H1 H2. cbn [fold_out]. destruct (f s a); auto; [now rewrite H2|congruence]. Qed.

(** C57 fails for negative dimensions: nx = ny = -1 with a single identifier passes every check (the product wraps to
    1) and the placement loop then reads past the identifiers. *)
Theorem C57_negative_dimensions_refuted : exists pins id ids, known pins ids /\ make_lattice pins id (-1) (-1) ids = Undef.
Proof.
  set (p := mkPin 1 (mkPM 1 1 1 1 1) [1%Z] false). exists [(1%Z, p)], 1%Z, [1%Z].
  split. { intros i [<- | []]. cbn. discriminate. }
  unfold make_lattice. cbn [Z.eqb orb]. change (u32 (u32 (-1) * u32 (-1))) with 1%Z. cbn [length Z.of_nat Pos.of_succ_nat Z.eqb Pos.eqb negb].
  assert (exists m, Z.to_nat (u32 (-1)) = S (S m)) as [m ->].
  { exists (Z.to_nat (2 ^ 32 - 3)). rewrite u32_m1. rewrite <- !Z2Nat.inj_succ by lia. f_equal. }
  cbv zeta. unfold place_pins.
  replace (yx_loop (S (S m)) (S (S m))) with ((0, 0) :: (0, 1) :: skipn 2 (yx_loop (S (S m)) (S (S m)))).
  2:{ unfold yx_loop. cbn [seq flat_map map app skipn]. reflexivity. }
  rewrite fold_second; auto.
  - cbn [nth_error]. rewrite Nat.mul_0_l. cbn [Nat.add nth_error map_at Z.eqb Pos.eqb].
    match goal with |- context [set_nth ?a ?b ?c] => destruct (set_nth a b c) end; discriminate.
Qed.
Print Assumptions C57_negative_dimensions_refuted.

Definition ex_pm (i : Z) (n : nat) (w : R) : PinMesh := mkPM i n 1 w w.
Definition ex_pins : list (Z * Pin) :=
  [(1%Z, mkPin 1 (ex_pm 1 4 1) [1%Z] true); (2%Z, mkPin 2 (ex_pm 2 7 1) [1%Z] false)].

(** The hypotheses are met: a 2x2 map "1 2 / 2 2" is accepted, and pin (0,1) is the pin drawn top left. *)
Example C57_layout_instance : exists L, make_lattice ex_pins 5 2 2 [1; 2; 2; 2]%Z = Got L /\
  option_map pin_id (lat_at L 0 1) = Some 1%Z /\ option_map pin_id (lat_at L 0 0) = Some 2%Z /\
  nth_error (lat_first L) 3 = Some 18.
Proof.
  destruct (make_lattice_spec ex_pins 5 2 2 [1; 2; 2; 2]%Z ltac:(lia) ltac:(lia) ltac:(lia) ltac:(lia) eq_refl) as (_ & _ & C).
  destruct C as (L & E & _ & Nx & Ny & W & D).
  { intros i [<- | [<- | [<- | [<- | []]]]]; cbn; discriminate. }
  { intros x y p q r X Y P Q R'. change (Z.to_nat 2) with 2 in *.
    destruct x as [|[|x]]; [| |lia]; destruct y as [|[|y]]; try lia; cbn in P, Q, R'; injection P as <-; injection Q as <-; injection R' as <-; cbn; auto. }
  exists L. split; auto. change (Z.to_nat 2) with 2 in *. rewrite !D by lia. split; auto. split; auto.
  rewrite (wl_first L W). pose proof (wl_len L W) as WL. rewrite Nx, Ny in WL.
  assert (forall k q, k < 4 -> q = drawn ex_pins [1; 2; 2; 2]%Z 2 2 (k mod 2) (k / 2) -> nth_error (lat_pins L) k = q) as R'.
  { intros k q K ->. rewrite <- D; [|apply Nat.mod_upper_bound; lia|apply Nat.div_lt_upper_bound; lia].
    unfold lat_at. rewrite Nx. f_equal. rewrite (Nat.div_mod k 2) at 1 by lia. lia. }
  pose proof (R' 0 _ ltac:(lia) eq_refl) as P0. pose proof (R' 1 _ ltac:(lia) eq_refl) as P1.
  pose proof (R' 2 _ ltac:(lia) eq_refl) as P2. pose proof (R' 3 _ ltac:(lia) eq_refl) as P3.
  destruct (lat_pins L) as [|a [|b [|c [|d [|e l]]]]]; try (cbn in WL; discriminate).
  cbn in P0, P1, P2, P3. injection P0 as ->. injection P1 as ->. injection P2 as ->. injection P3 as ->. reflexivity.
Qed.

(* ------------------------------------------------------------ point lookup *)
(** Specification: how close to an interface a coordinate has to be to count as lying on it. *)
Definition tol (v : R) : R := (2 * REAL_FUZZ * Rmax 1 (Rabs v))%R.
(** Specification: cell [i] is the one a particle at [v] travelling up ([pos]) or down the axis is in: strictly inside
    it, on its lower side and entering, or on its upper side and entering. *)
Definition enters (edges : list R) (i : nat) (v : R) (pos : bool) : Prop :=
  exists a b, nth_error edges i = Some a /\ nth_error edges (i + 1) = Some b /\
    ((a + tol v < v /\ v < b - tol v)%R \/ (v = a /\ pos = true) \/ (v = b /\ pos = false)).
(** Cells wider than the resolution of the comparison. *)
Definition spaced (edges : list R) : Prop :=
  nth_error edges 0 = Some 0%R /\
  forall i a b, nth_error edges i = Some a -> nth_error edges (i + 1) = Some b -> (a < b - REAL_FUZZ * b)%R.

Lemma spaced_step : forall edges, spaced edges -> forall i a, nth_error edges i = Some a -> (0 <= a)%R.
Proof.
  intros edges [Z S] i. pose proof FUZZ_pos as F. induction i as [|i IH]; intros a A.
  - assert (a = 0)%R by congruence. lra.
  - destruct (nth_error edges i) as [p|] eqn:P.
    + specialize (IH p eq_refl). replace (Datatypes.S i) with (i + 1) in A by lia. specialize (S i p a P A). nra.
    + apply nth_error_None in P. assert (Datatypes.S i < length edges) by (apply nth_error_Some; congruence). lia.
Qed.
Lemma spaced_increasing : forall edges, spaced edges -> increasing edges.
Proof.
  intros edges SP i j a b L A B. revert b B. induction L as [|j L IH]; intros b B.
  - replace (S i) with (i + 1) in B by lia. pose proof (proj2 SP i a b A B). pose proof (spaced_step _ SP _ _ B). pose proof FUZZ_pos. nra.
  - destruct (nth_error edges j) as [p|] eqn:P.
    + specialize (IH p eq_refl). replace (S j) with (j + 1) in B by lia. pose proof (proj2 SP j p b P B).
      pose proof (spaced_step _ SP _ _ B). pose proof FUZZ_pos. nra.
    + apply nth_error_None in P. assert (S j < length edges) by (apply nth_error_Some; congruence). lia.
Qed.

Lemma tol_ge : forall v, (REAL_FUZZ < tol v /\ 2 * REAL_FUZZ * Rabs v <= tol v)%R.
Proof.
  intros v. unfold tol. pose proof FUZZ_pos as F. pose proof (Rmax_l 1 (Rabs v)). pose proof (Rmax_r 1 (Rabs v)).
  split; nra.
Qed.

Lemma locate_enters : forall equiv edges n v pos i, length edges = n + 1 -> (Z.of_nat n < 2 ^ 32 - 1)%Z -> spaced edges ->
  (forall a, equiv a a = true) -> (forall e, equiv v e = true -> (Rabs (v - e) <= tol v)%R) ->
  i < n -> enters edges i v pos -> locate equiv edges n v pos = Some i.
Proof.
  intros equiv edges n v pos i Hl Hz SP Hr Ht Hi (a & b & A & B & H).
  pose proof (spaced_increasing _ SP) as Inc. pose proof FUZZ_pos as F. pose proof (tol_ge v) as [T1 T2].
  pose proof (spaced_step _ SP _ _ A) as PA. pose proof (proj2 SP _ _ _ A B) as Sab.
  assert (0 <= b)%R as PB by (eapply spaced_step; eauto). assert (a < b)%R as Ab by nra.
  assert (0 <= v <= b)%R as Hv by (destruct H as [H|[[H _]|[H _]]]; lra).
  assert (Rabs v = v) as Av by (apply Rabs_pos_eq; lra).
  destruct (nth_error edges n) as [en|] eqn:En; [|apply nth_error_None in En; lia].
  assert (b <= en)%R as Ben by (eapply (increasing_le edges (i + 1) n); eauto; lia).
  destruct (locate_char equiv edges n v pos en Hl ltac:(lia) Hz Inc En) as (lb & e & Lb & Ee & Lo & Up & ->).
  { rewrite Av. nra. }
  rewrite Av in Lo, Up. rewrite Av in T2. f_equal.
  destruct H as [[H1 H2]|[[-> ->]|[-> ->]]].
  - assert (lb = i + 1) as ->.
    { assert (i < lb) by (destruct (le_lt_dec lb i); auto; exfalso; specialize (Up i a l A); nra).
      assert (lb <= i + 1) by (destruct (le_lt_dec lb (i + 1)); auto; exfalso; specialize (Lo (i + 1) b l B); nra). lia. }
    assert (e = b) by congruence. subst e. destruct (equiv v b) eqn:Q.
    + exfalso. specialize (Ht b Q). revert Ht. unfold Rabs. destruct (Rcase_abs (v - b)); lra.
    + cbn [andb]. destruct (Nat.eqb_spec (i + 1) 0); lia.
  - assert (lb = i) as ->.
    { assert (lb <= i) by (destruct (le_lt_dec lb i); auto; exfalso; specialize (Lo i a l A); nra).
      destruct (Nat.eq_dec lb i); auto. exfalso. destruct i as [|k]; [lia|].
      destruct (nth_error edges k) as [q|] eqn:Q; [|apply nth_error_None in Q; lia].
      specialize (Up k q ltac:(lia) Q). pose proof (proj2 SP k q a Q ltac:(replace (k + 1) with (S k) by lia; exact A)). lra. }
    assert (e = a) by congruence. subst e. rewrite Hr. cbn [andb]. lia.
  - assert (lb = i + 1) as ->.
    { assert (lb <= i + 1) by (destruct (le_lt_dec lb (i + 1)); auto; exfalso; specialize (Lo (i + 1) b l B); nra).
      destruct (Nat.eq_dec lb (i + 1)); auto. exfalso. specialize (Up i a ltac:(lia) A). lra. }
    rewrite andb_false_r. destruct (Nat.eqb_spec (i + 1) 0); lia.
Qed.

(** Whatever the point, the cell found is within the tolerance of it (given it is inside the asserted range). *)
Lemma locate_near : forall equiv edges n v pos en, length edges = n + 1 -> 1 <= n -> (Z.of_nat n < 2 ^ 32 - 1)%Z -> spaced edges ->
  (forall e, equiv v e = true -> (Rabs (v - e) <= tol v)%R) ->
  nth_error edges n = Some en -> (0 < v \/ (v = 0 /\ pos = true /\ equiv 0 0 = true))%R -> (v / en < 1 + REAL_FUZZ)%R ->
  exists i a b, locate equiv edges n v pos = Some i /\ i < n /\ nth_error edges i = Some a /\ nth_error edges (i + 1) = Some b /\
    (a - tol v <= v <= b + tol v)%R.
Proof.
  intros equiv edges n v pos en Hl Hn Hz SP Ht En Hv Hr.
  pose proof (spaced_increasing _ SP) as Inc. pose proof FUZZ_pos as F. pose proof (tol_ge v) as [T1 T2].
  assert (0 <= v)%R as Pv by lra. assert (Rabs v = v) as Av by (apply Rabs_pos_eq; lra).
  assert (0 < en)%R as Pe by (apply (Inc 0 n 0%R en); [lia|apply SP|exact En]).
  assert (v < en * (1 + REAL_FUZZ))%R as Hve.
  { apply (Rmult_lt_compat_r en) in Hr; [|exact Pe]. unfold Rdiv in Hr. rewrite Rmult_assoc, Rinv_l in Hr by lra. lra. }
  destruct (locate_char equiv edges n v pos en Hl Hn Hz Inc En) as (lb & e & Lb & Ee & Lo & Up & ->).
  { rewrite Av. nra. }
  rewrite Av in Lo, Up, T2.
  assert (Get : forall k, k <= n -> exists x, nth_error edges k = Some x).
  { intros k K. destruct (nth_error edges k) eqn:Q; [eauto|]. apply nth_error_None in Q. lia. }
  assert (Close : forall x, equiv v x = true -> (x - tol v <= v <= x + tol v)%R).
  { intros x Q. specialize (Ht x Q). revert Ht. unfold Rabs. destruct (Rcase_abs (v - x)); lra. }
  destruct (equiv v e && pos) eqn:Q.
  - apply andb_true_iff in Q. destruct Q as [Q _]. specialize (Close e Q).
    destruct (Nat.eq_dec lb n) as [->|N].
    + destruct (Get (n - 1) ltac:(lia)) as [a A]. exists (n - 1), a, e. rewrite Nat.min_l by lia.
      repeat split; auto; try lia. { replace (n - 1 + 1) with n by lia. exact Ee. }
      * assert (a < e)%R by (apply (Inc (n - 1) n); auto; lia). lra.
      * lra.
    + destruct (Get (lb + 1) ltac:(lia)) as [b B]. exists lb, e, b. rewrite Nat.min_r by lia.
      repeat split; auto; try lia; try lra. assert (e < b)%R by (apply (Inc lb (lb + 1)); auto; lia). lra.
  - destruct (Nat.eqb_spec lb 0) as [->|N].
    + exfalso. specialize (Up 0 0%R ltac:(lia) (proj1 SP)). destruct Hv as [Hv|(-> & -> & Hq)]; [nra|].
      assert (e = 0%R) by (pose proof (proj1 SP); congruence). subst e. rewrite Hq in Q. discriminate.
    + destruct (Get (lb - 1) ltac:(lia)) as [a A]. exists (lb - 1), a, e. rewrite Nat.min_r by lia.
      repeat split; auto; try lia. { replace (lb - 1 + 1) with lb by lia. exact Ee. }
      * specialize (Lo (lb - 1) a ltac:(lia) A). nra.
      * specialize (Up lb e ltac:(lia) Ee). nra.
Qed.

Lemma fp_equiv_abs_refl : forall a, fp_equiv_abs a a = true.
Proof. intros a. unfold fp_equiv_abs. rewrite Rminus_diag_eq, Rabs_R0 by auto. apply Rltb_true. apply FUZZ_pos. Qed.
Lemma fp_equiv_abs_tol : forall v e, fp_equiv_abs v e = true -> (Rabs (v - e) <= tol v)%R.
Proof.
  intros v e H. unfold fp_equiv_abs in H. destruct (Rltb_spec (Rabs (v - e)) REAL_FUZZ); [|discriminate].
  pose proof (tol_ge v). lra.
Qed.

Lemma middle_spec : forall edges i a b, nth_error edges i = Some a -> nth_error edges (i + 1) = Some b ->
  middle edges i = Some ((a + b) / 2)%R.
Proof. intros edges i a b A B. unfold middle. rewrite A, B. f_equal. lra. Qed.

Lemma lat_lookup : forall L, wf_lat L -> (Z.of_nat (lat_nx L) < 2 ^ 32 - 1)%Z -> (Z.of_nat (lat_ny L) < 2 ^ 32 - 1)%Z ->
  spaced (lat_xv L) -> spaced (lat_yv L) -> forall px py f posx posy x y, x < lat_nx L -> y < lat_ny L ->
  enters (lat_xv L) x px posx -> enters (lat_yv L) y py posy ->
  exists p mx my, lat_at L x y = Some p /\ middle (lat_xv L) x = Some mx /\ middle (lat_yv L) y = Some my /\
    lat_get_pinmesh L px py f posx posy = Some (pin_mesh p, mx, my, f + regions_before (lat_pins L) (y * lat_nx L + x)).
Proof.
  intros L W Zx Zy Sx Sy px py f posx posy x y X Y Ex Ey.
  assert (length (lat_xv L) = lat_nx L + 1) as Lx by (rewrite (wl_xv L W), psums_length, (wl_hxl L W); auto).
  assert (length (lat_yv L) = lat_ny L + 1) as Ly by (rewrite (wl_yv L W), psums_length, (wl_hyl L W); auto).
  pose proof (index_bound _ _ _ _ Y X) as IB. pose proof (wl_len L W) as WL.
  destruct (lat_at L x y) as [p|] eqn:P; [|apply nth_error_None in P; lia].
  pose proof Ex as (a & b & A & B & _). pose proof Ey as (c & d & C & D & _).
  exists p, ((a + b) / 2)%R, ((c + d) / 2)%R. rewrite (middle_spec _ _ _ _ A B), (middle_spec _ _ _ _ C D).
  repeat (split; [reflexivity|]). unfold lat_get_pinmesh.
  rewrite (locate_enters fp_equiv_abs (lat_xv L) (lat_nx L) px posx x); auto using fp_equiv_abs_refl, fp_equiv_abs_tol.
  rewrite (locate_enters fp_equiv_abs (lat_yv L) (lat_ny L) py posy y); auto using fp_equiv_abs_refl, fp_equiv_abs_tol.
  rewrite (middle_spec _ _ _ _ A B), (middle_spec _ _ _ _ C D), P.
  rewrite (wl_first L W), offsets_nth by (rewrite map_length; lia). reflexivity.
Qed.

(** Specification: the coordinate of the left (bottom) side of a column (row): the widths of those before it. *)
Definition col_start (L : Lattice) (x : nat) : R := rsum (fun k => match lat_at L k 0 with Some p => pm_px (pin_mesh p) | None => 0%R end) x.
Definition row_start (L : Lattice) (y : nat) : R := rsum (fun k => match lat_at L 0 k with Some p => pm_py (pin_mesh p) | None => 0%R end) y.

Lemma xv_start : forall L, wf_lat L -> forall x, x <= lat_nx L -> nth_error (lat_xv L) x = Some (col_start L x).
Proof.
  intros L W x X. rewrite (wl_xv L W), psums_nth by (rewrite (wl_hxl L W); lia). f_equal. rewrite Rplus_0_l.
  apply rsum_ext. intros k K. pose proof (wl_ny L W). pose proof (index_bound (lat_nx L) (lat_ny L) 0 k ltac:(lia) ltac:(lia)).
  destruct (lat_at L k 0) as [p|] eqn:P.
  - destruct (wl_pitch L W k 0 p ltac:(lia) ltac:(lia) P) as [E _]. now apply nth_error_nth.
  - apply nth_error_None in P. rewrite (wl_len L W) in P. lia.
Qed.
Lemma yv_start : forall L, wf_lat L -> forall y, y <= lat_ny L -> nth_error (lat_yv L) y = Some (row_start L y).
Proof.
  intros L W y Y. rewrite (wl_yv L W), psums_nth by (rewrite (wl_hyl L W); lia). f_equal. rewrite Rplus_0_l.
  apply rsum_ext. intros k K. pose proof (wl_nx L W). pose proof (index_bound (lat_nx L) (lat_ny L) k 0 ltac:(lia) ltac:(lia)).
  destruct (lat_at L 0 k) as [p|] eqn:P.
  - destruct (wl_pitch L W 0 k p ltac:(lia) ltac:(lia) P) as [_ E]. now apply nth_error_nth.
  - apply nth_error_None in P. rewrite (wl_len L W) in P. lia.
Qed.

(** Specification: a particle at [v] moving in direction [pos] is in [a, a + w]. *)
Definition inside (a w v : R) (pos : bool) : Prop :=
  (a + tol v < v /\ v < a + w - tol v)%R \/ (v = a /\ pos = true) \/ (v = (a + w)%R /\ pos = false).
(** Specification: no pin narrower than the comparison tolerance allows for a lattice of its size. *)
Definition wide (L : Lattice) : Prop := forall x y p, x < lat_nx L -> y < lat_ny L -> lat_at L x y = Some p ->
  (REAL_FUZZ * lat_hx L < pm_px (pin_mesh p) /\ REAL_FUZZ * lat_hy L < pm_py (pin_mesh p))%R.

Lemma starts_succ : forall L, wf_lat L -> forall x y p, x < lat_nx L -> y < lat_ny L -> lat_at L x y = Some p ->
  col_start L (x + 1) = (col_start L x + pm_px (pin_mesh p))%R /\ row_start L (y + 1) = (row_start L y + pm_py (pin_mesh p))%R.
Proof.
  intros L W x y p X Y P. destruct (wl_pitch L W x y p X Y P) as [E1 E2].
  pose proof (index_bound (lat_nx L) (lat_ny L) 0 x ltac:(lia) X) as B1. pose proof (index_bound (lat_nx L) (lat_ny L) y 0 Y ltac:(lia)) as B2.
  unfold col_start, row_start. rewrite !Nat.add_1_r. cbn [rsum]. split; f_equal.
  - destruct (lat_at L x 0) as [q|] eqn:Q.
    + destruct (wl_pitch L W x 0 q X ltac:(lia) Q). congruence.
    + apply nth_error_None in Q. rewrite (wl_len L W) in Q. lia.
  - destruct (lat_at L 0 y) as [q|] eqn:Q.
    + destruct (wl_pitch L W 0 y q ltac:(lia) Y Q). congruence.
    + apply nth_error_None in Q. rewrite (wl_len L W) in Q. lia.
Qed.
Lemma starts_mono : forall L, wf_lat L -> wide L -> (0 <= lat_hx L)%R -> (0 <= lat_hy L)%R ->
  (forall x, x <= lat_nx L -> (0 <= col_start L x <= lat_hx L)%R) /\ (forall y, y <= lat_ny L -> (0 <= row_start L y <= lat_hy L)%R).
Proof.
  intros L W Wd Hx Hy. pose proof FUZZ_pos as F. pose proof (wl_nx L W) as Nx. pose proof (wl_ny L W) as Ny.
  assert (Px : forall k, k < lat_nx L -> (0 <= match lat_at L k 0 with Some p => pm_px (pin_mesh p) | None => 0 end)%R).
  { intros k K. destruct (lat_at L k 0) eqn:P; [|lra]. destruct (Wd k 0 p K ltac:(lia) P). nra. }
  assert (Py : forall k, k < lat_ny L -> (0 <= match lat_at L 0 k with Some p => pm_py (pin_mesh p) | None => 0 end)%R).
  { intros k K. destruct (lat_at L 0 k) eqn:P; [|lra]. destruct (Wd 0 k p ltac:(lia) K P). nra. }
  assert (lat_hx L = col_start L (lat_nx L)) as Ex.
  { rewrite (wl_hx L W), fold_plus_rsum, (wl_hxl L W). pose proof (xv_start L W (lat_nx L) (le_n _)) as E.
    rewrite (wl_xv L W), psums_nth in E by (rewrite (wl_hxl L W); lia). congruence. }
  assert (lat_hy L = row_start L (lat_ny L)) as Ey.
  { rewrite (wl_hy L W), fold_plus_rsum, (wl_hyl L W). pose proof (yv_start L W (lat_ny L) (le_n _)) as E.
    rewrite (wl_yv L W), psums_nth in E by (rewrite (wl_hyl L W); lia). congruence. }
  split; intros k K.
  - split; [apply rsum_nonneg; intros i I; apply Px; lia|]. rewrite Ex. apply rsum_mono; auto.
  - split; [apply rsum_nonneg; intros i I; apply Py; lia|]. rewrite Ey. apply rsum_mono; auto.
Qed.
Lemma wide_spaced : forall L, wf_lat L -> wide L -> (0 <= lat_hx L)%R -> (0 <= lat_hy L)%R -> spaced (lat_xv L) /\ spaced (lat_yv L).
Proof.
  intros L W Wd Hx Hy. destruct (starts_mono L W Wd Hx Hy) as [Mx My]. pose proof FUZZ_pos as F.
  pose proof (wl_nx L W) as Nx. pose proof (wl_ny L W) as Ny.
  assert (length (lat_xv L) = lat_nx L + 1) as Lx by (rewrite (wl_xv L W), psums_length, (wl_hxl L W); auto).
  assert (length (lat_yv L) = lat_ny L + 1) as Ly by (rewrite (wl_yv L W), psums_length, (wl_hyl L W); auto).
  split; (split; [rewrite ?xv_start, ?yv_start by (auto; lia); reflexivity|]); intros i a b A B.
  - assert (i < lat_nx L) by (assert (i + 1 < length (lat_xv L)) by (apply nth_error_Some; congruence); lia).
    rewrite xv_start in A, B by (auto; lia). injection A as <-. injection B as <-.
    pose proof (index_bound (lat_nx L) (lat_ny L) 0 i ltac:(lia) ltac:(lia)).
    destruct (lat_at L i 0) as [p|] eqn:P; [|apply nth_error_None in P; rewrite (wl_len L W) in P; lia].
    destruct (starts_succ L W i 0 p ltac:(lia) ltac:(lia) P) as [E _]. destruct (Wd i 0 p ltac:(lia) ltac:(lia) P) as [Q _].
    destruct (Mx (i + 1) ltac:(lia)). nra.
  - assert (i < lat_ny L) by (assert (i + 1 < length (lat_yv L)) by (apply nth_error_Some; congruence); lia).
    rewrite yv_start in A, B by (auto; lia). injection A as <-. injection B as <-.
    pose proof (index_bound (lat_nx L) (lat_ny L) i 0 ltac:(lia) ltac:(lia)).
    destruct (lat_at L 0 i) as [p|] eqn:P; [|apply nth_error_None in P; rewrite (wl_len L W) in P; lia].
    destruct (starts_succ L W 0 i p ltac:(lia) ltac:(lia) P) as [_ E]. destruct (Wd 0 i p ltac:(lia) ltac:(lia) P) as [_ Q].
    destruct (My (i + 1) ltac:(lia)). nra.
Qed.

Lemma made_wf : forall pins id nx0 ny0 ids L, (0 < nx0)%Z -> (0 < ny0)%Z -> (nx0 * ny0 < 2 ^ 32)%Z ->
  make_lattice pins id nx0 ny0 ids = Got L -> wf_lat L /\ lat_nx L = Z.to_nat nx0 /\ lat_ny L = Z.to_nat ny0.
Proof.
  intros pins id nx0 ny0 ids L Hx Hy Hxy E.
  assert (id <> 0%Z /\ Z.of_nat (length ids) = (nx0 * ny0)%Z) as [Hid Hl].
  { unfold make_lattice in E. destruct (Z.eqb_spec id 0); [discriminate|]. split; auto.
    destruct ((nx0 =? 0) || (ny0 =? 0))%Z; [discriminate|].
    rewrite (u32_small nx0), (u32_small ny0), (u32_small (nx0 * ny0)) in E by nia.
    destruct (Z.eqb_spec (Z.of_nat (length ids)) (nx0 * ny0)); [auto|discriminate]. }
  destruct (make_lattice_spec pins id nx0 ny0 ids Hid Hx Hy Hxy Hl) as (A & B & C).
  destruct (C57_lattice_acceptance pins id nx0 ny0 ids Hid Hx Hy Hxy Hl) as [_ R'].
  assert (known pins ids) as K.
  { intros i I M. rewrite R' in E; [discriminate|]. intros [KK _]. exact (KK i I M). }
  assert (congruent pins ids (Z.to_nat nx0) (Z.to_nat ny0)) as Cg.
  { intros x y p q r X Y P Q S.
    destruct (Req_EM_T (pm_px (pin_mesh p)) (pm_px (pin_mesh q))) as [|N1]; [destruct (Req_EM_T (pm_py (pin_mesh p)) (pm_py (pin_mesh r))) as [|N2]; auto|].
    - exfalso. rewrite R' in E; [discriminate|]. intros [_ CC]. apply N2. eapply CC; eauto.
    - exfalso. rewrite R' in E; [discriminate|]. intros [_ CC]. apply N1. eapply CC; eauto. }
  destruct (C K Cg) as (L' & E' & _ & Nx & Ny & W & _). assert (L' = L) by congruence. subst L'. auto.
Qed.

(** C57 (point lookup).  A particle inside pin (x, y) of an accepted lattice, or on its boundary and entering it, is
    given that pin's mesh, the pin's centre, and a region offset equal to the number of regions of the earlier pins. *)
Theorem C57_lattice_lookup : forall pins id nx0 ny0 ids L, (0 < nx0)%Z -> (0 < ny0)%Z -> (nx0 * ny0 < 2 ^ 32 - 1)%Z ->
  make_lattice pins id nx0 ny0 ids = Got L -> wide L -> (0 <= lat_hx L)%R -> (0 <= lat_hy L)%R ->
  forall px py f posx posy x y p, lat_at L x y = Some p -> x < lat_nx L -> y < lat_ny L ->
  inside (col_start L x) (pm_px (pin_mesh p)) px posx -> inside (row_start L y) (pm_py (pin_mesh p)) py posy ->
  lat_get_pinmesh L px py f posx posy =
    Some (pin_mesh p, (col_start L x + pm_px (pin_mesh p) / 2)%R, (row_start L y + pm_py (pin_mesh p) / 2)%R,
          f + regions_before (lat_pins L) (y * lat_nx L + x)).
Proof.
  intros pins id nx0 ny0 ids L Hx Hy Hxy E Wd Px Py px py f posx posy x y p P X Y Ix Iy.
  destruct (made_wf _ _ _ _ _ _ Hx Hy ltac:(lia) E) as (W & Nx & Ny). destruct (wide_spaced L W Wd Px Py) as [Sx Sy].
  destruct (starts_succ L W x y p X Y P) as [C1 C2].
  assert (nx0 < 2 ^ 32 - 1 /\ ny0 < 2 ^ 32 - 1)%Z as [Bx By] by nia.
  assert (nth_error (lat_xv L) x = Some (col_start L x)) as X0 by (apply xv_start; auto; lia).
  assert (nth_error (lat_xv L) (x + 1) = Some (col_start L x + pm_px (pin_mesh p))%R) as X1 by (rewrite <- C1; apply xv_start; auto; lia).
  assert (nth_error (lat_yv L) y = Some (row_start L y)) as Y0 by (apply yv_start; auto; lia).
  assert (nth_error (lat_yv L) (y + 1) = Some (row_start L y + pm_py (pin_mesh p))%R) as Y1 by (rewrite <- C2; apply yv_start; auto; lia).
  destruct (lat_lookup L W ltac:(lia) ltac:(lia) Sx Sy px py f posx posy x y X Y) as (q & mx & my & Q & Mx & My & ->).
  { do 2 eexists. eauto. } { do 2 eexists. eauto. }
  rewrite (middle_spec _ _ _ _ X0 X1) in Mx. rewrite (middle_spec _ _ _ _ Y0 Y1) in My.
  injection Mx as <-. injection My as <-. assert (q = p) by congruence. subst q.
  replace ((col_start L x + (col_start L x + pm_px (pin_mesh p))) / 2)%R with (col_start L x + pm_px (pin_mesh p) / 2)%R by lra.
  replace ((row_start L y + (row_start L y + pm_py (pin_mesh p))) / 2)%R with (row_start L y + pm_py (pin_mesh p) / 2)%R by lra.
  reflexivity.
Qed.
Print Assumptions C57_lattice_lookup.

(** C57 (every point).  Whatever the point of the lattice and whatever the direction, the lookup returns the pin of a
    cell containing the point up to the tolerance, without reading out of range -- except on the left or bottom side
    when travelling outwards (next theorem). *)
Theorem C57_lattice_lookup_near : forall pins id nx0 ny0 ids L, (0 < nx0)%Z -> (0 < ny0)%Z -> (nx0 * ny0 < 2 ^ 32 - 1)%Z ->
  make_lattice pins id nx0 ny0 ids = Got L -> wide L -> (0 <= lat_hx L)%R -> (0 <= lat_hy L)%R ->
  forall px py f posx posy, (0 < px \/ px = 0 /\ posx = true)%R -> (0 < py \/ py = 0 /\ posy = true)%R ->
  (px / lat_hx L < 1 + REAL_FUZZ)%R -> (py / lat_hy L < 1 + REAL_FUZZ)%R ->
  exists x y p mx my r, x < lat_nx L /\ y < lat_ny L /\ lat_at L x y = Some p /\
    lat_get_pinmesh L px py f posx posy = Some (pin_mesh p, mx, my, r) /\
    (col_start L x - tol px <= px <= col_start L x + pm_px (pin_mesh p) + tol px)%R /\
    (row_start L y - tol py <= py <= row_start L y + pm_py (pin_mesh p) + tol py)%R /\
    r = f + regions_before (lat_pins L) (y * lat_nx L + x).
Proof.
  intros pins id nx0 ny0 ids L Hx Hy Hxy E Wd Px Py px py f posx posy Vx Vy Rx Ry.
  destruct (made_wf _ _ _ _ _ _ Hx Hy ltac:(lia) E) as (W & Nx & Ny). destruct (wide_spaced L W Wd Px Py) as [Sx Sy].
  assert (nx0 < 2 ^ 32 - 1 /\ ny0 < 2 ^ 32 - 1)%Z as [Bx By] by nia.
  assert (length (lat_xv L) = lat_nx L + 1) as Lx by (rewrite (wl_xv L W), psums_length, (wl_hxl L W); auto).
  assert (length (lat_yv L) = lat_ny L + 1) as Ly by (rewrite (wl_yv L W), psums_length, (wl_hyl L W); auto).
  assert (nth_error (lat_xv L) (lat_nx L) = Some (lat_hx L)) as Ex.
  { rewrite (wl_xv L W), psums_nth by (rewrite (wl_hxl L W); lia). rewrite (wl_hx L W), fold_plus_rsum, (wl_hxl L W). reflexivity. }
  assert (nth_error (lat_yv L) (lat_ny L) = Some (lat_hy L)) as Ey.
  { rewrite (wl_yv L W), psums_nth by (rewrite (wl_hyl L W); lia). rewrite (wl_hy L W), fold_plus_rsum, (wl_hyl L W). reflexivity. }
  destruct (locate_near fp_equiv_abs (lat_xv L) (lat_nx L) px posx (lat_hx L)) as (x & a & b & L1 & X & A & B & Ix); auto using fp_equiv_abs_tol; try lia.
  { destruct Vx as [|[-> ->]]; auto. right. auto using fp_equiv_abs_refl. }
  destruct (locate_near fp_equiv_abs (lat_yv L) (lat_ny L) py posy (lat_hy L)) as (y & c & d & L2 & Y & C & D & Iy); auto using fp_equiv_abs_tol; try lia.
  { destruct Vy as [|[-> ->]]; auto. right. auto using fp_equiv_abs_refl. }
  pose proof (index_bound _ _ _ _ Y X) as IB. pose proof (wl_len L W) as WL.
  destruct (lat_at L x y) as [p|] eqn:P; [|apply nth_error_None in P; lia].
  destruct (starts_succ L W x y p X Y P) as [C1 C2].
  exists x, y, p, ((a + b) / 2)%R, ((c + d) / 2)%R, (f + regions_before (lat_pins L) (y * lat_nx L + x)).
  split; auto. split; auto. split; auto. split.
  { unfold lat_get_pinmesh. rewrite L1, L2, (middle_spec _ _ _ _ A B), (middle_spec _ _ _ _ C D), P.
    rewrite (wl_first L W), offsets_nth by (rewrite map_length; lia). reflexivity. }
  rewrite xv_start in A, B by (auto; lia). injection A as <-. injection B as <-.
  rewrite yv_start in C, D by (auto; lia). injection C as <-. injection D as <-. rewrite C1 in Ix. rewrite C2 in Iy. auto.
Qed.
Print Assumptions C57_lattice_lookup_near.

(** A 2x1 lattice used in the examples below. *)
Lemma ex_lat21 : exists L, make_lattice ex_pins 5 2 1 [1; 2]%Z = Got L /\ wf_lat L /\ lat_nx L = 2 /\ lat_ny L = 1 /\
  lat_pins L = [mkPin 1 (ex_pm 1 4 1) [1%Z] true; mkPin 2 (ex_pm 2 7 1) [1%Z] false] /\ lat_hx L = 2%R /\ lat_hy L = 1%R /\ wide L.
Proof.
  destruct (make_lattice_spec ex_pins 5 2 1 [1; 2]%Z ltac:(lia) ltac:(lia) ltac:(lia) ltac:(lia) eq_refl) as (_ & _ & C).
  destruct C as (L & E & _ & Nx & Ny & W & D).
  { intros i [<- | [<- | []]]; cbn; discriminate. }
  { intros x y p q r X Y P Q R'. change (Z.to_nat 2) with 2 in *. change (Z.to_nat 1) with 1 in *.
    destruct x as [|[|x]]; [| |lia]; destruct y as [|y]; try lia; cbn in P, Q, R'; injection P as <-; injection Q as <-; injection R' as <-; cbn; auto. }
  change (Z.to_nat 2) with 2 in *. change (Z.to_nat 1) with 1 in *. exists L. repeat (split; [assumption|]).
  pose proof (wl_len L W) as WL. rewrite Nx, Ny in WL.
  pose proof (D 0 0 ltac:(lia) ltac:(lia)) as D0. pose proof (D 1 0 ltac:(lia) ltac:(lia)) as D1.
  unfold lat_at in D0, D1. rewrite Nx in D0, D1.
  assert (lat_pins L = [mkPin 1 (ex_pm 1 4 1) [1%Z] true; mkPin 2 (ex_pm 2 7 1) [1%Z] false]) as Ps.
  { destruct (lat_pins L) as [|a [|b [|c l]]]; try (cbn in WL; lia). cbn in D0, D1. injection D0 as ->. injection D1 as ->. reflexivity. }
  assert (forall x p, x < 2 -> lat_at L x 0 = Some p -> pm_px (pin_mesh p) = 1%R /\ pm_py (pin_mesh p) = 1%R) as U.
  { intros x p X P. unfold lat_at in P. rewrite Ps, Nx in P. destruct x as [|[|x]]; [| |lia]; cbn in P; injection P as <-; cbn; auto. }
  assert (lat_hx L = 2%R) as Hx.
  { pose proof (wl_hxl L W) as Lh. rewrite Nx in Lh. rewrite (wl_hx L W), fold_plus_rsum, Lh. cbn [rsum].
    pose proof (xv_start L W 2 ltac:(lia)) as E2. rewrite (wl_xv L W), psums_nth in E2 by lia. injection E2 as E2. cbn [rsum] in E2.
    unfold col_start in E2. cbn [rsum] in E2. unfold lat_at in E2. rewrite Ps, Nx in E2. cbn in E2. lra. }
  assert (lat_hy L = 1%R) as Hy.
  { pose proof (wl_hyl L W) as Lh. rewrite Ny in Lh. rewrite (wl_hy L W), fold_plus_rsum, Lh. cbn [rsum].
    pose proof (yv_start L W 1 ltac:(lia)) as E2. rewrite (wl_yv L W), psums_nth in E2 by lia. injection E2 as E2. cbn [rsum] in E2.
    unfold row_start in E2. cbn [rsum] in E2. unfold lat_at in E2. rewrite Ps, Nx in E2. cbn in E2. lra. }
  repeat (split; [assumption|]). intros x y p X Y P. rewrite Nx in X. rewrite Ny in Y. assert (y = 0) by lia. subst y.
  destruct (U x p X P) as [-> ->]. rewrite Hx, Hy. pose proof FUZZ_pos. split; lra.
Qed.

(** The hypotheses are met by a point in the second pin and by a point on the interface travelling left. *)
Example C57_lookup_instance : exists L, make_lattice ex_pins 5 2 1 [1; 2]%Z = Got L /\
  lat_get_pinmesh L 1.5 0.5 100 true true = Some (ex_pm 2 7 1, 1.5%R, 0.5%R, 104) /\
  lat_get_pinmesh L 1 0.5 100 false true = Some (ex_pm 1 4 1, 0.5%R, 0.5%R, 100).
Proof.
  destruct ex_lat21 as (L & E & W & Nx & Ny & Ps & Hx & Hy & Wd). exists L. split; auto.
  assert (col_start L 1 = 1%R) as C1 by (unfold col_start; cbn [rsum]; unfold lat_at; rewrite Ps, Nx; cbn; lra).
  assert (tol 1.5 < 0.1 /\ tol 0.5 < 0.1)%R as [T1 T2].
  { unfold tol. pose proof FUZZ_pos. rewrite (Rabs_pos_eq 1.5), (Rabs_pos_eq 0.5) by lra. rewrite (Rmax_right 1 1.5), (Rmax_left 1 0.5) by lra. lra. }
  split.
  - rewrite (C57_lattice_lookup ex_pins 5 2 1 [1; 2]%Z L) with (x := 1) (y := 0) (p := mkPin 2 (ex_pm 2 7 1) [1%Z] false); auto; try lia; try lra.
    + rewrite C1, Ps, Nx. unfold row_start, regions_before. cbn. repeat f_equal; lra.
    + unfold lat_at. now rewrite Ps, Nx.
    + left. rewrite C1. cbn. lra.
    + left. unfold row_start. cbn. lra.
  - rewrite (C57_lattice_lookup ex_pins 5 2 1 [1; 2]%Z L) with (x := 0) (y := 0) (p := mkPin 1 (ex_pm 1 4 1) [1%Z] true); auto; try lia; try lra.
    + rewrite Ps, Nx. unfold row_start, col_start, regions_before. cbn. repeat f_equal; lra.
    + unfold lat_at. now rewrite Ps, Nx.
    + right. right. unfold col_start. cbn. split; auto. lra.
    + left. unfold row_start. cbn. lra.
Qed.

(** C57 fails on the left side: a particle at x = 0 travelling left is given the LAST pin of the row (the unsigned
    column index wraps before it is clamped). *)
Theorem C57_left_edge_refuted : exists pins ids L p q, make_lattice pins 5 2 1 ids = Got L /\
  lat_at L 0 0 = Some p /\ lat_at L 1 0 = Some q /\ pm_id (pin_mesh p) <> pm_id (pin_mesh q) /\
  (col_start L 0 <= 0 < col_start L 1)%R /\
  exists x y r, lat_get_pinmesh L 0 0.5 0 false true = Some (pin_mesh q, x, y, r).
Proof.
  destruct ex_lat21 as (L & E & W & Nx & Ny & Ps & Hx & Hy & Wd).
  exists ex_pins, [1; 2]%Z, L, (mkPin 1 (ex_pm 1 4 1) [1%Z] true), (mkPin 2 (ex_pm 2 7 1) [1%Z] false).
  split; auto. assert (lat_at L 0 0 = Some (mkPin 1 (ex_pm 1 4 1) [1%Z] true)) as P0 by (unfold lat_at; now rewrite Ps, Nx).
  assert (lat_at L 1 0 = Some (mkPin 2 (ex_pm 2 7 1) [1%Z] false)) as P1 by (unfold lat_at; now rewrite Ps, Nx).
  split; auto. split; auto. split; [cbn; lia|]. split.
  { unfold col_start. cbn [rsum]. rewrite P0. cbn. lra. }
  destruct (wide_spaced L W Wd ltac:(lra) ltac:(lra)) as [Sx Sy].
  assert (length (lat_xv L) = 3) as Lx by (rewrite (wl_xv L W), psums_length, (wl_hxl L W); lia).
  assert (length (lat_yv L) = 2) as Ly by (rewrite (wl_yv L W), psums_length, (wl_hyl L W); lia).
  assert (forall x, x <= 2 -> nth_error (lat_xv L) x = Some (col_start L x)) as X by (intros; apply xv_start; auto; lia).
  assert (forall y, y <= 1 -> nth_error (lat_yv L) y = Some (row_start L y)) as Y by (intros; apply yv_start; auto; lia).
  assert (locate fp_equiv_abs (lat_xv L) 2 0 false = Some 1) as L1.
  { destruct (locate_char fp_equiv_abs (lat_xv L) 2 0 false (col_start L 2)) as (lb & e & Lb & _ & Lo & Up & ->); auto; try lia.
    - apply spaced_increasing; auto.
    - unfold col_start. cbn [rsum]. rewrite P0, P1, Rabs_R0. cbn. lra.
    - rewrite andb_false_r. destruct (Nat.eqb_spec lb 0) as [->|N]; auto. exfalso.
      specialize (Lo 0 0%R ltac:(lia) (proj1 Sx)). rewrite Rabs_R0 in Lo. lra. }
  assert (tol 0.5 < 0.1)%R as T.
  { unfold tol. pose proof FUZZ_pos. rewrite (Rabs_pos_eq 0.5) by lra. rewrite (Rmax_left 1 0.5) by lra. lra. }
  assert (locate fp_equiv_abs (lat_yv L) 1 0.5 true = Some 0) as L2.
  { apply locate_enters; auto using fp_equiv_abs_refl, fp_equiv_abs_tol; try lia.
    exists (row_start L 0), (row_start L 1). split; [apply Y; lia|]. split; [apply (Y 1); lia|]. left.
    unfold row_start. cbn [rsum]. rewrite P0. cbn. lra. }
  unfold lat_get_pinmesh. rewrite Nx, Ny, L1, L2, P1.
  rewrite (middle_spec _ 1 (col_start L 1) (col_start L 2)), (middle_spec _ 0 (row_start L 0) (row_start L 1)).
  - rewrite (wl_first L W), Ps. cbn [map offsets Nat.mul Nat.add nth_error]. eauto.
  - apply Y; lia.
  - apply (Y 1); lia.
  - apply X; lia.
  - apply (X 2); lia.
Qed.
Print Assumptions C57_left_edge_refuted.

(* ------------------------------------------------------------ C60: pins *)
Lemma check_got : forall {A} (lib : Lib A) fissile mats b, check_mats lib fissile mats = Got b ->
  (b = true <-> exists m a, In m mats /\ get_material_by_id lib m = Some a /\ fissile a = true) /\
  (b = false -> forall m, In m mats -> has lib m = true).
Proof.
  intros A lib fissile. induction mats as [|m r IH]; intros b E; cbn [check_mats] in E.
  - injection E as <-. split; [split; [discriminate|intros (? & ? & [] & _)]|intros _ ? []].
  - destruct (has lib m) eqn:H; [|discriminate]. destruct (get_material_by_id lib m) as [a|] eqn:G; [|discriminate].
    destruct (fissile a) eqn:F.
    + injection E as <-. split; [split; auto; intros _; exists m, a; split; [now left|auto]|discriminate].
    + destruct (IH b E) as [I1 I2]. split.
      * rewrite I1. split.
        -- intros (m' & a' & M & G' & F'). exists m', a'. split; [now right|auto].
        -- intros (m' & a' & [<- |M] & G' & F'); [congruence|]. exists m', a'. auto.
      * intros B m' [<- |M]; auto.
Qed.

(** C60 (fuel flag).  Without a "fuel" attribute an accepted pin is fuel exactly when one of its materials is fissile;
    with one, the attribute decides.  The pin has one material per cross-section region and a known mesh. *)
Theorem C60_pin_fuel : forall {A} meshes (lib : Lib A) fissile id mid mats fuel p,
  make_pin meshes lib fissile id mid mats fuel = Got p ->
  pin_id p = id /\ id <> 0%Z /\ pin_mats p = mats /\ map_at Z.eqb meshes mid = Some (pin_mesh p) /\ length mats = pm_nxs (pin_mesh p) /\
  match fuel with
  | Some b => pin_fuel p = b
  | None => pin_fuel p = true <-> exists m a, In m mats /\ get_material_by_id lib m = Some a /\ fissile a = true
  end.
Proof.
  intros A meshes lib fissile id mid mats fuel p E. unfold make_pin in E. destruct (Z.eqb_spec id 0); [discriminate|].
  destruct (Z.eqb_spec mid 0); [discriminate|]. destruct (map_at Z.eqb meshes mid) as [pm|] eqn:M; [|discriminate].
  destruct (Nat.eqb_spec (length mats) (pm_nxs pm)); [|discriminate]. cbn [negb] in E.
  destruct (check_mats lib fissile mats) as [b| |] eqn:C; try discriminate. injection E as <-. cbn.
  repeat (split; [auto|]). destruct fuel; auto. apply (check_got lib fissile mats b C).
Qed.
Print Assumptions C60_pin_fuel.

(** C60 (partial).  An identifier absent from the library is rejected unless a fissile material precedes it; in
    particular every non-fissile pin has only known materials. *)
Theorem C60_unknown_material_partial : forall {A} meshes (lib : Lib A) fissile id mid mats fuel,
  (forall pre m post, mats = pre ++ m :: post -> has lib m = false ->
     (forall k a, In k pre -> get_material_by_id lib k = Some a -> fissile a = false) ->
     make_pin meshes lib fissile id mid mats fuel = Threw) /\
  (forall p, make_pin meshes lib fissile id mid mats fuel = Got p ->
     (forall m a, In m mats -> get_material_by_id lib m = Some a -> fissile a = false) -> forall m, In m mats -> has lib m = true).
Proof.
  intros A meshes lib fissile id mid mats fuel. split.
  - intros pre m post -> H F. unfold make_pin. destruct (id =? 0)%Z; auto. destruct (mid =? 0)%Z; auto.
    destruct (map_at Z.eqb meshes mid) as [pm|]; auto. destruct (negb _); auto.
    assert (check_mats lib fissile (pre ++ m :: post) = Threw) as ->; auto.
    induction pre as [|k pre IH]; cbn [app check_mats]; [now rewrite H|].
    destruct (has lib k); auto. destruct (get_material_by_id lib k) as [a|] eqn:G; auto.
    rewrite (F k a (or_introl eq_refl) G). apply IH. intros k' a' K. apply F. now right.
  - intros p E F. unfold make_pin in E. destruct (id =? 0)%Z; [discriminate|]. destruct (mid =? 0)%Z; [discriminate|].
    destruct (map_at Z.eqb meshes mid) as [pm|]; [|discriminate]. destruct (negb _); [discriminate|].
    destruct (check_mats lib fissile mats) as [b| |] eqn:C; try discriminate.
    destruct (check_got lib fissile mats b C) as [C1 C2]. apply C2. destruct b; auto. exfalso.
    destruct (proj1 C1 eq_refl) as (m & a & I & G & Fa). rewrite (F m a I G) in Fa. discriminate.
Qed.
Print Assumptions C60_unknown_material_partial.

(** C60 fails: after a fissile material the remaining identifiers are not checked. *)
Theorem C60_unknown_material_refuted : exists meshes (lib : Lib bool) mats p m,
  make_pin meshes lib (fun b => b) 1 1 mats None = Got p /\ In m mats /\ has lib m = false.
Proof.
  exists [(1%Z, mkPM 1 2 2 1 1)], (mkLib [true] [true] [] [(1%Z, 0)] [(1%Z, 0)] 1), [1%Z; 7%Z]. eexists. exists 7%Z.
  split; [reflexivity|]. split; [right; now left|reflexivity].
Qed.
Print Assumptions C60_unknown_material_refuted.

(** The hypotheses are met: material 1 known and not fissile, 2 known and fissile, 7 unknown. *)
Example C60_instance : let lib := mkLib [true; false] [] [] [(1%Z, 1); (2%Z, 0)] [] 0 in
  make_pin [(1%Z, mkPM 1 2 2 1 1)] lib (fun b => b) 3 1 [1; 2]%Z None = Got (mkPin 3 (mkPM 1 2 2 1 1) [1; 2]%Z true) /\
  make_pin [(1%Z, mkPM 1 2 2 1 1)] lib (fun b => b) 3 1 [1; 7]%Z None = Threw.
Proof. split; reflexivity. Qed.
