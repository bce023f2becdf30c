(** C64: the transverse leakage of the 2D/3D sweeper. *)
From Coq Require Import List Bool Reals Arith ZArith Lia Lra.
From Verif Require Import RUtil ListUtil McModel MeshModel MeshSpec MeshProofs MeshProps TlModel.
Import ListNotations.
Open Scope nat_scope.

(** ** Specification *)
Definition nxy (m : Mesh) : nat := Z.to_nat (nx m) * Z.to_nat (ny m).
(** Position in the array of leakages of the pin at (x, y) in macroplane i. *)
Definition tl_index (m : Mesh) (x y i : nat) : nat := i * nxy m + (y * Z.to_nat (nx m) + x).
Definition in_plane (m : Mesh) (x y : nat) : Prop := (Z.of_nat x < nx m)%Z /\ (Z.of_nat y < ny m)%Z.
(** Pin indices 0 .. nx ny - 1 are spread over the positions of a plane, each once (C58), and repeat plane after plane. *)
Definition spread (m : Mesh) (pos : nat -> option (nat * nat)) : Prop :=
  (forall k, k < nxy m -> exists x y, pos k = Some (x, y) /\ in_plane m x y) /\
  (forall k k', k < nxy m -> k' < nxy m -> pos k = pos k' -> k = k') /\
  (forall x y, in_plane m x y -> exists k, k < nxy m /\ pos k = Some (x, y)) /\
  (forall i k, k < nxy m -> pos (i * nxy m + k) = pos k).
(** Macroplanes lie in the mesh, have a height and one pin per position (C61). *)
Definition planes_ok (m : Mesh) (ps : list TPl) : Prop :=
  Forall (fun p => length (tp_pins p) = nxy m /\ tp_h p <> 0%R /\ tp_min p <= tp_max p /\ (Z.of_nat (tp_max p) < nz m)%Z) ps.
(** Stacked from the bottom of the core to its top. *)
Fixpoint stacked (lo : nat) (ps : list TPl) (n : nat) : Prop :=
  match ps with [] => lo = n | p :: r => tp_min p = lo /\ stacked (S (tp_max p)) r n end.
Definition currents (m : Mesh) (J : Z -> option R) : Prop := forall s, (0 <= s < n_surf m)%Z -> J s <> None.
(** The current through the bottom of plane z at (x, y), or through the top. *)
Definition j_bottom (m : Mesh) (J : Z -> option R) (x y z : nat) (j : R) : Prop := exists s, coarse_surf m (coarse_cell m (cell_at x y z)) BOTTOM = Some s /\ J s = Some j.
Definition j_top (m : Mesh) (J : Z -> option R) (x y z : nat) (j : R) : Prop := exists s, coarse_surf m (coarse_cell m (cell_at x y z)) TOP = Some s /\ J s = Some j.
(** Regions of all pins before pin [k] of macroplane [i]. *)
Definition regs_before (ps : list TPl) (i k : nat) : nat :=
  list_sum (flat_map tp_pins (firstn i ps)) + list_sum (firstn k (match nth_error ps i with Some p => tp_pins p | None => [] end)).

(** ** Proofs *)
Lemma cell_index : forall m x y i, mesh_ok m -> Z.to_nat (coarse_cell m (cell_at x y i)) = tl_index m x y i.
Proof.
  intros m x y i (A & B & _). unfold coarse_cell, cell_at, tl_index, nxy. cbn [px py pz].
  rewrite <- (Z2Nat.id (nx m)) at 1 2 by lia. rewrite <- (Z2Nat.id (ny m)) at 1 by lia. rewrite <- !Nat2Z.inj_mul, <- !Nat2Z.inj_add, Nat2Z.id. nia.
Qed.
Lemma index_lt : forall m x y i n, in_plane m x y -> i < n -> tl_index m x y i < n * nxy m.
Proof.
  intros m x y i n [A B] H. unfold tl_index. assert (y * Z.to_nat (nx m) + x < nxy m) by (unfold nxy; assert (x < Z.to_nat (nx m)) by lia; assert (y < Z.to_nat (ny m)) by lia; nia). nia.
Qed.
Lemma index_inj : forall m x y i x' y' i', in_plane m x y -> in_plane m x' y' -> tl_index m x y i = tl_index m x' y' i' -> x = x' /\ y = y' /\ i = i'.
Proof.
  intros m x y i x' y' i' [A B] [A' B'] E. unfold tl_index in E. assert (y * Z.to_nat (nx m) + x < nxy m /\ y' * Z.to_nat (nx m) + x' < nxy m) as [U V].
  { unfold nxy. assert (x < Z.to_nat (nx m)) by lia. assert (y < Z.to_nat (ny m)) by lia. assert (x' < Z.to_nat (nx m)) by lia. assert (y' < Z.to_nat (ny m)) by lia. split; nia. }
  assert (i = i') by nia. subst i'. assert (y * Z.to_nat (nx m) + x = y' * Z.to_nat (nx m) + x') as F by lia. assert (x < Z.to_nat (nx m)) by lia. assert (x' < Z.to_nat (nx m)) by lia. assert (y = y') by nia. subst y'. split; [lia|auto].
Qed.

Definition tl_rel (m : Mesh) (J : Z -> option R) (relax : R) (p : TPl) (x y : nat) (t v : R) : Prop :=
  exists jd ju, j_bottom m J x y (tp_min p) jd /\ j_top m J x y (tp_max p) ju /\ v = (t * (1 - relax) + relax * (jd - ju) / tp_h p)%R.
Section Run.
  Variable m : Mesh. Variable pos : nat -> option (nat * nat). Variable J : Z -> option R. Variable relax : R.
  Hypothesis M : mesh_ok m. Hypothesis C : currents m J.
  Lemma surf_ex : forall x y z s, in_plane m x y -> (Z.of_nat z < nz m)%Z -> exists k j, coarse_surf m (coarse_cell m (cell_at x y z)) s = Some k /\ J k = Some j.
  Proof.
    intros x y z s [A B] H. destruct (C07_surface_in_range m (cell_at x y z) s M) as (k & E & K); [unfold in_mesh; cbn; lia|].
    destruct (J k) as [j|] eqn:Ej; [|now elim (C k K)]. exists k, j. auto.
  Qed.
  Lemma tl_pin_ok : forall p i x y tl, in_plane m x y -> tp_h p <> 0%R -> tp_min p <= tp_max p -> (Z.of_nat (tp_max p) < nz m)%Z -> tl_index m x y i < length tl ->
    exists tl' t v, tl_pin m J relax p i x y tl = Some (tl', v) /\ length tl' = length tl /\ nth_error tl (tl_index m x y i) = Some t /\ nth_error tl' (tl_index m x y i) = Some v /\ tl_rel m J relax p x y t v /\
      forall j, j <> tl_index m x y i -> nth_error tl' j = nth_error tl j.
  Proof.
    intros p i x y tl P H0 H1 H2 L. destruct (surf_ex x y (tp_min p) BOTTOM P ltac:(lia)) as (sd & jd & Ed & Jd). destruct (surf_ex x y (tp_max p) TOP P H2) as (su & ju & Eu & Ju).
    unfold tl_pin. rewrite Ed, Eu, Jd, Ju, cell_index by auto. destruct (nth_error tl (tl_index m x y i)) as [t|] eqn:Et; [|apply nth_error_None in Et; lia].
    destruct (Reqb_spec (tp_h p) 0); [congruence|]. cbn zeta. destruct (set_nth tl (tl_index m x y i) _) as [tl'|] eqn:Es.
    - exists tl', t, (t * (1 - relax) + relax * (jd - ju) / tp_h p)%R. destruct (set_nth_spec _ _ _ _ Es) as (S1 & S2 & S3). split; [reflexivity|]. split; [exact S1|]. split; [reflexivity|]. split; [rewrite S3, Nat.eqb_refl; reflexivity|]. split; [|intros j Hj; rewrite S3; destruct (Nat.eqb_spec j (tl_index m x y i)); [contradiction|reflexivity]].
      exists jd, ju. split; [exists sd; auto|]. split; [exists su; auto|reflexivity].
    - exfalso. revert Es. clear -L. revert L. generalize (tl_index m x y i). induction tl as [|a l IH]; intros [|k] L E; cbn in *; try lia; try discriminate. destruct (set_nth l k _) eqn:Q; [discriminate|]. apply (IH k); [lia|exact Q].
  Qed.
  Lemma tl_pins_ok : forall p i pins ipin tl fsr, tp_h p <> 0%R -> tp_min p <= tp_max p -> (Z.of_nat (tp_max p) < nz m)%Z ->
    (forall k, k < length pins -> exists x y, pos (ipin + k) = Some (x, y) /\ in_plane m x y /\ tl_index m x y i < length tl) ->
    (forall k k', k < length pins -> k' < length pins -> pos (ipin + k) = pos (ipin + k') -> k = k') ->
    exists tl' app, tl_pins m pos J relax p i ipin pins tl fsr = Some (tl', fsr ++ app) /\ length tl' = length tl /\ length app = list_sum pins /\
      (forall k x y, k < length pins -> pos (ipin + k) = Some (x, y) -> exists t v, nth_error tl (tl_index m x y i) = Some t /\ nth_error tl' (tl_index m x y i) = Some v /\ tl_rel m J relax p x y t v) /\
      (forall j, (forall k x y, k < length pins -> pos (ipin + k) = Some (x, y) -> j <> tl_index m x y i) -> nth_error tl' j = nth_error tl j) /\
      (forall k n r x y, nth_error pins k = Some n -> r < n -> pos (ipin + k) = Some (x, y) -> nth_error app (list_sum (firstn k pins) + r) = nth_error tl' (tl_index m x y i)).
  Proof.
    intros p i pins. induction pins as [|n pins IH]; intros ipin tl fsr H0 H1 H2 P I.
    - exists tl, []. rewrite app_nil_r. cbn. repeat split; auto; try (intros; lia). intros k; destruct k; discriminate.
    - destruct (P 0 ltac:(cbn; lia)) as (x0 & y0 & E0 & Q0 & L0). rewrite Nat.add_0_r in E0. cbn [tl_pins]. rewrite E0.
      destruct (tl_pin_ok p i x0 y0 tl Q0 H0 H1 H2 L0) as (tl1 & t0 & v0 & F & L1 & G1 & G2 & G3 & G4). rewrite F.
      destruct (IH (S ipin) tl1 (fsr ++ repeat v0 n) H0 H1 H2) as (tl2 & app & A1 & A2 & A3 & A4 & A5 & A6).
      { intros k Hk. rewrite L1. replace (S ipin + k) with (ipin + S k) by lia. apply P. cbn. lia. }
      { intros k k' Hk Hk' E. replace (S ipin + k) with (ipin + S k) in E by lia. replace (S ipin + k') with (ipin + S k') in E by lia. apply I in E; cbn; lia. }
      assert (Sep : forall k x y, k < length pins -> pos (S ipin + k) = Some (x, y) -> tl_index m x0 y0 i <> tl_index m x y i).
      { intros k x y Hk E Q. destruct (P (S k) ltac:(cbn; lia)) as (x' & y' & E' & Q' & _). replace (ipin + S k) with (S ipin + k) in E' by lia. rewrite E in E'. injection E' as <- <-.
        apply index_inj in Q; auto. destruct Q as (<- & <- & _). assert (0 = S k) by (apply I; cbn; try lia; rewrite Nat.add_0_r; replace (ipin + S k) with (S ipin + k) by lia; congruence). lia. }
      assert (V0 : nth_error tl2 (tl_index m x0 y0 i) = Some v0) by (rewrite A5; [exact G2|exact Sep]).
      exists tl2, (repeat v0 n ++ app). rewrite A1, app_assoc. split; [reflexivity|]. split; [congruence|]. split; [rewrite app_length, repeat_length, A3; reflexivity|]. split; [|split].
      + intros [|k] x y Hk E.
        * rewrite Nat.add_0_r, E0 in E. injection E as <- <-. exists t0, v0. auto.
        * replace (ipin + S k) with (S ipin + k) in E by lia. destruct (A4 k x y ltac:(cbn in Hk; lia) E) as (t & v & B1 & B2 & B3). exists t, v. split; [|auto]. rewrite <- B1. symmetry. apply G4. intros Q. apply (Sep k x y); auto. cbn in Hk; lia.
      + intros j Hj. rewrite A5. { apply G4. apply (Hj 0); [cbn; lia|now rewrite Nat.add_0_r]. }
        intros k x y Hk E. apply (Hj (S k) x y); [cbn; lia|]. now replace (ipin + S k) with (S ipin + k) by lia.
      + intros [|k] n' r x y En Hr E; cbn [nth_error firstn] in *.
        * injection En as ->. rewrite Nat.add_0_r, E0 in E. injection E as <- <-. rewrite V0. cbn [list_sum fold_right]. rewrite nth_error_app1 by (rewrite repeat_length; exact Hr). cbn [Nat.add]. now apply nth_error_repeat.
        * replace (ipin + S k) with (S ipin + k) in E by lia. rewrite <- (A6 k n' r x y En Hr E). rewrite nth_error_app2; rewrite repeat_length; [f_equal|]; change (list_sum (n :: firstn k pins)) with (n + list_sum (firstn k pins)); lia.
  Qed.
  Hypothesis S : spread m pos.
  Lemma tl_planes_ok : forall ps i tl fsr, planes_ok m ps -> (i + length ps) * nxy m <= length tl ->
    exists tl' app, tl_planes m pos J relax i (i * nxy m) ps tl fsr = Some (tl', fsr ++ app) /\ length tl' = length tl /\ length app = list_sum (flat_map tp_pins ps) /\
      (forall q p x y, nth_error ps q = Some p -> in_plane m x y -> exists t v, nth_error tl (tl_index m x y (i + q)) = Some t /\ nth_error tl' (tl_index m x y (i + q)) = Some v /\ tl_rel m J relax p x y t v) /\
      (forall j, j < i * nxy m -> nth_error tl' j = nth_error tl j) /\
      (forall q p k n r x y, nth_error ps q = Some p -> nth_error (tp_pins p) k = Some n -> r < n -> pos k = Some (x, y) -> nth_error app (regs_before ps q k + r) = nth_error tl' (tl_index m x y (i + q))).
  Proof.
    destruct S as (S1 & S2 & S3 & S4). induction ps as [|p ps IH]; intros i tl fsr P L.
    - exists tl, []. rewrite app_nil_r. cbn. repeat split; auto; intros q; destruct q; discriminate.
    - inversion P as [|? ? (Lp & H0 & H1 & H2) P']; subst. cbn [length] in L.
      assert (Pp : forall k, k < nxy m -> exists x y, pos (i * nxy m + k) = Some (x, y) /\ pos k = Some (x, y) /\ in_plane m x y) by (intros k Hk; rewrite S4 by exact Hk; destruct (S1 k Hk) as (x & y & E & Q); exists x, y; auto).
      destruct (tl_pins_ok p i (tp_pins p) (i * nxy m) tl fsr H0 H1 H2) as (tl1 & app1 & A1 & A2 & A3 & A4 & A5 & A6).
      { intros k Hk. rewrite Lp in Hk. destruct (Pp k Hk) as (x & y & E & _ & Q). exists x, y. split; [exact E|]. split; [exact Q|]. pose proof (index_lt m x y i (i + Datatypes.S (length ps)) Q ltac:(lia)). lia. }
      { intros k k' Hk Hk' E. rewrite Lp in *. rewrite !S4 in E by assumption. now apply S2. }
      cbn [tl_planes]. rewrite A1, Lp. destruct (IH (i + 1) tl1 (fsr ++ app1) P') as (tl2 & app2 & B1 & B2 & B3 & B4 & B5 & B6); [rewrite A2; lia|].
      replace ((i + 1) * nxy m) with (i * nxy m + nxy m) in B1 by lia. replace (i + 1) with (Datatypes.S i) in B1 by lia. rewrite B1.
      assert (Pt : forall x y, in_plane m x y -> nth_error tl2 (tl_index m x y i) = nth_error tl1 (tl_index m x y i)) by (intros x y Q; apply B5; pose proof (index_lt m x y i (i + 1) Q ltac:(lia)); lia).
      exists tl2, (app1 ++ app2). rewrite app_assoc. split; [reflexivity|]. split; [congruence|]. split; [cbn [flat_map]; rewrite app_length, list_sum_app; lia|]. split; [|split].
      + intros [|q] p' x y Ep Q; cbn [nth_error] in Ep.
        * injection Ep as <-. rewrite Nat.add_0_r. destruct (S3 x y Q) as (k & Hk & Ek). destruct (A4 k x y ltac:(lia) ltac:(now rewrite S4)) as (t & v & D1 & D2 & D3). exists t, v. rewrite Pt by exact Q. auto.
        * replace (i + Datatypes.S q) with (i + 1 + q) by lia. destruct (B4 q p' x y Ep Q) as (t & v & D1 & D2 & D3). exists t, v. split; [|auto]. rewrite <- D1. symmetry. apply A5. intros k x' y' Hk E Z. rewrite Lp in Hk. destruct (Pp k Hk) as (x2 & y2 & E2 & _ & Q2). rewrite E in E2. injection E2 as <- <-. apply index_inj in Z; auto. lia.
      + intros j Hj. rewrite B5 by lia. apply A5. intros k x' y' Hk E Z. rewrite Lp in Hk. unfold tl_index in Z. lia.
      + intros [|q] p' k n r x y Ep En Hr E; cbn [nth_error] in Ep.
        * injection Ep as <-. rewrite Nat.add_0_r. assert (Hk : k < nxy m) by (rewrite <- Lp; apply nth_error_Some; congruence). destruct (Pp k Hk) as (x2 & y2 & E2 & E3 & Q2). rewrite E in E3. injection E3 as <- <-.
          rewrite Pt by exact Q2. rewrite <- (A6 k n r x y En Hr E2). unfold regs_before. cbn [firstn flat_map nth_error list_sum fold_right Nat.add]. apply nth_error_app1.
          assert (D := A6 k n r x y En Hr E2). destruct (A4 k x y ltac:(lia) E2) as (t & v & _ & D2 & _). apply nth_error_Some. rewrite D, D2. discriminate.
        * replace (i + Datatypes.S q) with (i + 1 + q) by lia. rewrite <- (B6 q p' k n r x y Ep En Hr E). unfold regs_before. cbn [firstn flat_map nth_error]. rewrite list_sum_app, nth_error_app2 by lia. f_equal. lia.
  Qed.
End Run.

(** Every pin of every macroplane gets the difference of the currents through its bottom and its top divided by its height,
    weighted with the old value by the relaxation factor, and the MoC sweeper is handed that value for each region of the pin. *)
Theorem C64_leakage : forall m pos J relax nreg ps tl, mesh_ok m -> spread m pos -> currents m J -> planes_ok m ps -> length tl = length ps * nxy m -> nreg = list_sum (flat_map tp_pins ps) ->
  exists tl' fsr, add_tl m pos J relax nreg ps tl = Some (tl', fsr) /\ length tl' = length tl /\ length fsr = nreg /\
    (forall i p x y, nth_error ps i = Some p -> in_plane m x y -> exists t jd ju, nth_error tl (tl_index m x y i) = Some t /\ j_bottom m J x y (tp_min p) jd /\ j_top m J x y (tp_max p) ju /\
       nth_error tl' (tl_index m x y i) = Some ((1 - relax) * t + relax * ((jd - ju) / tp_h p))%R) /\
    (forall i p k n r x y, nth_error ps i = Some p -> nth_error (tp_pins p) k = Some n -> r < n -> pos k = Some (x, y) -> nth_error fsr (regs_before ps i k + r) = nth_error tl' (tl_index m x y i)).
Proof.
  intros m pos J relax nreg ps tl M S C P L N. destruct (tl_planes_ok m pos J relax M C S ps 0 tl [] P ltac:(cbn; lia)) as (tl' & fsr & A1 & A2 & A3 & A4 & _ & A6). cbn [Nat.mul app] in A1.
  exists tl', fsr. unfold add_tl. rewrite A1. replace (length fsr =? nreg) with true by (symmetry; apply Nat.eqb_eq; congruence). split; [reflexivity|]. split; [exact A2|]. split; [congruence|]. split; [|exact A6].
  intros i p x y Ep Q. destruct (A4 i p x y Ep Q) as (t & v & B1 & B2 & jd & ju & D1 & D2 & ->). exists t, jd, ju. do 3 (split; [assumption|]). cbn [Nat.add] in B2. rewrite B2. f_equal. unfold Rdiv. ring.
Qed.
Print Assumptions C64_leakage.

Lemma telescope : forall m J ps x y lo n f, mesh_ok m -> in_plane m x y -> planes_ok m ps -> stacked lo ps n -> ps <> [] ->
  (forall i p, nth_error ps i = Some p -> exists jd ju, j_bottom m J x y (tp_min p) jd /\ j_top m J x y (tp_max p) ju /\ f i = (jd - ju)%R) ->
  exists jb jt, j_bottom m J x y lo jb /\ j_top m J x y (n - 1) jt /\ rsum f (length ps) = (jb - jt)%R.
Proof.
  intros m J ps x y lo n f M Q. revert lo f. induction ps as [|p ps IH]; intros lo f P St N F; [contradiction|]. inversion P as [|? ? (Lp & H0 & H1 & H2) P']; subst. destruct St as [<- St].
  destruct (F 0 p eq_refl) as (jd & ju & A1 & A2 & A3). destruct ps as [|q ps].
  - cbn in St. subst n. exists jd, ju. replace (Datatypes.S (tp_max p) - 1) with (tp_max p) by lia. split; [exact A1|]. split; [exact A2|]. cbn [length rsum]. rewrite A3. lra.
  - destruct (IH (Datatypes.S (tp_max p)) (fun i => f (Datatypes.S i)) P' St) as (jb & jt & B1 & B2 & B3); [discriminate|intros i p' Ep; apply (F (Datatypes.S i) p' Ep)|].
    exists jd, jt. split; [exact A1|]. split; [exact B2|]. assert (jb = ju).
    { destruct B1 as (s & E1 & E2). destruct A2 as (s' & E1' & E2'). assert (Some s = Some s'). { rewrite <- E1, <- E1'. symmetry. inversion P' as [|? ? (_ & _ & H3 & H4) _]; subst. destruct St as [Eq _].
        apply C07_surface_shared_iff_same_face; auto. { destruct Q. unfold in_mesh. cbn. lia. } { destruct Q. unfold in_mesh. cbn. lia. } right. split; [|reflexivity]. unfold cell_at, move. cbn. f_equal. lia. }
      congruence. }
    subst ju. change (length (p :: q :: ps)) with (Datatypes.S (length (q :: ps))). pose proof (rsum_app f 1 (length (q :: ps))) as T. change (1 + length (q :: ps)) with (Datatypes.S (length (q :: ps))) in T. rewrite T. change (rsum f 1) with (0 + f 0%nat)%R. change (fun i => f (1 + i)) with (fun i => f (Datatypes.S i)). rewrite B3, A3. lra.
Qed.
(** Without relaxation, what a column of macroplanes loses axially is what enters at the bottom of the core less what leaves at
    its top. *)
Theorem C64_telescopes : forall m pos J nreg ps tl tl' fsr x y, mesh_ok m -> spread m pos -> currents m J -> planes_ok m ps -> length tl = length ps * nxy m -> nreg = list_sum (flat_map tp_pins ps) ->
  stacked 0 ps (Z.to_nat (nz m)) -> in_plane m x y -> add_tl m pos J 1 nreg ps tl = Some (tl', fsr) ->
  exists jb jt, j_bottom m J x y 0 jb /\ j_top m J x y (Z.to_nat (nz m) - 1) jt /\
    rsum (fun i => match nth_error ps i, nth_error tl' (tl_index m x y i) with Some p, Some t => tp_h p * t | _, _ => 0 end)%R (length ps) = (jb - jt)%R.
Proof.
  intros m pos J nreg ps tl tl' fsr x y M S C P L N St Q E. destruct (C64_leakage m pos J 1 nreg ps tl M S C P L N) as (tl2 & fsr2 & E2 & _ & _ & A & _). rewrite E in E2. injection E2 as <- <-.
  apply telescope; auto.
  - intros ->. cbn in St. destruct M. lia.
  - intros i p Ep. destruct (A i p x y Ep Q) as (t & jd & ju & _ & A2 & A3 & A4). exists jd, ju. do 2 (split; [assumption|]). rewrite Ep, A4. assert (tp_h p <> 0%R) by (unfold planes_ok in P; rewrite Forall_forall in P; apply (P p); eapply nth_error_In; eauto). field. assumption.
Qed.
Print Assumptions C64_telescopes.

(** Two columns of three planes in macroplanes of two and one. *)
Definition tx_m : Mesh := {| nx := 2; ny := 1; nz := 3 |}.
Definition tx_pos (k : nat) : option (nat * nat) := Some (k mod 2, 0).
Definition tx_ps : list TPl := [mkTP 0 1 2 [1; 3]; mkTP 2 2 1 [2; 1]].
Example C64_instance : mesh_ok tx_m /\ spread tx_m tx_pos /\ currents tx_m (fun s => Some (IZR s)) /\ planes_ok tx_m tx_ps /\ stacked 0 tx_ps 3 /\
  exists tl' fsr, add_tl tx_m tx_pos (fun s => Some (IZR s)) 1 7 tx_ps [0; 0; 0; 0]%R = Some (tl', fsr) /\ length fsr = 7 /\ exists j j', j_bottom tx_m (fun s => Some (IZR s)) 1 0 0 j /\ j_top tx_m (fun s => Some (IZR s)) 1 0 1 j' /\ (j' <> j)%R /\ nth_error tl' 1 = Some ((j - j') / 2)%R.
Proof.
  assert (M : mesh_ok tx_m) by (unfold mesh_ok; cbn; lia). assert (S : spread tx_m tx_pos).
  { unfold spread. change (nxy tx_m) with 2. split; [|split; [|split]].
    - intros k Hk. exists (k mod 2), 0. split; [reflexivity|]. unfold in_plane. rewrite Nat.mod_small by lia. change (nx tx_m) with 2%Z. change (ny tx_m) with 1%Z. lia.
    - intros k k' H H' E. unfold tx_pos in E. rewrite !Nat.mod_small in E by lia. now injection E.
    - intros x y [A B]. cbn in A, B. exists x. split; [lia|]. unfold tx_pos. rewrite Nat.mod_small by lia. now replace y with 0 by lia.
    - intros i k Hk. unfold tx_pos. now rewrite Nat.add_comm, Nat.mod_add by lia. }
  assert (C : currents tx_m (fun s => Some (IZR s))) by discriminate. assert (P : planes_ok tx_m tx_ps) by (repeat constructor; cbn; try lia; lra).
  split; [exact M|]. split; [exact S|]. split; [exact C|]. split; [exact P|]. split; [repeat split|].
  destruct (C64_leakage tx_m tx_pos (fun s => Some (IZR s)) 1 7 tx_ps [0; 0; 0; 0]%R M S C P eq_refl eq_refl) as (tl' & fsr & E & _ & L & A & _). exists tl', fsr. split; [exact E|]. split; [exact L|].
  destruct (A 0 (mkTP 0 1 2 [1; 3]) 1 0 eq_refl) as (t & jd & ju & Et & A1 & A2 & A3); [unfold in_plane; cbn; lia|]. exists jd, ju. split; [exact A1|]. split; [exact A2|]. split.
  - destruct A1 as (s & E1 & [= <-]). destruct A2 as (s' & E2 & [= <-]). vm_compute in E1, E2. injection E1 as <-. injection E2 as <-. intros Q. apply eq_IZR in Q. discriminate.
  - cbn [tp_h] in A3. change (tl_index tx_m 1 0 0) with 1 in A3. rewrite A3. f_equal. ring.
Qed.
