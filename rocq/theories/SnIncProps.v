(** C109: the update of the Sn incoming flux from CMFD partial currents. *)
From Coq Require Import List Lia Bool Reals ZArith Arith Lra.
From Verif Require Import RUtil ListUtil McModel MeshModel MeshSpec MeshProofs MeshProps AngModel BcModel BcProofs BcProps PflModel PflProps SnIncModel.
Import ListNotations.
Open Scope nat_scope.

(** ** Specification *)
(** The cell behind element [i] of the face an angle enters through: elements are numbered along the face, the first in-plane
    coordinate fastest. *)
Definition entry_cell (m : Mesh) (d : Dir) (n : Normal) (i : nat) : Position :=
  match n with
  | X_NORM => {| px := if Rltb 0 (ox d) then 0%Z else (nx m - 1)%Z; py := Z.of_nat i mod ny m; pz := Z.of_nat i / ny m |}
  | Y_NORM => {| px := Z.of_nat i mod nx m; py := if Rltb 0 (oy d) then 0%Z else (ny m - 1)%Z; pz := Z.of_nat i / nx m |}
  | Z_NORM => {| px := Z.of_nat i mod nx m; py := Z.of_nat i / nx m; pz := if Rltb 0 (oz d) then 0%Z else (nz m - 1)%Z |}
  end.
Definition box_size (m : Mesh) : BcSize := mkSize (Z.to_nat (ny m * nz m)) (Z.to_nat (nx m * nz m)) (Z.to_nat (nx m * ny m)).
Definition sn_layout (m : Mesh) (b : BC) (ng : nat) (quad : list Angle) : Prop :=
  mesh_ok m /\ Forall (fun s => s = box_size m) (BcModel.sizes b) /\ length (BcModel.sizes b) = length quad /\ n_group b = ng.

Lemma nth_rows : forall {A B C} (f : A -> B -> C) (lb : list B) (la : list A) i, length lb <> 0 ->
  nth_error (flat_map (fun a => map (f a) lb) la) i = match nth_error la (i / length lb), nth_error lb (i mod length lb) with Some a, Some b => Some (f a b) | _, _ => None end.
Proof.
  intros A B C f lb la i Hb. revert i. induction la as [|a la IH]; intros i; cbn [flat_map].
  - destruct i; cbn [nth_error]; [now destruct (0 / length lb)|]. now destruct (S i / length lb).
  - destruct (Nat.lt_ge_cases i (length lb)) as [L|L].
    + rewrite nth_error_app1 by (rewrite map_length; lia). rewrite (Nat.div_small i), (Nat.mod_small i) by lia. cbn [nth_error]. rewrite nth_error_map. destruct (nth_error lb i); reflexivity.
    + rewrite nth_error_app2 by (rewrite map_length; lia). rewrite map_length, IH. assert (Ei : i = (i - length lb) + 1 * length lb) by lia. set (r := i - length lb) in *. clearbody r. subst i. rewrite Nat.div_add, Nat.mod_add by lia. rewrite Nat.add_1_r. reflexivity.
Qed.
Lemma len_rows : forall {A B C} (f : A -> B -> C) (lb : list B) (la : list A), length (flat_map (fun a => map (f a) lb) la) = length la * length lb.
Proof. intros. induction la as [|a la IH]; cbn [flat_map length]; [reflexivity|]. rewrite app_length, map_length, IH. lia. Qed.
Lemma zrange_nth : forall n k, (Z.of_nat k < n)%Z -> nth_error (zrange n) k = Some (Z.of_nat k).
Proof. intros n k H. unfold zrange. rewrite nth_error_map, (nth_error_nth' _ 0) by (rewrite seq_length; lia). rewrite seq_nth by lia. reflexivity. Qed.
Lemma zrange_len : forall n, length (zrange n) = Z.to_nat n.
Proof. intros. unfold zrange. now rewrite map_length, seq_length. Qed.

Lemma grid_nth : forall (f : Z -> Z -> Position) na nb i, (0 < nb)%Z -> (Z.of_nat i < nb * na)%Z ->
  nth_error (flat_map (fun a => map (f a) (zrange nb)) (zrange na)) i = Some (f (Z.of_nat i / nb)%Z (Z.of_nat i mod nb)%Z).
Proof.
  intros f na nb i Hb Hi. rewrite nth_rows by (rewrite zrange_len; lia). rewrite zrange_len. assert (E1 : Z.of_nat (i / Z.to_nat nb) = (Z.of_nat i / nb)%Z) by (rewrite Nat2Z.inj_div, Z2Nat.id by lia; reflexivity). assert (E2 : Z.of_nat (i mod Z.to_nat nb) = (Z.of_nat i mod nb)%Z) by (rewrite Nat2Z.inj_mod, Z2Nat.id by lia; reflexivity).
  rewrite !zrange_nth; [now rewrite E1, E2|rewrite E2; apply Z.mod_pos_bound; lia|rewrite E1; apply Z.div_lt_upper_bound; lia].
Qed.
Lemma inc_cells_nth : forall m d n i, mesh_ok m -> i < face_size (box_size m) n -> nth_error (inc_cells m d n) i = Some (entry_cell m d n i).
Proof.
  intros m d n i (Px & Py & Pz) H. destruct n; cbn [inc_cells entry_cell face_size box_size sx sy sz] in *.
  - rewrite (grid_nth (fun iz iy => {| px := if Rltb 0 (ox d) then 0%Z else (nx m - 1)%Z; py := iy; pz := iz |})) by lia. reflexivity.
  - rewrite (grid_nth (fun iz ix => {| px := ix; py := if Rltb 0 (oy d) then 0%Z else (ny m - 1)%Z; pz := iz |})) by lia. reflexivity.
  - rewrite (grid_nth (fun iy ix => {| px := ix; py := iy; pz := if Rltb 0 (oz d) then 0%Z else (nz m - 1)%Z |})) by lia. reflexivity.
Qed.
Lemma inc_cells_len : forall m d n, mesh_ok m -> length (inc_cells m d n) = face_size (box_size m) n.
Proof.
  intros m d n (Px & Py & Pz). destruct n; cbn [inc_cells face_size box_size sx sy sz]; rewrite len_rows, !zrange_len, <- Z2Nat.inj_mul by lia; f_equal; lia.
Qed.
(** The cell is in the mesh, on the boundary: across the side there is nothing. *)
Lemma entry_in : forall m d n i, mesh_ok m -> i < face_size (box_size m) n -> in_mesh m (entry_cell m d n i).
Proof.
  intros m d n i (Px & Py & Pz) H. unfold in_mesh. destruct n; cbn [entry_cell px py pz face_size box_size sx sy sz] in *.
  - pose proof (Z.mod_pos_bound (Z.of_nat i) (ny m) Py). assert (0 <= Z.of_nat i / ny m < nz m)%Z by (split; [apply Z.div_pos; lia|apply Z.div_lt_upper_bound; lia]). destruct (Rltb 0 (ox d)); lia.
  - pose proof (Z.mod_pos_bound (Z.of_nat i) (nx m) Px). assert (0 <= Z.of_nat i / nx m < nz m)%Z by (split; [apply Z.div_pos; lia|apply Z.div_lt_upper_bound; lia]). destruct (Rltb 0 (oy d)); lia.
  - pose proof (Z.mod_pos_bound (Z.of_nat i) (nx m) Px). assert (0 <= Z.of_nat i / nx m < ny m)%Z by (split; [apply Z.div_pos; lia|apply Z.div_lt_upper_bound; lia]). destruct (Rltb 0 (oz d)); lia.
Qed.
Lemma entry_out : forall m d n i, mesh_ok m -> i < face_size (box_size m) n -> ~ in_mesh m (move (entry_cell m d n i) (upwind_surface d n)).
Proof.
  intros m d n i M H (X & Y & Z). destruct n; cbn [entry_cell upwind_surface] in *; [destruct (Rltb 0 (ox d))|destruct (Rltb 0 (oy d))|destruct (Rltb 0 (oz d))]; cbn [move px py pz] in *; lia.
Qed.

Lemma set_some : forall {A} (l : list A) i v, i < length l -> exists l', set_nth l i v = Some l'.
Proof. induction l as [|a l IH]; intros [|i] v H; cbn in *; try lia; [eauto|]. destruct (IH i v ltac:(lia)) as (l' & ->). eauto. Qed.
Lemma inc_loop_ok : forall m f g sense s cs at_ d, (forall c, In c cs -> exists is, coarse_surf m (coarse_cell m c) s = Some is /\ forall x, f x is g sense <> None) -> at_ + length cs <= length d ->
  exists d', inc_loop m f g sense s cs at_ d = Some d' /\ length d' = length d /\ (forall k, k < at_ \/ at_ + length cs <= k -> nth_error d' k = nth_error d k) /\
    forall j c, nth_error cs j = Some c -> exists is v w, coarse_surf m (coarse_cell m c) s = Some is /\ nth_error d (at_ + j) = Some v /\ f v is g sense = Some w /\ nth_error d' (at_ + j) = Some w.
Proof.
  intros m f g sense s cs. induction cs as [|c cs IH]; intros at_ d D L; cbn [inc_loop].
  - exists d. split; [reflexivity|]. split; [reflexivity|]. split; [reflexivity|]. intros [|j] c H; discriminate.
  - cbn [length] in L. destruct (D c (or_introl eq_refl)) as (is & Es & Df). rewrite Es. destruct (nth_error d at_) as [v|] eqn:Ev; [|apply nth_error_None in Ev; lia]. destruct (f v is g sense) as [w|] eqn:Ew; [|now destruct (Df v)].
    assert (Em : exists d1, modify (fun x => f x is g sense) at_ d = Some d1). { unfold modify. rewrite Ev, Ew. apply set_some. lia. }
    destruct Em as (d1 & Em). rewrite Em. destruct (modify_spec _ _ _ _ Em) as (L1 & O1 & (x & y & X1 & X2 & X3)). rewrite Ev in X1. injection X1 as <-. rewrite Ew in X2. injection X2 as <-.
    destruct (IH (S at_) d1) as (d' & E' & L' & O' & J'); [intros c' I; apply D; now right|lia|]. exists d'. split; [exact E'|]. split; [congruence|]. split.
    + intros k Hk. cbn [length] in Hk. rewrite O' by lia. apply O1. lia.
    + intros [|j] c' Hj; cbn [nth_error] in Hj.
      * injection Hj as <-. exists is, v, w. rewrite Nat.add_0_r. split; [exact Es|]. split; [exact Ev|]. split; [exact Ew|]. rewrite O' by lia. exact X3.
      * destruct (J' j c' Hj) as (is' & v' & w' & A & B & C & E). exists is', v', w'. replace (at_ + S j) with (S at_ + j) by lia. split; [exact A|]. split; [|auto]. rewrite <- B. symmetry. apply O1. lia.
Qed.

(** The faces are updated one after the other; each position belongs to one face. *)
Definition key (c : nat * nat * Angle * Normal) : nat * nat * Normal := let '(g, a, _, n) := c in (g, a, n).
Lemma face_place : forall m b ng quad g a n, sn_layout m b ng quad -> a < length quad -> g < ng -> exists off, get_face b g a n = Some (face_size (box_size m) n, off) /\ off + face_size (box_size m) n <= ng * bc_per_group (BcModel.sizes b).
Proof.
  intros m b ng quad g a n (M & Fs & L & N) Ha Hg. destruct (get_face_some b g a n) as (k & off & E); [lia|]. destruct (get_face_inv _ _ _ _ _ _ E) as (s & o & Es & Eo & -> & ->).
  assert (s = box_size m) by (rewrite Forall_forall in Fs; apply Fs; eapply nth_error_In; eauto). subst s. eexists. split; [exact E|]. rewrite <- N. eapply C17_slices_inside; [exact E|lia].
Qed.
Lemma inc_all_ok : forall m b ng quad f, sn_layout m b ng quad -> (forall is g sense x, (0 <= is < n_surf m)%Z -> g < ng -> f x is g sense <> None) ->
  forall calls d, length d = ng * bc_per_group (BcModel.sizes b) -> NoDup (map key calls) -> (forall g a ang n, In (g, a, ang, n) calls -> g < ng /\ a < length quad) ->
  exists d', inc_all m b f calls d = Some d' /\ length d' = length d /\
    (forall g a n i k, slot b g a n i k -> ~ In (g, a, n) (map key calls) -> nth_error d' k = nth_error d k) /\
    forall g a ang n i k, In (g, a, ang, n) calls -> slot b g a n i k -> exists is v w, coarse_surf m (coarse_cell m (entry_cell m (adir ang) n i)) (inc_side (adir ang) n) = Some is /\
      nth_error d k = Some v /\ f v is g (inc_sense (inc_side (adir ang) n)) = Some w /\ nth_error d' k = Some w.
Proof.
  intros m b ng quad f Lay Df. assert (M := proj1 Lay). induction calls as [|[[[g a] ang] n] calls IH]; intros d L N B; cbn [inc_all].
  - exists d. repeat split; auto. intros ? ? ? ? ? ? [].
  - cbn [map key] in N. apply NoDup_cons_iff in N. destruct N as [N1 N]. destruct (B g a ang n (or_introl eq_refl)) as [Hg Ha]. destruct (face_place m b ng quad g a n Lay Ha Hg) as (off & Ef & Bo). unfold inc_face. rewrite Ef.
    assert (Hs : forall c, In c (inc_cells m (adir ang) n) -> in_mesh m c). { intros c I. apply In_nth_error in I. destruct I as (j & Ej). assert (Hj : j < face_size (box_size m) n) by (rewrite <- (inc_cells_len m (adir ang) n M); apply nth_error_Some; congruence). rewrite inc_cells_nth in Ej by auto. injection Ej as <-. now apply entry_in. }
    destruct (inc_loop_ok m f g (inc_sense (inc_side (adir ang) n)) (inc_side (adir ang) n) (inc_cells m (adir ang) n) off d) as (d1 & E1 & L1 & O1 & J1).
    { intros c I. destruct (C07_surface_in_range m c (inc_side (adir ang) n) M (Hs c I)) as (is & Es & Bs). exists is. split; [exact Es|]. intros x. now apply Df. }
    { rewrite inc_cells_len by auto. lia. }
    rewrite E1. destruct (IH d1) as (d' & E' & L' & O' & J'); [congruence|exact N|intros; eapply B; right; eauto|]. exists d'. split; [exact E'|]. split; [congruence|].
    assert (Own : forall i k, slot b g a n i k -> i < face_size (box_size m) n /\ k = off + i) by (intros i k (size & o & F & Hi & ->); rewrite Ef in F; injection F as <- <-; auto).
    assert (Oth : forall g' a' n' i k, slot b g' a' n' i k -> (g', a', n') <> (g, a, n) -> nth_error d1 k = nth_error d k).
    { intros g' a' n' i k Sl Nk. apply O1. rewrite inc_cells_len by auto. destruct (Nat.lt_ge_cases k off) as [|C]; [now left|]. destruct (Nat.le_gt_cases (off + face_size (box_size m) n) k) as [|C2]; [now right|]. exfalso. apply Nk.
      destruct (slot_inj b g' a' n' i k g a n (k - off) Sl) as (-> & -> & -> & _); [|reflexivity]. exists (face_size (box_size m) n), off. split; [exact Ef|]. lia. }
    split.
    + intros g' a' n' i k Sl Ni. cbn [map key] in Ni. rewrite (O' g' a' n' i k Sl) by (intros I; apply Ni; now right). apply (Oth g' a' n' i k Sl). intros E. apply Ni. left. now symmetry.
    + intros g' a' ang' n' i k [E|I] Sl.
      * injection E as <- <- <- <-. destruct (Own i k Sl) as [Hi ->]. destruct (J1 i _ (inc_cells_nth m (adir ang) n i M Hi)) as (is & v & w & A1 & A2 & A3 & A4). exists is, v, w. split; [exact A1|]. split; [exact A2|]. split; [exact A3|]. rewrite <- A4. apply (O' g a n i _ Sl N1).
      * destruct (J' g' a' ang' n' i k I Sl) as (is & v & w & A1 & A2 & A3 & A4). exists is, v, w. split; [exact A1|]. split; [|auto]. rewrite <- A2. symmetry. apply (Oth g' a' n' i k Sl). intros E. apply N1. rewrite <- E. apply (in_map key) in I. exact I.
Qed.
Lemma in_calls : forall ng quad g a ang n, In (g, a, ang, n) (inc_calls ng quad) <-> g < ng /\ nth_error quad a = Some ang.
Proof.
  intros ng quad g a ang n. unfold inc_calls. rewrite in_flat_map. split.
  - intros (g' & Ig & I). apply in_flat_map in I. destruct I as ([a' ang'] & Ia & I). apply in_map_iff in I. destruct I as (n' & E & _). cbn [fst snd] in E. injection E as -> -> -> ->. apply in_seq in Ig. split; [lia|].
    apply In_nth_error in Ia. destruct Ia as (j & Ej). assert (Hj : j < length quad). { assert (j < length (combine (seq 0 (length quad)) quad)) by (apply nth_error_Some; congruence). rewrite combine_length, seq_length in H. lia. }
    rewrite (nth_error_nth' _ (0, ang)) in Ej by (rewrite combine_length, seq_length; lia). rewrite combine_nth in Ej by apply seq_length. injection Ej as E1 E2. rewrite seq_nth in E1 by auto. subst a. rewrite <- E2. cbn. now apply nth_error_nth'.
  - intros [Hg Ea]. exists g. split; [apply in_seq; lia|]. apply in_flat_map. exists (a, ang). split; [|apply in_map_iff; exists n; split; [reflexivity|destruct n; cbn; auto]].
    assert (Ha : a < length quad) by (apply nth_error_Some; congruence). apply (nth_error_In _ a). rewrite (nth_error_nth' _ (0, ang)) by (rewrite combine_length, seq_length; lia). rewrite combine_nth by apply seq_length. rewrite seq_nth by auto. cbn. now rewrite (nth_error_nth _ _ _ Ea).
Qed.
Lemma NoDup_flat : forall {A B} (f : A -> list B) l, NoDup l -> (forall a, In a l -> NoDup (f a)) -> (forall a a' x, In a l -> In a' l -> In x (f a) -> In x (f a') -> a = a') -> NoDup (flat_map f l).
Proof.
  intros A B f. induction l as [|a l IH]; intros N F D; cbn [flat_map]; [constructor|]. apply NoDup_cons_iff in N. destruct N as [Na N]. apply NoDup_app'; [apply F; now left|apply IH; auto; [intros; apply F; now right|intros x y z X Y; apply D; now right]|].
  intros x I1 I2. apply in_flat_map in I2. destruct I2 as (a' & I2 & I3). apply Na. rewrite (D a a' x); auto; [now left|now right].
Qed.
Lemma calls_once : forall ng quad, NoDup (map key (inc_calls ng quad)).
Proof.
  intros ng quad. unfold inc_calls. rewrite flat_map_concat_map, concat_map, map_map, <- flat_map_concat_map. apply NoDup_flat; [apply seq_NoDup| |].
  - intros g _. rewrite flat_map_concat_map, concat_map, map_map, <- flat_map_concat_map. apply NoDup_flat.
    + apply (NoDup_map_inv fst). assert (E : map fst (combine (seq 0 (length quad)) quad) = seq 0 (length quad)); [|rewrite E; apply seq_NoDup]. assert (G : forall (q : list Angle) s, map fst (combine (seq s (length q)) q) = seq s (length q)) by (induction q as [|x q IHq]; intros s; cbn; [reflexivity|now rewrite IHq]). apply G.
    + intros [a ang] _. cbn. repeat constructor; cbn; intuition discriminate.
    + intros [a ang] [a' ang'] x I I' X X'. cbn in X, X'. assert (a = a') by (repeat (destruct X as [X|X]; [|]); repeat (destruct X' as [X'|X']; [|]); try contradiction; congruence). subst a'.
      apply In_nth_error in I. apply In_nth_error in I'. destruct I as (j & Ej), I' as (j' & Ej'). f_equal.
      assert (G : forall j y z, nth_error (combine (seq 0 (length quad)) quad) j = Some (y, z) -> y = j /\ nth_error quad j = Some z).
      { clear. assert (G : forall (q : list Angle) s j y z, nth_error (combine (seq s (length q)) q) j = Some (y, z) -> y = s + j /\ nth_error q j = Some z). { induction q as [|x q IH]; intros s [|j] y z H; cbn in H; try discriminate; [injection H as <- <-; split; [lia|reflexivity]|]. destruct (IH _ _ _ _ H) as [-> E]. split; [lia|exact E]. } intros j y z H. destruct (G quad 0 j y z H). auto. }
      destruct (G _ _ _ Ej) as [-> E1]. destruct (G _ _ _ Ej') as [Ej2 E2]. subst j'. congruence.
  - intros g g' x _ _ X X'. apply in_map_iff in X. destruct X as ([[[g1 a1] n1] m1] & <- & X). apply in_map_iff in X'. destruct X' as ([[[g2 a2] n2] m2] & E & X'). cbn [key] in E. injection E as -> -> ->.
    apply in_flat_map in X. destruct X as (ia & _ & X). apply in_map_iff in X. destruct X as (? & X & _). apply in_flat_map in X'. destruct X' as (ib & _ & X'). apply in_map_iff in X'. destruct X' as (? & X' & _). congruence.
Qed.

Definition pc_fits (m : Mesh) (ng : nat) (pc : Z -> nat -> option (R * R)) : Prop := forall is g, (0 <= is < n_surf m)%Z -> g < ng -> pc is g <> None.
(** The boundary surface element [i] of face [n] lies on: the far side of the cell behind it, with nothing beyond. *)
Definition entry_surface (m : Mesh) (d : Dir) (n : Normal) (i : nat) (is : Z) : Prop :=
  let c := coarse_cell m (entry_cell m d n i) in coarse_surf m c (upwind_surface d n) = Some is /\ coarse_neighbor m c (upwind_surface d n) = (-1)%Z.
Lemma inc_run : forall m b ng quad f d, sn_layout m b ng quad -> (forall is g sense x, (0 <= is < n_surf m)%Z -> g < ng -> f x is g sense <> None) -> length d = ng * bc_per_group (BcModel.sizes b) ->
  exists d', inc_all m b f (inc_calls ng quad) d = Some d' /\ length d' = length d /\ forall g a ang n i k, g < ng -> nth_error quad a = Some ang -> slot b g a n i k ->
    exists is v w, entry_surface m (adir ang) n i is /\ nth_error d k = Some v /\ f v is g (if high (upwind_surface (adir ang) n) then 0 else 1) = Some w /\ nth_error d' k = Some w.
Proof.
  intros m b ng quad f d Lay Df L. destruct (inc_all_ok m b ng quad f Lay Df (inc_calls ng quad) d L (calls_once ng quad)) as (d' & E & L' & _ & J).
  { intros g a ang n I. apply in_calls in I. destruct I as [Hg Ea]. split; [exact Hg|]. apply nth_error_Some. congruence. }
  exists d'. split; [exact E|]. split; [exact L'|]. intros g a ang n i k Hg Ea Sl. destruct (J g a ang n i k) as (is & v & w & A1 & A2 & A3 & A4); [now apply in_calls|exact Sl|]. exists is, v, w.
  assert (M := proj1 Lay). assert (Hi : i < face_size (box_size m) n). { destruct (face_place m b ng quad g a n Lay) as (off & Ef & _); [apply nth_error_Some; congruence|exact Hg|]. destruct Sl as (size & o & F & Hi & _). rewrite Ef in F. injection F as <- <-. exact Hi. }
  change (inc_side (adir ang) n) with (upwind_surface (adir ang) n) in *. split; [split; [exact A1|]|split; [exact A2|split; [|exact A4]]].
  - apply (C10_neighbor_is_adjacent m _ (upwind_surface (adir ang) n) M (entry_in m (adir ang) n i M Hi)). now apply entry_out.
  - rewrite <- A3. f_equal. now destruct (upwind_surface (adir ang) n).
Qed.
(** With partial currents of the iteration before: every boundary value of every group and angle is scaled by the ratio of the
    total partial currents at the surface it lies on, once; where there was none before it is kept. *)
Theorem C109_ratio : forall m b ng quad pc pco d, sn_layout m b ng quad -> pc_fits m ng pc -> pc_fits m ng pco -> length d = ng * bc_per_group (BcModel.sizes b) ->
  exists d', sn_update_incoming true true pc pco m b ng quad d = Some d' /\ length d' = length d /\ forall g a ang n i k, g < ng -> nth_error quad a = Some ang -> slot b g a n i k ->
    exists is v p0 p1 q0 q1, entry_surface m (adir ang) n i is /\ nth_error d k = Some v /\ pc is g = Some (p0, p1) /\ pco is g = Some (q0, q1) /\
      ((0 < q0 + q1 -> nth_error d' k = Some (v * (p0 + p1) / (q0 + q1))) /\ (q0 + q1 <= 0 -> nth_error d' k = Some v))%R.
Proof.
  intros m b ng quad pc pco d Lay P Q L. destruct (inc_run m b ng quad (inc_ratio pc pco) d Lay) as (d' & E & L' & J); [|exact L|].
  { intros is g sense x Hs Hg. unfold inc_ratio. specialize (P is g Hs Hg). specialize (Q is g Hs Hg). destruct (pc is g) as [[p0 p1]|]; [|congruence]. destruct (pco is g) as [[q0 q1]|]; [discriminate|congruence]. }
  exists d'. split; [exact E|]. split; [exact L'|]. intros g a ang n i k Hg Ea Sl. destruct (J g a ang n i k Hg Ea Sl) as (is & v & w & A1 & A2 & A3 & A4). unfold inc_ratio in A3. destruct (pc is g) as [[p0 p1]|] eqn:Ep; [|discriminate]. destruct (pco is g) as [[q0 q1]|] eqn:Eq; [|discriminate].
  injection A3 as <-. exists is, v, p0, p1, q0, q1. do 4 (split; [assumption|]). rewrite A4. split; intros H; f_equal; destruct (Rltb_spec 0 (2 * (q0 + q1))); try lra. field. lra.
Qed.
Print Assumptions C109_ratio.
(** Without them: the value becomes the isotropic flux of a partial current of the surface it lies on.  What is missing for the
    full property: it is the partial current out of the domain, not the one into it (entry through a low side is motion in
    the positive direction, whose partial current is the first of the two). *)
Theorem C109_first_partial : forall m b ng quad pc pco d, sn_layout m b ng quad -> pc_fits m ng pc -> length d = ng * bc_per_group (BcModel.sizes b) ->
  exists d', sn_update_incoming true false pc pco m b ng quad d = Some d' /\ length d' = length d /\ forall g a ang n i k, g < ng -> nth_error quad a = Some ang -> slot b g a n i k ->
    exists is p0 p1, entry_surface m (adir ang) n i is /\ pc is g = Some (p0, p1) /\ nth_error d' k = Some ((if high (upwind_surface (adir ang) n) then p0 else p1) / PI)%R.
Proof.
  intros m b ng quad pc pco d Lay P L. destruct (inc_run m b ng quad (inc_first pc) d Lay) as (d' & E & L' & J); [|exact L|].
  { intros is g sense x Hs Hg. unfold inc_first. specialize (P is g Hs Hg). destruct (pc is g) as [[p0 p1]|]; [discriminate|congruence]. }
  exists d'. split; [exact E|]. split; [exact L'|]. intros g a ang n i k Hg Ea Sl. destruct (J g a ang n i k Hg Ea Sl) as (is & v & w & A1 & A2 & A3 & A4). unfold inc_first in A3. destruct (pc is g) as [[p0 p1]|] eqn:Ep; [|discriminate].
  injection A3 as <-. exists is, p0, p1. do 2 (split; [assumption|]). rewrite A4. f_equal. pose proof PI_RGT_0. destruct (high (upwind_surface (adir ang) n)); field; lra.
Qed.
Print Assumptions C109_first_partial.
Theorem C109_nonneg : forall m b ng quad pc pco d d' old, sn_layout m b ng quad -> pc_fits m ng pc -> pc_fits m ng pco -> length d = ng * bc_per_group (BcModel.sizes b) ->
  (forall is g p0 p1, pc is g = Some (p0, p1) -> (0 <= p0)%R /\ (0 <= p1)%R) -> Forall (fun v => 0 <= v)%R d -> sn_update_incoming true old pc pco m b ng quad d = Some d' -> Forall (fun v => 0 <= v)%R d'.
Proof.
  intros m b ng quad pc pco d d' old Lay P Q L Pos F E. apply Forall_forall. intros v I. apply In_nth_error in I. destruct I as (k & Ek). pose proof PI_RGT_0.
  assert (Lay' := Lay). destruct Lay' as (M & Fs & Lq & Ng).
  destruct old.
  - destruct (C109_ratio m b ng quad pc pco d Lay P Q L) as (d2 & E2 & L2 & J). rewrite E in E2. injection E2 as <-. assert (Hk : k < ng * bc_per_group (BcModel.sizes b)) by (rewrite <- L, <- L2; apply nth_error_Some; congruence).
    destruct (C17_slices_cover b k) as (g & a & n & size & off & Hg & Ha & Ef & Hk'); [now rewrite Ng|]. destruct (nth_error quad a) as [ang|] eqn:Ea; [|apply nth_error_None in Ea; lia].
    destruct (J g a ang n (k - off) k ltac:(lia) Ea) as (is & x & p0 & p1 & q0 & q1 & _ & Ex & Ep & Eq & A & B); [exists size, off; split; [exact Ef|lia]|]. assert (0 <= x)%R by (rewrite Forall_forall in F; apply F; eapply nth_error_In; eauto). destruct (Pos _ _ _ _ Ep).
    destruct (Rlt_le_dec 0 (q0 + q1)) as [C|C]; [rewrite (A C) in Ek|rewrite (B C) in Ek]; injection Ek as <-; [|assumption]. apply Rmult_le_pos; [apply Rmult_le_pos; lra|]. apply Rlt_le, Rinv_0_lt_compat. lra.
  - destruct (C109_first_partial m b ng quad pc pco d Lay P L) as (d2 & E2 & L2 & J). rewrite E in E2. injection E2 as <-. assert (Hk : k < ng * bc_per_group (BcModel.sizes b)) by (rewrite <- L, <- L2; apply nth_error_Some; congruence).
    destruct (C17_slices_cover b k) as (g & a & n & size & off & Hg & Ha & Ef & Hk'); [now rewrite Ng|]. destruct (nth_error quad a) as [ang|] eqn:Ea; [|apply nth_error_None in Ea; lia].
    destruct (J g a ang n (k - off) k ltac:(lia) Ea) as (is & p0 & p1 & _ & Ep & A); [exists size, off; split; [exact Ef|lia]|]. destruct (Pos _ _ _ _ Ep). rewrite A in Ek. injection Ek as <-.
    apply Rmult_le_pos; [destruct (high _); lra|]. apply Rlt_le, Rinv_0_lt_compat. lra.
Qed.
Print Assumptions C109_nonneg.

(** A two by one by one mesh and one angle in the first octant. *)
Definition ix_m : Mesh := {| nx := 2; ny := 1; nz := 1 |}.
Definition ix_ang : Angle := mkAngle (dir_cosines (1/3) (2/3) (2/3)) 1.
Definition ix_bc : BC := mkBC 1 [mkSize 1 2 2] (fun _ => VACUUM) 1 [ix_ang] [].
Lemma ix_layout : sn_layout ix_m ix_bc 1 [ix_ang].
Proof. split; [unfold mesh_ok; cbn; lia|]. split; [repeat constructor|]. split; reflexivity. Qed.
Example C109_instance : sn_layout ix_m ix_bc 1 [ix_ang] /\ pc_fits ix_m 1 (fun _ _ => Some (3, 1)%R) /\ pc_fits ix_m 1 (fun _ _ => Some (1, 1)%R) /\
  exists d', sn_update_incoming true true (fun _ _ => Some (3, 1)%R) (fun _ _ => Some (1, 1)%R) ix_m ix_bc 1 [ix_ang] [1; 2; 3; 4; 5]%R = Some d' /\ nth_error d' 2 = Some 6%R.
Proof.
  split; [apply ix_layout|]. split; [discriminate|]. split; [discriminate|]. destruct (C109_ratio ix_m ix_bc 1 [ix_ang] (fun _ _ => Some (3, 1)%R) (fun _ _ => Some (1, 1)%R) [1; 2; 3; 4; 5]%R ix_layout) as (d' & E & _ & J); [discriminate|discriminate|reflexivity|].
  exists d'. split; [exact E|]. destruct (J 0 0 ix_ang Y_NORM 1 2 ltac:(lia) eq_refl) as (is & v & p0 & p1 & q0 & q1 & _ & Ev & Ep & Eq & A & _); [exists 2, 1; split; [reflexivity|lia]|]. injection Ep as <- <-. injection Eq as <- <-. rewrite A by lra. injection Ev as <-. f_equal. lra.
Qed.
(** Nothing enters through the western side and one leaves, as at a vacuum boundary: yet the flux entering there becomes 1/pi. *)
Theorem C109_first_refuted : exists m b ng quad pc d d' ang n k is, sn_layout m b ng quad /\ pc_fits m ng pc /\ nth_error quad 0 = Some ang /\ slot b 0 0 n 0 k /\ types b WEST = VACUUM /\
  n = X_NORM /\ upwind_surface (adir ang) n = WEST /\ entry_surface m (adir ang) n 0 is /\ (forall p0 p1, pc is 0 = Some (p0, p1) -> (p0 = 0 /\ 0 < p1)%R) /\
  sn_update_incoming true false pc pc m b ng quad d = Some d' /\ nth_error d' k = Some (1 / PI)%R.
Proof.
  assert (U : upwind_surface (adir ix_ang) X_NORM = WEST) by (unfold upwind_surface, ix_ang; cbn [adir dir_cosines ox]; destruct (Rltb_spec 0 (1 / 3)); [reflexivity|lra]).
  destruct (C109_first_partial ix_m ix_bc 1 [ix_ang] (fun _ _ => Some (0, 1)%R) (fun _ _ => Some (0, 1)%R) [0; 0; 0; 0; 0]%R ix_layout) as (d' & E & _ & J); [discriminate|reflexivity|].
  assert (Sl : slot ix_bc 0 0 X_NORM 0 0) by (exists 1, 0; split; [reflexivity|lia]). destruct (J 0 0 ix_ang X_NORM 0 0 ltac:(lia) eq_refl Sl) as (is & p0 & p1 & Es & Ep & A). injection Ep as <- <-. rewrite U in A. cbn [high] in A.
  exists ix_m, ix_bc, 1, [ix_ang], (fun _ _ => Some (0, 1)%R), [0; 0; 0; 0; 0]%R, d', ix_ang, X_NORM, 0, is. split; [apply ix_layout|]. split; [discriminate|]. do 2 (split; [auto|]). do 3 (split; [auto|]). split; [exact Es|]. split; [intros p0 p1 [= <- <-]; lra|]. split; [exact E|exact A].
Qed.
Print Assumptions C109_first_refuted.
