(** C30, C31, C82: pin fluxes, transverse leakage and incoming flux of the MoC sweeper. *)
From Coq Require Import List Bool Reals Arith Lia Lra Psatz.
From Verif Require Import RUtil ListUtil McModel MatModel MocModel MocProofs CoreProofs PflModel.
Import ListNotations.

(** ** Sums *)
Lemma wsum_lsum : forall fl w, wsum fl w = lsum (fun p => (fst p * snd p)%R) (combine fl w).
Proof.
  intros fl w. unfold wsum. generalize (combine fl w). intros l. cut (forall a, fold_left (fun s p => (s + fst p * snd p)%R) l a = (a + lsum (fun p : R * R => (fst p * snd p)%R) l)%R).
  { intros H. rewrite H. lra. } induction l as [|x l IH]; intros a; cbn [fold_left lsum]; [lra|]. rewrite IH. lra.
Qed.
Lemma vsum_lsum : forall w, vsum w = lsum (fun x => x) w.
Proof.
  intros w. unfold vsum. cut (forall a, fold_left Rplus w a = (a + lsum (fun x => x) w)%R). { intros H. rewrite H. lra. }
  induction w as [|x l IH]; intros a; cbn [fold_left lsum]; [lra|]. rewrite IH. lra.
Qed.
Lemma wsum_scale : forall f h fl w, wsum (map (fun x => x * f)%R fl) (map (fun a => a * h)%R w) = (wsum fl w * f * h)%R.
Proof.
  intros f h fl w. rewrite !wsum_lsum. revert w. induction fl as [|x fl IH]; intros [|y w]; cbn [map combine lsum fst snd]; try lra. rewrite IH. lra.
Qed.
Lemma vsum_scale : forall h w, vsum (map (fun a => a * h)%R w) = (vsum w * h)%R.
Proof. intros h w. rewrite !vsum_lsum. induction w as [|y w IH]; cbn [map lsum]; [lra|]. rewrite IH. lra. Qed.

(** ** Specification *)
(** Sizes of the pins of all macroplanes, in region order. *)
Definition sizes (ms : list MPl) : list nat := flat_map (fun m => map (fun p => length (pg_areas p)) (ml_pins m)) ms.
(** Each block of fluxes multiplied by its own factor. *)
Fixpoint scale_blocks (ns : list nat) (fs fl : list R) : list R :=
  match ns, fs with
  | n :: ns', f :: fs' => map (fun x => x * f)%R (firstn n fl) ++ scale_blocks ns' fs' (skipn n fl)
  | _, _ => fl
  end.
(** A pin whose region areas add up to a non-zero pin area. *)
Definition good_pin (p : PinG) : Prop := vsum (pg_areas p) = pg_area p /\ pg_area p <> 0%R.
(** Region volumes of the macroplanes: area times height (CoreMesh::volumes, PLANE). *)
Definition plane_vols (h : R) (pins : list PinG) : list R := flat_map (fun p => map (fun a => a * h)%R (pg_areas p)) pins.
Definition mvols (hs : list R) (ms : list MPl) : list R := flat_map (fun hm => plane_vols (fst hm) (ml_pins (snd hm))) (combine hs ms).
(** The pins of a plane fill the cells of the plane. *)
Definition fills (cell : nat -> nat) (nxy : nat) : Prop :=
  (forall i, i < nxy -> cell i < nxy) /\ (forall i j, i < nxy -> j < nxy -> cell i = cell j -> i = j) /\ forall c, c < nxy -> exists i, i < nxy /\ cell i = c.
Record mesh_good (cell : nat -> nat) (nxy : nat) (hs : list R) (ms : list MPl) : Prop := {
  mg_fills : fills cell nxy;
  mg_pins : forall m, In m ms -> length (ml_pins m) = nxy /\ forall p, In p (ml_pins m) -> good_pin p;
  mg_heights : length hs = length ms /\ forall h, In h hs -> h <> 0%R
}.

(** ** Proofs *)
Lemma firstn_skipn_app : forall {A} n (l x : list A), n = length l -> firstn n (l ++ x) = l /\ skipn n (l ++ x) = x.
Proof. intros A n l x ->. split; [rewrite firstn_app, Nat.sub_diag, firstn_all; cbn; now rewrite app_nil_r|rewrite skipn_app, Nat.sub_diag, skipn_all; reflexivity]. Qed.

Lemma set_pins_spec : forall cell nxy z h pins ipin input fl new rest e, h <> 0%R -> (forall p, In p pins -> good_pin p) ->
  set_pins cell nxy z ipin pins input fl = Some (new, rest, e) ->
  (forall X V, plane_means pins (new ++ X) (plane_vols h pins ++ V) = Some (map (fun k => nth (cell (ipin + k) + nxy * z) input 0%R) (seq 0 (length pins)), (X, V))) /\
  exists fs, length fs = length pins /\ forall fs2 ns2 t, scale_blocks ns2 fs2 rest = t -> scale_blocks (map (fun p => length (pg_areas p)) pins ++ ns2) (fs ++ fs2) fl = new ++ t.
Proof.
  intros cell nxy z h pins. induction pins as [|p pins IH]; intros ipin input fl new rest e Hh G E; cbn [set_pins] in E.
  - injection E as <- <- <-. split; [reflexivity|]. exists []. split; [reflexivity|]. intros fs2 ns2 t <-. reflexivity.
  - destruct (Nat.ltb_spec (length fl) (length (pg_areas p))) as [|Lf]; [discriminate|]. destruct (nth_error input _) as [v|] eqn:Ev; [|discriminate].
    destruct (G p (or_introl eq_refl)) as [Gs Gn]. destruct (Reqb_spec (pg_area p) 0) as [|_]; [contradiction|].
    destruct (Reqb_spec (wsum (firstn (length (pg_areas p)) fl) (pg_areas p) / pg_area p) 0) as [|Fm]; [discriminate|].
    destruct (set_pins cell nxy z (S ipin) pins input _) as [[[new' rest'] e']|] eqn:Er; [|discriminate]. injection E as <- <- <-.
    destruct (IH _ _ _ _ _ _ Hh (fun q I => G q (or_intror I)) Er) as [P (fs & Lfs & S)].
    set (n := length (pg_areas p)) in *. set (fm := (wsum (firstn n fl) (pg_areas p) / pg_area p)%R) in *.
    assert (Lh : length (firstn n fl) = n) by (rewrite firstn_length; lia). split.
    + intros X V. cbn [plane_means plane_vols flat_map]. fold n. rewrite <- !app_assoc. fold (plane_vols h pins).
      destruct (firstn_skipn_app n (map (fun x => x * (v / fm))%R (firstn n fl)) (new' ++ X)) as [F1 S1]; [now rewrite map_length|].
      destruct (firstn_skipn_app n (map (fun a => a * h)%R (pg_areas p)) (plane_vols h pins ++ V)) as [F2 S2]; [now rewrite map_length|].
      rewrite S1, S2, P. unfold pin_mean. rewrite F1, F2, !app_length, !map_length, Lh. fold n.
      rewrite (proj2 (Nat.ltb_ge (n + _) n)), (proj2 (Nat.ltb_ge (n + _) n)) by lia. cbn [orb]. rewrite vsum_scale, Gs.
      assert (Hv : (pg_area p * h <> 0)%R) by (apply Rmult_integral_contrapositive; auto). destruct (Reqb_spec (pg_area p * h) 0); [contradiction|].
      rewrite wsum_scale. cbn [length seq map]. rewrite Nat.add_0_r. rewrite (nth_error_nth _ _ 0%R Ev). f_equal. f_equal. f_equal.
      * unfold fm. field. repeat split; auto. intros Z. apply Fm. unfold fm. rewrite Z. lra.
      * rewrite <- seq_shift, map_map. apply map_ext. intros k. f_equal. f_equal. f_equal. lia.
    + exists ((v / fm)%R :: fs). split; [cbn; congruence|]. intros fs2 ns2 t T. cbn [map app scale_blocks]. fold n. rewrite (S fs2 ns2 t T). now rewrite app_assoc.
Qed.

Lemma set_planes_spec : forall cell nxy input ms hs z fl new e, length hs = length ms -> (forall h, In h hs -> h <> 0%R) ->
  (forall m, In m ms -> length (ml_pins m) = nxy /\ forall p, In p (ml_pins m) -> good_pin p) -> set_planes cell nxy z ms input fl = Some (new, e) ->
  (exists tail, macro_means ms new (mvols hs ms ++ tail) = Some (map (fun k => map (fun i => nth (cell i + nxy * (z + k)) input 0%R) (seq 0 nxy)) (seq 0 (length ms))) /\ tail = []) /\
  exists fs, length fs = length (sizes ms) /\ scale_blocks (sizes ms) fs fl = new.
Proof.
  intros cell nxy input. induction ms as [|m ms IH]; intros hs z fl new e Lh Hh G E; cbn [set_planes] in E.
  - injection E as <- <-. split; [exists []; split; reflexivity|]. exists []. split; reflexivity.
  - destruct hs as [|h hs]; [discriminate|]. destruct (set_pins cell nxy z 0 (ml_pins m) input fl) as [[[new1 rest] e1]|] eqn:E1; [|discriminate].
    destruct (set_planes cell nxy (S z) ms input rest) as [[new2 e2]|] eqn:E2; [|discriminate]. injection E as <- <-.
    destruct (G m (or_introl eq_refl)) as [Lm Gm]. destruct (set_pins_spec cell nxy z h _ _ _ _ _ _ _ (Hh h (or_introl eq_refl)) Gm E1) as [P (fs1 & L1 & S1)].
    destruct (IH hs (S z) rest new2 e2) as [(tail & M2 & ->) (fs2 & L2 & S2)]; [now injection Lh|intros; apply Hh; now right|intros; apply G; now right|exact E2|]. split.
    + exists []. split; [|reflexivity]. cbn [macro_means]. unfold mvols. cbn [combine flat_map fst snd]. fold (mvols hs ms). rewrite <- app_assoc, P. rewrite M2. cbn [length seq map]. rewrite Nat.add_0_r, Lm. f_equal. f_equal.
      rewrite <- seq_shift, map_map. apply map_ext. intros k. apply map_ext. intros i. f_equal. f_equal. f_equal. lia.
    + exists (fs1 ++ fs2). unfold sizes. cbn [flat_map]. fold (sizes ms). split; [rewrite !app_length, map_length; congruence|]. apply S1, S2.
Qed.

Lemma lsum_index : forall {A} (d : A) (F : nat -> A -> R) (vs : list A) a, lsum (fun iv => F (fst iv) (snd iv)) (combine (seq a (length vs)) vs) = rsum (fun i => F (a + i) (nth i vs d)) (length vs).
Proof.
  intros A d F. induction vs as [|v vs IH]; intros a; [reflexivity|]. cbn [length seq combine lsum fst snd]. rewrite IH. change (S (length vs)) with (1 + length vs). rewrite rsum_app.
  rewrite (rsum_ext (fun i => F (S a + i) (nth i vs d)) (fun i => F (a + (1 + i)) (nth (1 + i) (v :: vs) d))); [|intros i _; cbn [Nat.add nth]; now rewrite Nat.add_succ_r].
  set (X := rsum (fun i => F (a + (1 + i)) _) _). cbn [rsum nth]. rewrite Nat.add_0_r. lra.
Qed.
Lemma lsum_flat_map : forall {A B} (f : B -> R) (g : A -> list B) l, lsum f (flat_map g l) = lsum (fun a => lsum f (g a)) l.
Proof. induction l as [|a l IH]; cbn [flat_map lsum]; [reflexivity|]. now rewrite lsum_app, IH. Qed.
Lemma nth_map_seq : forall {A} (f : nat -> A) d n i, i < n -> nth i (map f (seq 0 n)) d = f i.
Proof. intros A f d n i H. rewrite (nth_indep _ d (f 0)) by (rewrite map_length, seq_length; lia). rewrite map_nth, seq_nth by lia. reflexivity. Qed.

(** Depositing a value per cell and macroplane plane gives an array holding them. *)
Lemma deposit_cells : forall cell nxy ms val, fills cell nxy ->
  exists out, deposit 1 (macro_writes cell nxy zs_plane ms (map (fun k => map (fun i => val (cell i + nxy * k)) (seq 0 nxy)) (seq 0 (length ms)))) (repeat 0%R (nxy * length ms)) = Some out /\
    length out = nxy * length ms /\ forall c, c < nxy * length ms -> at0 out c = val c.
Proof.
  intros cell nxy ms val (F1 & F2 & F3). set (vs := map _ (seq 0 (length ms))). assert (Lv : length vs = length ms) by (unfold vs; now rewrite map_length, seq_length).
  assert (Lc : length (combine ms vs) = length ms) by (rewrite combine_length; lia).
  destruct (deposit_spec 1 (macro_writes cell nxy zs_plane ms vs) (repeat 0%R (nxy * length ms))) as (out & E & L & P).
  { intros [c v] I. rewrite repeat_length. unfold macro_writes in I. apply in_flat_map in I. destruct I as ((i & m & v1) & I1 & I2). cbn [fst snd] in I2. apply in_flat_map in I2. destruct I2 as ((j & v2) & J1 & J2). cbn in J2. destruct J2 as [[= <- <-]|[]].
    pose proof (in_combine_l _ _ _ _ I1) as Hi. apply in_seq in Hi. pose proof (in_combine_r _ _ _ _ I1) as Hr. apply in_combine_r in Hr. unfold vs in Hr. apply in_map_iff in Hr. destruct Hr as (k & <- & _).
    apply in_combine_l in J1. rewrite map_length, seq_length in J1. apply in_seq in J1. cbn [fst]. assert (cell j < nxy) by (apply F1; lia). assert (nxy * i + nxy <= nxy * length ms) by nia. lia. }
  exists out. split; [exact E|]. split; [now rewrite L, repeat_length|]. intros c Hc. rewrite P. unfold at0. rewrite nth_repeat. rewrite Rplus_0_l.
  unfold pay, macro_writes. rewrite lsum_flat_map. rewrite <- Lc. destruct ms as [|m0 ms0]; [cbn in Hc; lia|]. set (ms := m0 :: ms0) in *.
  rewrite (lsum_index (m0, []) (fun i (mv : MPl * list R) => lsum (fun d => if c =? fst d then (snd d * 1)%R else 0%R) (plane_writes cell nxy (zs_plane i (fst mv)) (snd mv))) (combine ms vs) 0).
  rewrite Lc. assert (N0 : 0 < nxy) by (destruct nxy; cbn in Hc; lia).
  assert (Inner : forall i, i < length ms -> lsum (fun d => if c =? fst d then (snd d * 1)%R else 0%R) (plane_writes cell nxy (zs_plane i (fst (nth i (combine ms vs) (m0, [])))) (snd (nth i (combine ms vs) (m0, [])))) = if (c / nxy =? i) then val c else 0%R).
  { intros i Hi. rewrite combine_nth by congruence. cbn [fst snd]. unfold vs. rewrite (nth_map_seq _ [] _ i Hi). unfold plane_writes. rewrite lsum_flat_map, map_length, seq_length. unfold zs_plane.
    set (row := map (fun j => val (cell j + nxy * i)) (seq 0 nxy)). assert (Lr : nxy = length row) by (unfold row; now rewrite map_length, seq_length).
    rewrite Lr at 1. rewrite (lsum_index 0%R (fun j v => lsum (fun d => if c =? fst d then (snd d * 1)%R else 0%R) (map (fun z => (cell j + nxy * z, v)) [i])) row 0). rewrite <- Lr. cbn [map lsum fst snd Nat.add].
    assert (Hq : forall j, j < nxy -> c = cell j + nxy * i -> c / nxy = i). { intros j Hj ->. rewrite Nat.add_comm, Nat.mul_comm, Nat.div_add_l, Nat.div_small by (try apply F1; lia). lia. }
    destruct (Nat.eqb_spec (c / nxy) i) as [Hd|Hd].
    - destruct (F3 (c mod nxy)) as (j & Hj & Ej); [apply Nat.mod_upper_bound; lia|]. assert (Ec : c = cell j + nxy * i) by (rewrite Ej; pose proof (Nat.div_mod c nxy); lia).
      rewrite (rsum_single _ nxy j Hj). + rewrite (proj2 (Nat.eqb_eq c _) Ec). unfold row. rewrite nth_map_seq by exact Hj. rewrite <- Ec. lra.
      + intros j' Hj' D. destruct (Nat.eqb_spec c (cell j' + nxy * i)) as [Ec'|]; [|lra]. exfalso. apply D. apply F2; auto. lia.
    - rewrite (rsum_ext _ (fun _ => 0%R)); [apply rsum_zero|]. intros j Hj. destruct (Nat.eqb_spec c (cell j + nxy * i)) as [Ec|]; [|lra]. exfalso. apply Hd. now apply (Hq j). }
  rewrite (rsum_ext _ (fun i => if c / nxy =? i then val c else 0%R)); [|intros i Hi; cbn [Nat.add]; now apply Inner].
  rewrite (rsum_single _ _ (c / nxy)); [now rewrite Nat.eqb_refl|apply Nat.div_lt_upper_bound; lia|]. intros i _ D. destruct (Nat.eqb_spec (c / nxy) i); [congruence|reflexivity].
Qed.

Lemma at0_ext : forall l m, length l = length m -> (forall i, i < length l -> at0 l i = at0 m i) -> l = m.
Proof. intros l m L H. apply (nth_ext _ _ 0%R 0%R L H). Qed.

(** Writing pin fluxes (PIN_PLANE) and reading them back returns them, and the flux inside each pin is only scaled. *)
Theorem C30_round_trip : forall cell nxy hs ms input fl fl' r, mesh_good cell nxy hs ms -> set_pin_flux cell nxy ms input fl = Got (fl', r) ->
  get_pin_flux cell nxy (nxy * length ms) zs_plane ms fl' (mvols hs ms) = Some input /\
  exists fs, length fs = length (sizes ms) /\ fl' = scale_blocks (sizes ms) fs fl.
Proof.
  intros cell nxy hs ms input fl fl' r [F P [Lh Hh]] E. unfold set_pin_flux in E. destruct (existsb _ input); [discriminate|]. destruct (Nat.eqb_spec (length input) (nxy * length ms)) as [Li|]; [|discriminate]. cbn [negb] in E.
  destruct (set_planes cell nxy 0 ms input fl) as [[new e]|] eqn:Es; [|discriminate]. injection E as <- <-.
  destruct (set_planes_spec _ _ _ _ _ _ _ _ _ Lh Hh P Es) as [(tail & M & ->) (fs & Lf & S)]. split; [|exists fs; auto].
  unfold get_pin_flux. rewrite app_nil_r in M. rewrite M. cbn [Nat.add]. destruct (deposit_cells cell nxy ms (fun c => nth c input 0%R) F) as (out & Eo & Lo & Po). rewrite Eo. f_equal.
  apply at0_ext; [congruence|]. intros i Hi. rewrite Po by lia. reflexivity.
Qed.
Print Assumptions C30_round_trip.

(** The write succeeds on positive input unless a pin's mean flux is zero (or sizes are wrong). *)
Theorem C30_write_succeeds : forall cell nxy ms input fl, fills cell nxy -> (forall m, In m ms -> length (ml_pins m) = nxy /\ forall p, In p (ml_pins m) -> good_pin p /\ (0 < pg_area p)%R /\ pg_areas p <> [] /\ forall a, In a (pg_areas p) -> (0 < a)%R) ->
  length input = nxy * length ms -> (forall v, In v input -> (0 < v)%R) -> length fl = list_sum (sizes ms) -> (forall x, In x fl -> (0 < x)%R) ->
  exists fl' r, set_pin_flux cell nxy ms input fl = Got (fl', r) /\ (forall x, In x fl' -> (0 < x)%R) /\ length fl' = length fl.
Proof.
  intros cell nxy ms input fl (F1 & _) P Li Vi Lf Vf. unfold set_pin_flux.
  assert (existsb (fun v => Rleb v 0) input = false) as ->. { apply Bool.not_true_is_false. intros H. apply existsb_exists in H. destruct H as (v & I & R). destruct (Rleb_spec v 0); [|discriminate]. specialize (Vi v I). lra. }
  rewrite (proj2 (Nat.eqb_eq _ _) Li). cbn [negb].
  assert (Hw : forall f w, length f = length w -> w <> [] -> (forall x, In x f -> (0 < x)%R) -> (forall x, In x w -> (0 < x)%R) -> (0 < wsum f w)%R).
  { intros f w L N A B. rewrite wsum_lsum. destruct w as [|b w]; [contradiction|]. destruct f as [|a f]; [discriminate|]. cbn [combine lsum fst snd].
    assert (0 < a * b)%R by (apply Rmult_lt_0_compat; [apply A|apply B]; now left). assert (0 <= lsum (fun p : R * R => fst p * snd p)%R (combine f w))%R; [|lra].
    assert (C : forall p, In p (combine f w) -> (0 <= fst p * snd p)%R). { intros [x y] I. cbn. apply Rlt_le, Rmult_lt_0_compat; [apply A; right; eapply in_combine_l; eauto|apply B; right; eapply in_combine_r; eauto]. }
    clear - C. induction (combine f w) as [|q l IH]; cbn; [lra|]. specialize (C q (or_introl eq_refl)) as C1. specialize (IH (fun p I => C p (or_intror I))). lra. }
  assert (Pins : forall pins z ipin fl, z < length ms -> ipin + length pins <= nxy -> (forall p, In p pins -> good_pin p /\ (0 < pg_area p)%R /\ pg_areas p <> [] /\ forall a, In a (pg_areas p) -> (0 < a)%R) ->
    list_sum (map (fun p => length (pg_areas p)) pins) <= length fl -> (forall x, In x fl -> (0 < x)%R) ->
    exists new rest e, set_pins cell nxy z ipin pins input fl = Some (new, rest, e) /\ (forall x, In x (new ++ rest) -> (0 < x)%R) /\ length new = list_sum (map (fun p => length (pg_areas p)) pins) /\ length rest = length fl - list_sum (map (fun p => length (pg_areas p)) pins)).
  { induction pins as [|p pins IH]; intros z ipin f Hz Hi G L V; cbn [set_pins].
    - exists [], f, 0%R. cbn. repeat split; auto. lia.
    - cbn [map] in L. change (list_sum (length (pg_areas p) :: ?l)) with (length (pg_areas p) + list_sum l) in L. cbn [length] in Hi.
      change (list_sum (map (fun p0 => length (pg_areas p0)) (p :: pins))) with (length (pg_areas p) + list_sum (map (fun p0 => length (pg_areas p0)) pins)) in *.
      rewrite (proj2 (Nat.ltb_ge _ _)) by lia. assert (cell ipin < nxy) by (apply F1; lia). assert (nxy * z + nxy <= nxy * length ms) by nia.
      destruct (nth_error input (cell ipin + nxy * z)) as [v|] eqn:Ev; [|apply nth_error_None in Ev; lia]. pose proof (Vi v (nth_error_In _ _ Ev)) as Hv.
      destruct (G p (or_introl eq_refl)) as (_ & Ga & Gn & Gp). destruct (Reqb_spec (pg_area p) 0) as [|_]; [lra|]. set (n := length (pg_areas p)) in *.
      assert (Hf : (0 < wsum (firstn n f) (pg_areas p) / pg_area p)%R). { apply Rdiv_lt_0_compat; auto. apply Hw; auto; [rewrite firstn_length; fold n; lia|]. intros x I. apply V. rewrite <- (firstn_skipn n f). apply in_or_app. now left. }
      destruct (Reqb_spec (wsum (firstn n f) (pg_areas p) / pg_area p) 0); [lra|].
      destruct (IH z (S ipin) (skipn n f)) as (new & rest & e & E & Pos & Ln & Lr); auto; [lia|intros; apply G; now right|rewrite skipn_length; lia|intros x I; apply V; rewrite <- (firstn_skipn n f); apply in_or_app; now right|].
      rewrite E. do 3 eexists. split; [reflexivity|]. split; [|split; [rewrite app_length, map_length, firstn_length, Ln; lia|rewrite Lr, skipn_length; lia]].
      intros x I. rewrite <- app_assoc in I. apply in_app_or in I. destruct I as [I|I]; [|now apply Pos]. apply in_map_iff in I. destruct I as (y & <- & I). apply Rmult_lt_0_compat; [apply V; rewrite <- (firstn_skipn n f); apply in_or_app; now left|now apply Rdiv_lt_0_compat]. }
  assert (Pl : forall k z fl, skipn z ms = k -> list_sum (sizes k) <= length fl -> (forall x, In x fl -> (0 < x)%R) -> exists new e, set_planes cell nxy z k input fl = Some (new, e) /\ (forall x, In x new -> (0 < x)%R) /\ length new = length fl).
  { induction k as [|m k IH]; intros z f K L V; cbn [set_planes]; [eauto|]. assert (Hz : z < length ms). { destruct (Nat.lt_ge_cases z (length ms)); auto. rewrite skipn_all2 in K by auto. discriminate. }
    assert (Im : In m ms) by (rewrite <- (firstn_skipn z ms), K; apply in_or_app; right; now left). destruct (P m Im) as [Lm Gm].
    unfold sizes in L. cbn [flat_map] in L. rewrite list_sum_app in L. fold (sizes k) in L.
    destruct (Pins (ml_pins m) z 0 f Hz ltac:(lia) Gm ltac:(lia) V) as (new & rest & e & E & Pos & Ln & Lr). rewrite E.
    destruct (IH (S z) rest) as (new2 & e2 & E2 & Pos2 & L2); [|lia|intros x I; apply Pos, in_or_app; now right|].
    { clear - K. revert z K. induction ms as [|x l IH]; intros [|z] K; cbn in *; try discriminate; [now injection K|apply IH, K]. }
    rewrite E2. do 2 eexists. split; [reflexivity|]. split; [intros x I; apply in_app_or in I; destruct I; [apply Pos, in_or_app; now left|auto]|rewrite app_length, L2, Ln, Lr; lia]. }
  destruct (Pl ms 0 fl eq_refl ltac:(lia) Vf) as (new & e & E & Pos & Ln). rewrite E. do 2 eexists. split; [reflexivity|]. auto.
Qed.
Print Assumptions C30_write_succeeds.

(** With one plane per macroplane the PIN treatment is the same. *)
Theorem C30_pin_round_trip : forall cell nxy hs ms input fl fl' r, mesh_good cell nxy hs ms -> (forall i m, nth_error ms i = Some m -> ml_min m = i /\ ml_max m = i) ->
  set_pin_flux cell nxy ms input fl = Got (fl', r) -> get_pin_flux cell nxy (nxy * length ms) zs_pin ms fl' (mvols hs ms) = Some input.
Proof.
  intros cell nxy hs ms input fl fl' r G H E. destruct (C30_round_trip _ _ _ _ _ _ _ _ G E) as [X _]. rewrite <- X. unfold get_pin_flux. destruct (macro_means ms fl' _) as [vs|]; [|reflexivity]. f_equal.
  unfold macro_writes. rewrite !flat_map_concat_map. f_equal. apply map_ext_in. intros (i & m & v) I. cbn [fst snd]. f_equal.
  assert (nth_error ms i = Some m). { clear - I. assert (K : forall ms a (vs : list (list R)), In (i, (m, v)) (combine (seq a (length ms)) (combine ms vs)) -> a <= i /\ nth_error ms (i - a) = Some m).
    { induction ms0 as [|x l IH]; intros a [|w ws] J; cbn in J; try contradiction. destruct J as [[= <- <- <-]|J]; [rewrite Nat.sub_diag; auto|]. destruct (IH (S a) ws J) as [A B]. split; [lia|]. replace (i - a) with (S (i - S a)) by lia. exact B. }
    destruct (K _ _ _ I) as [_ B]. now rewrite Nat.sub_0_r in B. }
  destruct (H i m H0) as [A B]. unfold zs_pin, zs_plane. rewrite A, B. replace (i + 1 - i) with 1 by lia. reflexivity.
Qed.
Print Assumptions C30_pin_round_trip.

(** Two pins of two regions in one plane. *)
Definition pinA : PinG := mkPG 4 [1; 3]%R.
Definition pinB : PinG := mkPG 4 [2; 2]%R.
Definition mesh2 : list MPl := [mkMPl 0 0 [pinA; pinB]; mkMPl 1 2 [pinB; pinA]].
Definition swap01 (i : nat) : nat := 1 - i.
Example C30_instance : mesh_good swap01 2 [1; 5]%R mesh2 /\ (exists fl' r, set_pin_flux swap01 2 mesh2 [1; 2; 3; 4]%R (repeat 1%R 8) = Got (fl', r)) /\ length (sizes mesh2) = 4.
Proof.
  assert (GA : good_pin pinA) by (split; cbn; lra). assert (GB : good_pin pinB) by (split; cbn; lra).
  split; [|split; [|reflexivity]].
  - split.
    + unfold fills, swap01. split; [intros; lia|]. split; [intros; lia|]. intros c Hc. exists (1 - c). lia.
    + intros m [<-|[<-|[]]]; (split; [reflexivity|]); cbn; intros p [<-|[<-|[]]]; assumption.
    + split; [reflexivity|]. intros h [<-|[<-|[]]]; lra.
  - destruct (C30_write_succeeds swap01 2 mesh2 [1; 2; 3; 4]%R (repeat 1%R 8)) as (fl' & r & E & _); eauto.
    + unfold fills, swap01. split; [intros; lia|]. split; [intros; lia|]. intros c Hc. exists (1 - c). lia.
    + intros m [<-|[<-|[]]]; (split; [reflexivity|]); cbn; intros p [<-|[<-|[]]]; (split; [assumption|]); (split; [cbn; lra|]); (split; [discriminate|]); cbn; intros a [<-|[<-|[]]]; lra.
    + cbn. intros v [<-|[<-|[<-|[<-|[]]]]]; lra.
    + intros x I. apply repeat_spec in I. subst. lra.
Qed.

(** C30 fails for PIN when a macroplane spans several planes: writing pin fluxes is outside the array's contract whatever the
    (positive) values. *)
Theorem C30_pin_subplanes_refuted : exists cell nxy hs ms n, mesh_good cell nxy hs ms /\ n = nxy * list_sum (map (fun m => ml_max m + 1 - ml_min m) ms) /\
  forall input fl, length input = n -> (forall v, In v input -> (0 < v)%R) -> set_pin_flux cell nxy ms input fl = Undef.
Proof.
  exists swap01, 2, [1; 5]%R, mesh2, 6. split; [apply C30_instance|]. split; [reflexivity|]. intros input fl L V. unfold set_pin_flux.
  assert (existsb (fun v => Rleb v 0) input = false) as ->. { apply Bool.not_true_is_false. intros H. apply existsb_exists in H. destruct H as (v & I & R). destruct (Rleb_spec v 0); [|discriminate]. specialize (V v I). lra. }
  rewrite L. reflexivity.
Qed.
Print Assumptions C30_pin_subplanes_refuted.

(** ** C31 *)
(** Source minus splitting cross section times flux is the original source plus the leakage; with splitting the source is
    never negative, the splitting never negative and zero wherever the leaky source is non-negative. *)
Theorem C31_leakage_kept : forall src tl fl split src' split', apply_tl true src tl fl split = Got (src', split') ->
  length src' = length src /\ length split' = length src /\ forall i q t f, nth_error src i = Some q -> nth_error tl i = Some t -> nth_error fl i = Some f ->
    exists s x, nth_error src' i = Some s /\ nth_error split' i = Some x /\ (s - x * f = q + t)%R /\ (0 <= s)%R /\ (0 <= x)%R /\ ((0 <= q + t)%R -> x = 0%R).
Proof.
  intros src tl fl split src' split'. cbn [apply_tl]. clear split. revert tl fl src' split'. induction src as [|q src IH]; intros [|t tl] [|f fl] src' split' E; cbn [split_tl] in E; try discriminate;
    try (injection E as <- <-; repeat split; intros [|i] ? ? ?; discriminate).
  destruct (Rltb_spec (q + t) 0) as [H|H].
  - destruct (Rltb_spec f 0); [discriminate|]. destruct (Reqb_spec f 0); [discriminate|]. destruct (split_tl src tl fl) as [[a b]| |] eqn:E1; try discriminate. injection E as <- <-.
    destruct (IH _ _ _ _ E1) as (L1 & L2 & P). cbn [length]. split; [lia|]. split; [lia|]. intros [|i] q' t' f' Q T F; cbn in *; [|eauto]. injection Q as <-. injection T as <-. injection F as <-.
    exists 0%R, (- (q + t) / f)%R. repeat split; auto; [field; lra|lra|apply Rmult_le_pos; [lra|apply Rlt_le, Rinv_0_lt_compat; lra]|lra].
  - destruct (split_tl src tl fl) as [[a b]| |] eqn:E1; try discriminate. injection E as <- <-. destruct (IH _ _ _ _ E1) as (L1 & L2 & P). cbn [length]. split; [lia|]. split; [lia|].
    intros [|i] q' t' f' Q T F; cbn in *; [|eauto]. injection Q as <-. injection T as <-. injection F as <-. exists (q + t)%R, 0%R. repeat split; auto; lra.
Qed.
Print Assumptions C31_leakage_kept.
(** With positive fluxes it always succeeds. *)
Theorem C31_succeeds : forall src tl fl split, length tl = length src -> length fl = length src -> (forall f, In f fl -> (0 < f)%R) -> exists src' split', apply_tl true src tl fl split = Got (src', split').
Proof.
  intros src tl fl split. cbn [apply_tl]. clear split. revert tl fl. induction src as [|q src IH]; intros [|t tl] [|f fl] L1 L2 P; try discriminate; cbn [split_tl]; eauto.
  destruct (IH tl fl) as (a & b & E); [now injection L1|now injection L2|intros; apply P; now right|]. rewrite E. specialize (P f (or_introl eq_refl)).
  destruct (Rltb_spec (q + t) 0); eauto. destruct (Rltb_spec f 0); [lra|]. destruct (Reqb_spec f 0); [lra|]. eauto.
Qed.
Print Assumptions C31_succeeds.
(** Without splitting the leakage is simply added. *)
Theorem C31_plain : forall src tl fl split, length tl = length src -> exists src', apply_tl false src tl fl split = Got (src', split) /\ length src' = length src /\
  forall i q t, nth_error src i = Some q -> nth_error tl i = Some t -> nth_error src' i = Some (q + t)%R.
Proof.
  intros src tl fl split L. cbn [apply_tl]. cut (exists a, plain_tl src tl = Got a /\ length a = length src /\ forall i q t, nth_error src i = Some q -> nth_error tl i = Some t -> nth_error a i = Some (q + t)%R).
  { intros (a & -> & X). eauto. } revert tl L. induction src as [|q src IH]; intros [|t tl] L; try discriminate; cbn [plain_tl].
  - exists []. repeat split. intros [|i]; discriminate.
  - destruct (IH tl) as (a & -> & La & P); [now injection L|]. eexists. split; [reflexivity|]. cbn. split; [lia|]. intros [|i] q' t' Q T; cbn in *; [congruence|eauto].
Qed.
Print Assumptions C31_plain.
Example C31_instance : apply_tl true [1; 2]%R [-3; 4]%R [4; 0]%R [] = Got ([0; 2 + 4]%R, [- (1 + -3) / 4; 0]%R).
Proof. cbn. destruct (Rltb_spec (1 + -3) 0); [|lra]. destruct (Rltb_spec 4 0); [lra|]. destruct (Reqb_spec 4 0); [lra|]. destruct (Rltb_spec (2 + 4) 0); [lra|]. reflexivity. Qed.
(** A region with zero flux and a negative leaky source divides by zero. *)
Theorem C31_zero_flux_refuted : exists src tl fl, length tl = length src /\ length fl = length src /\ (forall f, In f fl -> (0 <= f)%R) /\ apply_tl true src tl fl [] = Undef.
Proof.
  exists [1%R], [(-2)%R], [0%R]. repeat split; auto; [intros f [<-|[]]; lra|]. cbn. destruct (Rltb_spec (1 + -2) 0); [|lra]. destruct (Rltb_spec 0 0); [lra|]. destruct (Reqb_spec 0 0); [reflexivity|lra].
Qed.
Print Assumptions C31_zero_flux_refuted.

(** ** C82 *)
(** The intended update: every incoming value is updated from the surface through which its ray enters. *)
Fixpoint upd_intended (f : R -> nat -> option R) (off : nat) (rays : list URay) (fw bw : list R) : option (list R * list R) :=
  match rays with
  | [] => Some (fw, bw)
  | r :: rest => match modify (fun x => f x (ur_surf1 r + off)) (ur_bc1 r) fw, modify (fun x => f x (ur_surf2 r + off)) (ur_bc2 r) bw with
      | Some fw', Some bw' => upd_intended f off rest fw' bw'
      | _, _ => None
      end
  end.
Lemma modify_spec : forall f i l l', modify f i l = Some l' -> length l' = length l /\ (forall k, k <> i -> nth_error l' k = nth_error l k) /\ exists x y, nth_error l i = Some x /\ f x = Some y /\ nth_error l' i = Some y.
Proof.
  intros f i l l' E. unfold modify in E. destruct (nth_error l i) as [x|] eqn:Ex; [|discriminate]. destruct (f x) as [y|] eqn:Ey; [|discriminate]. destruct (set_nth_spec _ _ _ _ E) as (L & _ & P).
  split; [exact L|]. split; [intros k D; rewrite P; now rewrite (proj2 (Nat.eqb_neq k i) D)|]. exists x, y. rewrite P, Nat.eqb_refl. auto.
Qed.
(** What the code does: every slot is updated once, from the surface whose index equals the number of the coarse cell the ray
    starts in. *)
Theorem C82_each_slot_once : forall f rays fw bw fw' bw', NoDup (map ur_bc1 rays) -> NoDup (map ur_bc2 rays) -> upd_rays f rays fw bw = Some (fw', bw') ->
  (forall r, In r rays -> exists x y, nth_error fw (ur_bc1 r) = Some x /\ f x (ur_cell1 r) = Some y /\ nth_error fw' (ur_bc1 r) = Some y) /\
  (forall r, In r rays -> exists x y, nth_error bw (ur_bc2 r) = Some x /\ f x (ur_cell2 r) = Some y /\ nth_error bw' (ur_bc2 r) = Some y) /\
  (forall k, ~ In k (map ur_bc1 rays) -> nth_error fw' k = nth_error fw k) /\ (forall k, ~ In k (map ur_bc2 rays) -> nth_error bw' k = nth_error bw k).
Proof.
  intros f. induction rays as [|r rays IH]; intros fw bw fw' bw' N1 N2 E; cbn [upd_rays] in E.
  - injection E as <- <-. repeat split; auto; intros r [].
  - destruct (modify _ (ur_bc1 r) fw) as [f1|] eqn:E1; [|discriminate]. destruct (modify _ (ur_bc2 r) bw) as [b1|] eqn:E2; [|discriminate]. cbn [map] in *. inversion N1 as [|? ? I1 M1]; subst. inversion N2 as [|? ? I2 M2]; subst.
    destruct (modify_spec _ _ _ _ E1) as (_ & O1 & X1). destruct (modify_spec _ _ _ _ E2) as (_ & O2 & X2). destruct (IH _ _ _ _ M1 M2 E) as (A & B & C & D).
    split; [|split; [|split]].
    + intros q [<-|Q]; [rewrite (C _ I1); exact X1|]. destruct (A q Q) as (x & y & P1 & P2). exists x, y. rewrite O1 in P1; [auto|]. intros X. apply I1. rewrite <- X. now apply in_map.
    + intros q [<-|Q]; [rewrite (D _ I2); exact X2|]. destruct (B q Q) as (x & y & P1 & P2). exists x, y. rewrite O2 in P1; [auto|]. intros X. apply I2. rewrite <- X. now apply in_map.
    + intros k K. rewrite C by (intros I; apply K; now right). apply O1. intros ->. apply K. now left.
    + intros k K. rewrite D by (intros I; apply K; now right). apply O2. intros ->. apply K. now left.
Qed.
Print Assumptions C82_each_slot_once.
(** Non-negative partial currents keep incoming fluxes non-negative. *)
Theorem C82_nonneg : forall part old x is y, (forall k p, part k = Some p -> (0 <= p)%R) -> (0 <= x)%R -> upd_ratio part old x is = Some y \/ upd_first part x is = Some y -> (0 <= y)%R.
Proof.
  intros part old x is y P X [E|E]; [unfold upd_ratio in E; destruct (part is) as [p|] eqn:Ep; [|discriminate]; destruct (old is) as [q|]; [|discriminate]|unfold upd_first in E; destruct (part is) as [p|] eqn:Ep; [|discriminate]].
  - injection E as <-. specialize (P _ _ Ep). destruct (Rltb_spec 0 (2 * q)); [|exact X]. apply Rmult_le_pos; [exact X|]. apply Rmult_le_pos; [lra|]. apply Rlt_le, Rinv_0_lt_compat. lra.
  - injection E as <-. specialize (P _ _ Ep). apply Rmult_le_pos; [|exact P]. apply Rmult_le_pos; [lra|]. apply Rmult_le_pos; [lra|]. apply Rlt_le, Rinv_0_lt_compat. pose proof PI_RGT_0. lra.
Qed.
Print Assumptions C82_nonneg.
Example C82_instance : let ray := mkUR 0 3 4 15 0 1 in NoDup (map ur_bc1 [ray]) /\ exists fw bw, upd_rays (upd_ratio (fun _ => Some 1%R) (fun _ => Some 2%R)) [ray] [3%R] [5; 7]%R = Some (fw, bw) /\ nth_error bw 0 = Some 5%R.
Proof. cbn zeta. split; [repeat constructor; auto|]. cbn. do 2 eexists. split; [reflexivity|]. reflexivity. Qed.
(** C82 fails: the cell number is used as a surface number. *)
Theorem C82_incoming_refuted : exists part old rays fw bw, (forall k, k < 16 -> exists p q, part k = Some p /\ old k = Some q /\ (0 < p)%R /\ (0 < q)%R) /\
  (forall r, In r rays -> ur_surf1 r < 16 /\ ur_surf2 r < 16 /\ ur_cell1 r < 4 /\ ur_cell2 r < 4) /\
  upd_rays (upd_ratio part old) rays fw bw <> None /\ upd_rays (upd_ratio part old) rays fw bw <> upd_intended (upd_ratio part old) 0 rays fw bw.
Proof.
  exists (fun k => Some (if k =? 4 then 3 else 1)%R), (fun _ => Some 1%R), [mkUR 0 3 4 15 0 0], [1%R], [1%R]. split.
  - intros k _. do 2 eexists. split; [reflexivity|]. split; [reflexivity|]. destruct (k =? 4); lra.
  - split; [intros r [<-|[]]; cbn; lia|]. cbn. unfold modify, upd_ratio. cbn. destruct (Rltb_spec 0 (2 * 1)); [|lra]. split; [discriminate|]. intros [= X]. lra.
Qed.
Print Assumptions C82_incoming_refuted.
