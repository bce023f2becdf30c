(** Properties of the quadrature an <ang_quad> tag makes: second moments (C150, C151) and acceptance (C152). *)
From Coq Require Import ZArith List Bool Reals Lia Lra Ascii String.
From Verif Require Import RUtil MeshModel AngModel AngProofs AngProps AqModel AqProps GaussProps StrModel AqxModel.
Import ListNotations.
Open Scope list_scope.
Open Scope R_scope.

(** What the angles of an octant give for the integral of a function of direction, per octant. *)
Definition moment (f : Dir -> R) (l : list Angle) : R := fold_right Rplus 0 (map (fun a => weight a * f (adir a)) l).
Definition sq_x (d : Dir) : R := ox d * ox d.
Definition sq_y (d : Dir) : R := oy d * oy d.
Definition sq_z (d : Dir) : R := oz d * oz d.

Lemma moment_scale : forall f l c, moment f (map (fun a => mkAngle (adir a) (weight a / c)) l) = moment f l / c.
Proof. intros f l c. unfold moment. induction l as [|a l IH]; cbn [map fold_right weight adir]; [unfold Rdiv; ring|]. rewrite IH. unfold Rdiv. ring. Qed.
Lemma moment_wsum : forall l, moment (fun _ => 1) l = wsum l.
Proof. intros l. unfold moment, wsum. f_equal. apply map_ext. intros a. ring. Qed.
Lemma moment_plus : forall f g l, moment (fun d => f d + g d) l = moment f l + moment g l.
Proof. intros f g l. unfold moment. induction l as [|a l IH]; cbn [map fold_right]; [ring|]. rewrite IH. ring. Qed.

(** The tables for one order: sums over the ordinates with the table weights. *)
Definition raw_sum (f : Ordinate -> R) (os : list Ordinate) : R := fold_right Rplus 0 (map (fun o => nth (iw o) w_unique 0 * f o) os).
Definition mu_low (n : nat) : R := nth (n - 1) mu_base 0 * nth (n - 1) mu_base 0.
Definition mu_step (n : nat) : R := 2 * (1 - 3 * mu_low n) / (2 * INR n - 2).
Lemma raw_lin : forall (a b : R) f os, raw_sum (fun o => a + f o * b) os = a * raw_sum (fun _ => 1) os + b * raw_sum f os.
Proof. intros a b f os. unfold raw_sum. induction os as [|o os IH]; cbn [map fold_right]; [ring|]. rewrite IH. ring. Qed.
Lemma raw_wsum : forall n os, wsum (map (ls_angle n) os) = raw_sum (fun _ => 1) os.
Proof. intros n os. unfold wsum, raw_sum. rewrite map_map. f_equal. apply map_ext. intros o. cbn [ls_angle weight]. ring. Qed.
Lemma raw_sq : forall n (pick : Ordinate -> nat) g os, (2 <= n <= 8)%nat -> (forall o, g (adir (ls_angle n o)) = mu n (pick o) * mu n (pick o)) ->
  moment g (map (ls_angle n) os) = mu_low n * raw_sum (fun _ => 1) os + mu_step n * raw_sum (fun o => INR (pick o)) os.
Proof.
  intros n pick g os H G. rewrite <- (raw_lin (mu_low n) (mu_step n) (fun o => INR (pick o))). unfold moment, raw_sum. rewrite map_map. f_equal. apply map_ext. intros o.
  rewrite G, mu_sq by exact H. reflexivity.
Qed.
(** The table in decimal. *)
Lemma unique_table : w_unique = 1 :: 1 / 3 :: map (fun z => IZR z / 10000000)
  [1761262; 1572071; 1209876; 907408; 925925; 893043; 725281; 450455; 539274; 707734; 558760; 373436; 502654; 258553; 580031; 488943;
   228095; 393955; 380920; 258382; 82759; 489967; 413235; 203158; 265468; 378883; 135404; 326129; 103825]%Z.
Proof. unfold w_unique. replace (10 ^ 7) with 10000000 by ring. reflexivity. Qed.
Lemma low_bound : forall n, (2 <= n <= 8)%nat -> 0 <= mu_low n < 1 / 3.
Proof. intros n H. pose proof (mu_base_small n H) as B. unfold mu_low. nra. Qed.
Ltac ls_numbers H := vm_compute in H; injection H as <-; unfold raw_sum; rewrite unique_table; cbn [map fold_right iw ix iy iz nth INR].
Lemma scaled : forall n os, ls_scaled n os = map (fun a => mkAngle (adir a) (weight a / wsum (map (ls_angle n) os))) (map (ls_angle n) os).
Proof. intros n os. unfold ls_scaled. cbv zeta. rewrite fold_wsum, Rplus_0_l. reflexivity. Qed.
Lemma unique_pos : forall i, (i < w_unique_size)%nat -> 0 < nth i w_unique 0.
Proof. intros i H. unfold w_unique_size in H. do 31 (destruct i as [|i]; [cbn; lra|]). lia. Qed.
Lemma wsum_pos : forall n os, os <> [] -> (forall o, In o os -> (iw o < w_unique_size)%nat) -> 0 < wsum (map (ls_angle n) os).
Proof.
  intros n os E H. unfold wsum. assert (P : forall l, (forall o, In o l -> (iw o < w_unique_size)%nat) -> 0 <= fold_right Rplus 0 (map weight (map (ls_angle n) l))).
  { induction l as [|o l IH]; intros Hl; cbn [map fold_right]; [lra|]. pose proof (unique_pos _ (Hl o (or_introl eq_refl))). pose proof (IH (fun o' I => Hl o' (or_intror I))). cbn [ls_angle weight]. lra. }
  destruct os as [|o os]; [contradiction|]. cbn [map fold_right]. pose proof (unique_pos _ (H o (or_introl eq_refl))). pose proof (P os (fun o' I => H o' (or_intror I))). cbn [ls_angle weight]. lra.
Qed.

Lemma order_cases : forall order os, gen_sn order = SnOk os -> order = 2%Z \/ order = 4%Z \/ order = 6%Z \/ order = 8%Z \/ order = 10%Z \/ order = 12%Z \/ order = 14%Z.
Proof. intros order os H. pose proof (sn_orders _ _ H) as I. cbn in I. intuition. Qed.
Lemma ls_low : forall order os, gen_sn order = SnOk os -> (4 <= order <= 10)%Z -> let n := Z.to_nat (Z.quot order 2) in
  (2 <= n <= 8)%nat /\ 3 * raw_sum (fun o => INR (ix o)) os = (INR n - 1) * raw_sum (fun _ => 1) os /\
  3 * raw_sum (fun o => INR (iy o)) os = (INR n - 1) * raw_sum (fun _ => 1) os /\ 3 * raw_sum (fun o => INR (iz o)) os = (INR n - 1) * raw_sum (fun _ => 1) os.
Proof.
  intros order os H B n. destruct (order_cases _ _ H) as [->|[->|[->|[->|[->|[->| ->]]]]]]; try lia; subst n.
  - change (Z.to_nat (4 ÷ 2)) with 2%nat. split; [lia|]. ls_numbers H. lra.
  - change (Z.to_nat (6 ÷ 2)) with 3%nat. split; [lia|]. ls_numbers H. lra.
  - change (Z.to_nat (8 ÷ 2)) with 4%nat. split; [lia|]. ls_numbers H. lra.
  - change (Z.to_nat (10 ÷ 2)) with 5%nat. split; [lia|]. ls_numbers H. lra.
Qed.

(** C150: level-symmetric sets up to S10. *)
Theorem C150_level_symmetric : forall order os, gen_sn order = SnOk os -> let l := ls_scaled (Z.to_nat (Z.quot order 2)) os in
  wsum l = 1 /\ Forall (fun a => 0 < weight a) l /\ ((4 <= order <= 10)%Z -> moment sq_x l = 1 / 3 /\ moment sq_y l = 1 / 3 /\ moment sq_z l = 1 / 3).
Proof.
  intros order os H l. destruct (C16_ordinates order os H) as (Ln & _ & O). set (n := Z.to_nat (Z.quot order 2)) in *.
  assert (Ne : os <> []). { intros ->. cbn in Ln. destruct (order_cases _ _ H) as [->|[->|[->|[->|[->|[->| ->]]]]]]; vm_compute in Ln; discriminate. }
  assert (W := wsum_pos n os Ne (fun o Io => proj2 (O o Io))). unfold l. rewrite scaled. set (s := wsum _) in *. split; [rewrite wsum_scale; fold s; field; lra|]. split.
  - apply Forall_forall. intros a Ia. apply in_map_iff in Ia. destruct Ia as (b & <- & Ib). apply in_map_iff in Ib. destruct Ib as (o & <- & Io). cbn [weight ls_angle]. apply Rdiv_lt_0_compat; [apply unique_pos; now apply O|exact W].
  - intros B. destruct (ls_low _ _ H B) as (N & X & Y & Z0). fold n in N, X, Y, Z0. rewrite !moment_scale.
    rewrite (raw_sq n ix sq_x os N), (raw_sq n iy sq_y os N), (raw_sq n iz sq_z os N) by (intros; reflexivity). unfold s in *. rewrite raw_wsum in *. set (w := raw_sum (fun _ => 1) os) in *.
    assert (K : 2 <= INR n) by (apply (le_INR 2); lia). assert (G : forall q, 3 * q = (INR n - 1) * w -> (mu_low n * w + mu_step n * q) / w = 1 / 3).
    { intros q Q. replace q with ((INR n - 1) * w / 3) by lra. unfold mu_step. field. split; lra. }
    split; [now apply G|split; now apply G].
Qed.
Print Assumptions C150_level_symmetric.

(** The same for S2: the three cosines are equal. *)
Theorem C150_s2 : forall os, gen_sn 2 = SnOk os -> let l := ls_scaled 1 os in moment sq_x l = moment sq_y l /\ moment sq_y l = moment sq_z l.
Proof. intros os H l. vm_compute in H. injection H as <-. split; reflexivity. Qed.
Print Assumptions C150_s2.

(** Over all the octants first moments and mixed second moments vanish, and squares count eight times, whatever the first octant is. *)
Lemma moment_app : forall f l m, moment f (l ++ m) = moment f l + moment f m.
Proof. intros f l m. unfold moment. induction l as [|a l IH]; cbn [map fold_right app]; [ring|]. rewrite IH. ring. Qed.
Lemma octant_moment : forall f (c : R) o l, (o < 8)%nat -> (forall a b, In a l -> to_octant a o = Some b -> f (adir b) = c * f (adir a)) ->
  moment f (flat_map (fun a => match to_octant a o with Some b => [b] | None => [] end) l) = c * moment f l.
Proof.
  intros f c o l Ho. induction l as [|a l IH]; intros H; [unfold moment; cbn; ring|]. cbn [flat_map]. destruct (to_octant_cos a o Ho) as (b & E & W & _). pose proof (H a b (or_introl eq_refl) E) as F.
  rewrite E. rewrite moment_app, IH by (intros a' b' I; apply H; now right). unfold moment. cbn [map fold_right]. rewrite W, F. ring.
Qed.
Lemma expand_moment : forall f (c : nat -> R) l, (forall o a b, (o < 8)%nat -> In a l -> to_octant a o = Some b -> f (adir b) = c o * f (adir a)) ->
  moment f (expand l) = (1 + (c 1%nat + (c 2%nat + (c 3%nat + (c 4%nat + (c 5%nat + (c 6%nat + c 7%nat))))))) * moment f l.
Proof.
  intros f c l H. unfold expand. rewrite moment_app.
  assert (G : forall os, (forall o, In o os -> (o < 8)%nat) -> moment f (flat_map (fun o => flat_map (fun a => match to_octant a o with Some b => [b] | None => [] end) l) os) = fold_right Rplus 0 (map c os) * moment f l).
  { induction os as [|o os IH]; intros B; [unfold moment; cbn; ring|]. cbn [flat_map map fold_right]. assert (Ho := B o (or_introl eq_refl)).
    rewrite moment_app, (octant_moment f (c o) o l Ho (fun a b I => H o a b Ho I)), IH by (intros o' I; apply B; now right). ring. }
  rewrite G by (cbn; intros o I; lia). cbn [map fold_right]. ring.
Qed.
Theorem C150_octants : forall oct1 m n, Forall first_octant oct1 -> m <> n ->
  moment (fun d => cosine d n) (expand oct1) = 0 /\ moment (fun d => cosine d m * cosine d n) (expand oct1) = 0 /\
  moment (fun d => cosine d n * cosine d n) (expand oct1) = 8 * moment (fun d => cosine d n * cosine d n) oct1.
Proof.
  intros oct1 m n O N. rewrite Forall_forall in O. assert (C : forall k o a b, (o < 8)%nat -> In a oct1 -> to_octant a o = Some b -> cosine (adir b) k = octant_sign o k * cosine (adir a) k).
  { intros k o a b Ho I E. destruct (to_octant_cos a o Ho) as (b' & E' & _ & P). rewrite E in E'. injection E' as <-. rewrite P, Rabs_pos_eq by (apply (O a I)). reflexivity. }
  split; [|split].
  - rewrite (expand_moment _ (fun o => octant_sign o n)) by (intros o a b Ho I E; exact (C n o a b Ho I E)). destruct n; cbn [octant_sign]; ring.
  - rewrite (expand_moment _ (fun o => octant_sign o m * octant_sign o n)) by (intros o a b Ho I E; rewrite !(C _ o a b Ho I E); ring). destruct m, n; try contradiction; cbn [octant_sign]; ring.
  - rewrite (expand_moment _ (fun o => octant_sign o n * octant_sign o n)) by (intros o a b Ho I E; rewrite !(C _ o a b Ho I E); ring). destruct n; cbn [octant_sign]; ring.
Qed.
Print Assumptions C150_octants.

(** Products of Chebyshev azimuthal angles with any polar angles. *)
Definition azi_sum (g : R -> R) (azi : list (R * R)) : R := fold_right Rplus 0 (map (fun a => snd a * g (fst a)) azi).
Lemma product_moment : forall f (g h : R -> R) azi pol, (forall a t, f (dir_angles a t) = g a * h t) -> sumw azi * sumw pol <> 0 ->
  moment f (gen_product azi pol) = azi_sum g azi * azi_sum h pol / (sumw azi * sumw pol).
Proof.
  intros f g h azi pol F N. unfold gen_product. cbv zeta. rewrite moment_scale, fold_wsum, wsum_product, Rplus_0_l. f_equal.
  induction azi as [|a azi IH]; [unfold moment, azi_sum; cbn; ring|]. cbn [flat_map]. rewrite moment_app. 
  assert (E : moment f (flat_map (fun a => map (fun p => mkAngle (dir_angles (fst a) (fst p)) (snd a * snd p)) pol) azi) = azi_sum g azi * azi_sum h pol).
  { clear - F. induction azi as [|b azi IH]; [unfold moment, azi_sum; cbn; ring|]. cbn [flat_map]. rewrite moment_app, IH. unfold azi_sum at 3. cbn [map fold_right]. fold (azi_sum g azi).
    assert (P : moment f (map (fun p => mkAngle (dir_angles (fst b) (fst p)) (snd b * snd p)) pol) = snd b * g (fst b) * azi_sum h pol).
    { clear - F. unfold moment, azi_sum. rewrite map_map. induction pol as [|p pol IH]; cbn [map fold_right]; [ring|]. rewrite IH. cbn [weight adir]. rewrite F. ring. } rewrite P. ring. }
  rewrite E. unfold azi_sum at 3. cbn [map fold_right]. fold (azi_sum g azi).
  assert (P : moment f (map (fun p => mkAngle (dir_angles (fst a) (fst p)) (snd a * snd p)) pol) = snd a * g (fst a) * azi_sum h pol).
  { clear - F. unfold moment, azi_sum. rewrite map_map. induction pol as [|p pol IH]; cbn [map fold_right]; [ring|]. rewrite IH. cbn [weight adir]. rewrite F. ring. } rewrite P. ring.
Qed.
Lemma sum_back : forall n (f : nat -> R), fold_right Rplus 0 (map f (seq 0 n)) = fold_right Rplus 0 (map (fun i => f (n - 1 - i)%nat) (seq 0 n)).
Proof.
  induction n as [|n IH]; intros f; [reflexivity|]. transitivity (f 0%nat + fold_right Rplus 0 (map (fun i => f (S i)) (seq 0 n))).
  - cbn [seq map fold_right]. rewrite <- seq_shift, map_map. reflexivity.
  - rewrite (IH (fun i => f (S i))), seq_S, map_app, fold_right_app. cbn [map fold_right Nat.add]. replace (S n - 1 - n)%nat with 0%nat by lia. rewrite Rplus_0_r.
    assert (G : forall l (c : R), fold_right Rplus c l = fold_right Rplus 0 l + c) by (induction l as [|y l IHl]; intros c; cbn; [ring|rewrite IHl; ring]). rewrite (G _ (f 0%nat)), Rplus_comm. f_equal.
    f_equal. apply map_ext_in. intros i I. apply in_seq in I. f_equal. lia.
Qed.
Lemma sum_scale : forall (c : R) (f : nat -> R) l, fold_right Rplus 0 (map (fun i => c * f i) l) = c * fold_right Rplus 0 (map f l).
Proof. intros c f l. induction l as [|i l IH]; cbn [map fold_right]; [ring|]. rewrite IH. ring. Qed.
Lemma cheb_back : forall n i, (i < n)%nat -> 0.5 * PI / (2 * INR n) * (2 * INR (n - 1 - i) + 1) = PI / 2 - 0.5 * PI / (2 * INR n) * (2 * INR i + 1).
Proof.
  intros n i H. assert (0 < INR n) by (apply lt_0_INR; lia). assert (E : INR (n - 1 - i) = INR n - 1 - INR i) by (rewrite !minus_INR by lia; reflexivity). rewrite E. set (m := INR n) in *. replace 0.5 with (1 / 2) by lra. field. lra.
Qed.
Lemma cheb_swap : forall n (g h : R -> R), (forall a, g (PI / 2 - a) = h a) -> azi_sum g (gen_chebyshev n) = azi_sum h (gen_chebyshev n).
Proof.
  intros n g h S0. unfold azi_sum, gen_chebyshev. rewrite !map_map. cbn [fst snd]. rewrite sum_back. f_equal. apply map_ext_in. intros i I. apply in_seq in I. rewrite cheb_back by lia. rewrite S0. reflexivity.
Qed.
Lemma cheb_weights : forall n, (1 <= n)%nat -> sumw (gen_chebyshev n) = 1.
Proof.
  intros n H. assert (0 < INR n) by (apply lt_0_INR; lia). unfold sumw, gen_chebyshev. rewrite map_map. cbn [snd].
  assert (E : forall k, fold_right Rplus 0 (map (fun _ : nat => 1 / INR n) (seq k n)) = INR n * (1 / INR n)).
  { clear H. set (c := 1 / INR n). clearbody c. clear. induction n as [|n IH]; intros k; [cbn; ring|]. cbn [seq map fold_right]. rewrite IH, S_INR. ring. } rewrite E. field. lra.
Qed.
Theorem C150_product : forall n pol, (1 <= n)%nat -> sumw pol <> 0 -> let l := gen_product (gen_chebyshev n) pol in
  wsum l = 1 /\ moment sq_x l = moment sq_y l /\ moment sq_x l + moment sq_y l + moment sq_z l = 1.
Proof.
  intros n pol H P l. assert (N : sumw (gen_chebyshev n) * sumw pol <> 0) by (rewrite cheb_weights by exact H; lra). split; [apply C71_product_weights_sum; exact N|]. split.
  - unfold l. rewrite (product_moment sq_x (fun a => cos a * cos a) (fun t => sin t * sin t) _ _ ltac:(intros; unfold sq_x; cbn [ox dir_angles]; ring) N).
    rewrite (product_moment sq_y (fun a => sin a * sin a) (fun t => sin t * sin t) _ _ ltac:(intros; unfold sq_y; cbn [oy dir_angles]; ring) N).
    rewrite (cheb_swap n (fun a => cos a * cos a) (fun a => sin a * sin a)); [reflexivity|]. intros a. rewrite cos_shift. reflexivity.
  - rewrite <- !moment_plus. destruct (C71_product_weights_sum _ _ N) as [W _]. fold l in W. rewrite <- moment_wsum in W. rewrite <- W. unfold moment. f_equal. apply map_ext_in. intros a I. f_equal.
    unfold l, gen_product in I. cbv zeta in I. apply in_map_iff in I. destruct I as (b & <- & Ib). apply in_flat_map in Ib. destruct Ib as (az & _ & Ip). apply in_map_iff in Ip. destruct Ip as (p & <- & _).
    unfold sq_x, sq_y, sq_z. cbn [adir dir_angles ox oy oz]. pose proof (sin2_cos2 (fst az)) as A. pose proof (sin2_cos2 (fst p)) as B. unfold Rsqr in A, B.
    transitivity (sin (fst p) * sin (fst p) * (sin (fst az) * sin (fst az) + cos (fst az) * cos (fst az)) + cos (fst p) * cos (fst p)); [ring|]. rewrite A. lra.
Qed.
Print Assumptions C150_product.

Example C150_instance : exists os, gen_sn 8 = SnOk os /\ List.length os = 10%nat /\ sumw gen_yamamoto <> 0 /\ Forall first_octant (map (ls_angle 1) [mkOrd 0 0 0 0]) /\ X_NORM <> Y_NORM.
Proof.
  eexists. split; [vm_compute; reflexivity|]. split; [reflexivity|]. split; [unfold sumw, gen_yamamoto; cbn; lra|]. split; [|discriminate].
  constructor; [|constructor]. intros n. destruct n; cbn; lra.
Qed.

(** C151, as stated for every accepted order, fails for S12 and S14. *)
Theorem C151_refuted : forall order, order = 12%Z \/ order = 14%Z -> exists os, gen_sn order = SnOk os /\
  let l := ls_scaled (Z.to_nat (Z.quot order 2)) os in moment sq_x l < 33 / 100 /\ moment sq_y l < 33 / 100 /\ 34 / 100 < moment sq_z l.
Proof.
  assert (G : forall n os w qx qy qz, (2 <= n <= 8)%nat -> raw_sum (fun _ => 1) os = w -> raw_sum (fun o => INR (ix o)) os = qx -> raw_sum (fun o => INR (iy o)) os = qy -> raw_sum (fun o => INR (iz o)) os = qz ->
    0 < w -> mu_low n * w + mu_step n * qx < 33 / 100 * w -> mu_low n * w + mu_step n * qy < 33 / 100 * w -> 34 / 100 * w < mu_low n * w + mu_step n * qz ->
    moment sq_x (ls_scaled n os) < 33 / 100 /\ moment sq_y (ls_scaled n os) < 33 / 100 /\ 34 / 100 < moment sq_z (ls_scaled n os)).
  { intros n os w qx qy qz N W X Y Z0 P Bx By Bz. rewrite scaled, !moment_scale, raw_wsum. rewrite (raw_sq n ix sq_x os N), (raw_sq n iy sq_y os N), (raw_sq n iz sq_z os N) by (intros; reflexivity). rewrite W, X, Y, Z0.
    split; [|split]; apply (Rmult_lt_reg_r w _ _ P); unfold Rdiv; rewrite ?Rmult_assoc, ?Rinv_l, ?Rmult_1_r by lra; rewrite <- ?Rmult_assoc; lra. }
  intros order [-> | ->].
  - destruct (gen_sn 12) as [| |os] eqn:H; [vm_compute in H; discriminate|vm_compute in H; discriminate|]. exists os. split; [reflexivity|]. change (Z.to_nat (12 ÷ 2)) with 6%nat. cbv zeta.
    assert (L : 303 / 10000 <= mu_low 6 <= 3031 / 100000) by (unfold mu_low, mu_base; replace (10 ^ 15) with 1000000000000000 by ring; cbn [nth Nat.sub map]; lra). assert (D : mu_step 6 = (1 - 3 * mu_low 6) / 5) by (unfold mu_step; cbn [INR]; field).
    eapply (G 6%nat os); try reflexivity; [lia| | | |]; try rewrite D; ls_numbers H; lra.
  - destruct (gen_sn 14) as [| |os] eqn:H; [vm_compute in H; discriminate|vm_compute in H; discriminate|]. exists os. split; [reflexivity|]. change (Z.to_nat (14 ÷ 2)) with 7%nat. cbv zeta.
    assert (L : 261 / 10000 <= mu_low 7 <= 2611 / 100000) by (unfold mu_low, mu_base; replace (10 ^ 15) with 1000000000000000 by ring; cbn [nth Nat.sub map]; lra). assert (D : mu_step 7 = (1 - 3 * mu_low 7) / 6) by (unfold mu_step; cbn [INR]; field).
    eapply (G 7%nat os); try reflexivity; [lia| | | |]; try rewrite D; ls_numbers H; lra.
Qed.
Print Assumptions C151_refuted.
Example C151_instance : exists os, gen_sn 12 = SnOk os /\ List.length os = 21%nat.
Proof. eexists. split; [vm_compute; reflexivity|reflexivity]. Qed.

(** C152: which tags are accepted, and what each makes.  [called t names]: the type, with letter case and blanks around it ignored,
    is one of the names. *)
Definition called (t : QTag) (names : list string) : Prop := exists name, In name names /\ sanitize (qt_type t) = SVal (list_ascii_of_string name).
Definition present (t : QTag) : Prop := qt_there t = true /\ qt_named t = true.
Definition ls_names : list string := ["ls"; "level-symmetric"]%string.
Definition cg_names : list string := ["cg"; "chebyshev-gauss"]%string.
Definition cy_names : list string := ["cy"; "chebyshev-yamamoto"]%string.
Definition all_names : list string := ls_names ++ cg_names ++ cy_names ++ ["user"%string].

Lemma is_type_spec : forall s t, is_type s t = true <-> s = list_ascii_of_string t.
Proof. intros s t. unfold is_type. destruct (list_eq_dec ascii_dec s (list_ascii_of_string t)); split; congruence. Qed.
Lemma is_type_or : forall s a b, is_type s a || is_type s b = true <-> exists n, In n [a; b] /\ s = list_ascii_of_string n.
Proof.
  intros s a b. rewrite orb_true_iff, !is_type_spec. split.
  - intros [E|E]; [exists a|exists b]; cbn; auto.
  - intros (n & [<-|[<-|[]]] & E); auto.
Qed.
Lemma names_apart : forall n m, In n all_names -> In m all_names -> list_ascii_of_string n = list_ascii_of_string m -> n = m.
Proof. intros n m _ _ E. rewrite <- (string_of_list_ascii_of_string n), E. apply string_of_list_ascii_of_string. Qed.

Section Tags.
Variables (passes : nat -> nat) (t : QTag).
Let na := int_or (qt_nazi t).
Let np := int_or (qt_npol t).
Let order := int_or (qt_order t).
Lemma make_ls : present t -> called t ls_names -> make_quad passes t = match gen_sn order with
  | SnOk os => QOk (quad_of LS na np (ls_scaled (Z.to_nat (Z.quot order 2)) os)) | SnThrow => QThrow | SnUB => QUB end.
Proof.
  intros [P1 P2] (n & I & E). unfold make_quad. rewrite P1, P2, E. cbn [negb]. replace (_ || _) with true; [reflexivity|]. symmetry. apply is_type_or. exists n. split; [exact I|reflexivity].
Qed.
Lemma make_cg : present t -> called t cg_names -> make_quad passes t = if (na <? 1)%Z || (np <? 1)%Z then QThrow
  else QOk (quad_of CHEB_GAUSS na np (gen_product (gen_chebyshev (Z.to_nat na)) (gen_gauss (Z.to_nat np) (passes (Z.to_nat np))))).
Proof. intros [P1 P2] (n & I & E). unfold make_quad. rewrite P1, P2, E. cbn [negb]. destruct I as [<-|[<-|[]]]; reflexivity. Qed.
Lemma make_cy : present t -> called t cy_names -> make_quad passes t = if (na <? 1)%Z || (np <? 1)%Z then QThrow
  else match gen_yamamoto_n np with Some pol => QOk (quad_of CHEB_YAMAMOTO na np (gen_product (gen_chebyshev (Z.to_nat na)) pol)) | None => QThrow end.
Proof. intros [P1 P2] (n & I & E). unfold make_quad. rewrite P1, P2, E. cbn [negb]. destruct I as [<-|[<-|[]]]; reflexivity. Qed.
Lemma make_user : present t -> called t ["user"%string] -> make_quad passes t = match user_quad (qt_angles t) (qt_nazi t) (qt_npol t) with Some q => QOk q | None => QThrow end.
Proof. intros [P1 P2] (n & I & E). unfold make_quad. rewrite P1, P2, E. cbn [negb]. destruct I as [<-|[]]; reflexivity. Qed.
Lemma make_other : sanitize (qt_type t) <> SUB -> ~ called t all_names -> make_quad passes t = QThrow.
Proof.
  intros U C. unfold make_quad. destruct (qt_there t); [|reflexivity]. destruct (qt_named t); [|reflexivity]. cbn [negb].
  assert (N : forall n, In n all_names -> sanitize (qt_type t) <> SVal (list_ascii_of_string n)) by (intros n I E; apply C; exists n; auto).
  destruct (sanitize (qt_type t)) as [ty| | |] eqn:E.
  - assert (F : forall n, In n all_names -> is_type ty n = false). { intros n I. apply not_true_iff_false. intros Q. apply is_type_spec in Q. apply (N n I). now rewrite Q. }
    rewrite !F by (cbn; tauto). reflexivity.
  - unfold sanitize in E. destruct (existsb high (qt_type t)); discriminate.
  - contradiction.
  - unfold sanitize in E. destruct (existsb high (qt_type t)); discriminate.
Qed.
Lemma make_absent : ~ present t -> make_quad passes t = QThrow.
Proof. intros P. unfold make_quad. destruct (qt_there t) eqn:A; [|reflexivity]. destruct (qt_named t) eqn:B; [|reflexivity]. exfalso. apply P. split; assumption. Qed.
End Tags.
(** The orders of level-symmetric sets. *)
Definition ls_orders : list Z := [2; 4; 6; 8; 10; 12; 14]%Z.
Lemma gen_sn_ok : forall order, (exists os, gen_sn order = SnOk os) <-> In order ls_orders.
Proof.
  intros order. split; [intros (os & H); exact (sn_orders _ _ H)|]. unfold ls_orders. cbn [In]. intros I. destruct I as [<-|[<-|[<-|[<-|[<-|[<-|[<-|[]]]]]]]]; eexists; vm_compute; reflexivity.
Qed.
Lemma gen_sn_ub : forall order, gen_sn order = SnUB <-> Z.even order = true /\ (order <= 0 \/ order = 16)%Z.
Proof.
  intros order. assert (R0 : Z.rem order 2 = 0%Z <-> Z.even order = true) by (rewrite Z.even_spec, (Z.rem_divide order 2) by lia; split; intros [k Hk]; exists k; lia). split.
  - intros H. destruct (Z.eqb_spec (Z.rem order 2) 0) as [E|E]; [|unfold gen_sn in H; destruct (Z.eqb_spec (Z.rem order 2) 0); [contradiction|discriminate]]. split; [now apply R0|].
    destruct (Z_lt_le_dec 16 order) as [G|G]; [unfold gen_sn in H; rewrite E in H; cbn [Z.eqb negb] in H; destruct (Z.ltb_spec 16 order); [discriminate|lia]|].
    destruct (Z_le_gt_dec order 0) as [L|L]; [now left|]. right. destruct R0 as [_ _]. apply Z.rem_divide in E; [|lia]. destruct E as [k Hk].
    assert (B : (k = 1 \/ k = 2 \/ k = 3 \/ k = 4 \/ k = 5 \/ k = 6 \/ k = 7 \/ k = 8)%Z) by lia.
    destruct B as [-> | [-> | [-> | [-> | [-> | [-> | [-> | ->]]]]]]]; subst order; try (vm_compute in H; discriminate). reflexivity.
  - intros [E [L| ->]]; [|reflexivity]. destruct C16_weights_refuted as (_ & _ & _ & U). apply U; [exact L|now apply R0].
Qed.

(** The outcome of reading a tag whose type is plain text. *)
Theorem C152_outcome : forall passes t, (forall c, In c (qt_type t) -> high c = false) ->
  let na := int_or (qt_nazi t) in let np := int_or (qt_npol t) in let order := int_or (qt_order t) in
  (make_quad passes t = QUB <-> present t /\ called t ls_names /\ Z.even order = true /\ (order <= 0 \/ order = 16)%Z) /\
  ((exists q, make_quad passes t = QOk q) <-> present t /\ (called t ls_names /\ In order ls_orders \/ called t cg_names /\ (1 <= na)%Z /\ (1 <= np)%Z \/
     called t cy_names /\ (1 <= na)%Z /\ np = 3%Z \/ called t ["user"%string] /\ user_angles (qt_angles t) <> None)).
Proof.
  intros passes t Hc na np order. assert (U : sanitize (qt_type t) <> SUB).
  { unfold sanitize. destruct (existsb high (qt_type t)) eqn:E; [|discriminate]. apply existsb_exists in E. destruct E as (c & I & Q). rewrite (Hc c I) in Q. discriminate. }
  assert (A : forall l m, called t l -> called t m -> exists n, In n l /\ In n m).
  { intros l m (n & I & E) (n' & I' & E'). rewrite E in E'. injection E' as E'. exists n. split; [exact I|]. rewrite <- (string_of_list_ascii_of_string n), E', string_of_list_ascii_of_string. exact I'. }
  assert (X : forall l m, (forall n, In n l -> ~ In n m) -> called t l -> ~ called t m) by (intros l m D Cl Cm; destruct (A l m Cl Cm) as (n & I & J); exact (D n I J)).
  assert (D : ~ present t \/ present t /\ (~ called t all_names \/ called t ls_names \/ called t cg_names \/ called t cy_names \/ called t ["user"%string])).
  { unfold present. destruct (qt_there t), (qt_named t); try (left; intuition discriminate). right. split; [auto|].
    destruct (sanitize (qt_type t)) as [ty| | |] eqn:E; try (left; intros (n & _ & E'); congruence).
    assert (G : forall l, (exists n, In n l /\ is_type ty n = true) -> called t l) by (intros l (n & I & Q); apply is_type_spec in Q; exists n; split; [exact I|now rewrite E, Q]).
    destruct (existsb (is_type ty) ls_names) eqn:E1; [right; left; apply G; now apply existsb_exists|].
    destruct (existsb (is_type ty) cg_names) eqn:E2; [right; right; left; apply G; now apply existsb_exists|].
    destruct (existsb (is_type ty) cy_names) eqn:E3; [right; right; right; left; apply G; now apply existsb_exists|].
    destruct (existsb (is_type ty) ["user"%string]) eqn:E4; [right; right; right; right; apply G; now apply existsb_exists|].
    left. intros (n & I & Q). rewrite E in Q. injection Q as Q. assert (Y : existsb (is_type ty) all_names = true) by (apply existsb_exists; exists n; split; [exact I|now apply is_type_spec]).
    unfold all_names in Y. rewrite !existsb_app, E1, E2, E3, E4 in Y. discriminate. }
  assert (NI : forall l, incl l all_names -> called t l -> called t all_names) by (intros l J (n & I & E); exists n; auto).
  destruct D as [P|[P D]].
  - rewrite make_absent by exact P. split; split; try discriminate; try (intros (q & Q); discriminate); intros [P' _]; contradiction.
  - destruct D as [N|[C|[C|[C|C]]]].
    + rewrite make_other by assumption. split; split; try discriminate; try (intros (q & Q); discriminate).
      * intros (_ & C & _). exfalso. apply N. revert C. apply NI. intros n I. cbn in *. tauto.
      * intros (_ & [(C & _)|[(C & _)|[(C & _)|(C & _)]]]); exfalso; apply N; revert C; apply NI; intros n I; cbn in *; tauto.
    + rewrite (make_ls passes t P C). fold order. split.
      * rewrite <- gen_sn_ub. destruct (gen_sn order); split; try discriminate; try tauto; try (intros (_ & _ & Q); discriminate).
      * split.
        -- intros (q & Q). split; [exact P|]. left. split; [exact C|]. apply gen_sn_ok. destruct (gen_sn order); try discriminate. now eexists.
        -- intros (_ & [(_ & I)|[(C' & _)|[(C' & _)|(C' & _)]]]); [apply gen_sn_ok in I; destruct I as (os & ->); now eexists| | |]; exfalso; revert C'; apply (X ls_names); try exact C; unfold ls_names, cg_names, cy_names; cbn; intros n I J; intuition (subst; discriminate).
    + rewrite (make_cg passes t P C). fold na np. split.
      * split; [destruct ((na <? 1)%Z || (np <? 1)%Z); discriminate|]. intros (_ & C' & _). exfalso; revert C'; apply (X cg_names); try exact C; unfold ls_names, cg_names, cy_names; cbn; intros n I J; intuition (subst; discriminate).
      * destruct (Z.ltb_spec na 1), (Z.ltb_spec np 1); cbn [orb]; split; try (intros (q & Q); discriminate); try (intros _; eexists; reflexivity);
          try (intros (q & Q); split; [exact P|]; right; left; split; [exact C|]; lia);
          (intros (_ & [(C' & _)|[(C' & ? & ?)|[(C' & _)|(C' & _)]]]); [|lia| |]; exfalso; revert C'; apply (X cg_names); try exact C; unfold ls_names, cg_names, cy_names; cbn; intros n I J; intuition (subst; discriminate)).
    + rewrite (make_cy passes t P C). fold na np. unfold gen_yamamoto_n. split.
      * split; [destruct ((na <? 1)%Z || (np <? 1)%Z); [discriminate|]; destruct (np =? 3)%Z; discriminate|]. intros (_ & C' & _). exfalso; revert C'; apply (X cy_names); try exact C; unfold ls_names, cg_names, cy_names; cbn; intros n I J; intuition (subst; discriminate).
      * destruct (Z.ltb_spec na 1), (Z.ltb_spec np 1), (Z.eqb_spec np 3); cbn [orb]; split; try (intros (q & Q); discriminate); try (intros _; eexists; reflexivity);
          try (intros (q & Q); split; [exact P|]; right; right; left; split; [exact C|]; lia);
          (intros (_ & [(C' & _)|[(C' & _)|[(C' & ? & ?)|(C' & _)]]]); [| |lia|]; exfalso; revert C'; apply (X cy_names); try exact C; unfold ls_names, cg_names, cy_names; cbn; intros n' I J; intuition (subst; discriminate)).
    + rewrite (make_user passes t P C). unfold user_quad. split.
      * split; [destruct (user_angles (qt_angles t)); discriminate|]. intros (_ & C' & _). exfalso; revert C'; apply (X ["user"%string]); try exact C; unfold ls_names, cg_names, cy_names; cbn; intros n I J; intuition (subst; discriminate).
      * destruct (user_angles (qt_angles t)) eqn:E; split.
        -- intros _. split; [exact P|]. right. right. right. split; [exact C|discriminate].
        -- intros _. eexists. reflexivity.
        -- intros (q & Q). discriminate.
        -- intros (_ & [(C' & _)|[(C' & _)|[(C' & _)|(_ & Q)]]]); [| | |contradiction]; exfalso; revert C'; apply (X ["user"%string]); try exact C; unfold ls_names, cg_names, cy_names; cbn; intros n I J; intuition (subst; discriminate).
Qed.
Print Assumptions C152_outcome.

(** What each accepted tag makes. *)
Lemma product_length : forall azi pol, List.length (gen_product azi pol) = (List.length azi * List.length pol)%nat.
Proof. intros azi pol. unfold gen_product. cbv zeta. rewrite map_length. induction azi as [|a azi IH]; [reflexivity|]. cbn [flat_map List.length]. rewrite app_length, map_length, IH. lia. Qed.
Theorem C152_made : forall passes t q, make_quad passes t = QOk q ->
  let na := int_or (qt_nazi t) in let np := int_or (qt_npol t) in let order := int_or (qt_order t) in
  List.length (q_angles q) = (8 * q_ndir q)%nat /\ q_nazi q = na /\ q_npol q = np /\
  (called t ls_names -> q_type q = LS /\ Z.of_nat (q_ndir q) = (order * (order + 2) / 8)%Z /\ wsum (q_angles q) = 8) /\
  (called t cg_names -> q_type q = CHEB_GAUSS /\ Z.of_nat (q_ndir q) = (na * np)%Z /\ (sumw (gen_gauss (Z.to_nat np) (passes (Z.to_nat np))) <> 0 -> wsum (q_angles q) = 8)) /\
  (called t cy_names -> q_type q = CHEB_YAMAMOTO /\ Z.of_nat (q_ndir q) = (3 * na)%Z /\ wsum (q_angles q) = 8) /\
  (called t ["user"%string] -> q_type q = USER /\ q_ndir q = List.length (qt_angles t) /\ about_one (wsum (q_angles q) / 8)).
Proof.
  intros passes t q H na np order.
  assert (P : present t). { destruct (qt_there t) eqn:A; [|unfold make_quad in H; rewrite A in H; discriminate]. destruct (qt_named t) eqn:B; [split; auto|unfold make_quad in H; rewrite A, B in H; discriminate]. }
  assert (L : forall ty oct1, QOk (quad_of ty na np oct1) = QOk q -> List.length (q_angles q) = (8 * q_ndir q)%nat /\ q_nazi q = na /\ q_npol q = np).
  { intros ty oct1 E. injection E as <-. cbn [quad_of q_angles q_ndir q_nazi q_npol]. rewrite expand_length. auto. }
  assert (G : List.length (q_angles q) = (8 * q_ndir q)%nat /\ q_nazi q = na /\ q_npol q = np).
  { pose proof H as H0. unfold make_quad in H0. destruct P as [P1 P2]. rewrite P1, P2 in H0. cbn [negb] in H0. cbv zeta in H0. fold na np order in H0. destruct (sanitize (qt_type t)) as [ty| | |]; try discriminate.
    destruct (is_type ty "ls" || is_type ty "level-symmetric"); [destruct (gen_sn order); try discriminate; eapply L; exact H0|].
    destruct (is_type ty "cg" || is_type ty "chebyshev-gauss"); [destruct ((na <? 1)%Z || (np <? 1)%Z); [discriminate|eapply L; exact H0]|].
    destruct (is_type ty "cy" || is_type ty "chebyshev-yamamoto"); [destruct ((na <? 1)%Z || (np <? 1)%Z); [discriminate|destruct (gen_yamamoto_n np); [eapply L; exact H0|discriminate]]|].
    destruct (is_type ty "user"); [|discriminate]. unfold user_quad in H0. destruct (user_angles (qt_angles t)) as [l|]; [|discriminate]. eapply L; exact H0. }
  destruct G as (G1 & G2 & G3). split; [exact G1|]. split; [exact G2|]. split; [exact G3|]. split; [|split; [|split]]; intros C.
  - rewrite (make_ls passes t P C) in H. fold na np order in H. destruct (gen_sn order) as [| |os] eqn:E; try discriminate. injection H as <-. cbn [quad_of q_type q_ndir q_angles]. split; [reflexivity|].
    destruct (C150_level_symmetric _ _ E) as (W & _). split; [|rewrite expand_wsum, W; ring]. unfold ls_scaled. cbv zeta. rewrite !map_length. destruct (C16_ordinates _ _ E) as (-> & _).
    pose proof (sn_orders _ _ E) as I. clear - I. cbn in I. destruct I as [<-|[<-|[<-|[<-|[<-|[<-|[<-|[]]]]]]]]; reflexivity.
  - rewrite (make_cg passes t P C) in H. fold na np in H. destruct (Z.ltb_spec na 1), (Z.ltb_spec np 1); try discriminate. cbn [orb] in H. injection H as <-. cbn [quad_of q_type q_ndir q_angles]. split; [reflexivity|].
    destruct (C130_pairs (Z.to_nat np) (passes (Z.to_nat np)) ltac:(lia)) as [LG _]. split.
    + rewrite product_length, LG. unfold gen_chebyshev. rewrite map_length, seq_length, Nat2Z.inj_mul, !Z2Nat.id by lia. reflexivity.
    + intros S. apply C71_product_weights_sum. rewrite cheb_weights by lia. lra.
  - rewrite (make_cy passes t P C) in H. fold na np in H. destruct (Z.ltb_spec na 1), (Z.ltb_spec np 1); try discriminate. cbn [orb] in H. unfold gen_yamamoto_n in H. destruct (Z.eqb_spec np 3) as [E|E]; [|discriminate]. injection H as <-. cbn [quad_of q_type q_ndir q_angles]. split; [reflexivity|]. split.
    + rewrite product_length. unfold gen_chebyshev. rewrite map_length, seq_length, Nat2Z.inj_mul, Z2Nat.id by lia. change (Z.of_nat (List.length gen_yamamoto)) with 3%Z. lia.
    + apply C71_product_weights_sum. rewrite cheb_weights by lia. unfold sumw, gen_yamamoto. cbn. lra.
  - rewrite (make_user passes t P C) in H. unfold user_quad in H. destruct (user_angles (qt_angles t)) as [l|] eqn:E; [|discriminate]. injection H as <-. cbn [quad_of q_type q_ndir q_angles]. split; [reflexivity|].
    destruct (C126_accepted _ _ E) as (_ & W & F). split; [|rewrite expand_wsum; replace (8 * wsum l / 8) with (wsum l) by field; exact W]. clear - F. induction F; [reflexivity|]. cbn [List.length]. now rewrite IHF.
Qed.
Print Assumptions C152_made.

Example C152_instance : exists q passes, make_quad passes (mkQTag true true (list_ascii_of_string " CY "%string) (Some 4%Z) (Some 3%Z) None []) = QOk q /\ q_ndir q = 12%nat.
Proof. eexists. exists (fun _ => 0%nat). split; reflexivity. Qed.
Example C152_missing : forall passes, make_quad passes (mkQTag true true (list_ascii_of_string "ls"%string) None None None []) = QThrow.
Proof. reflexivity. Qed.
