(** Properties of homogenized cross sections taken from files: what a mesh made from files holds and the way back from its own output
    (C183), and which inputs are refused, accepted or undefined (C184). *)
From Coq Require Import List Lia Bool Arith ZArith Reals Lra.
From Verif Require Import RUtil ScatModel McModel XsModel H5Model ScatProofs ScatProps PflProps HomProps XsFileModel XsFileProofs.
Import ListNotations.
Open Scope nat_scope.

(** ** Specification *)
(** Region [r] holds what file [f] has at cell [c] of the reaction data sets and at entry [i] of the scattering data set, and a removal cross
    section that goes with them. *)
Definition takes (m : XMesh) (f : XFile) (c i : nat) (s : HX) (r : nat) : Prop :=
  (forall x h, h < w_ng m -> exists dims vals, xset x f h = Some (dims, vals) /\ nth_error vals c = Some (xget x s (w_ng m * r + h))) /\
  (exists e0 vals, xf_sc f = Some ([e0; w_ng m; w_ng m], vals) /\ compress (w_ng m) (fun to from => nth (i * (w_ng m * w_ng m) + to * w_ng m + from) vals 0%R) = Some (x_sc s r)) /\
  rm_right m s r.
(** Region [r] is as it was. *)
Definition untouched (m : XMesh) (s s' : HX) (r : nat) : Prop :=
  x_sc s' r = x_sc s r /\ forall h, h < w_ng m -> x_rm s' (w_ng m * r + h) = x_rm s (w_ng m * r + h) /\ forall x, xget x s' (w_ng m * r + h) = xget x s (w_ng m * r + h).
(** A file whose scattering data are for as many groups as the mesh has. *)
Definition right_groups (m : XMesh) (f : XFile) : Prop := forall d v, xf_sc f = Some (d, v) -> exists e0, d = [e0; w_ng m; w_ng m] /\ length v = e0 * (w_ng m * w_ng m).
Definition tags_right (m : XMesh) (ds : list DTag) : Prop := forall d f, In d ds -> dt_file d = Some (Some f) -> right_groups m f.
Definition covered (d : DTag) (ip : nat) : Prop := (mt_bot d <= Z.of_nat ip <= mt_top d)%Z.

Lemma dt_open_ok : forall d f, dt_open d = HOk f -> dt_file d = Some (Some f).
Proof. intros d f H. unfold dt_open in H. destruct (dt_file d) as [[g|]|]; try discriminate. congruence. Qed.
Lemma read_scat_ok : forall m f e0 e1 e2 vals, right_groups m f -> read_scat f = HOk (e0, e1, e2, vals) -> xf_sc f = Some ([e0; w_ng m; w_ng m], vals) /\ e1 = w_ng m /\ e2 = w_ng m /\ length vals = e0 * (w_ng m * w_ng m).
Proof.
  intros m f e0 e1 e2 vals G H. unfold read_scat in H. destruct (xf_sc f) as [[d v]|] eqn:E; [|discriminate]. destruct (G d v E) as (e & -> & L). injection H as <- <- <- <-. auto.
Qed.
Lemma single_spec : forall debug m d s s' f, dt_file d = Some (Some f) -> right_groups m f -> read_single debug m d s = HOk s' ->
  x_eub s' = x_eub s /\ forall r, r < w_nreg m -> takes m f (data_cell (w_cell m) (w_nxy m) r) r s' r.
Proof.
  intros debug m d s s' f Ef G H. unfold read_single in H. destruct (_ || _); [discriminate|]. apply hb_ok in H. destruct H as (f' & E0 & H). apply dt_open_ok in E0. rewrite Ef in E0. injection E0 as <-.
  apply hb_ok in H. destruct H as (s1 & E1 & H). apply hb_ok in H. destruct H as ([[[e0 e1] e2] vals] & E2 & H). destruct (read_scat_ok m f e0 e1 e2 vals G E2) as (Es & -> & -> & Lv).
  destruct (Nat.eqb_spec e0 (w_nreg m)) as [->|]; [|discriminate]. cbn [negb] in H.
  set (T := fun (x : Rx) (r h : nat) (v : R) => exists dims vals, xset x f h = Some (dims, vals) /\ nth_error vals (data_cell (w_cell m) (w_nxy m) r) = Some v).
  assert (A := E1). apply (rmoved_loop m T (fun ig r h => existsb (fun i => (r =? i) && (h =? ig)) (seq 0 (w_nreg m)))) in A.
  2:{ intros ig t t' Hig E. apply in_seq in Hig. apply hb_ok in E. destruct E as (b & Eb & E).
      apply (rmoved_loop m T (fun i r h => (r =? i) && (h =? ig))) in E; [exact E|]. intros i u u' Hi Eu. apply in_seq in Hi. apply put_cell_moved with (T := T) in Eu; [exact Eu|lia|].
      intros x v Ev. destruct (read_bufs_ok _ _ _ _ Eb x) as (dd & Ed & _). exists dd, (bget x b). auto. }
  set (M := fun (r : nat) (sm : SM) => compress (w_ng m) (fun to from => nth (r * (w_ng m * w_ng m) + to * w_ng m + from) vals 0%R) = Some sm).
  apply (mmoved_loop m M (fun i r => r =? i)) in H.
  2:{ intros i t t' Hi E. apply hb_ok in E. destruct E as (sm & Em & E). apply matrix_of_ok in Em. apply put_matrix_moved with (M := M) in E; [exact E| |exact Em]. now apply compress_ng in Em. }
  destruct A as (A1 & A2 & A3 & A4). destruct H as (B1 & B2 & B3 & B4 & B5 & B6). split; [congruence|]. intros r Hr.
  specialize (B6 r). replace (existsb (fun a => r =? a) (seq 0 (w_nreg m))) with true in B6. 2:{ symmetry. apply existsb_exists. exists r. split; [apply in_seq; lia|apply Nat.eqb_refl]. }
  destruct B6 as (B6 & B7). split; [|split; [|exact B7]].
  - intros x h Hh. specialize (A4 x r h Hh). replace (existsb _ (seq 0 (w_ng m))) with true in A4.
    2:{ symmetry. apply existsb_exists. exists h. split; [apply in_seq; lia|]. apply existsb_exists. exists r. split; [apply in_seq; lia|]. now rewrite !Nat.eqb_refl. }
    destruct A4 as (dd & vv & V1 & V2). exists dd, vv. split; [exact V1|]. rewrite V2. f_equal. destruct x; cbn [xget]; congruence.
  - exists (w_nreg m), vals. split; [exact Es|exact B6].
Qed.

Lemma visited : forall nxy l ip i, i < nxy -> existsb (fun a => existsb (fun k => nxy * ip + i =? nxy * a + k) (seq 0 nxy)) l = existsb (Nat.eqb ip) l.
Proof.
  intros nxy l ip i Hi. induction l as [|a l IH]; cbn [existsb]; [reflexivity|]. rewrite IH. f_equal. destruct (Nat.eqb_spec ip a) as [->|N].
  - apply existsb_exists. exists i. split; [apply in_seq; lia|apply Nat.eqb_refl].
  - destruct (existsb _ (seq 0 nxy)) eqn:E; [|reflexivity]. apply existsb_exists in E. destruct E as (k & Hk & X). apply in_seq in Hk. apply Nat.eqb_eq in X. exfalso. apply flat_inj in X; lia.
Qed.
Lemma planes_in : forall d ip, (0 <= mt_bot d)%Z -> (0 <= mt_top d)%Z -> (existsb (Nat.eqb ip) (mt_planes d) = true <-> covered d ip).
Proof.
  intros d ip Hb Ht. unfold covered, mt_planes. rewrite existsb_exists. split.
  - intros (k & Hk & E). apply Nat.eqb_eq in E. subst k. apply in_seq in Hk. lia.
  - intro H. exists ip. split; [apply in_seq; lia|apply Nat.eqb_refl].
Qed.
Lemma existsb_comm_and : forall (P : nat -> bool) (c : bool) l, existsb (fun a => P a && c) l = existsb P l && c.
Proof. intros P c l. induction l as [|a l IH]; cbn [existsb]; [reflexivity|]. rewrite IH. destruct (P a), c, (existsb P l); reflexivity. Qed.
Lemma existsb_swap : forall (Q : nat -> nat -> bool) l1 l2, existsb (fun a => existsb (Q a) l2) l1 = existsb (fun b => existsb (fun a => Q a b) l1) l2.
Proof.
  intros Q l1 l2. apply eq_true_iff_eq. rewrite !existsb_exists. split.
  - intros (a & Ha & H). apply existsb_exists in H. destruct H as (b & Hb & H). exists b. split; [exact Hb|]. apply existsb_exists. eauto.
  - intros (b & Hb & H). apply existsb_exists in H. destruct H as (a & Ha & H). exists a. split; [exact Ha|]. apply existsb_exists. eauto.
Qed.
Lemma existsb_ext_in : forall {A} (P Q : A -> bool) l, (forall a, In a l -> P a = Q a) -> existsb P l = existsb Q l.
Proof. intros A P Q l H. induction l as [|a l IH]; cbn [existsb]; [reflexivity|]. rewrite H by now left. rewrite IH; [reflexivity|]. intros b Hb. apply H. now right. Qed.

Lemma tag_spec : forall debug m d s s' f, dt_file d = Some (Some f) -> right_groups m f -> apply_tag debug m d s = HOk s' ->
  (exists n, xf_eub f = Some ([n], x_eub s')) /\
  forall ip i, i < w_nxy m -> if existsb (Nat.eqb ip) (mt_planes d) then takes m f (w_cell m i) i s' (w_nxy m * ip + i) else untouched m s s' (w_nxy m * ip + i).
Proof.
  intros debug m d s s' f Ef G H. unfold apply_tag in H. apply hb_ok in H. destruct H as (f' & E0 & H). apply dt_open_ok in E0. rewrite Ef in E0. injection E0 as <-.
  apply hb_ok in H. destruct H as (eub & Ee & H). apply hb_ok in H. destruct H as (s1 & E1 & H). apply hb_ok in H. destruct H as ([[[e0 e1] e2] vals] & E2 & H). destruct (read_scat_ok m f e0 e1 e2 vals G E2) as (Es & -> & -> & Lv).
  set (T := fun (x : Rx) (r h : nat) (v : R) => exists dims vals, xset x f h = Some (dims, vals) /\ nth_error vals (w_cell m (r mod w_nxy m)) = Some v).
  assert (A := E1). apply (rmoved_loop m T (fun ig r h => existsb (fun ip => existsb (fun i => (r =? w_nxy m * ip + i) && (h =? ig)) (seq 0 (w_nxy m))) (mt_planes d))) in A.
  2:{ intros ig t t' Hig E. apply in_seq in Hig. apply hb_ok in E. destruct E as (b & Eb & E).
      apply (rmoved_loop m T (fun ip r h => existsb (fun i => (r =? w_nxy m * ip + i) && (h =? ig)) (seq 0 (w_nxy m)))) in E; [exact E|]. intros ip v v' Hip Ev.
      apply (rmoved_loop m T (fun i r h => (r =? w_nxy m * ip + i) && (h =? ig))) in Ev; [exact Ev|]. intros i u u' Hi Eu. apply in_seq in Hi. apply put_cell_moved with (T := T) in Eu; [exact Eu|lia|].
      intros x w Ew. destruct (read_bufs_ok _ _ _ _ Eb x) as (dd & Ed & _). exists dd, (bget x b). split; [exact Ed|].
      replace (w_nxy m * ip + i) with (i + ip * w_nxy m) by lia. rewrite Nat.mod_add, Nat.mod_small by lia. exact Ew. }
  set (M := fun (r : nat) (sm : SM) => compress (w_ng m) (fun to from => nth (r mod w_nxy m * (w_ng m * w_ng m) + to * w_ng m + from) vals 0%R) = Some sm).
  apply (mmoved_loop m M (fun i r => existsb (fun ip => r =? i + w_nxy m * ip) (mt_planes d))) in H.
  2:{ intros i t t' Hi E. apply in_seq in Hi. apply hb_ok in E. destruct E as (sm & Em & E). apply matrix_of_ok in Em. apply (mmoved_loop m M (fun ip r => r =? i + w_nxy m * ip)) in E; [exact E|].
      intros ip u u' Hip Eu. apply put_matrix_moved with (M := M) in Eu; [exact Eu|now apply compress_ng in Em|]. unfold M. replace (i + w_nxy m * ip) with (i + ip * w_nxy m) by lia. rewrite Nat.mod_add, Nat.mod_small by lia. exact Em. }
  destruct A as (A1 & A2 & A3 & A4). destruct H as (B1 & B2 & B3 & B4 & B5 & B6). cbn [x_eub x_rm x_sc] in A1, A2, A3. split.
  { unfold read_eub in Ee. destruct (xf_eub f) as [[[|n [|]] v]|]; try discriminate. destruct (_ || _); [|discriminate]. injection Ee as <-. exists n. rewrite B1, A1. reflexivity. }
  intros ip i Hi. specialize (B6 (w_nxy m * ip + i)). rewrite existsb_swap in B6.
  rewrite (existsb_ext_in _ (fun a => existsb (fun k => w_nxy m * ip + i =? w_nxy m * a + k) (seq 0 (w_nxy m)))) in B6.
  2:{ intros a _. apply existsb_ext_in. intros k _. f_equal. lia. }
  rewrite visited in B6 by exact Hi.
  assert (A5 : forall x h, h < w_ng m -> if existsb (Nat.eqb ip) (mt_planes d) then T x (w_nxy m * ip + i) h (xget x s1 (w_ng m * (w_nxy m * ip + i) + h)) else xget x s1 (w_ng m * (w_nxy m * ip + i) + h) = xget x s (w_ng m * (w_nxy m * ip + i) + h)).
  { intros x h Hh. specialize (A4 x (w_nxy m * ip + i) h Hh).
    rewrite (existsb_ext_in _ (fun ig => existsb (Nat.eqb ip) (mt_planes d) && (h =? ig))) in A4.
    2:{ intros ig _. rewrite (existsb_ext_in _ (fun a => existsb (fun k => w_nxy m * ip + i =? w_nxy m * a + k) (seq 0 (w_nxy m)) && (h =? ig))); [rewrite existsb_comm_and, visited by exact Hi; reflexivity|].
        intros a _. apply existsb_comm_and. }
    replace (existsb (fun ig => existsb (Nat.eqb ip) (mt_planes d) && (h =? ig)) (seq 0 (w_ng m))) with (existsb (Nat.eqb ip) (mt_planes d)) in A4.
    2:{ destruct (existsb (Nat.eqb ip) (mt_planes d)); cbn [andb].
        - symmetry. apply existsb_exists. exists h. split; [apply in_seq; lia|apply Nat.eqb_refl].
        - symmetry. generalize (seq 0 (w_ng m)). intro l0. induction l0 as [|q l0 IHl0]; [reflexivity|]. cbn [existsb orb]. exact IHl0. }
    destruct (existsb (Nat.eqb ip) (mt_planes d)); [exact A4|]. rewrite A4. destruct x; reflexivity. }
  assert (X : forall x k, xget x s' k = xget x s1 k) by (intros x k; destruct x; cbn [xget]; congruence).
  assert (Mod : (w_nxy m * ip + i) mod w_nxy m = i) by (replace (w_nxy m * ip + i) with (i + ip * w_nxy m) by lia; rewrite Nat.mod_add, Nat.mod_small; lia).
  destruct (existsb (Nat.eqb ip) (mt_planes d)).
  - destruct B6 as (B6 & B7). unfold M in B6. rewrite Mod in B6. split; [|split; [exists e0, vals; auto|exact B7]].
    intros x h Hh. destruct (A5 x h Hh) as (dd & vv & V1 & V2). rewrite Mod in V2. exists dd, vv. split; [exact V1|]. now rewrite X.
  - destruct B6 as (B6 & B7). split; [congruence|]. intros h Hh. split; [rewrite B7 by exact Hh; congruence|]. intro x. rewrite X. now apply A5.
Qed.

(** ** The checks *)
Lemma seen_loop : forall l (seen seen' : nat -> bool), hloop (fun (ip : nat) (seen : nat -> bool) => if seen ip then HThrow else HOk (fset seen ip true)) l seen = HOk seen' ->
  (forall ip, In ip l -> seen ip = false) /\ forall ip, seen' ip = seen ip || existsb (Nat.eqb ip) l.
Proof.
  induction l as [|a l IH]; intros seen seen' H; cbn [hloop] in H.
  - injection H as <-. split; [intros ip []|]. intro ip. cbn. now rewrite orb_false_r.
  - destruct (seen a) eqn:E; [discriminate|]. cbn [hb] in H. apply IH in H. destruct H as (H1 & H2). split.
    + intros ip [<-|Hip]; [exact E|]. specialize (H1 ip Hip). unfold fset in H1. destruct (Nat.eqb_spec ip a); [discriminate|exact H1].
    + intro ip. rewrite H2. cbn [existsb]. unfold fset. destruct (Nat.eqb_spec ip a) as [->|]; cbn [orb]; [now rewrite orb_true_r|reflexivity].
Qed.
(** A tag that the checks accept. *)
Definition tag_good (m : XMesh) (d : DTag) (f : XFile) : Prop :=
  dt_file d = Some (Some f) /\ (0 <= mt_bot d < Z.of_nat (w_np m))%Z /\ (0 <= mt_top d < Z.of_nat (w_np m))%Z /\
  exists r v, xf_tr f 0 = Some (1 :: w_ny m :: w_nx m :: r, v).
Lemma check_tag_ok : forall m d seen seen', check_tag m d seen = HOk seen' ->
  (exists f, tag_good m d f) /\ (forall ip, In ip (mt_planes d) -> seen ip = false) /\ forall ip, seen' ip = seen ip || existsb (Nat.eqb ip) (mt_planes d).
Proof.
  intros m d seen seen' H. unfold check_tag in H. destruct (_ || _) eqn:Eb; [discriminate|]. destruct (_ || _) eqn:Et in H; [discriminate|]. apply orb_false_iff in Eb, Et. destruct Eb as (Eb1 & Eb2). destruct Et as (Et1 & Et2).
  apply Z.ltb_ge in Eb1, Et1. apply Z.leb_gt in Eb2, Et2. destruct (dt_file d) as [o|] eqn:Ef; [|discriminate].
  apply hb_ok in H. destruct H as (f & E0 & H). apply dt_open_ok in E0. apply hb_ok in H. destruct H as ([[d0 d1] d2] & E1 & H).
  destruct (Nat.eqb_spec d2 (w_nx m)) as [->|]; [|discriminate]. destruct (Nat.eqb_spec d1 (w_ny m)) as [->|]; [|discriminate]. destruct (Nat.eqb_spec d0 1) as [->|]; [|discriminate]. cbn [negb] in H.
  apply seen_loop in H. destruct H as (H1 & H2). split; [|auto]. exists f. split; [congruence|]. split; [lia|]. split; [lia|]. unfold dims3 in E1. destruct (xf_tr f 0) as [[[|a [|b [|c r]]] v]|]; try discriminate. injection E1 as -> -> ->. eauto.
Qed.
Lemma check_ok : forall m ds seen seen', hloop (check_tag m) ds seen = HOk seen' ->
  (forall d, In d ds -> exists f, tag_good m d f) /\ (forall d ip, In d ds -> In ip (mt_planes d) -> seen ip = false) /\
  forall d1 d2 l1 l2 l3 ip, ds = l1 ++ d1 :: l2 ++ d2 :: l3 -> In ip (mt_planes d1) -> ~ In ip (mt_planes d2).
Proof.
  intros m. induction ds as [|d ds IH]; intros seen seen' H; cbn [hloop] in H.
  - split; [intros d []|]. split; [intros d ip []|]. intros d1 d2 [|] l2 l3 ip E; discriminate.
  - apply hb_ok in H. destruct H as (s1 & E1 & E2). apply check_tag_ok in E1. destruct E1 as (G & S1 & S2). destruct (IH _ _ E2) as (I1 & I2 & I3). split; [|split].
    + intros d' [<-|Hd]; auto.
    + intros d' ip [<-|Hd] Hip; [now apply S1|]. specialize (I2 d' ip Hd Hip). rewrite S2 in I2. now apply orb_false_iff in I2.
    + intros d1 d2 [|e l1] l2 l3 ip E H1 H2; cbn [app] in E; injection E as -> E.
      * assert (Hd : In d2 ds) by (rewrite E; apply in_or_app; right; now left). specialize (I2 d2 ip Hd H2). rewrite S2 in I2. apply orb_false_iff in I2. destruct I2 as (_ & I2).
        assert (existsb (Nat.eqb ip) (mt_planes d1) = true) by (apply existsb_exists; exists ip; split; [exact H1|apply Nat.eqb_refl]). congruence.
      * exact (I3 d1 d2 l1 l2 l3 ip E H1 H2).
Qed.

(** What several tags one after another leave, when no macroplane is in two of them. *)
Lemma takes_untouched : forall m f c i s s' r, takes m f c i s r -> untouched m s s' r -> takes m f c i s' r.
Proof.
  intros m f c i s s' r (A & B & C) (U1 & U2). split; [|split].
  - intros x h Hh. destruct (A x h Hh) as (dd & vv & V1 & V2). exists dd, vv. split; [exact V1|]. destruct (U2 h Hh) as (_ & U). now rewrite U.
  - destruct B as (e0 & vals & B1 & B2). exists e0, vals. split; [exact B1|]. now rewrite U1.
  - intros h Hh. destruct (C h Hh) as (v & V1 & V2). exists v. destruct (U2 h Hh) as (U3 & U). specialize (U TR). cbn [xget] in U. rewrite U1, U3, U. auto.
Qed.
Lemma untouched_trans : forall m s1 s2 s3 r, untouched m s1 s2 r -> untouched m s2 s3 r -> untouched m s1 s3 r.
Proof. intros m s1 s2 s3 r (A1 & A2) (B1 & B2). split; [congruence|]. intros h Hh. destruct (A2 h Hh) as (P & Q). destruct (B2 h Hh) as (P' & Q'). split; [congruence|]. intro x. rewrite Q', Q. reflexivity. Qed.
Lemma tags_spec : forall debug m ds s s', (forall d, In d ds -> exists f, dt_file d = Some (Some f) /\ right_groups m f) ->
  (forall d1 d2 l1 l2 l3 ip, ds = l1 ++ d1 :: l2 ++ d2 :: l3 -> In ip (mt_planes d1) -> ~ In ip (mt_planes d2)) -> hloop (apply_tag debug m) ds s = HOk s' ->
  forall ip i, i < w_nxy m -> ((forall d, In d ds -> ~ In ip (mt_planes d)) -> untouched m s s' (w_nxy m * ip + i)) /\
    forall d f, In d ds -> In ip (mt_planes d) -> dt_file d = Some (Some f) -> takes m f (w_cell m i) i s' (w_nxy m * ip + i).
Proof.
  intros debug m. induction ds as [|d ds IH]; intros s s' F D H ip i Hi; cbn [hloop] in H.
  - injection H as <-. split; [intros _; repeat split|intros d f []].
  - apply hb_ok in H. destruct H as (s1 & E1 & E2). destruct (F d (or_introl eq_refl)) as (f0 & Ef & Gf).
    destruct (tag_spec debug m d s s1 f0 Ef Gf E1) as (_ & S). specialize (S ip i Hi).
    assert (F' : forall d, In d ds -> exists f, dt_file d = Some (Some f) /\ right_groups m f) by (intros d' Hd; apply F; now right).
    assert (D' : forall d1 d2 l1 l2 l3 ip, ds = l1 ++ d1 :: l2 ++ d2 :: l3 -> In ip (mt_planes d1) -> ~ In ip (mt_planes d2)).
    { intros d1 d2 l1 l2 l3 q E. apply (D d1 d2 (d :: l1) l2 l3 q). cbn [app]. now rewrite E. }
    destruct (IH s1 s' F' D' E2 ip i Hi) as (U & K). destruct (existsb (Nat.eqb ip) (mt_planes d)) eqn:Ex.
    + apply existsb_exists in Ex. destruct Ex as (q & Hq & Eq). apply Nat.eqb_eq in Eq. subst q.
      assert (N : forall d', In d' ds -> ~ In ip (mt_planes d')). { intros d' Hd. apply in_split in Hd. destruct Hd as (l2 & l3 & E). apply (D d d' [] l2 l3 ip); [cbn; now rewrite E|exact Hq]. }
      split; [intro H; exfalso; apply (H d (or_introl eq_refl)); exact Hq|]. intros d' f [<-|Hd] Hip Ef'.
      * rewrite Ef in Ef'. injection Ef' as <-. eapply takes_untouched; [exact S|apply U; exact N].
      * exfalso. exact (N d' Hd Hip).
    + assert (Nd : ~ In ip (mt_planes d)). { intro X. assert (existsb (Nat.eqb ip) (mt_planes d) = true) by (apply existsb_exists; exists ip; split; [exact X|apply Nat.eqb_refl]). congruence. }
      split.
      * intro H. eapply untouched_trans; [exact S|]. apply U. intros d' Hd. apply H. now right.
      * intros d' f [<-|Hd] Hip Ef'; [contradiction|]. now apply (K d' f).
Qed.

(** ** C183 *)
(** Tags that are not one whole-core file. *)
Definition plane_wise (m : XMesh) (ds : list DTag) : Prop := forall d f r v, ds = [d] -> dt_file d = Some (Some f) -> xf_tr f 0 <> Some (w_np m :: w_ny m :: w_nx m :: r, v).
Lemma plane_wise_multi : forall debug m ds s s', plane_wise m ds -> xs_from_files debug m ds s = HOk s' -> read_data_multi debug m ds s = HOk s'.
Proof.
  intros debug m [|d [|d2 ds]] s s' P H; cbn [xs_from_files] in H; [discriminate| |exact H]. apply hb_ok in H. destruct H as (f & E0 & H). apply hb_ok in H. destruct H as ([[d0 d1] d2] & E1 & H).
  destruct (_ && _) eqn:E; [|exact H]. exfalso. apply andb_true_iff in E. destruct E as (E & Ez). apply andb_true_iff in E. destruct E as (Ex & Ey). apply Nat.eqb_eq in Ex, Ey, Ez. subst.
  unfold dims3 in E1. destruct (xf_tr f 0) as [[[|a [|b [|c r]]] v]|] eqn:Et; try discriminate. injection E1 as -> -> ->. exact (P d f r v eq_refl (dt_open_ok _ _ E0) Et).
Qed.
(** C183: the mesh made from plane-wise files.  If the tags are accepted, every one names a file with data of one plane of the mesh and
    a range of its macroplanes, no macroplane is in two of them; a macroplane in the range of a tag has the cross sections of its file, and one
    in no range has those it was homogenized with. *)
Theorem C183_planes : forall debug m ds s s', tags_right m ds -> plane_wise m ds -> xs_from_files debug m ds s = HOk s' ->
  (forall d, In d ds -> exists f, tag_good m d f) /\
  (forall e1 e2 l1 l2 l3 ip, ds = l1 ++ e1 :: l2 ++ e2 :: l3 -> covered e1 ip -> ~ covered e2 ip) /\
  forall ip i, i < w_nxy m ->
    (forall d f, In d ds -> covered d ip -> dt_file d = Some (Some f) -> takes m f (w_cell m i) i s' (w_nxy m * ip + i)) /\
    ((forall d, In d ds -> ~ covered d ip) -> untouched m s s' (w_nxy m * ip + i)).
Proof.
  intros debug m all s s' G P H. apply plane_wise_multi in H; [|exact P]. unfold read_data_multi in H. apply hb_ok in H. destruct H as (seen & Ec & H).
  destruct (check_ok _ _ _ _ Ec) as (C1 & _ & C3).
  assert (Cv : forall d ip, In d all -> (In ip (mt_planes d) <-> covered d ip)).
  { intros d ip Hd. destruct (C1 d Hd) as (f & _ & B & T & _). rewrite <- (planes_in d ip) by lia. rewrite existsb_exists. split; [intro X; exists ip; split; [exact X|apply Nat.eqb_refl]|]. intros (q & Hq & E). apply Nat.eqb_eq in E. now subst q. }
  split; [exact C1|]. split.
  - intros e1 e2 l1 l2 l3 ip E H1 H2. apply (C3 e1 e2 l1 l2 l3 ip E).
    + apply Cv; [rewrite E; apply in_or_app; right; now left|exact H1].
    + apply Cv; [rewrite E; apply in_or_app; right; right; apply in_or_app; right; now left|exact H2].
  - intros ip i Hi. destruct (tags_spec debug m all s s') with (ip := ip) (i := i) as (U & K); auto.
    + intros d Hd. destruct (C1 d Hd) as (f & Ef & _). exists f. split; [exact Ef|]. exact (G d f Hd Ef).
    + split.
      * intros d f Hd Hc Ef. apply (K d f Hd); [now apply Cv|exact Ef].
      * intro N. apply U. intros d Hd X. apply (N d Hd). now apply Cv.
Qed.
Print Assumptions C183_planes.
(** C183: the energy bounds are then those of the last tag's file. *)
Theorem C183_bounds : forall debug m ds d s s', tags_right m (ds ++ [d]) -> plane_wise m (ds ++ [d]) -> xs_from_files debug m (ds ++ [d]) s = HOk s' ->
  exists f n, dt_file d = Some (Some f) /\ xf_eub f = Some ([n], x_eub s').
Proof.
  intros debug m ds d s s' G P H. apply plane_wise_multi in H; [|exact P]. unfold read_data_multi in H. apply hb_ok in H. destruct H as (seen & _ & H).
  assert (K : forall l t t', hloop (apply_tag debug m) (l ++ [d]) t = HOk t' -> exists u, apply_tag debug m d u = HOk t').
  { induction l as [|a l IH]; intros t t' E; cbn [app hloop] in E; apply hb_ok in E; destruct E as (u & E1 & E2); [injection E2 as <-; eauto|eapply IH; exact E2]. }
  destruct (K _ _ _ H) as (u & E). assert (E' := E). unfold apply_tag in E'. apply hb_ok in E'. destruct E' as (f & E0 & _). apply dt_open_ok in E0.
  destruct (tag_spec debug m d u s' f E0) as ((n & En) & _); [apply (G d f); [apply in_or_app; right; now left|exact E0]|exact E|]. eauto.
Qed.
Print Assumptions C183_bounds.

(** C183: one file with data of the whole core, if accepted, sets every region and leaves the energy bounds of the mesh. *)
Theorem C183_whole : forall debug m d f s s' r0 v0, dt_file d = Some (Some f) -> right_groups m f -> xf_tr f 0 = Some (w_np m :: w_ny m :: w_nx m :: r0, v0) ->
  xs_from_files debug m [d] s = HOk s' -> x_eub s' = x_eub s /\ (dt_bot d = None \/ dt_bot d = Some 0%Z) /\ (dt_top d = None \/ dt_top d = Some (Z.of_nat (w_np m) - 1)%Z) /\
  forall r, r < w_nreg m -> takes m f (data_cell (w_cell m) (w_nxy m) r) r s' r.
Proof.
  intros debug m d f s s' r0 v0 Ef G Ed H. cbn [xs_from_files] in H. unfold dt_open in H. rewrite Ef in H. cbn [hb] in H. unfold dims3 in H. rewrite Ed in H. cbn [hb] in H. rewrite !Nat.eqb_refl in H. cbn [andb] in H.
  destruct (single_spec debug m d s s' f Ef G H) as (A & B). split; [exact A|]. unfold read_single in H. destruct (_ || _) eqn:E; [discriminate|]. apply orb_false_iff in E. destruct E as (E1 & E2).
  apply negb_false_iff, Z.eqb_eq in E1. apply negb_false_iff, Z.eqb_eq in E2. split; [destruct (dt_bot d); subst; auto|]. split; [destruct (dt_top d); subst; auto|]. exact B.
Qed.
Print Assumptions C183_whole.

(** The matrices of a mesh: each made from a dense one with as many groups as the mesh has. *)
Definition made (m : XMesh) (s : HX) : Prop := forall i, i < w_nreg m -> exists mat, compress (w_ng m) mat = Some (x_sc s i).
Lemma dense_all_ok : forall m (sc : nat -> SM) l, (forall i, In i l -> exists mat, compress (w_ng m) mat = Some (sc i)) ->
  exists v, dense_all (map sc l) = Some v /\ length v = length l * (w_ng m * w_ng m) /\
  forall k i mat, nth_error l k = Some i -> compress (w_ng m) mat = Some (sc i) -> forall to from, to < w_ng m -> from < w_ng m -> nth_error v (k * (w_ng m * w_ng m) + to * w_ng m + from) = Some (banded (w_ng m) mat to from).
Proof.
  intros m sc. induction l as [|a l IH]; intros H; cbn [map dense_all].
  - exists []. split; [reflexivity|]. split; [reflexivity|]. intros [|k]; discriminate.
  - destruct IH as (v & E & L & P); [intros i Hi; apply H; now right|]. destruct (H a (or_introl eq_refl)) as (mat & Em). destruct (as_vector_banded _ _ _ Em) as (w & Ew & Lw & Pw). rewrite Ew, E.
    exists (w ++ v). split; [reflexivity|]. split; [rewrite app_length, Lw, L; cbn [length]; lia|]. intros [|k] i mat' Ek Em' to from Ht Hf.
    + injection Ek as <-. assert (to * w_ng m + from < w_ng m * w_ng m) by nia. rewrite Nat.mul_0_l, Nat.add_0_l. rewrite nth_error_app1 by lia. destruct (as_vector_banded _ _ _ Em') as (w' & Ew' & _ & Pw'). rewrite Ew in Ew'. injection Ew' as <-.
      rewrite <- (Pw' to from Ht Hf). f_equal. lia.
    + cbn [nth_error] in Ek. rewrite nth_error_app2 by (rewrite Lw; nia). rewrite Lw. replace (S k * (w_ng m * w_ng m) + to * w_ng m + from - w_ng m * w_ng m) with (k * (w_ng m * w_ng m) + to * w_ng m + from) by nia. now apply (P k i mat').
Qed.

Lemma out_set_ok : forall m a ig, fills (w_cell m) (w_nxy m) -> exists b, out_set m a ig = Some ([w_np m; w_ny m; w_nx m], b) /\ length b = w_nreg m /\
  forall r, r < w_nreg m -> nth_error b (data_cell (w_cell m) (w_nxy m) r) = Some (a (w_ng m * r + ig)).
Proof.
  intros m a ig F. unfold out_set. set (vals := map (fun i => a (w_ng m * i + ig)) (seq 0 (w_nreg m))). assert (L : length vals = w_nxy m * w_np m) by (unfold vals; now rewrite map_length, seq_length).
  destruct (write_data_ok (w_cell m) (w_nxy m) (w_np m) vals 0 (repeat 0%R (length vals)) F) as (b & E & Lb & P & _); [now rewrite repeat_length|lia|]. unfold output_data. rewrite E. exists b. split; [reflexivity|]. split; [exact Lb|].
  intros r Hr. apply (P r). unfold vals. rewrite nth_error_map_seq by exact Hr. reflexivity.
Qed.

(** C183: what a mesh writes, another mesh of the same shape reads back: every cross section of every region and the scattering matrices exactly,
    whatever their entries, and the removal cross sections that go with them, whatever the mesh held before; its energy bounds stay. *)
Theorem C183_round_trip : forall debug m s s0 bot top, fills (w_cell m) (w_nxy m) -> 0 < w_ng m -> made m s -> (bot = None \/ bot = Some 0%Z) -> (top = None \/ top = Some (Z.of_nat (w_np m) - 1)%Z) ->
  exists f s', xs_output m s = Some f /\ xs_from_files debug m [mkDTag top bot (Some (Some f))] s0 = HOk s' /\ x_eub s' = x_eub s0 /\
    forall r, r < w_nreg m -> x_sc s' r = x_sc s r /\ rm_right m s' r /\ forall x h, h < w_ng m -> xget x s' (w_ng m * r + h) = xget x s (w_ng m * r + h).
Proof.
  intros debug m s s0 bot top F Hg Md Hb Ht.
  destruct (dense_all_ok m (x_sc s) (seq 0 (w_nreg m))) as (v & Ev & Lv & Pv); [intros i Hi; apply in_seq in Hi; apply Md; lia|]. rewrite seq_length in Lv.
  assert (Eo : exists f, xs_output m s = Some f /\ (forall x h, h < w_ng m -> xset x f h = out_set m (xget x s) h) /\ xf_sc f = Some ([w_nreg m; w_ng m; w_ng m], v)).
  { unfold xs_output. rewrite Ev. replace (length v <=? w_nreg m * w_ng m * w_ng m) with true by (symmetry; apply Nat.leb_le; lia).
    replace (forallb _ (seq 0 (w_ng m))) with true.
    2:{ symmetry. apply forallb_forall. intros ig _. destruct (out_set_ok m (x_tr s) ig F) as (? & -> & _). destruct (out_set_ok m (x_nf s) ig F) as (? & -> & _). destruct (out_set_ok m (x_ch s) ig F) as (? & -> & _). destruct (out_set_ok m (x_f s) ig F) as (? & -> & _). reflexivity. }
    eexists. split; [reflexivity|]. cbn [xf_sc]. split.
    - intros x h Hh. assert (B : (h <? w_ng m) = true) by now apply Nat.ltb_lt. destruct x; cbn [xset xf_tr xf_nf xf_ch xf_f xget]; now rewrite B.
    - replace (w_nreg m * w_ng m * w_ng m - length v) with 0 by lia. cbn [repeat]. now rewrite app_nil_r. }
  destruct Eo as (f & Ef & Px & Ps). exists f. set (d := mkDTag top bot (Some (Some f))).
  assert (G : right_groups m f). { intros dd vv E. rewrite Ps in E. injection E as <- <-. exists (w_nreg m). auto. }
  assert (T : exists s', read_single debug m d s0 = HOk s').
  { unfold read_single. cbn [d dt_bot dt_top]. replace (negb _ || negb _) with false.
    2:{ destruct Hb as [-> | ->], Ht as [-> | ->]; rewrite ?Z.eqb_refl; reflexivity. }
    cbn [dt_open dt_file hb]. change (dt_open d) with (HOk f : HOut XFile). cbn [hb].
    match goal with |- context [hb (hloop ?B ?l s0) ?K] => destruct (hloop_total (fun _ => True) B l s0 I) as (s1 & -> & _) end.
    - intros ig t Hig _. apply in_seq in Hig. destruct (read_bufs_total (w_nreg m) ig f) as (b & Eb & Lb).
      { intro x. rewrite Px by lia. destruct (out_set_ok m (xget x s) ig F) as (b & Eb & Lb & _). eauto. }
      rewrite Eb. cbn [hb]. apply hloop_total; [exact I|]. intros i u Hi _. apply in_seq in Hi. destruct (put_cell_total m ig i (data_cell (w_cell m) (w_nxy m) i) b u) as (u' & Eu); [lia|lia| |eauto].
      intro x. rewrite Lb. apply data_cell_lt; [exact F|]. unfold w_nreg in Hi. lia.
    - cbn [hb]. unfold read_scat. rewrite Ps. cbn [hb]. rewrite Nat.eqb_refl. cbn [negb].
      destruct (hloop_total (fun _ => True) (fun (i : nat) (s : HX) => hb (matrix_of debug (w_ng m) (w_ng m) v i) (fun sm => put_matrix m i sm s)) (seq 0 (w_nreg m)) s1 I) as (s' & E & _); [|eauto].
      intros i u Hi _. apply in_seq in Hi. destruct (matrix_of_total debug (w_ng m) v i) as (sm & Em); [rewrite Lv; apply Nat.mul_le_mono_r; lia|]. rewrite Em. cbn [hb]. apply matrix_of_ok in Em. apply compress_ng in Em. destruct Em as (N & S).
      destruct (put_matrix_total m i sm u N) as (u' & Eu); [lia|intros h Hh; rewrite (S h Hh); eauto|]. eauto. }
  destruct T as (s' & T). exists s'. split; [exact Ef|]. destruct (single_spec debug m d s0 s' f eq_refl G T) as (A & B). split; [|split; [exact A|]].
  - cbn [xs_from_files]. change (dt_open d) with (HOk f : HOut XFile). cbn [hb]. unfold dims3. pose proof (Px TR 0 Hg) as P0. cbn [xset xget] in P0. rewrite P0. destruct (out_set_ok m (x_tr s) 0 F) as (b & -> & _). cbn [hb]. now rewrite !Nat.eqb_refl.
  - intros r Hr. destruct (B r Hr) as (B1 & (e0 & vals & B2 & B3) & B4). split; [|split; [exact B4|]].
    + rewrite Ps in B2. injection B2 as <- <-. destruct (Md r Hr) as (mat & Em). assert (X : compress (w_ng m) (fun to from => nth (r * (w_ng m * w_ng m) + to * w_ng m + from) v 0%R) = compress (w_ng m) mat).
      { apply compress_agree. intros to from Hto Hfrom. apply nth_error_nth. apply (Pv r r mat); auto. rewrite (nth_error_nth' _ 0) by (rewrite seq_length; lia). now rewrite seq_nth by lia. }
      congruence.
    + intros x h Hh. destruct (B1 x h Hh) as (dd & vv & V1 & V2). rewrite Px in V1 by exact Hh. destruct (out_set_ok m (xget x s) h F) as (b & Eb & _ & Pb). rewrite Eb in V1. injection V1 as <- <-. rewrite (Pb r Hr) in V2. now injection V2.
Qed.
Print Assumptions C183_round_trip.

(** A mesh of two pins and two macroplanes, pins numbered against their cells, and cross sections of one group. *)
Definition xmesh2 : XMesh := mkXMesh 2 1 2 1 (fun i => 1 - i).
Definition sm1 (v : R) : SM := mkSM 1 [v] [(0 + v)%R] [mkRow 0 0 0].
Lemma sm1_made : forall v, compress 1 (fun _ _ => v) = Some (sm1 v).
Proof. intro v. unfold compress. cbn [seq map]. unfold band. cbn [first_bound last_bound Nat.sub Nat.ltb Nat.leb Nat.eqb andb]. destruct (Rltb 0 v); reflexivity. Qed.
Definition hx1 : HX := mkHX [10%R] (fun j => INR j) (fun _ => 2%R) (fun _ => 1%R) (fun _ => 1%R) (fun _ => 0%R) (fun i => sm1 (INR i / 4)).
Example C183_instance : fills (w_cell xmesh2) (w_nxy xmesh2) /\ 0 < w_ng xmesh2 /\ w_nreg xmesh2 = 4 /\ made xmesh2 hx1 /\ x_tr hx1 3 <> x_tr hx1 2.
Proof.
  split; [|split; [cbn; lia|split; [reflexivity|split]]].
  - change (fills (fun i => 1 - i) 2). unfold fills. split; [intros i Hi; lia|split; [intros i j Hi Hj E; lia|]]. intros c0 Hc. exists (1 - c0). lia.
  - intros i _. eexists. apply sm1_made.
  - cbn. lra.
Qed.
(** A file with data of one plane, given for the upper macroplane only. *)
Definition plane_file : XFile := mkXFile (Some ([1], [20%R])) (fun _ => Some ([1; 1; 2], [5; 6]%R)) (fun _ => Some ([1; 1; 2], [0; 0]%R)) (fun _ => Some ([1; 1; 2], [0; 0]%R)) (fun _ => Some ([1; 1; 2], [0; 0]%R)) (Some ([2; 1; 1], [1; 2]%R)).
Definition upper_tag : DTag := mkDTag (Some 1%Z) (Some 1%Z) (Some (Some plane_file)).
Lemma plane_right : right_groups xmesh2 plane_file.
Proof. intros d v E. cbn in E. injection E as <- <-. exists 2. auto. Qed.
Lemma matrix_one : forall debug vals i, i < length vals -> matrix_of debug 1 1 vals i = HOk (sm1 (nth i vals 0%R)).
Proof.
  intros debug vals i H. unfold matrix_of. rewrite Nat.eqb_refl, andb_false_r. replace ((1 =? 0) || (i * (1 * 1) + (1 - 1) * 1 + 1 <=? length vals)) with true by (symmetry; apply orb_true_iff; right; apply Nat.leb_le; lia).
  rewrite (compress_agree 1 (fun _ _ => nth i vals 0%R)); [now rewrite sm1_made|]. intros to from Ht Hf. assert (to = 0) by lia. assert (from = 0) by lia. subst. unfold banded, band. cbn [first_bound last_bound Nat.sub Nat.ltb Nat.leb Nat.eqb andb].
  replace (i * (1 * 1) + 0 * 1 + 0) with i by lia. destruct (Rltb 0 (nth i vals 0%R)); reflexivity.
Qed.
Example C183_planes_instance : tags_right xmesh2 [upper_tag] /\ plane_wise xmesh2 [upper_tag] /\ exists s', xs_from_files false xmesh2 [upper_tag] hx1 = HOk s' /\ x_tr s' 2 = 6%R /\ x_tr s' 3 = 5%R /\ x_tr s' 1 = 1%R /\ x_rm s' 3 = 3%R /\ x_eub s' = [20%R].
Proof.
  split; [|split].
  - intros d f [<-|[]] E. injection E as <-. apply plane_right.
  - intros d f r v E Ef. injection E as <-. injection Ef as <-. discriminate.
  - cbv -[matrix_of sm1 Rminus INR Rdiv IZR]. rewrite matrix_one by (cbn; lia). cbv -[matrix_of Rminus INR Rdiv IZR Rplus]. rewrite matrix_one by (cbn; lia). cbv -[Rminus INR Rdiv IZR Rplus].
    eexists. split; [reflexivity|]. repeat split; try reflexivity; cbn; lra.
Qed.

(** ** C184 *)
Lemma put_cell_fine : forall m ig ixs icell b s, ig < w_ng m -> ixs < w_nreg m -> (forall x, icell < length (bget x b)) -> fine (put_cell m ig ixs icell b s).
Proof. intros m ig ixs icell b s H1 H2 H3. destruct (put_cell_total m ig ixs icell b s H1 H2 H3) as (s' & ->). apply fine_ok. Qed.
Lemma put_matrix_fine : forall debug m vals i ixs e0 sm s, matrix_of debug (w_ng m) (w_ng m) vals i = HOk sm -> length vals = e0 * (w_ng m * w_ng m) -> ixs < w_nreg m -> fine (put_matrix m ixs sm s).
Proof.
  intros debug m vals i ixs e0 sm s Em L H. apply matrix_of_ok in Em. apply compress_ng in Em. destruct Em as (N & S). destruct (put_matrix_total m ixs sm s N H) as (s' & ->); [intros h Hh; rewrite (S h Hh); eauto|apply fine_ok].
Qed.
Lemma read_scat_fine : forall f, fine (read_scat f).
Proof. intro f. unfold read_scat. destruct (xf_sc f) as [[[|a [|b [|c [|e r]]]] v]|]; try apply fine_throw. apply fine_ok. Qed.
Lemma matrix_fine : forall debug n vals i e0, length vals = e0 * (n * n) -> i < e0 -> fine (matrix_of debug n n vals i).
Proof. intros debug n vals i e0 L H. destruct (matrix_of_total debug n vals i) as (sm & ->); [rewrite L; apply Nat.mul_le_mono_r; lia|apply fine_ok]. Qed.

(** What the files must be for the reading to be defined: a first data set of three or more dimensions, scattering data for the groups of the mesh and
    for at least the pins of a plane. *)
Definition readable (m : XMesh) (f : XFile) : Prop :=
  right_groups m f /\ (forall d v, xf_tr f 0 = Some (d, v) -> 3 <= length d) /\ (forall e0 r v, xf_sc f = Some (e0 :: r, v) -> w_nxy m <= e0).
Lemma dims3_fine : forall m f, readable m f -> fine (dims3 f).
Proof. intros m f (_ & H & _). unfold dims3. destruct (xf_tr f 0) as [[d v]|]; [|apply fine_throw]. specialize (H d v eq_refl). destruct d as [|a [|b [|c r]]]; cbn in H; try lia. apply fine_ok. Qed.
Lemma open_fine : forall d, fine (dt_open d).
Proof. intro d. unfold dt_open. destruct (dt_file d) as [[f|]|]; split; discriminate. Qed.
(** C184: for files that are so, whatever else they hold or lack and whatever the tags say, the outcome is a mesh or an exception. *)
Theorem C184_safe : forall debug m ds s, fills (w_cell m) (w_nxy m) -> (forall d f, In d ds -> dt_file d = Some (Some f) -> readable m f) -> fine (xs_from_files debug m ds s).
Proof.
  intros debug m ds s F R.
  assert (Multi : fine (read_data_multi debug m ds s)).
  { unfold read_data_multi. apply fine_hb.
    - apply (fine_loop (fun _ => True)); [exact I|]. intros d seen Hd _. split; [|auto]. unfold check_tag. destruct (_ || _); [apply fine_throw|]. destruct (_ || _); [apply fine_throw|]. destruct (dt_file d) as [o|] eqn:Ef; [|apply fine_throw].
      apply fine_hb; [apply open_fine|]. intros f E0. apply dt_open_ok in E0. apply fine_hb; [apply (dims3_fine m); apply (R d f Hd E0)|]. intros [[d0 d1] d2] _. destruct (negb _); [apply fine_throw|]. destruct (negb _); [apply fine_throw|]. destruct (negb _); [apply fine_throw|].
      apply (fine_loop (fun _ => True)); [exact I|]. intros ip t _ _. split; [|auto]. destruct (t ip); [apply fine_throw|apply fine_ok].
    - intros seen Ec. destruct (check_ok _ _ _ _ Ec) as (C1 & _). apply (fine_loop (fun _ => True)); [exact I|]. intros d t Hd _. split; [|auto]. destruct (C1 d Hd) as (f & Ef & Hb & Ht & _). destruct (R d f Hd Ef) as (G & _ & Hs).
      assert (Pl : forall ip, In ip (mt_planes d) -> ip < w_np m). { intros ip Hip. unfold mt_planes in Hip. apply in_seq in Hip. lia. }
      unfold apply_tag. apply fine_hb; [apply open_fine|]. intros f' E0. apply dt_open_ok in E0. rewrite Ef in E0. injection E0 as <-. apply fine_hb.
      { unfold read_eub. destruct (xf_eub f) as [[[|n [|]] v]|]; try apply fine_throw. destruct (_ || _); [apply fine_ok|apply fine_throw]. }
      intros eub _. apply fine_hb.
      { apply (fine_loop (fun _ => True)); [exact I|]. intros ig u Hig _. apply in_seq in Hig. split; [|auto]. apply fine_hb; [apply read_bufs_fine|]. intros b Eb. apply (fine_loop (fun _ => True)); [exact I|]. intros ip v Hip _. split; [|auto].
        apply (fine_loop (fun _ => True)); [exact I|]. intros i w Hi _. apply in_seq in Hi. split; [|auto]. apply put_cell_fine; [lia| |].
        - specialize (Pl ip Hip). unfold w_nreg. nia.
        - intro x. destruct (read_bufs_ok _ _ _ _ Eb x) as (dd & _ & [Z | ->]); [lia|]. apply F. lia. }
      intros s1 _. apply fine_hb; [apply read_scat_fine|]. intros [[[e0 e1] e2] vals] E2. destruct (read_scat_ok m f e0 e1 e2 vals G E2) as (Es & -> & -> & Lv). specialize (Hs _ _ _ Es).
      apply (fine_loop (fun _ => True)); [exact I|]. intros i u Hi _. apply in_seq in Hi. split; [|auto]. apply fine_hb; [apply (matrix_fine debug _ _ _ e0 Lv); lia|]. intros sm Em. apply (fine_loop (fun _ => True)); [exact I|]. intros ip v Hip _. split; [|auto].
      apply (put_matrix_fine debug m vals i _ e0 sm v Em Lv). specialize (Pl ip Hip). unfold w_nreg. nia. }
  destruct ds as [|d [|d2 ds]]; cbn [xs_from_files]; [apply fine_throw| |exact Multi]. apply fine_hb; [apply open_fine|]. intros f E0. apply dt_open_ok in E0. pose proof (R d f (or_introl eq_refl) E0) as Rf. apply fine_hb; [now apply (dims3_fine m)|].
  intros [[d0 d1] d2] _. destruct (_ && _); [|exact Multi]. clear Multi. unfold read_single. destruct (_ || _); [apply fine_throw|]. apply fine_hb; [apply open_fine|]. intros f' E1. apply dt_open_ok in E1. rewrite E0 in E1. injection E1 as <-. destruct Rf as (G & _ & _). apply fine_hb.
  { apply (fine_loop (fun _ => True)); [exact I|]. intros ig u Hig _. apply in_seq in Hig. split; [|auto]. apply fine_hb; [apply read_bufs_fine|]. intros b Eb. apply (fine_loop (fun _ => True)); [exact I|]. intros i v Hi _. apply in_seq in Hi. split; [|auto]. apply put_cell_fine; [lia|lia|].
    intro x. destruct (read_bufs_ok _ _ _ _ Eb x) as (dd & _ & [Z | ->]); [lia|]. apply data_cell_lt; [exact F|]. unfold w_nreg in Hi. lia. }
  intros s1 _. apply fine_hb; [apply read_scat_fine|]. intros [[[e0 e1] e2] vals] E2. destruct (read_scat_ok m f e0 e1 e2 vals G E2) as (Es & -> & -> & Lv). destruct (Nat.eqb_spec e0 (w_nreg m)) as [->|]; cbn [negb]; [|apply fine_throw].
  apply (fine_loop (fun _ => True)); [exact I|]. intros i u Hi _. apply in_seq in Hi. split; [|auto]. apply fine_hb; [apply (matrix_fine debug _ _ _ (w_nreg m) Lv); lia|]. intros sm Em. apply (put_matrix_fine debug m vals i _ (w_nreg m) sm u Em Lv). lia.
Qed.
Print Assumptions C184_safe.
Example C184_instance : fills (w_cell xmesh2) (w_nxy xmesh2) /\ readable xmesh2 plane_file.
Proof. split; [apply C183_instance|]. split; [apply plane_right|]. split; intros; cbn in *; [injection H as <- <-; cbn; lia|injection H as <- <- <-; lia]. Qed.

(** C184: a file with data of the whole core is accepted exactly if the plane bounds are left out or are those of the mesh, every reaction is there for
    every group of the mesh with as many values as there are regions, and there is a scattering matrix for each region. *)
Theorem C184_accepts : forall debug m d f s r0 v0, fills (w_cell m) (w_nxy m) -> 0 < w_nreg m -> dt_file d = Some (Some f) -> right_groups m f -> xf_tr f 0 = Some (w_np m :: w_ny m :: w_nx m :: r0, v0) ->
  ((exists s', xs_from_files debug m [d] s = HOk s') <->
   (dt_bot d = None \/ dt_bot d = Some 0%Z) /\ (dt_top d = None \/ dt_top d = Some (Z.of_nat (w_np m) - 1)%Z) /\
   (forall x h, h < w_ng m -> exists dims vals, xset x f h = Some (dims, vals) /\ length vals = w_nreg m) /\ exists v, xf_sc f = Some ([w_nreg m; w_ng m; w_ng m], v)).
Proof.
  intros debug m d f s r0 v0 F Pos Ef G Ed.
  assert (D : xs_from_files debug m [d] s = read_single debug m d s).
  { cbn [xs_from_files]. unfold dt_open. rewrite Ef. cbn [hb]. unfold dims3. rewrite Ed. cbn [hb]. now rewrite !Nat.eqb_refl. }
  split.
  - intros (s' & H). destruct (C183_whole debug m d f s s' r0 v0 Ef G Ed H) as (_ & A & B & _). split; [exact A|]. split; [exact B|]. rewrite D in H. unfold read_single in H. destruct (_ || _); [discriminate|].
    apply hb_ok in H. destruct H as (f' & E0 & H). apply dt_open_ok in E0. rewrite Ef in E0. injection E0 as <-. apply hb_ok in H. destruct H as (s1 & E1 & H). apply hb_ok in H. destruct H as ([[[e0 e1] e2] vals] & E2 & H). destruct (read_scat_ok m f e0 e1 e2 vals G E2) as (Es & -> & -> & Lv).
    destruct (Nat.eqb_spec e0 (w_nreg m)) as [->|]; [|discriminate]. split; [|eauto].
    assert (K : forall l t t', hloop (fun ig s => hb (read_bufs (w_nreg m) ig f) (fun b => hloop (fun i s => put_cell m ig i (data_cell (w_cell m) (w_nxy m) i) b s) (seq 0 (w_nreg m)) s)) l t = HOk t' -> forall h, In h l -> exists b, read_bufs (w_nreg m) h f = HOk b).
    { induction l as [|a l IH]; intros t t' E h [].
      - subst a. cbn [hloop] in E. apply hb_ok in E. destruct E as (u & E & _). apply hb_ok in E. destruct E as (b & E & _). eauto.
      - cbn [hloop] in E. apply hb_ok in E. destruct E as (u & _ & E). eapply IH; eauto. }
    intros x h Hh. destruct (K _ _ _ E1 h) as (b & Eb); [apply in_seq; lia|]. destruct (read_bufs_ok _ _ _ _ Eb x) as (dd & Edd & [Z|L]); [lia|]. eauto.
  - intros (A & B & C & (v & Es)). rewrite D. unfold read_single. replace (negb _ || negb _) with false.
    2:{ destruct A as [-> | ->], B as [-> | ->]; rewrite ?Z.eqb_refl; reflexivity. }
    unfold dt_open. rewrite Ef. cbn [hb].
    match goal with |- context [hb (hloop ?B ?l s) ?K] => destruct (hloop_total (fun _ => True) B l s I) as (s1 & -> & _) end.
    + intros ig t Hig _. apply in_seq in Hig. destruct (read_bufs_total (w_nreg m) ig f) as (b & Eb & Lb); [intro x; apply C; lia|].
      rewrite Eb. cbn [hb]. apply hloop_total; [exact I|]. intros i u Hi _. apply in_seq in Hi. destruct (put_cell_total m ig i (data_cell (w_cell m) (w_nxy m) i) b u) as (u' & Eu); [lia|lia| |eauto].
      intro x. rewrite Lb. apply data_cell_lt; [exact F|]. unfold w_nreg in Hi. lia.
    + cbn [hb]. unfold read_scat. rewrite Es. cbn [hb]. rewrite Nat.eqb_refl. cbn [negb]. destruct (G _ _ Es) as (e0 & E & Lv). injection E as <-.
      destruct (hloop_total (fun _ => True) (fun (i : nat) (s : HX) => hb (matrix_of debug (w_ng m) (w_ng m) v i) (fun sm => put_matrix m i sm s)) (seq 0 (w_nreg m)) s1 I) as (s' & E & _); [|eauto].
      intros i u Hi _. apply in_seq in Hi. destruct (matrix_of_total debug (w_ng m) v i) as (sm & Em); [rewrite Lv; apply Nat.mul_le_mono_r; lia|]. rewrite Em. cbn [hb]. apply matrix_of_ok in Em. apply compress_ng in Em. destruct Em as (N & S).
      destruct (put_matrix_total m i sm u N) as (u' & Eu); [lia|intros h Hh; rewrite (S h Hh); eauto|]. eauto.
Qed.
Print Assumptions C184_accepts.
(** A whole-core file for a mesh of one pin and one macroplane. *)
Definition xmesh1 (g : nat) : XMesh := mkXMesh 1 1 1 g (fun i => i).
Definition pin_file (sc : DS) : XFile := let d := fun _ : nat => Some ([1; 1; 1], [1%R]) in mkXFile (Some ([1], [1%R])) d d d d (Some sc).
Definition pin_tag (sc : DS) : DTag := mkDTag None None (Some (Some (pin_file sc))).
Example C184_accepts_instance : fills (w_cell (xmesh1 1)) (w_nxy (xmesh1 1)) /\ 0 < w_nreg (xmesh1 1) /\ dt_file (pin_tag ([1; 1; 1], [1%R])) = Some (Some (pin_file ([1; 1; 1], [1%R]))) /\ right_groups (xmesh1 1) (pin_file ([1; 1; 1], [1%R])) /\
  exists s', xs_from_files false (xmesh1 1) [pin_tag ([1; 1; 1], [1%R])] hx1 = HOk s'.
Proof.
  assert (F : fills (w_cell (xmesh1 1)) (w_nxy (xmesh1 1))). { change (fills (fun i => i) 1). unfold fills. split; [intros i Hi; exact Hi|split; [intros i j _ _ E; exact E|]]. intros c Hc. exists c. lia. }
  assert (G : right_groups (xmesh1 1) (pin_file ([1; 1; 1], [1%R]))). { intros d v E. cbn in E. injection E as <- <-. exists 1. auto. }
  split; [exact F|]. split; [cbn; lia|]. split; [reflexivity|]. split; [exact G|].
  apply (C184_accepts false (xmesh1 1) _ (pin_file ([1; 1; 1], [1%R])) hx1 [] [1%R] F); [cbn; lia|reflexivity|exact G|reflexivity|]. split; [now left|]. split; [now left|]. split; [|exists [1%R]; reflexivity]. intros x h _. exists [1; 1; 1], [1%R]. destruct x; auto.
Qed.

Lemma two_groups : matrix_of false 2 2 [1; 1; 1; 1]%R 0 = HOk (mkSM 2 [1; 1; 1; 1]%R [(0 + 1 + 1)%R; (0 + 1 + 1)%R] [mkRow 0 1 0; mkRow 0 1 2]).
Proof.
  assert (P : Rltb 0 1 = true) by (destruct (Rltb_spec 0 1); [reflexivity|lra]).
  unfold matrix_of, compress. cbn [Nat.eqb negb andb orb Nat.mul Nat.add Nat.sub Nat.leb length seq map]. unfold band. cbn [first_bound last_bound nth Nat.mul Nat.add]. rewrite !P. reflexivity.
Qed.
(** C184: a data set of two dimensions is not refused: the reading is undefined. *)
Theorem C184_rank_refuted : exists m d f, dt_file d = Some (Some f) /\ (exists v, xf_tr f 0 = Some ([1; 1], v)) /\ forall debug s, xs_from_files debug m [d] s = HUB.
Proof.
  exists (xmesh1 1), (mkDTag None None (Some (Some (mkXFile None (fun _ => Some ([1; 1], [1%R])) (fun _ => None) (fun _ => None) (fun _ => None) None)))), (mkXFile None (fun _ => Some ([1; 1], [1%R])) (fun _ => None) (fun _ => None) (fun _ => None) None).
  split; [reflexivity|]. split; [eexists; reflexivity|]. reflexivity.
Qed.
Print Assumptions C184_rank_refuted.
(** C184: scattering data for fewer groups than the mesh has are accepted: the matrices then have fewer. *)
Theorem C184_fewer_groups_refuted : exists m d s s', xs_from_files true m [d] s = HOk s' /\ 0 < w_nreg m /\ ng (x_sc s' 0) < w_ng m.
Proof.
  exists (xmesh1 2), (pin_tag ([1; 1; 1], [1%R])), hx1. cbv -[matrix_of sm1 Rminus INR Rdiv IZR lt]. rewrite matrix_one by (cbn; lia). cbv -[Rminus INR Rdiv IZR Rplus lt]. eexists. split; [reflexivity|]. split; lia.
Qed.
Print Assumptions C184_fewer_groups_refuted.
(** C184: scattering data for more groups are not refused either: the reading is undefined. *)
Theorem C184_more_groups_refuted : exists m d, forall s, xs_from_files false m [d] s = HUB /\ exists v, xf_sc (pin_file v) = Some ([1; 2; 2], snd v) /\ d = pin_tag v /\ w_ng m = 1.
Proof.
  exists (xmesh1 1), (pin_tag ([1; 2; 2], [1; 1; 1; 1]%R)). intro s. split; [|exists ([1; 2; 2], [1; 1; 1; 1]%R); auto].
  cbv -[matrix_of Rminus INR Rdiv IZR Rplus]. rewrite two_groups. reflexivity.
Qed.
Print Assumptions C184_more_groups_refuted.
(** C184: given for one macroplane, they change the removal cross sections of another. *)
Theorem C184_spill_refuted : exists m d s s' r, xs_from_files false m [d] s = HOk s' /\ plane_wise m [d] /\ ~ covered d (r / w_nxy m) /\ r < w_nreg m /\ 0 < w_ng m /\ x_rm s' (w_ng m * r) <> x_rm s (w_ng m * r).
Proof.
  exists (mkXMesh 1 1 2 1 (fun i => i)), (pin_tag ([1; 2; 2], [1; 1; 1; 1]%R)), (mkHX [10%R] (fun _ => 7%R) (fun _ => 0%R) (fun _ => 0%R) (fun _ => 0%R) (fun _ => 5%R) (fun _ => sm1 2)).
  cut (exists s', xs_from_files false (mkXMesh 1 1 2 1 (fun i => i)) [pin_tag ([1; 2; 2], [1; 1; 1; 1]%R)] (mkHX [10%R] (fun _ => 7%R) (fun _ => 0%R) (fun _ => 0%R) (fun _ => 0%R) (fun _ => 5%R) (fun _ => sm1 2)) = HOk s' /\ x_rm s' 1 = (7 - 1)%R).
  { intros (s' & E & X). exists s', 1. split; [exact E|]. split; [intros d f r v Ed Ef; injection Ed as <-; injection Ef as <-; discriminate|]. split; [unfold covered; cbn; lia|]. split; [cbn; lia|]. split; [cbn; lia|]. change (w_ng (mkXMesh 1 1 2 1 (fun i => i)) * 1) with 1. rewrite X. cbn. lra. }
  cbv -[matrix_of Rminus INR Rdiv IZR Rplus]. rewrite two_groups. cbv -[Rminus INR Rdiv IZR Rplus]. eexists. split; reflexivity.
Qed.
Print Assumptions C184_spill_refuted.
(** C184: a tag whose top macroplane is below its bottom one is accepted and does nothing to the cross sections. *)
Theorem C184_empty_range : forall debug m d f s s' ip i, dt_file d = Some (Some f) -> right_groups m f -> plane_wise m [d] -> (mt_top d < mt_bot d)%Z -> xs_from_files debug m [d] s = HOk s' -> i < w_nxy m -> untouched m s s' (w_nxy m * ip + i).
Proof.
  intros debug m d f s s' ip i Ef G P L H Hi. destruct (C183_planes debug m [d] s s') as (_ & _ & K); [|exact P|exact H|].
  - intros d' f' [<-|[]] E. rewrite Ef in E. injection E as <-. exact G.
  - destruct (K ip i Hi) as (_ & U). apply U. intros d' [<-|[]] C. unfold covered in C. lia.
Qed.
Print Assumptions C184_empty_range.
Definition empty_tag : DTag := mkDTag (Some 0%Z) (Some 1%Z) (Some (Some plane_file)).
Example C184_empty_instance : (mt_top empty_tag < mt_bot empty_tag)%Z /\ plane_wise xmesh2 [empty_tag] /\ exists s', xs_from_files false xmesh2 [empty_tag] hx1 = HOk s'.
Proof.
  split; [cbn; lia|]. split; [intros d f r v Ed Ef; injection Ed as <-; injection Ef as <-; discriminate|].
  cbv -[matrix_of sm1 Rminus INR Rdiv IZR]. rewrite matrix_one by (cbn; lia). cbv -[matrix_of Rminus INR Rdiv IZR Rplus]. rewrite matrix_one by (cbn; lia). eexists. reflexivity.
Qed.
