(** Proofs about the method-of-characteristics sweep. *)
From Coq Require Import List Lia Bool Reals ZArith Lra Permutation.
From Verif Require Import RUtil ListUtil McModel McProofs MeshModel AngModel BcModel BcProofs StdAlg CoreModel CoreProofs RayModel RayProofs ExpModel ExpProps MocModel.
Import ListNotations.
Open Scope nat_scope.

(** Sums over lists. *)
Fixpoint lsum {A} (f : A -> R) (l : list A) : R := match l with [] => 0%R | a :: r => (f a + lsum f r)%R end.
Lemma lsum_app : forall {A} (f : A -> R) l m, lsum f (l ++ m) = (lsum f l + lsum f m)%R.
Proof. induction l as [|a l IH]; intros m; cbn; [lra|rewrite IH; lra]. Qed.
Lemma lsum_perm : forall {A} (f : A -> R) l m, Permutation l m -> lsum f l = lsum f m.
Proof. intros A f l m P. induction P; cbn; lra. Qed.
Lemma lsum_ext : forall {A} (f g : A -> R) l, (forall a, In a l -> f a = g a) -> lsum f l = lsum g l.
Proof. induction l as [|a l IH]; intros H; cbn; [reflexivity|]. rewrite H, IH; auto; [intros; apply H; now right|now left]. Qed.
Lemma lsum_rev : forall {A} (f : A -> R) l, lsum f (rev l) = lsum f l.
Proof. intros A f l. apply lsum_perm. apply Permutation_sym, Permutation_rev. Qed.
Lemma lsum_scal : forall {A} (f : A -> R) c l, lsum (fun a => (f a * c)%R) l = (lsum f l * c)%R.
Proof. induction l as [|a l IH]; cbn; [lra|rewrite IH; lra]. Qed.
Lemma lsum_plus : forall {A} (f g : A -> R) l, lsum (fun a => (f a + g a)%R) l = (lsum f l + lsum g l)%R.
Proof. induction l as [|a l IH]; cbn; [lra|rewrite IH; lra]. Qed.
Lemma lsum_map : forall {A B} (f : B -> R) (g : A -> B) l, lsum f (map g l) = lsum (fun a => f (g a)) l.
Proof. induction l as [|a l IH]; cbn; congruence. Qed.
Lemma lsum_zero : forall {A} (f : A -> R) l, (forall a, In a l -> f a = 0%R) -> lsum f l = 0%R.
Proof. induction l as [|a l IH]; intros H; cbn; [reflexivity|]. rewrite H, IH; auto; [lra|intros; apply H; now right|now left]. Qed.

(** ** One ray *)
Lemma track_shape : forall q es psi ds ps, track q es psi = Some (ds, ps) -> map fst ds = map fst es /\ length ps = S (length es) /\ hd 0%R ps = psi.
Proof.
  induction es as [|[i e] es IH]; intros psi ds ps H; cbn [track] in H.
  - injection H as <- <-. auto.
  - destruct (nth_error q i); [|discriminate]. destruct (track _ _ _) as [[d p]|] eqn:E; [|discriminate]. injection H as <- <-.
    destruct (IH _ _ _ E) as (A & B & C). cbn. rewrite A, B. auto.
Qed.
Lemma track_sum : forall q es psi ds ps, track q es psi = Some (ds, ps) -> lsum snd ds = (psi - last ps 0)%R.
Proof.
  induction es as [|[i e] es IH]; intros psi ds ps H; cbn [track] in H.
  - injection H as <- <-. cbn. lra.
  - destruct (nth_error q i); [|discriminate]. destruct (track _ _ _) as [[d p]|] eqn:E; [|discriminate]. injection H as <- <-.
    pose proof (IH _ _ _ E) as S. destruct (track_shape _ _ _ _ _ E) as (_ & L & _). cbn [lsum snd]. rewrite S. destruct p as [|a p]; [discriminate|]. change (last (psi :: a :: p) 0%R) with (last (a :: p) 0%R). lra.
Qed.
Lemma track_def : forall q es psi, (forall i e, In (i, e) es -> i < length q) -> exists ds ps, track q es psi = Some (ds, ps).
Proof.
  induction es as [|[i e] es IH]; intros psi H; cbn [track]; [eauto|].
  destruct (nth_error q i) as [b|] eqn:E; [|apply nth_error_None in E; specialize (H i e (or_introl eq_refl)); lia].
  destruct (IH (psi - (psi - b) * e)%R) as (ds & ps & ->); [|eauto]. intros j f I. apply (H j f). now right.
Qed.
Lemma track_bounds : forall q es psi ds ps lo hi, track q es psi = Some (ds, ps) -> (lo <= psi <= hi)%R ->
  (forall i e, In (i, e) es -> (0 <= e <= 1)%R /\ forall b, nth_error q i = Some b -> (lo <= b <= hi)%R) -> Forall (fun p => (lo <= p <= hi)%R) ps.
Proof.
  induction es as [|[i e] es IH]; intros psi ds ps lo hi H P Q; cbn [track] in H.
  - injection H as <- <-. constructor; [lra|constructor].
  - destruct (nth_error q i) as [b|] eqn:Eb; [|discriminate]. destruct (track _ _ _) as [[d p]|] eqn:E; [|discriminate]. injection H as <- <-.
    destruct (Q i e (or_introl eq_refl)) as [He Hb]. specialize (Hb _ Eb). constructor; [lra|]. apply (IH _ _ _ lo hi E); [nra|]. intros j f I. apply Q. now right.
Qed.
Lemma track_flat : forall q es c ds ps, track q es c = Some (ds, ps) -> (forall i e, In (i, e) es -> nth_error q i = Some c) ->
  Forall (fun p => p = c) ps /\ Forall (fun d => snd d = 0%R) ds.
Proof.
  induction es as [|[i e] es IH]; intros c ds ps H Q; cbn [track] in H.
  - injection H as <- <-. repeat constructor.
  - rewrite (Q i e (or_introl eq_refl)) in H. destruct (track _ _ _) as [[d p]|] eqn:E; [|discriminate]. injection H as <- <-.
    replace (c - (c - c) * e)%R with c in E by ring. destruct (IH _ _ _ E) as [A B]; [intros j f I; apply (Q j f); now right|].
    split; constructor; auto. cbn. ring.
Qed.

Lemma last_rev : forall {A} (l : list A) d, last (rev l) d = hd d l.
Proof. intros A [|a l] d; [reflexivity|]. cbn [rev hd]. apply last_last. Qed.
Lemma hd_rev : forall {A} (l : list A) d, hd d (rev l) = last l d.
Proof. intros A l d. rewrite <- (rev_involutive l) at 2. now rewrite last_rev. Qed.

Lemma all_some_map : forall {A B} (f : A -> option B) l r, all_some (map f l) = Some r -> Forall2 (fun a b => f a = Some b) l r.
Proof.
  induction l as [|a l IH]; intros r H; cbn [map all_some] in H; [injection H as <-; constructor|].
  destruct (f a) as [b|] eqn:E; [|discriminate]. destruct (all_some (map f l)) as [q|] eqn:Eq; [|discriminate]. injection H as <-. constructor; auto.
Qed.
Lemma all_some_def : forall {A B} (f : A -> option B) l, (forall a, In a l -> exists b, f a = Some b) -> exists r, all_some (map f l) = Some r.
Proof.
  induction l as [|a l IH]; intros H; cbn [map all_some]; [eauto|]. destruct (H a (or_introl eq_refl)) as [b ->]. destruct IH as [r ->]; [|eauto]. intros; apply H; now right.
Qed.

(** Attenuation factors lie in [0, 1]. *)
Lemma moc_exp_range : forall v, (v < 0)%R -> exists e, moc_exp v = Some e /\ (0 < e <= 1)%R.
Proof.
  intros v H. destruct (C63_error table_size (-10) 0 v) as (r & E & _ & B); [unfold table_size; lia|lra|lra|]. rewrite exp_0 in B. exists r. split; [exact E|lra].
Qed.
Lemma seg_etau_range : forall xstr first rst sg, (0 < rst)%R -> (0 < snd sg)%R -> (forall x, nth_error xstr (fst sg + first) = Some x -> (0 < x)%R) -> fst sg + first < length xstr ->
  exists e, seg_etau xstr first rst sg = Some (fst sg + first, e) /\ (0 <= e <= 1)%R.
Proof.
  intros xstr first rst sg Hr Hs Hx Hl. unfold seg_etau. destruct (nth_error xstr (fst sg + first)) as [x|] eqn:E; [|apply nth_error_None in E; lia].
  specialize (Hx _ eq_refl). destruct (moc_exp_range (- x * snd sg * rst)%R) as (e & -> & B); [assert (0 < x * snd sg * rst)%R by (apply Rmult_lt_0_compat; nra); lra|].
  eexists. split; [reflexivity|]. lra.
Qed.

Lemma etau_all : forall xstr first rst segs, (0 < rst)%R -> Forall (fun x => 0 < x)%R xstr -> Forall (fun sg => fst sg + first < length xstr /\ (0 < snd sg)%R) segs ->
  exists es, all_some (map (seg_etau xstr first rst) segs) = Some es /\ (forall i e, In (i, e) es -> i < length xstr /\ (0 <= e <= 1)%R) /\ map fst es = map (fun sg => fst sg + first) segs.
Proof.
  intros xstr first rst segs Hr Hx. rewrite Forall_forall in Hx. induction segs as [|sg segs IH]; intros F; [exists []; split; [reflexivity|]; split; [intros i e []|reflexivity]|]. inversion F as [|? ? [H1 H2] F']; subst.
  destruct (IH F') as (es & E & P & M). destruct (seg_etau_range xstr first rst sg Hr H2) as (e & Es & Be); auto; [intros x Ex; apply Hx; eapply nth_error_In; eauto|].
  exists ((fst sg + first, e) :: es). cbn [map all_some]. rewrite Es, E. split; [reflexivity|]. split; [|cbn; now rewrite M]. intros i e' [[= <- <-]|I]; auto.
Qed.

(** ** Accumulation *)
Definition at0 (l : list R) (i : nat) : R := nth i l 0%R.
Lemma add_at_spec : forall l i v, i < length l -> exists l', add_at l i v = Some l' /\ length l' = length l /\ forall j, at0 l' j = (at0 l j + (if j =? i then v else 0))%R.
Proof.
  induction l as [|x l IH]; intros i v H; cbn in H; [lia|]. destruct i as [|i]; cbn [add_at].
  - eexists. split; [reflexivity|]. split; [reflexivity|]. intros [|j]; cbn; lra.
  - destruct (IH i v ltac:(lia)) as (l' & -> & L & P). eexists. split; [reflexivity|]. split; [cbn; lia|]. intros [|j]; cbn; [lra|]. apply P.
Qed.
Lemma add_at_none : forall l i v, length l <= i -> add_at l i v = None.
Proof. induction l as [|x l IH]; intros i v H; [reflexivity|]. destruct i; cbn in *; [lia|]. now rewrite IH by lia. Qed.

Definition pay (wt : R) (ds : list (nat * R)) (i : nat) : R := lsum (fun d => if i =? fst d then (snd d * wt)%R else 0%R) ds.
Lemma deposit_spec : forall wt ds t, (forall d, In d ds -> fst d < length t) -> exists t', deposit wt ds t = Some t' /\ length t' = length t /\ forall i, at0 t' i = (at0 t i + pay wt ds i)%R.
Proof.
  induction ds as [|[i d] ds IH]; intros t H; cbn [deposit].
  - exists t. repeat split; auto. intros. unfold pay. cbn. lra.
  - destruct (add_at_spec t i (d * wt)%R (H _ (or_introl eq_refl))) as (t1 & -> & L1 & P1). destruct (IH t1) as (t2 & E2 & L2 & P2).
    { intros x I. rewrite L1. apply H. now right. }
    exists t2. split; [exact E2|]. split; [congruence|]. intros j. rewrite P2, P1. unfold pay. cbn [lsum fst snd]. lra.
Qed.
Lemma deposit_none : forall wt ds t d, In d ds -> length t <= fst d -> deposit wt ds t = None.
Proof.
  induction ds as [|[i v] ds IH]; intros t d I L; [destruct I|]. cbn [deposit]. destruct I as [<-|I]; [now rewrite add_at_none|].
  destruct (le_lt_dec (length t) i) as [K|K]; [now rewrite add_at_none|]. destruct (add_at_spec t i (v * wt)%R K) as (t' & -> & L' & _). apply (IH t' d); auto. lia.
Qed.

Lemma set_nth_none : forall {A} (l : list A) i v, length l <= i -> set_nth l i v = None.
Proof. induction l as [|x l IH]; intros i v H; [reflexivity|]. destruct i; cbn in *; [lia|]. now rewrite IH by lia. Qed.

(** Total over threads. *)
Definition tot (ts : list (list R)) (i : nat) : R := lsum (fun t => at0 t i) ts.
Lemma tot_set : forall ts tid t t' ts' i, nth_error ts tid = Some t -> set_nth ts tid t' = Some ts' -> tot ts' i = (tot ts i - at0 t i + at0 t' i)%R.
Proof.
  induction ts as [|a ts IH]; intros tid t t' ts' i E S; destruct tid; cbn in *; try discriminate.
  - injection E as ->. injection S as <-. unfold tot. cbn. lra.
  - destruct (set_nth ts tid t') as [r|] eqn:Er; [|discriminate]. injection S as <-. specialize (IH _ _ _ _ i E Er). unfold tot in *. cbn. lra.
Qed.

(** ** The rays of an angle *)
Section Rays.
  Variables (xstr q : list R) (first : nat) (c : AngCtx) (bin : list R) (nreg nout nt : nat).

  Definition slot1 (r : Ray) : nat := ac_out1 c + ray_bc2 r.
  Definition slot2 (r : Ray) : nat := ac_out2 c + ray_bc1 r.
  (** Outcome of a ray given the incoming boundary flux. *)
  Definition ray_res (r : Ray) : option RayOut :=
    match nth_error bin (ac_in1 c + ray_bc1 r), nth_error bin (ac_in2 c + ray_bc2 r) with
    | Some in1, Some in2 => sweep_ray xstr q first (ac_rst c) in1 in2 r
    | _, _ => None
    end.
  Definition out_ok (r : Ray) (o : RayOut) : Prop :=
    (forall d, In d (ro_fw o ++ ro_bw o) -> fst d < nreg) /\ slot1 r < nout /\ slot2 r < nout.
  Definition ray_ok (r : Ray) : Prop := exists o, ray_res r = Some o /\ out_ok r o.
  Definition store_ok (s : Store) : Prop := length (st_out s) = nout /\ length (st_t s) = nt /\ Forall (fun t => length t = nreg) (st_t s).
  Definition ray_pay (r : Ray) (i : nat) : R := match ray_res r with Some o => pay (ac_wt c) (ro_fw o ++ ro_bw o) i | None => 0%R end.

  Lemma Forall_nth : forall {A} (P : A -> Prop) l i a, Forall P l -> nth_error l i = Some a -> P a.
  Proof. intros A P l i a F E. rewrite Forall_forall in F. apply F. eapply nth_error_In; eauto. Qed.

  Lemma ray_step_ok : forall tid r o s, store_ok s -> tid < nt -> ray_res r = Some o -> out_ok r o -> exists s', ray_step xstr q first c bin (tid, r) s = Some s' /\ store_ok s' /\
    (forall i, tot (st_t s') i = (tot (st_t s) i + ray_pay r i)%R) /\
    (forall k, nth_error (st_out s') k = if k =? slot2 r then Some (hd 0%R (ro_psi2 o)) else if k =? slot1 r then Some (last (ro_psi1 o) 0%R) else nth_error (st_out s) k).
  Proof.
    intros tid r o s (So & St & Sl) Ht Er (O1 & O2 & O3). unfold ray_step. pose proof Er as Er'. unfold ray_res in Er.
    destruct (nth_error bin (ac_in1 c + ray_bc1 r)) as [in1|]; [|discriminate]. destruct (nth_error bin (ac_in2 c + ray_bc2 r)) as [in2|]; [|discriminate].
    destruct (nth_error (st_t s) tid) as [t|] eqn:Et; [|apply nth_error_None in Et; lia]. rewrite Er.
    pose proof (Forall_nth _ _ _ _ Sl Et) as Lt. cbn beta in Lt.
    destruct (deposit_spec (ac_wt c) (ro_fw o ++ ro_bw o) t) as (t' & -> & Lt' & Pt); [intros; rewrite Lt; auto|].
    destruct (set_nth_lt (st_out s) (ac_out1 c + ray_bc2 r) (last (ro_psi1 o) 0%R)) as [b1 E1]; [rewrite So; exact O2|]. rewrite E1.
    destruct (set_nth_spec _ _ _ _ E1) as (L1 & _ & P1).
    destruct (set_nth_lt b1 (ac_out2 c + ray_bc1 r) (hd 0%R (ro_psi2 o))) as [b2 E2]; [rewrite L1, So; exact O3|]. rewrite E2.
    destruct (set_nth_spec _ _ _ _ E2) as (L2 & _ & P2).
    destruct (set_nth_lt (st_t s) tid t') as [ts E3]; [lia|]. rewrite E3. destruct (set_nth_spec _ _ _ _ E3) as (L3 & _ & P3).
    eexists. split; [reflexivity|]. split; [|split].
    - split; [cbn; congruence|]. split; [cbn; lia|]. cbn [st_t]. apply Forall_forall. intros x Ix. apply In_nth_error in Ix. destruct Ix as [j Ej]. rewrite P3 in Ej.
      destruct (j =? tid); [injection Ej as <-; congruence|]. apply (Forall_nth _ _ _ _ Sl Ej).
    - intros i. cbn [st_t]. rewrite (tot_set _ _ _ _ _ i Et E3), Pt. unfold ray_pay. rewrite Er'. lra.
    - intros k. cbn [st_out]. rewrite P2, P1. reflexivity.
  Qed.

  Lemma ray_step_bad : forall tid r s, store_ok s -> tid < nt -> ~ ray_ok r -> ray_step xstr q first c bin (tid, r) s = None.
  Proof.
    intros tid r s (So & St & Sl) Ht NO. unfold ray_step.
    destruct (nth_error bin (ac_in1 c + ray_bc1 r)) as [in1|] eqn:E1; [|reflexivity]. destruct (nth_error bin (ac_in2 c + ray_bc2 r)) as [in2|] eqn:E2; [|reflexivity].
    destruct (nth_error (st_t s) tid) as [t|] eqn:Et; [|reflexivity]. pose proof (Forall_nth _ _ _ _ Sl Et) as Lt. cbn beta in Lt.
    destruct (sweep_ray xstr q first (ac_rst c) in1 in2 r) as [o|] eqn:Eo; [|reflexivity].
    destruct (deposit (ac_wt c) (ro_fw o ++ ro_bw o) t) as [t'|] eqn:Ed; [|reflexivity].
    destruct (le_lt_dec nout (slot1 r)) as [K|K]; [rewrite set_nth_none; auto; rewrite So; exact K|].
    destruct (set_nth_lt (st_out s) (ac_out1 c + ray_bc2 r) (last (ro_psi1 o) 0%R)) as [b1 E3]; [rewrite So; exact K|]. rewrite E3. destruct (set_nth_spec _ _ _ _ E3) as (L1 & _).
    destruct (le_lt_dec nout (slot2 r)) as [K2|K2]; [rewrite set_nth_none; auto; rewrite L1, So; exact K2|].
    exfalso. apply NO. exists o. split; [unfold ray_res; now rewrite E1, E2|]. split; auto. intros d Id. destruct (le_lt_dec nreg (fst d)) as [G|G]; auto.
    rewrite (deposit_none _ _ _ d Id) in Ed by lia. discriminate.
  Qed.

  Definition all_slots (rays : list Ray) : list nat := map slot1 rays ++ map slot2 rays.

  Lemma sweep_rays_ok : forall rays s, store_ok s -> Forall (fun tr => fst tr < nt) rays -> (forall r, In r (map snd rays) -> ray_ok r) -> NoDup (all_slots (map snd rays)) ->
    exists s', sweep_rays xstr q first c bin rays s = Some s' /\ store_ok s' /\
      (forall i, tot (st_t s') i = (tot (st_t s) i + lsum (fun r => ray_pay r i) (map snd rays))%R) /\
      (forall k, ~ In k (all_slots (map snd rays)) -> nth_error (st_out s') k = nth_error (st_out s) k) /\
      (forall r o, In r (map snd rays) -> ray_res r = Some o -> nth_error (st_out s') (slot1 r) = Some (last (ro_psi1 o) 0%R) /\ nth_error (st_out s') (slot2 r) = Some (hd 0%R (ro_psi2 o))).
  Proof.
    induction rays as [|[tid r] rays IH]; intros s Hs Ht Ho Hn.
    - exists s. split; [reflexivity|]. split; [auto|]. split; [intros; cbn; lra|]. split; [auto|]. intros r o [].
    - cbn [map snd] in *. inversion Ht as [|? ? Ht1 Ht2]; subst. cbn [fst] in Ht1.
      destruct (Ho r (or_introl eq_refl)) as (o & Er & Oo). destruct (ray_step_ok tid r o s Hs Ht1 Er Oo) as (s1 & E1 & S1 & T1 & K1).
      assert (Hn2 : NoDup (all_slots (map snd rays)) /\ slot1 r <> slot2 r /\ ~ In (slot1 r) (all_slots (map snd rays)) /\ ~ In (slot2 r) (all_slots (map snd rays))).
      { unfold all_slots in *. cbn [map app] in Hn. inversion Hn as [|? ? N1 N2]; subst. apply NoDup_remove in N2. destruct N2 as [N2 N3]. repeat split; auto.
        - intros X. apply N1. apply in_or_app. right. left. auto.
        - intros X. apply N1. apply in_app_or in X. apply in_or_app. destruct X; [now left|]. right. now right. }
      destruct Hn2 as (Hn2 & D0 & D1 & D2).
      destruct (IH s1 S1 Ht2 ltac:(intros; apply Ho; now right) Hn2) as (s2 & E2 & S2 & T2 & K2 & V2).
      exists s2. cbn [sweep_rays]. rewrite E1. split; [exact E2|]. split; [auto|]. split; [|split].
      + intros i. rewrite T2, T1. cbn [lsum]. lra.
      + intros k Hk. assert (X : ~ In k (all_slots (map snd rays)) /\ k <> slot1 r /\ k <> slot2 r).
        { unfold all_slots in *. cbn [map app] in Hk. repeat split.
          - intros X. apply Hk. right. apply in_app_or in X. apply in_or_app. destruct X; [now left|]. right. now right.
          - intros ->. apply Hk. now left.
          - intros ->. apply Hk. right. apply in_or_app. right. now left. }
        destruct X as (X1 & X2 & X3). rewrite K2, K1 by auto. destruct (Nat.eqb_spec k (slot2 r)); [lia|]. destruct (Nat.eqb_spec k (slot1 r)); [lia|]. reflexivity.
      + intros r' o' [<-|I] Er'; [|now apply V2]. rewrite Er in Er'. injection Er' as <-. rewrite !K2, !K1 by auto. rewrite Nat.eqb_refl. rewrite (proj2 (Nat.eqb_neq (slot1 r) (slot2 r))) by auto. rewrite Nat.eqb_refl. auto.
  Qed.

  Lemma sweep_rays_bad : forall rays s r, store_ok s -> Forall (fun tr => fst tr < nt) rays -> In r (map snd rays) -> ~ ray_ok r -> sweep_rays xstr q first c bin rays s = None.
  Proof.
    induction rays as [|[tid r0] rays IH]; intros s r Hs Ht I NO; [destruct I|]. cbn [map snd] in I. inversion Ht as [|? ? Ht1 Ht2]; subst. cbn [fst] in Ht1. cbn [sweep_rays].
    destruct I as [->|I]; [now rewrite ray_step_bad|]. destruct (ray_step xstr q first c bin (tid, r0) s) as [s1|] eqn:E; [|reflexivity]. apply (IH s1 r); auto.
    assert (D : ray_ok r0 \/ ~ ray_ok r0).
    { unfold ray_ok. destruct (ray_res r0) as [o|] eqn:Er; [|right; intros (o & X & _); discriminate].
      destruct (lt_dec (slot1 r0) nout); [|right; intros (o' & X & _ & Y & _); lia]. destruct (lt_dec (slot2 r0) nout); [|right; intros (o' & X & _ & _ & Y); lia].
      destruct (forallb (fun d => fst d <? nreg) (ro_fw o ++ ro_bw o)) eqn:F.
      - left. exists o. split; auto. split; auto. intros d Id. rewrite forallb_forall in F. apply Nat.ltb_lt. now apply F.
      - right. intros (o' & [= <-] & Y & _). assert (forallb (fun d => fst d <? nreg) (ro_fw o ++ ro_bw o) = true); [|congruence]. apply forallb_forall. intros d Id. apply Nat.ltb_lt. auto. }
    destruct D as [(o & Er & Oo)|D]; [|rewrite ray_step_bad in E; auto; discriminate]. destruct (ray_step_ok tid r0 o s Hs Ht1 Er Oo) as (s2 & E2 & S2 & _). congruence.
  Qed.

  Lemma ray_ok_dec : forall r, ray_ok r \/ ~ ray_ok r.
  Proof.
    intros r0. unfold ray_ok. destruct (ray_res r0) as [o|] eqn:Er; [|right; intros (o & X & _); discriminate].
    destruct (lt_dec (slot1 r0) nout); [|right; intros (o' & X & _ & Y & _); lia]. destruct (lt_dec (slot2 r0) nout); [|right; intros (o' & X & _ & _ & Y); lia].
    destruct (forallb (fun d => fst d <? nreg) (ro_fw o ++ ro_bw o)) eqn:F.
    - left. exists o. split; auto. split; auto. intros d Id. rewrite forallb_forall in F. apply Nat.ltb_lt. now apply F.
    - right. intros (o' & [= <-] & Y & _). assert (forallb (fun d => fst d <? nreg) (ro_fw o ++ ro_bw o) = true); [|congruence]. apply forallb_forall. intros d Id. apply Nat.ltb_lt. auto.
  Qed.
  Lemma all_ray_ok_dec : forall rays, (forall r, In r rays -> ray_ok r) \/ exists r, In r rays /\ ~ ray_ok r.
  Proof.
    induction rays as [|r rays IH]; [left; intros r []|]. destruct (ray_ok_dec r) as [H|H]; [|right; exists r; split; auto; now left].
    destruct IH as [IH|(x & I & N)]; [left; intros x [<-|I]; auto|right; exists x; split; auto; now right].
  Qed.
End Rays.

(** ** Independence of order and threads *)
Definition sim (nreg : nat) (s1 s2 : Store) : Prop := st_out s1 = st_out s2 /\ forall i, tot (st_t s1) i = tot (st_t s2) i.

Lemma nth_error_ext : forall {A} (l m : list A), length l = length m -> (forall i, nth_error l i = nth_error m i) -> l = m.
Proof.
  induction l as [|a l IH]; intros [|b m] L H; cbn in L; try lia; [reflexivity|]. pose proof (H 0) as H0. cbn in H0. injection H0 as ->. f_equal. apply IH; [lia|]. intros i. apply (H (S i)).
Qed.

Lemma sweep_rays_sim : forall xstr q first c bin nreg nout n1 n2 r1 r2 s1 s2, store_ok nreg nout n1 s1 -> store_ok nreg nout n2 s2 -> sim nreg s1 s2 ->
  Forall (fun tr => fst tr < n1) r1 -> Forall (fun tr => fst tr < n2) r2 -> Permutation (map snd r1) (map snd r2) -> NoDup (all_slots c (map snd r1)) ->
  match sweep_rays xstr q first c bin r1 s1, sweep_rays xstr q first c bin r2 s2 with
  | Some a, Some b => store_ok nreg nout n1 a /\ store_ok nreg nout n2 b /\ sim nreg a b
  | None, None => True
  | _, _ => False
  end.
Proof.
  intros xstr q first c bin nreg nout n1 n2 r1 r2 s1 s2 O1 O2 [So St] T1 T2 P ND.
  assert (ND2 : NoDup (all_slots c (map snd r2))). { eapply Permutation_NoDup; [|exact ND]. unfold all_slots. apply Permutation_app; now apply Permutation_map. }
  destruct (all_ray_ok_dec xstr q first c bin nreg nout (map snd r1)) as [G|(r & I & N)].
  - assert (G2 : forall r, In r (map snd r2) -> ray_ok xstr q first c bin nreg nout r) by (intros r I; apply G; eapply Permutation_in; [apply Permutation_sym, P|exact I]).
    destruct (sweep_rays_ok xstr q first c bin nreg nout n1 r1 s1 O1 T1 G ND) as (a & -> & Oa & Ta & Ka & Va).
    destruct (sweep_rays_ok xstr q first c bin nreg nout n2 r2 s2 O2 T2 G2 ND2) as (b & -> & Ob & Tb & Kb & Vb).
    split; [auto|]. split; [auto|]. split.
    + apply nth_error_ext; [destruct Oa, Ob; congruence|]. intros k. destruct (in_dec Nat.eq_dec k (all_slots c (map snd r1))) as [I|I].
      * unfold all_slots in I. apply in_app_or in I. destruct I as [I|I]; apply in_map_iff in I; destruct I as (r & <- & Ir); destruct (G r Ir) as (o & Eo & _);
          destruct (Va r o Ir Eo) as [V1 V2]; destruct (Vb r o (Permutation_in _ P Ir) Eo) as [V3 V4]; congruence.
      * rewrite Ka, Kb; auto; [now rewrite So|]. intros X. apply I. eapply Permutation_in; [|exact X]. unfold all_slots. apply Permutation_app; apply Permutation_map; now apply Permutation_sym.
    + intros i. rewrite Ta, Tb, St. f_equal. now apply lsum_perm.
  - rewrite (sweep_rays_bad xstr q first c bin nreg nout n1 r1 s1 r O1 T1 I N).
    now rewrite (sweep_rays_bad xstr q first c bin nreg nout n2 r2 s2 r O2 T2 (Permutation_in _ P I) N).
Qed.

Lemma boundary_slot : forall b g a size off j, get_boundary b g a = Some (size, off) -> j < size -> exists n i, slot b g a n i (off + j).
Proof.
  intros b g a size off j H Hj. unfold get_boundary in H.
  destruct (nth_error (sizes b) a) as [s|] eqn:Es; [|discriminate]. destruct (nth_error (BcModel.offsets 0 (sizes b)) a) as [o|] eqn:Eo; [|discriminate]. injection H as <- <-.
  assert (G : forall l k a s o, nth_error l a = Some s -> nth_error (BcModel.offsets k l) a = Some o -> sy o = sx o + sx s /\ sz o = sx o + sx s + sy s).
  { induction l as [|t l IH]; intros k [|a'] s' o' H1 H2; try discriminate; cbn in H1, H2; [|eauto]. injection H1 as <-. injection H2 as <-. auto. }
  destruct (G _ _ _ _ _ Es Eo) as [G1 G2]. unfold size_total in Hj. unfold slot, get_face. rewrite Es, Eo.
  destruct (lt_dec j (sx s)); [exists X_NORM, j; do 2 eexists; split; [reflexivity|]; cbn; lia|].
  destruct (lt_dec j (sx s + sy s)); [exists Y_NORM, (j - sx s); do 2 eexists; split; [reflexivity|]; cbn; lia|].
  exists Z_NORM, (j - sx s - sy s). do 2 eexists. split; [reflexivity|]. cbn. lia.
Qed.
Lemma boundary_disjoint : forall b g a a' size off size' off' j j', get_boundary b g a = Some (size, off) -> get_boundary b g a' = Some (size', off') -> j < size -> j' < size' -> off + j = off' + j' -> a = a'.
Proof.
  intros b g a a' size off size' off' j j' H H' Hj Hj' E. destruct (boundary_slot _ _ _ _ _ _ H Hj) as (n & i & S1). destruct (boundary_slot _ _ _ _ _ _ H' Hj') as (n' & i' & S2).
  rewrite <- E in S2. destruct (slot_inj _ _ _ _ _ _ _ _ _ _ S1 S2) as (_ & X & _). exact X.
Qed.

Lemma rev_ang_spec : forall n i, i < 4 * n -> rev_ang n i <> i /\ rev_ang n i < 4 * n.
Proof.
  intros n i H. unfold rev_ang, reverse2. destruct (le_lt_dec (2 * n) i).
  - replace (Z.of_nat i + Z.of_nat n * 2)%Z with ((Z.of_nat i - Z.of_nat n * 2) + 1 * (Z.of_nat n * 4))%Z by lia. rewrite Z.mod_add, Z.mod_small by lia. lia.
  - rewrite Z.mod_small by lia. lia.
Qed.

(** The rays of angle [iang] fit the boundary storage: slots in range and no slot shared. *)
Record rays_fit (e : MocEnv) (iang : nat) (rays : list Ray) : Prop := {
  rf_1 : NoDup (map ray_bc1 rays);
  rf_2 : NoDup (map ray_bc2 rays);
  rf_in : forall r, In r rays -> exists s1 s2, nth_error (sizes (me_out e)) iang = Some s1 /\ nth_error (sizes (me_out e)) (rev_ang (n_oct (me_in e)) iang) = Some s2 /\
            ray_bc2 r < size_total s1 /\ ray_bc1 r < size_total s2
}.

Lemma fit_perm : forall e iang r1 r2, Permutation r1 r2 -> rays_fit e iang r1 -> rays_fit e iang r2.
Proof.
  intros e iang r1 r2 P [A B C]. constructor.
  - eapply Permutation_NoDup; [apply Permutation_map; exact P|auto].
  - eapply Permutation_NoDup; [apply Permutation_map; exact P|auto].
  - intros r I. apply C. eapply Permutation_in; [apply Permutation_sym; exact P|auto].
Qed.

Lemma fit_slots : forall e h iang c rays, ang_ctx e h iang = Some c -> rays_fit e iang rays -> iang < 4 * n_oct (me_in e) -> NoDup (all_slots c rays).
Proof.
  intros e h iang c rays Ec [A B C] Hi. unfold ang_ctx in Ec. destruct (rev_ang_spec _ _ Hi) as [R1 R2]. set (i2 := rev_ang (n_oct (me_in e)) iang) in *.
  destruct (nth_error (me_quad e) iang); [|discriminate]. destruct (nth_error (me_space e) iang); [|discriminate].
  destruct (get_boundary (me_in e) (me_group e) iang) as [[? oi1]|]; [|discriminate]. destruct (get_boundary (me_in e) (me_group e) i2) as [[? oi2]|]; [|discriminate].
  destruct (get_boundary (me_out e) 0 iang) as [[z1 oo1]|] eqn:G1; [|discriminate]. destruct (get_boundary (me_out e) 0 i2) as [[z2 oo2]|] eqn:G2; [|discriminate].
  injection Ec as <-. unfold all_slots, slot1, slot2. cbn [ac_out1 ac_out2].
  assert (Inj : forall f off, NoDup (map f rays) -> NoDup (map (fun r : Ray => off + f r) rays)).
  { intros f off N. replace (map (fun r => off + f r) rays) with (map (Nat.add off) (map f rays)) by apply map_map. apply FinFun.Injective_map_NoDup; auto. intros x y. lia. }
  apply NoDup_app'; auto. intros k I1 I2. apply in_map_iff in I1. destruct I1 as (ra & <- & I1). apply in_map_iff in I2. destruct I2 as (ra' & E & I2).
  destruct (C ra I1) as (s1 & s2 & N1 & N2 & L1 & L2). destruct (C ra' I2) as (s1' & s2' & N1' & N2' & L1' & L2'). rewrite N1 in N1'. rewrite N2 in N2'. injection N1' as <-. injection N2' as <-.
  assert (z1 = size_total s1). { unfold get_boundary in G1. rewrite N1 in G1. destruct (nth_error _ _); [|discriminate]. now injection G1 as <- _. }
  assert (z2 = size_total s2). { unfold get_boundary in G2. rewrite N2 in G2. destruct (nth_error _ _); [|discriminate]. now injection G2 as <- _. }
  subst. apply R1. symmetry. apply (boundary_disjoint _ _ _ _ _ _ _ _ (ray_bc2 ra) (ray_bc1 ra') G1 G2); auto.
Qed.

(** Two distributions of the same rays over threads. *)
Definition same_rays (n1 n2 : nat) (a b : list (nat * Ray)) : Prop :=
  Forall (fun tr => fst tr < n1) a /\ Forall (fun tr => fst tr < n2) b /\ Permutation (map snd a) (map snd b).

Definition rel_res {A B} (P : A -> B -> Prop) (x : Res A) (y : Res B) : Prop :=
  match x, y with Ok a, Ok b => P a b | Throw, Throw => True | UB, UB => True | _, _ => False end.

Lemma rel_bind : forall {A B A' B'} (P : A -> B -> Prop) (Q : A' -> B' -> Prop) x y f g, rel_res P x y -> (forall a b, P a b -> rel_res Q (f a) (g b)) -> rel_res Q (rbind x f) (rbind y g).
Proof. intros A B A' B' P Q x y f g R H. destruct x, y; cbn in *; auto; contradiction. Qed.
Lemma rel_eq : forall {A} (x : Res A), rel_res eq x x.
Proof. intros A [a| |]; cbn; auto. Qed.

Definition rel_store (nreg nout n1 n2 : nat) (x y : list R * Store) : Prop :=
  fst x = fst y /\ store_ok nreg nout n1 (snd x) /\ store_ok nreg nout n2 (snd y) /\ sim nreg (snd x) (snd y).

Lemma sweep_angle_sim : forall e first h iang r1 r2 din s1 s2 nreg nout n1 n2, iang < 4 * n_oct (me_in e) -> same_rays n1 n2 r1 r2 -> rays_fit e iang (map snd r1) ->
  store_ok nreg nout n1 s1 -> store_ok nreg nout n2 s2 -> sim nreg s1 s2 ->
  rel_res (rel_store nreg nout n1 n2) (sweep_angle e first h iang r1 din s1) (sweep_angle e first h iang r2 din s2).
Proof.
  intros e first h iang r1 r2 din s1 s2 nreg nout n1 n2 Hi (T1 & T2 & P) F O1 O2 Sm. unfold sweep_angle. destruct (ang_ctx e h iang) as [c|] eqn:Ec; [|exact I]. cbn [of_opt rbind].
  pose proof (fit_slots e h iang c _ Ec F Hi) as ND.
  pose proof (sweep_rays_sim (me_xstr e) (me_q e iang) first c din nreg nout n1 n2 r1 r2 s1 s2 O1 O2 Sm T1 T2 P ND) as K.
  destruct (sweep_rays _ _ _ _ _ r1 s1) as [a|], (sweep_rays _ _ _ _ _ r2 s2) as [b|]; try contradiction; [|exact I]. destruct K as (Oa & Ob & Sab). cbn [of_opt rbind].
  destruct (me_gs e); [|cbn [rel_res]; split; cbn [fst snd]; auto]. pose proof Sab as Sab0. destruct Sab as [So St]. rewrite So.
  eapply rel_bind; [apply rel_eq|]. intros d1 d1' <-. eapply rel_bind; [apply rel_eq|]. intros d2 d2' <-. cbn [rel_res]. split; cbn [fst snd]; auto.
Qed.

Lemma sweep_angles_sim : forall e first h nreg nout n1 n2 a1 a2 iang din s1 s2, Forall2 (same_rays n1 n2) a1 a2 -> iang + length a1 <= 4 * n_oct (me_in e) ->
  (forall j rays, nth_error a1 j = Some rays -> rays_fit e (iang + j) (map snd rays)) ->
  store_ok nreg nout n1 s1 -> store_ok nreg nout n2 s2 -> sim nreg s1 s2 ->
  rel_res (rel_store nreg nout n1 n2) (sweep_angles e first h iang a1 din s1) (sweep_angles e first h iang a2 din s2).
Proof.
  intros e first h nreg nout n1 n2 a1. induction a1 as [|r1 a1 IH]; intros a2 iang din s1 s2 F2 L Fit O1 O2 Sm; inversion F2; subst; cbn [sweep_angles]; [cbn [rel_res]; split; cbn [fst snd]; auto|].
  cbn [length] in L. eapply rel_bind; [apply (sweep_angle_sim e first h iang r1 y din s1 s2 nreg nout n1 n2); auto; [lia|]|].
  - specialize (Fit 0 r1 eq_refl). now rewrite Nat.add_0_r in Fit.
  - intros [da sa] [db sb] (E & Oa & Ob & Sab). cbn [fst snd] in *. subst db. apply IH; auto; [lia|]. intros j rays Ej. replace (S iang + j) with (iang + S j) by lia. now apply Fit.
Qed.

(** Two schedules of the same plane. *)
Definition same_plane (n1 n2 : nat) (p1 p2 : PlaneIn) : Prop :=
  pi_first p1 = pi_first p2 /\ pi_height p1 = pi_height p2 /\ pi_in p1 = pi_in p2 /\ pi_out p1 = pi_out p2 /\ Forall2 (same_rays n1 n2) (pi_rays p1) (pi_rays p2).
Definition plane_fit (e : MocEnv) (p : PlaneIn) : Prop :=
  length (pi_rays p) <= 4 * n_oct (me_in e) /\ forall j rays, nth_error (pi_rays p) j = Some rays -> rays_fit e j (map snd rays).

Definition ts_ok (nreg n : nat) (ts : list (list R)) : Prop := length ts = n /\ Forall (fun t => length t = nreg) ts.

Lemma sweep_planes_sim : forall e nreg n1 n2 p1 p2 ts1 ts2, Forall2 (same_plane n1 n2) p1 p2 -> Forall (plane_fit e) p1 ->
  ts_ok nreg n1 ts1 -> ts_ok nreg n2 ts2 -> (forall i, tot ts1 i = tot ts2 i) ->
  rel_res (fun x y => fst x = fst y /\ ts_ok nreg n1 (snd x) /\ ts_ok nreg n2 (snd y) /\ forall i, tot (snd x) i = tot (snd y) i) (sweep_planes e p1 ts1) (sweep_planes e p2 ts2).
Proof.
  intros e nreg n1 n2 p1. induction p1 as [|a p1 IH]; intros p2 ts1 ts2 F2 Fit T1 T2 E; inversion F2 as [|? b ? q2 Sp F2']; subst; cbn [sweep_planes]; [cbn; auto|].
  inversion Fit as [|? ? [Fl Fr] Fit']; subst. destruct Sp as (<- & <- & <- & <- & Sr).
  eapply rel_bind; [apply (sweep_angles_sim e (pi_first a) (pi_height a) nreg (length (pi_out a)) n1 n2 (pi_rays a) (pi_rays b) 0); auto|].
  - split; [reflexivity|]. apply T1.
  - split; [reflexivity|]. apply T2.
  - split; auto.
  - intros [da sa] [db sb] (Ed & Oa & Ob & So & St). cbn [fst snd] in *. subst db. rewrite So. eapply rel_bind; [apply rel_eq|]. intros d1 d1' <-.
    eapply rel_bind; [apply (IH q2 (st_t sa) (st_t sb)); auto|].
    + split; [apply Oa|apply Oa].
    + split; [apply Ob|apply Ob].
    + intros [bs1 t1] [bs2 t2] (Eb & U1 & U2 & U3). cbn [fst snd] in *. subst bs2. cbn. auto.
Qed.

Lemma add_lists_spec : forall a b, length a = length b -> length (add_lists a b) = length a /\ forall i, at0 (add_lists a b) i = (at0 a i + at0 b i)%R.
Proof.
  induction a as [|x a IH]; intros [|y b] L; cbn in L; try lia; cbn [add_lists]; [split; auto; intros [|i]; cbn; lra|].
  destruct (IH b ltac:(lia)) as [A B]. split; [cbn; lia|]. intros [|i]; cbn; [lra|]. apply B.
Qed.
Lemma fold_add : forall ts acc n, length acc = n -> Forall (fun t => length t = n) ts -> length (fold_left add_lists ts acc) = n /\ forall i, at0 (fold_left add_lists ts acc) i = (at0 acc i + tot ts i)%R.
Proof.
  induction ts as [|t ts IH]; intros acc n L F; cbn [fold_left]; [split; auto; intros; unfold tot; cbn; lra|]. inversion F; subst.
  destruct (add_lists_spec acc t ltac:(lia)) as [A B]. destruct (IH (add_lists acc t) (length acc) A ltac:(auto)) as [C D]. split; [auto|]. intros i. rewrite D, B. unfold tot. cbn. lra.
Qed.
Lemma at0_repeat : forall n i, at0 (repeat 0%R n) i = 0%R.
Proof. induction n as [|n IH]; intros [|i]; cbn; auto. apply IH. Qed.
Lemma sum_threads_spec : forall n ts, Forall (fun t => length t = n) ts -> length (sum_threads n ts) = n /\ forall i, at0 (sum_threads n ts) i = tot ts i.
Proof. intros n ts F. destruct (fold_add ts (repeat 0%R n) n (repeat_length _ _) F) as [A B]. split; [exact A|]. intros i. unfold sum_threads. rewrite B, at0_repeat. lra. Qed.
Lemma at0_ext : forall a b, length a = length b -> (forall i, at0 a i = at0 b i) -> a = b.
Proof. intros a b L H. apply (nth_ext a b 0%R 0%R L). intros n _. apply H. Qed.
Lemma tot_zero : forall n m i, tot (repeat (repeat 0%R n) m) i = 0%R.
Proof. induction m as [|m IH]; intros i; unfold tot in *; cbn; [reflexivity|]. rewrite IH, at0_repeat. lra. Qed.
Lemma ts_zero : forall n m, ts_ok n m (repeat (repeat 0%R n) m).
Proof. intros n m. split; [apply repeat_length|]. apply Forall_forall. intros t I. apply repeat_spec in I. subst. apply repeat_length. Qed.

(** ** Balance *)
Lemma lsum_swap_rsum : forall {A} (f : A -> nat -> R) l n, rsum (fun i => lsum (fun a => f a i) l) n = lsum (fun a => rsum (f a) n) l.
Proof. intros A f l n. induction l as [|a l IH]; cbn [lsum]; [apply rsum_zero|]. now rewrite rsum_plus, IH. Qed.
Lemma rsum_delta : forall n k v, k < n -> rsum (fun i => if i =? k then v else 0%R) n = v.
Proof. intros n k v H. rewrite (rsum_single _ n k H); [now rewrite Nat.eqb_refl|]. intros i _ D. now rewrite (proj2 (Nat.eqb_neq i k) D). Qed.
Lemma pay_total : forall wt ds n, (forall d, In d ds -> fst d < n) -> rsum (pay wt ds) n = (lsum snd ds * wt)%R.
Proof.
  intros wt ds n H. unfold pay. rewrite (lsum_swap_rsum (fun d i => if i =? fst d then (snd d * wt)%R else 0%R)). rewrite <- lsum_scal. apply lsum_ext. intros d I. apply rsum_delta. auto.
Qed.

Lemma sweep_ray_inv : forall xstr q first rst in1 in2 ray o, sweep_ray xstr q first rst in1 in2 ray = Some o -> exists es p2, Forall2 (fun sg ie => seg_etau xstr first rst sg = Some ie) (ray_segs ray) es /\
  track q es in1 = Some (ro_fw o, ro_psi1 o) /\ track q (rev es) in2 = Some (ro_bw o, p2) /\ ro_psi2 o = rev p2.
Proof.
  intros xstr q first rst in1 in2 ray o H. unfold sweep_ray in H. destruct (all_some _) as [es|] eqn:E; [|discriminate]. apply all_some_map in E.
  destruct (track q es in1) as [[d1 p1]|] eqn:E1; [|discriminate]. destruct (track q (rev es) in2) as [[d2 p2]|] eqn:E2; [|discriminate]. injection H as <-. exists es, p2. auto.
Qed.

Lemma ray_conserves : forall xstr q first rst in1 in2 ray o, sweep_ray xstr q first rst in1 in2 ray = Some o ->
  lsum snd (ro_fw o) = (in1 - last (ro_psi1 o) 0)%R /\ lsum snd (ro_bw o) = (in2 - hd 0 (ro_psi2 o))%R.
Proof.
  intros xstr q first rst in1 in2 ray o H. destruct (sweep_ray_inv _ _ _ _ _ _ _ _ H) as (es & p2 & _ & T1 & T2 & ->). rewrite hd_rev. split; [apply (track_sum _ _ _ _ _ T1)|apply (track_sum _ _ _ _ _ T2)].
Qed.

(** ** Infinite medium *)
Lemma ray_flat : forall xstr q first rst c ray o, sweep_ray xstr q first rst c c ray = Some o -> (forall i b, nth_error q i = Some b -> b = c) ->
  last (ro_psi1 o) 0%R = c /\ hd 0%R (ro_psi2 o) = c /\ forall wt i, pay wt (ro_fw o ++ ro_bw o) i = 0%R.
Proof.
  intros xstr q first rst c ray o H Hq. destruct (sweep_ray_inv _ _ _ _ _ _ _ _ H) as (es & p2 & _ & T1 & T2 & E).
  assert (G : forall es ds ps, track q es c = Some (ds, ps) -> forall i e, In (i, e) es -> nth_error q i = Some c).
  { intros l ds ps T i e I. destruct (track_shape _ _ _ _ _ T) as (_ & _ & _). assert (exists b, nth_error q i = Some b) as [b Eb]; [|rewrite Eb; f_equal; eauto].
    clear - T I. revert T I. generalize c as psi. revert ds ps. induction l as [|[j f] l IH]; intros ds ps psi T I; [destruct I|]. cbn [track] in T. destruct (nth_error q j) as [b|] eqn:Ej; [|discriminate].
    destruct (track q l _) as [[d p]|] eqn:E; [|discriminate]. destruct I as [[= -> ->]|I]; eauto. }
  destruct (track_flat _ _ _ _ _ T1 (G _ _ _ T1)) as [A1 B1]. destruct (track_flat _ _ _ _ _ T2 (G _ _ _ T2)) as [A2 B2].
  assert (L : forall ps : list R, ps <> [] -> Forall (fun p => p = c) ps -> last ps 0%R = c).
  { intros ps N F. destruct (exists_last N) as (l & a & ->). rewrite last_last. apply Forall_app in F. destruct F as [_ F]. now inversion F. }
  destruct (track_shape _ _ _ _ _ T1) as (_ & L1 & _). destruct (track_shape _ _ _ _ _ T2) as (_ & L2 & _).
  split; [apply L; auto; intros X; rewrite X in L1; discriminate|]. split; [rewrite E, hd_rev; apply L; auto; intros X; rewrite X in L2; discriminate|].
  intros wt i. unfold pay. apply lsum_zero. intros d I. rewrite Forall_forall in B1, B2. apply in_app_or in I. destruct (i =? fst d); [|reflexivity].
  destruct I as [I|I]; [rewrite (B1 _ I)|rewrite (B2 _ I)]; ring.
Qed.

Definition flat_group (b : BC) (g : nat) (d : list R) (c : R) : Prop := forall a n i k, slot b g a n i k -> nth_error d k = Some c.
(** The outgoing flux of angle [a] is [c] everywhere. *)
Definition flat_angle (b : BC) (a : nat) (d : list R) (c : R) : Prop := forall n i k, slot b 0 a n i k -> nth_error d k = Some c.

Lemma update_flat : forall b out g a d c, bc_ok b -> sizes out = sizes b -> length (data out) = total (sizes b) -> (forall s, types b s = REFLECT) -> a < length (sizes b) -> g < n_group b ->
  length d = n_group b * total (sizes b) -> Forall no_gap (sizes b) -> flat_group b g d c -> flat_angle b a (data out) c ->
  exists d', update_angle b out g a d = Ok d' /\ length d' = length d /\ flat_group b g d' c.
Proof.
  intros b out g a d c K So Lo Ty Ha Hg Ld Ng Fl Fa. destruct (update_angle_ok b out g a d K So Lo) as (d' & E & L & P); auto.
  { intros s. right. left. apply Ty. }
  exists d'. split; [exact E|]. split; [exact L|]. intros a' n i k Sl. rewrite (P _ _ _ _ _ Sl). unfold updated.
  rewrite Nat.eqb_refl. cbn [andb]. destruct (refl_n_spec b a n K Ha) as (j & _ & Rj & Rj'). rewrite Rj. destruct (Nat.eqb_spec a' j) as [->|]; [|apply (Fl _ _ _ _ Sl)].
  destruct Sl as (size & off & Gf & Hi & ->). destruct (get_face_inv _ _ _ _ _ _ Gf) as (s' & o' & Es' & Eo' & -> & ->).
  unfold type_at. assert (Hj : j < length (sizes b)) by (apply nth_error_Some; congruence).
  destruct (nth_error (quad b) j) as [an|] eqn:Eq; [|apply nth_error_None in Eq; pose proof (ok_quad b K); lia].
  destruct (get_face_some b 0 a n Ha) as (sz & of0 & G0). rewrite G0. rewrite Ty. cbn [new_value]. apply (Fa n i). exists sz, of0. split; [exact G0|]. split; [|reflexivity].
  destruct (get_face_inv _ _ _ _ _ _ G0) as (s0 & o0 & Es0 & _ & -> & _).
  destruct (ok_mirror b K j a n s' Es') as (s'' & Es'' & Efs); auto; [lia|]. rewrite Es0 in Es''. injection Es'' as <-. lia.
Qed.

(** The rays of an angle use every slot of both directions exactly once. *)
Definition rays_cover (e : MocEnv) (iang : nat) (rays : list Ray) : Prop := exists s1 s2,
  nth_error (sizes (me_out e)) iang = Some s1 /\ nth_error (sizes (me_out e)) (rev_ang (n_oct (me_in e)) iang) = Some s2 /\ size_total s1 = length rays /\ size_total s2 = length rays /\
  Permutation (map ray_bc1 rays) (seq 0 (length rays)) /\ Permutation (map ray_bc2 rays) (seq 0 (length rays)).

Lemma cover_fit : forall e iang rays, rays_cover e iang rays -> rays_fit e iang rays.
Proof.
  intros e iang rays (s1 & s2 & N1 & N2 & L1 & L2 & P1 & P2). constructor.
  - eapply Permutation_NoDup; [apply Permutation_sym; exact P1|apply seq_NoDup].
  - eapply Permutation_NoDup; [apply Permutation_sym; exact P2|apply seq_NoDup].
  - intros r I. exists s1, s2. repeat split; auto.
    + rewrite L1. apply (in_map ray_bc2) in I. apply (Permutation_in _ P2) in I. apply in_seq in I. lia.
    + rewrite L2. apply (in_map ray_bc1) in I. apply (Permutation_in _ P1) in I. apply in_seq in I. lia.
Qed.

Lemma sweep_ray_def : forall xstr q first rst in1 in2 ray, length q = length xstr -> (0 < rst)%R -> Forall (fun x => 0 < x)%R xstr ->
  Forall (fun sg => fst sg + first < length xstr /\ (0 < snd sg)%R) (ray_segs ray) ->
  exists o, sweep_ray xstr q first rst in1 in2 ray = Some o /\ forall d, In d (ro_fw o ++ ro_bw o) -> fst d < length xstr.
Proof.
  intros xstr q first rst in1 in2 ray Lq Hr Hx Hs. destruct (etau_all xstr first rst (ray_segs ray) Hr Hx Hs) as (es & Ee & Re & _).
  destruct (track_def q es in1) as (d1 & p1 & E1); [intros i e I; rewrite Lq; apply (Re i e I)|].
  destruct (track_def q (rev es) in2) as (d2 & p2 & E2); [intros i e I; rewrite Lq; apply in_rev in I; apply (Re i e I)|].
  exists (mkRO d1 d2 p1 (rev p2)). split; [unfold sweep_ray; now rewrite Ee, E1, E2|]. cbn. intros d I. apply in_app_or in I.
  destruct (track_shape _ _ _ _ _ E1) as (M1 & _). destruct (track_shape _ _ _ _ _ E2) as (M2 & _).
  destruct I as [I|I]; apply (in_map fst) in I; [rewrite M1 in I|rewrite M2, map_rev in I; apply in_rev in I]; apply in_map_iff in I; destruct I as ([i e] & <- & I); apply (Re i e I).
Qed.

Section Infinite.
  Variables (e : MocEnv) (c : R) (nreg nt : nat).
  Let b := me_in e.
  Hypothesis K : bc_ok b.
  Hypothesis So : sizes (me_out e) = sizes b.
  Hypothesis Ty : forall s, types b s = REFLECT.
  Hypothesis Ng : Forall no_gap (sizes b).
  Hypothesis Hg : me_group e < n_group b.
  Hypothesis Len : length (sizes b) = 4 * n_oct b.
  Hypothesis Gs : me_gs e = true.
  Hypothesis Q : forall iang, me_q e iang = repeat c nreg.
  Hypothesis Xl : length (me_xstr e) = nreg.
  Hypothesis Xp : Forall (fun x => 0 < x)%R (me_xstr e).
  Hypothesis Sl : length (me_space e) <= length (me_quad e).
  Hypothesis St : Forall (fun a => 0 < rsintheta (adir a))%R (me_quad e).

  (** Segments of positive length in regions that exist. *)
  Definition ray_sound (first : nat) (r : Ray) : Prop := Forall (fun sg => fst sg + first < nreg /\ (0 < snd sg)%R) (ray_segs r).

  Lemma get_boundary_out : forall a, get_boundary (me_out e) 0 a = get_boundary b 0 a.
  Proof. intros a. unfold get_boundary. now rewrite So. Qed.
  Lemma boundary_size : forall g a z o s, get_boundary b g a = Some (z, o) -> nth_error (sizes b) a = Some s -> z = size_total s.
  Proof. intros g a z o s G N. unfold get_boundary in G. rewrite N in G. destruct (nth_error _ _); [|discriminate]. now injection G as <- _. Qed.
  Lemma boundary_some : forall g a s, nth_error (sizes b) a = Some s -> exists o, get_boundary b g a = Some (size_total s, o).
  Proof.
    intros g a s N. unfold get_boundary. rewrite N. destruct (nth_error (BcModel.offsets 0 (sizes b)) a) as [o|] eqn:E; [eauto|].
    apply nth_error_None in E. rewrite BcProofs.offsets_length in E. assert (a < length (sizes b)) by (apply nth_error_Some; congruence). lia.
  Qed.
  Lemma face_in_boundary : forall g a n i k, slot b g a n i k -> exists z o j, get_boundary b g a = Some (z, o) /\ j < z /\ k = o + j.
  Proof.
    intros g a n i k (size & off & Gf & Hi & ->). unfold get_face in Gf. unfold get_boundary.
    destruct (nth_error (sizes b) a) as [s|] eqn:Es; [|discriminate]. destruct (nth_error (BcModel.offsets 0 (sizes b)) a) as [o|] eqn:Eo; [|discriminate]. injection Gf as <- <-.
    assert (G : forall l k a s o, nth_error l a = Some s -> nth_error (BcModel.offsets k l) a = Some o -> sy o = sx o + sx s /\ sz o = sx o + sx s + sy s).
    { induction l as [|t l IH]; intros k [|a'] s' o' H1 H2; try discriminate; cbn in H1, H2; [|eauto]. injection H1 as <-. injection H2 as <-. auto. }
    destruct (G _ _ _ _ _ Es Eo) as [G1 G2]. do 2 eexists. exists (face_size o n - sx o + i). split; [reflexivity|]. unfold size_total. destruct n; cbn [face_size] in *; lia.
  Qed.

  Lemma ray_flat_ok : forall first rst r, (0 < rst)%R -> ray_sound first r -> exists o, sweep_ray (me_xstr e) (repeat c nreg) first rst c c r = Some o /\ (forall d, In d (ro_fw o ++ ro_bw o) -> fst d < nreg).
  Proof.
    intros first rst r Hr Hs. destruct (sweep_ray_def (me_xstr e) (repeat c nreg) first rst c c r) as (o & E & D); auto.
    - now rewrite repeat_length.
    - eapply Forall_impl; [|exact Hs]. intros sg [H1 H2]. rewrite Xl. auto.
    - exists o. split; auto. intros d I. rewrite <- Xl. auto.
  Qed.

  Lemma angle_flat : forall first h iang rays din s, iang < length (me_space e) -> iang < 4 * n_oct b -> Forall (fun tr => fst tr < nt) rays -> rays_cover e iang (map snd rays) ->
    Forall (ray_sound first) (map snd rays) ->
    length din = n_group b * total (sizes b) -> flat_group b (me_group e) din c -> store_ok nreg (total (sizes b)) nt s ->
    exists d' s', sweep_angle e first h iang rays din s = Ok (d', s') /\
    length d' = length din /\ flat_group b (me_group e) d' c /\ store_ok nreg (total (sizes b)) nt s' /\ forall i, tot (st_t s') i = tot (st_t s) i.
  Proof.
    intros first h iang rays din s His Hi Ht Cov Snd Ld Fl Os. unfold sweep_angle.
    pose proof (fun cx Ec => fit_slots e h iang cx _ Ec (cover_fit _ _ _ Cov) Hi) as ND. destruct Cov as (s1 & s2 & N1 & N2 & L1 & L2 & P1 & P2).
    destruct (rev_ang_spec _ _ Hi) as [_ R2]. fold b in N2. set (i2 := rev_ang (n_oct b) iang) in *. rewrite So in N1, N2.
    destruct (boundary_some (me_group e) _ _ N1) as (oi1 & B1). destruct (boundary_some (me_group e) _ _ N2) as (oi2 & B2).
    destruct (boundary_some 0 _ _ N1) as (oo1 & B3). destruct (boundary_some 0 _ _ N2) as (oo2 & B4).
    assert (exists cx, ang_ctx e h iang = Some cx /\ ac_in1 cx = oi1 /\ ac_in2 cx = oi2 /\ ac_out1 cx = oo1 /\ ac_out2 cx = oo2 /\ (0 < ac_rst cx)%R) as (cx & Ec & C1 & C2 & C3 & C4 & Cr).
    { unfold ang_ctx. fold b. fold i2. rewrite !get_boundary_out, B1, B2, B3, B4. destruct (nth_error (me_quad e) iang) as [an|] eqn:Ea; [|apply nth_error_None in Ea; lia].
      destruct (nth_error (me_space e) iang) eqn:Es; [|apply nth_error_None in Es; lia]. eexists. split; [reflexivity|]. cbn. repeat split; auto. rewrite Forall_forall in St. apply St. eapply nth_error_In; eauto. }
    specialize (ND cx Ec). rewrite Ec. cbn [of_opt rbind]. subst oi1 oi2 oo1 oo2. rewrite L1 in B1, B3. rewrite L2 in B2, B4. rewrite Q.
    assert (Bc : forall r, In r (map snd rays) -> ray_bc1 r < length (map snd rays) /\ ray_bc2 r < length (map snd rays)).
    { intros r I. split; [apply (in_map ray_bc1) in I; apply (Permutation_in _ P1) in I|apply (in_map ray_bc2) in I; apply (Permutation_in _ P2) in I]; apply in_seq in I; lia. }
    assert (FlatRay : forall r, In r (map snd rays) -> exists o, ray_res (me_xstr e) (repeat c nreg) first cx din r = Some o /\ last (ro_psi1 o) 0%R = c /\ hd 0%R (ro_psi2 o) = c /\ (forall wt i, pay wt (ro_fw o ++ ro_bw o) i = 0%R) /\
      forall d, In d (ro_fw o ++ ro_bw o) -> fst d < nreg).
    { intros r I. destruct (Bc r I) as [C1 C2]. unfold ray_res.
      assert (nth_error din (ac_in1 cx + ray_bc1 r) = Some c) as D1. { destruct (boundary_slot _ _ _ _ _ (ray_bc1 r) B1 ltac:(lia)) as (n & j & Sx). apply (Fl _ _ _ _ Sx). }
      assert (nth_error din (ac_in2 cx + ray_bc2 r) = Some c) as D2. { destruct (boundary_slot _ _ _ _ _ (ray_bc2 r) B2 ltac:(lia)) as (n & j & Sx). apply (Fl _ _ _ _ Sx). }
      rewrite D1, D2. rewrite Forall_forall in Snd. destruct (ray_flat_ok first (ac_rst cx) r Cr (Snd r I)) as (o & Eo & Do). exists o. split; [exact Eo|].
      destruct (ray_flat _ _ _ _ _ _ _ Eo) as (F1 & F2 & F3); [|auto]. intros i v Ev. apply nth_error_In in Ev. now apply repeat_spec in Ev. }
    assert (Slots : forall r, In r (map snd rays) -> slot1 cx r < total (sizes b) /\ slot2 cx r < total (sizes b)).
    { intros r I. destruct (Bc r I) as [C1 C2]. unfold slot1, slot2.
      assert (Hn : forall a n i k, slot b 0 a n i k -> k < total (sizes b)).
      { intros a n i k (sz & of & Gf & Hz & ->). assert (slot (mkBC 1 (sizes b) (types b) (n_oct b) (quad b) []) 0 a n i (of + i)) as Sx by (exists sz, of; split; auto).
        pose proof (slot_range _ _ _ _ _ _ Sx ltac:(cbn; lia)) as Y. cbn in Y. lia. }
      split; [destruct (boundary_slot _ _ _ _ _ (ray_bc2 r) B3 ltac:(lia)) as (n & j & Sx)|destruct (boundary_slot _ _ _ _ _ (ray_bc1 r) B4 ltac:(lia)) as (n & j & Sx)]; apply (Hn _ _ _ _ Sx). }
    assert (AllOk : forall r, In r (map snd rays) -> ray_ok (me_xstr e) (repeat c nreg) first cx din nreg (total (sizes b)) r).
    { intros r I. destruct (FlatRay r I) as (o & Eo & _ & _ & _ & Do). destruct (Slots r I). exists o. split; [exact Eo|]. split; [exact Do|auto]. }
    destruct (sweep_rays_ok _ _ _ _ _ _ _ _ rays s Os Ht AllOk ND) as (sa & Er & Ob & Tb & _ & Vb). rewrite Er. cbn [of_opt rbind].
    assert (Fa1 : flat_angle b iang (st_out sa) c).
    { intros n i k Sx. destruct (face_in_boundary _ _ _ _ _ Sx) as (z & o & j & X & Hj & ->). rewrite B3 in X. injection X as <- <-.
      assert (In j (map ray_bc2 (map snd rays))) as I. { eapply Permutation_in; [apply Permutation_sym; exact P2|]. apply in_seq. lia. }
      apply in_map_iff in I. destruct I as (r & <- & Ir). destruct (FlatRay r Ir) as (o & Eo & F1 & _). destruct (Vb r o Ir Eo) as [V1 _]. unfold slot1 in V1. congruence. }
    assert (Fa2 : flat_angle b i2 (st_out sa) c).
    { intros n i k Sx. destruct (face_in_boundary _ _ _ _ _ Sx) as (z & o & j & X & Hj & ->). rewrite B4 in X. injection X as <- <-.
      assert (In j (map ray_bc1 (map snd rays))) as I. { eapply Permutation_in; [apply Permutation_sym; exact P1|]. apply in_seq. lia. }
      apply in_map_iff in I. destruct I as (r & <- & Ir). destruct (FlatRay r Ir) as (o & Eo & _ & F2 & _). destruct (Vb r o Ir Eo) as [_ V2]. unfold slot2 in V2. congruence. }
    rewrite Gs. assert (Lo : length (st_out sa) = total (sizes b)) by apply Ob. fold b. fold i2.
    destruct (update_flat b (with_data (me_out e) (st_out sa)) (me_group e) iang din c K So Lo Ty ltac:(lia) Hg Ld Ng Fl Fa1) as (d1 & U1 & L3 & F3). rewrite U1. cbn [rbind].
    destruct (update_flat b (with_data (me_out e) (st_out sa)) (me_group e) i2 d1 c K So Lo Ty ltac:(lia) Hg ltac:(congruence) Ng F3 Fa2) as (d2 & U2 & L4 & F4). rewrite U2. cbn [rbind].
    exists d2, sa. split; [reflexivity|]. split; [congruence|]. split; [exact F4|]. split; [exact Ob|]. intros i. rewrite Tb. rewrite lsum_zero; [lra|]. intros r I. destruct (FlatRay r I) as (o & Eo & _ & _ & Pz & _). unfold ray_pay. rewrite Eo. apply Pz.
  Qed.

  Lemma angles_flat : forall first h angs iang din s, iang + length angs <= length (me_space e) -> iang + length angs <= 4 * n_oct b -> Forall (Forall (fun tr => fst tr < nt)) angs ->
    (forall j rays, nth_error angs j = Some rays -> rays_cover e (iang + j) (map snd rays)) -> Forall (fun rays => Forall (ray_sound first) (map snd rays)) angs ->
    length din = n_group b * total (sizes b) -> flat_group b (me_group e) din c -> store_ok nreg (total (sizes b)) nt s ->
    exists d' s', sweep_angles e first h iang angs din s = Ok (d', s') /\
    length d' = length din /\ flat_group b (me_group e) d' c /\ store_ok nreg (total (sizes b)) nt s' /\ forall i, tot (st_t s') i = tot (st_t s) i.
  Proof.
    intros first h. induction angs as [|rays angs IH]; intros iang din s Ls L Ht Cov Snd Ld Fl Os; cbn [sweep_angles]; [exists din, s; auto|].
    cbn [length] in L, Ls. inversion Ht as [|? ? Ht1 Ht2]; subst. inversion Snd as [|? ? Sn1 Sn2]; subst.
    assert (C0 : rays_cover e iang (map snd rays)) by (specialize (Cov 0 rays eq_refl); now rewrite Nat.add_0_r in Cov).
    destruct (angle_flat first h iang rays din s ltac:(lia) ltac:(lia) Ht1 C0 Sn1 Ld Fl Os) as (d1 & s1 & E1 & L1 & F1 & O1 & T1). rewrite E1. cbn [rbind].
    destruct (IH (S iang) d1 s1 ltac:(lia) ltac:(lia) Ht2) as (d2 & s2 & E2 & L2 & F2 & O2 & T2); auto; [|congruence|].
    - intros j r Ej. replace (S iang + j) with (iang + S j) by lia. now apply Cov.
    - exists d2, s2. split; [exact E2|]. split; [congruence|]. split; [auto|]. split; [auto|]. intros i. now rewrite T2.
  Qed.

  Definition plane_flat (p : PlaneIn) : Prop := length (pi_rays p) <= length (me_space e) /\ length (pi_rays p) <= 4 * n_oct b /\ Forall (Forall (fun tr => fst tr < nt)) (pi_rays p) /\
    (forall j rays, nth_error (pi_rays p) j = Some rays -> rays_cover e j (map snd rays)) /\ Forall (fun rays => Forall (ray_sound (pi_first p)) (map snd rays)) (pi_rays p) /\
    length (pi_in p) = n_group b * total (sizes b) /\ length (pi_out p) = total (sizes b) /\ flat_group b (me_group e) (pi_in p) c.

  Lemma planes_flat : forall ps ts, Forall plane_flat ps -> ts_ok nreg nt ts -> exists bs ts', sweep_planes e ps ts = Ok (bs, ts') /\
    Forall (fun d => flat_group b (me_group e) (fst d) c) bs /\ length bs = length ps /\ ts_ok nreg nt ts' /\ forall i, tot ts' i = tot ts i.
  Proof.
    induction ps as [|p ps IH]; intros ts Fp Ts; cbn [sweep_planes]; [exists [], ts; auto|]. inversion Fp as [|? ? (H0 & H1 & H2 & H3 & H3' & H4 & H5 & H6) Fp']; subst.
    destruct (angles_flat (pi_first p) (pi_height p) (pi_rays p) 0 (pi_in p) (mkSt (pi_out p) ts) ltac:(lia) ltac:(lia) H2 H3 H3' H4 H6 ltac:(split; [exact H5|exact Ts])) as (d & s & E1 & L1 & F1 & O1 & T1). rewrite E1. cbn [rbind]. rewrite Gs. cbn [rbind].
    destruct (IH (st_t s) Fp') as (bs1 & ts1 & E2 & G1 & G2 & G3 & G4); [split; apply O1|]. rewrite E2. cbn [rbind]. do 2 eexists. split; [reflexivity|]. split; [constructor; auto|]. split; [cbn; lia|]. split; [auto|]. intros i. rewrite G4, T1. reflexivity.
  Qed.
End Infinite.

Lemma finish_spec : forall acc xstr vol q f, finish acc xstr vol q = Some f -> length f = length acc /\ forall i, i < length acc -> exists x v b,
  nth_error xstr i = Some x /\ nth_error vol i = Some v /\ nth_error q i = Some b /\ (x * v <> 0)%R /\ nth_error f i = Some (at0 acc i / (x * v) + b * FPI)%R.
Proof.
  induction acc as [|a acc IH]; intros xstr vol q f H; [destruct xstr, vol, q; injection H as <-; split; auto; cbn; lia|].
  destruct xstr as [|x xstr], vol as [|v vol], q as [|b q]; try discriminate. cbn [finish] in H. destruct (Reqb_spec (x * v) 0) as [Z|Z]; [discriminate|].
  destruct (finish acc xstr vol q) as [r|] eqn:E; [|discriminate]. injection H as <-. destruct (IH _ _ _ _ E) as [L P]. split; [cbn; lia|].
  intros [|i] Hi; [exists x, v, b; repeat split; auto|]. cbn in Hi. destruct (P i ltac:(lia)) as (x' & v' & b' & A). exists x', v', b'. exact A.
Qed.
