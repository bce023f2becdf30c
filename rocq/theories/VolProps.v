(** C29: volume correction of ray lengths. *)
From Coq Require Import List Lia Bool Reals Lra Psatz PeanoNat.
From Verif Require Import RUtil ListUtil StdAlg CoreModel CoreProofs MocModel MocProofs VolModel.
Import ListNotations.
Open Scope R_scope.

(** Total length of the segments of [rays] in region [i]; whether there is one; rays with in-range regions and positive
    lengths; lengths rescaled by a factor that depends on the region only. *)
Definition track_len (rays : list Segs) (i : nat) : R := lsum (fun sg => if (fst sg =? i)%nat then snd sg else 0) (concat rays).
Definition crossed (rays : list Segs) (i : nat) : Prop := exists sg, In sg (concat rays) /\ fst sg = i.
Definition segs_ok (nreg : nat) (rays : list Segs) : Prop := forall sg, In sg (concat rays) -> (fst sg < nreg)%nat /\ 0 < snd sg.
Definition rescaled (g : nat -> R) (rays : list Segs) : list Segs := map (map (fun sg => (fst sg, snd sg * g (fst sg)))) rays.

Lemma vol_ray_deposit : forall f segs acc, vol_ray f segs acc = deposit f segs acc.
Proof. intros f. induction segs as [|[i l] segs IH]; intros acc; cbn; [reflexivity|]. destruct (add_at acc i (l * f)); auto. Qed.
Lemma pay_track : forall f (ray : Segs) i, pay f ray i = track_len [ray] i * f.
Proof.
  intros f ray i. unfold pay, track_len. cbn. rewrite app_nil_r, <- lsum_scal. apply lsum_ext. intros sg _. rewrite Nat.eqb_sym. destruct (_ =? _)%nat; lra.
Qed.
Lemma track_len_cons : forall (r : Segs) rays i, track_len (r :: rays) i = track_len [r] i + track_len rays i.
Proof. intros. unfold track_len. cbn [concat]. rewrite app_nil_r. apply lsum_app. Qed.
Lemma vol_rays_spec : forall f rays acc, (forall sg, In sg (concat rays) -> (fst sg < length acc)%nat) ->
  exists acc', vol_rays f rays acc = Some acc' /\ length acc' = length acc /\ forall i, at0 acc' i = at0 acc i + track_len rays i * f.
Proof.
  intros f. induction rays as [|r rays IH]; intros acc H; cbn [vol_rays].
  - exists acc. repeat split; auto. intros i. unfold track_len. cbn. lra.
  - rewrite vol_ray_deposit. destruct (deposit_spec f r acc) as (a1 & -> & L1 & P1); [intros d I; apply H; cbn; apply in_or_app; auto|].
    destruct (IH a1) as (a2 & -> & L2 & P2); [intros sg I; rewrite L1; apply H; cbn; apply in_or_app; auto|]. exists a2. split; [reflexivity|]. split; [congruence|]. intros i. rewrite P2, P1, pay_track, (track_len_cons r rays). ring.
Qed.

Lemma factors_spec : forall tv acc, (length acc <= length tv)%nat -> exists cf, factors tv acc = Some cf /\ forall i, (i < length acc)%nat -> nth_error cf i = Some (if Reqb (at0 acc i) 0 then None else Some (at0 tv i / at0 acc i)).
Proof.
  induction tv as [|t tv IH]; intros [|a acc] H; cbn in H; try lia; cbn [factors]; try (exists []; split; [reflexivity|intros i Hi; cbn in Hi; lia]).
  destruct (IH acc) as (cf & -> & P); [lia|]. eexists. split; [reflexivity|]. intros [|i] Hi; [reflexivity|]. cbn in Hi. apply P. lia.
Qed.

Lemma track_len_pos : forall nreg rays i, segs_ok nreg rays -> 0 <= track_len rays i /\ (crossed rays i -> 0 < track_len rays i).
Proof.
  intros nreg rays i Ok. unfold segs_ok in Ok. unfold track_len, crossed. induction (concat rays) as [|sg l IH]; cbn [lsum].
  - split; [lra|]. intros (sg & [] & _).
  - destruct IH as [A B]; [intros s I; apply Ok; now right|]. destruct (Ok sg (or_introl eq_refl)) as [_ P]. destruct (Nat.eqb_spec (fst sg) i) as [E|E]; [split; intros; lra|].
    split; [lra|]. intros (s & [<-|I] & Es); [contradiction|]. rewrite Rplus_0_l. apply B. eauto.
Qed.

Lemma scale_rays_spec : forall g cf rays, (forall sg, In sg (concat rays) -> nth_error cf (fst sg) = Some (Some (g (fst sg)))) -> scale_rays cf rays = Some (rescaled g rays).
Proof.
  intros g cf rays H. unfold scale_rays, rescaled. apply all_some_spec. rewrite map_map. apply map_ext_in. intros r Ir. apply all_some_spec. rewrite map_map. apply map_ext_in. intros sg Is.
  unfold scale_seg. rewrite H; [reflexivity|]. apply in_concat. eauto.
Qed.
Lemma track_rescaled : forall g rays i, track_len (rescaled g rays) i = track_len rays i * g i.
Proof.
  intros g rays i. unfold track_len, rescaled. rewrite <- concat_map, <- lsum_scal, lsum_map. apply lsum_ext. intros sg _. cbn. destruct (Nat.eqb_spec (fst sg) i) as [->|]; lra.
Qed.

(** FLAT: each angle by itself reproduces the area of every region it crosses; lengths within a region keep their ratios. *)
Theorem C29_flat : forall space nreg tv rays, 0 < space -> length tv = nreg -> segs_ok nreg rays ->
  exists g, correct_flat space nreg tv rays = Some (rescaled g rays) /\
    forall i t, crossed rays i -> nth_error tv i = Some t -> space * track_len (rescaled g rays) i = t /\ (0 < t -> 0 < g i).
Proof.
  intros space nreg tv rays Hs Lt Ok. unfold correct_flat. destruct (vol_rays_spec space rays (repeat 0 nreg)) as (acc & -> & La & Pa); [intros sg I; rewrite repeat_length; apply (Ok sg I)|].
  rewrite repeat_length in La. destruct (factors_spec tv acc) as (cf & -> & Pf); [lia|]. exists (fun i => at0 tv i / at0 acc i).
  assert (Ap : forall i, at0 acc i = track_len rays i * space) by (intros i; rewrite Pa, at0_repeat; lra).
  split.
  - apply scale_rays_spec. intros sg I. destruct (Ok sg I) as [R P]. rewrite Pf by lia. rewrite Ap. destruct (track_len_pos nreg rays (fst sg) Ok) as [_ T].
    assert (0 < track_len rays (fst sg)) by (apply T; exists sg; auto). destruct (Reqb_spec (track_len rays (fst sg) * space) 0); [nra|reflexivity].
  - intros i t C Et. rewrite track_rescaled. cbn beta. rewrite Ap. destruct (track_len_pos nreg rays i Ok) as [_ T]. specialize (T C). unfold at0 at 1. rewrite (nth_error_nth _ _ _ Et).
    split; [field; split; lra|]. intros Ht. unfold at0. rewrite (nth_error_nth _ _ _ Et). apply Rdiv_lt_0_compat; nra.
Qed.
Print Assumptions C29_flat.

Definition angle_len (angs : list (R * R * list Segs)) (i : nat) : R := lsum (fun a => fst (fst a) * (snd (fst a) / 2) * track_len (snd a) i) angs.

Lemma vol_angles_spec : forall angs acc, (forall a sg, In a angs -> In sg (concat (snd a)) -> (fst sg < length acc)%nat) ->
  exists acc', vol_angles angs acc = Some acc' /\ length acc' = length acc /\ forall i, at0 acc' i = at0 acc i + angle_len angs i.
Proof.
  induction angs as [|[[sp w] rays] angs IH]; intros acc H; cbn [vol_angles].
  - exists acc. repeat split; auto. intros i. unfold angle_len. cbn. lra.
  - destruct (vol_rays_spec (sp * (w * (1 / 2))) rays acc) as (a1 & -> & L1 & P1); [intros sg I; apply (H (sp, w, rays)); auto; now left|].
    destruct (IH a1) as (a2 & -> & L2 & P2); [intros a sg Ia I; rewrite L1; apply (H a); auto; now right|]. exists a2. split; [reflexivity|]. split; [congruence|]. intros i. rewrite P2, P1. unfold angle_len. cbn [lsum fst snd]. field.
Qed.

(** ANGLE: the weighted sum over the angles (weights of the upper half of the plane add up to two) reproduces the area of
    every region crossed by some angle. *)
Theorem C29_angle : forall nreg tv angs, length tv = nreg -> (forall a, In a angs -> 0 < fst (fst a) /\ 0 < snd (fst a) /\ segs_ok nreg (snd a)) ->
  exists g, correct_angle nreg tv angs = Some (map (fun a => (fst a, rescaled g (snd a))) angs) /\
    forall i t, (exists a, In a angs /\ crossed (snd a) i) -> nth_error tv i = Some t -> angle_len (map (fun a => (fst a, rescaled g (snd a))) angs) i = t /\ (0 < t -> 0 < g i).
Proof.
  intros nreg tv angs Lt Ok. unfold correct_angle. destruct (vol_angles_spec angs (repeat 0 nreg)) as (acc & -> & La & Pa); [intros a sg Ia I; rewrite repeat_length; apply (Ok a Ia); auto|].
  rewrite repeat_length in La. destruct (factors_spec tv acc) as (cf & -> & Pf); [lia|]. exists (fun i => at0 tv i / at0 acc i).
  assert (Ap : forall i, at0 acc i = angle_len angs i) by (intros i; rewrite Pa, at0_repeat; lra).
  assert (Pos : forall i, (exists a, In a angs /\ crossed (snd a) i) -> 0 < angle_len angs i).
  { intros i. unfold angle_len. clear - Ok. assert (N : forall l, (forall a, In a l -> 0 < fst (fst a) /\ 0 < snd (fst a) /\ segs_ok nreg (snd a)) -> 0 <= lsum (fun a => fst (fst a) * (snd (fst a) / 2) * track_len (snd a) i) l).
    { induction l as [|a l IH]; intros H; cbn [lsum]; [lra|]. destruct (H a (or_introl eq_refl)) as (H1 & H2 & H3). destruct (track_len_pos nreg (snd a) i H3) as [T _].
      assert (0 <= lsum (fun a => fst (fst a) * (snd (fst a) / 2) * track_len (snd a) i) l) by (apply IH; intros; apply H; now right).
      assert (0 <= fst (fst a) * (snd (fst a) / 2) * track_len (snd a) i) by (repeat apply Rmult_le_pos; lra). lra. }
    induction angs as [|a l IH]; intros (b & I & C); [destruct I|]. cbn [lsum]. destruct (Ok a (or_introl eq_refl)) as (H1 & H2 & H3). destruct (track_len_pos nreg (snd a) i H3) as [T T'].
    assert (Nl := N l (fun x Ix => Ok x (or_intror Ix))).
    destruct I as [<-|I]; [assert (0 < fst (fst a) * (snd (fst a) / 2) * track_len (snd a) i) by (repeat apply Rmult_lt_0_compat; auto; lra); lra|].
    assert (0 <= fst (fst a) * (snd (fst a) / 2) * track_len (snd a) i) by (repeat apply Rmult_le_pos; lra).
    assert (0 < lsum (fun a => fst (fst a) * (snd (fst a) / 2) * track_len (snd a) i) l) by (apply IH; [intros; apply Ok; now right|eauto]). lra. }
  split.
  - apply all_some_spec. rewrite map_map. apply map_ext_in. intros a Ia. rewrite (scale_rays_spec (fun i => at0 tv i / at0 acc i)); [reflexivity|].
    intros sg I. destruct (Ok a Ia) as (_ & _ & Oka). destruct (Oka sg I) as [R P]. rewrite Pf by lia. rewrite Ap. assert (0 < angle_len angs (fst sg)) by (apply Pos; exists a; split; [exact Ia|exists sg; auto]).
    destruct (Reqb_spec (angle_len angs (fst sg)) 0); [lra|reflexivity].
  - intros i t C Et. specialize (Pos i C). unfold angle_len at 1. rewrite lsum_map.
    rewrite (lsum_ext _ (fun a => fst (fst a) * (snd (fst a) / 2) * track_len (snd a) i * (at0 tv i / at0 acc i))) by (intros a _; cbn [fst snd]; rewrite track_rescaled; cbn beta; lra).
    rewrite lsum_scal. fold (angle_len angs i). rewrite Ap. unfold at0. rewrite (nth_error_nth _ _ _ Et). split; [field; lra|]. intros Ht. apply Rdiv_lt_0_compat; lra.
Qed.
Print Assumptions C29_angle.

Definition ex_rays : list Segs := [[(0%nat, 1); (2%nat, 1 / 2)]; [(2%nat, 3)]].
Example C29_instance : segs_ok 3 ex_rays /\ crossed ex_rays 2 /\ ~ crossed ex_rays 1 /\ exists r, correct_flat (1 / 2) 3 [1; 5; 7] ex_rays = Some r /\ 1 / 2 * track_len r 2 = 7.
Proof.
  assert (O : segs_ok 3 ex_rays). { intros sg I. cbn in I. destruct I as [<-|[<-|[<-|[]]]]; cbn; (split; [lia|lra]). }
  assert (C : crossed ex_rays 2) by (exists (2%nat, 3); cbn; auto).
  split; [exact O|]. split; [exact C|]. split; [intros (sg & I & E); cbn in I; destruct I as [<-|[<-|[<-|[]]]]; discriminate|].
  destruct (C29_flat (1 / 2) 3 [1; 5; 7] ex_rays) as (g & E & P); auto; [lra|]. eexists. split; [exact E|]. apply (P 2%nat 7 C eq_refl).
Qed.

(** A region whose only segments have no length gets an infinite factor: 0 * infinity is not a number. *)
Theorem C29_zero_length_refuted : exists space nreg tv rays, 0 < space /\ length tv = nreg /\ (forall sg, In sg (concat rays) -> (fst sg < nreg)%nat /\ 0 <= snd sg) /\ correct_flat space nreg tv rays = None.
Proof.
  exists 1, 1%nat, [1], [[(0%nat, 0)]]. split; [lra|]. split; [reflexivity|]. split; [intros sg [<-|[]]; cbn; split; [lia|lra]|].
  unfold correct_flat. cbn [vol_rays vol_ray repeat add_at factors]. destruct (Reqb_spec (0 + 0 * 1) 0); [reflexivity|lra].
Qed.
Print Assumptions C29_zero_length_refuted.
