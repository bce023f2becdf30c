(** The paths of all that is written to the results file are different, and groups are made first (for C201). *)
From Coq Require Import String Ascii List Bool Arith Lia.
From Verif Require Import StrModel H5Model H5Props LayModel LayProofs.
Import ListNotations.
Open Scope nat_scope.

(** ** Lists without repetition *)
Definition apart (a b : list (list str)) : Prop := forall p, In p a -> In p b -> False.
Definition headed (l : list (list str)) (hs : list str) : Prop := forall p, In p l -> exists s r, p = s :: r /\ In s hs.
Definition unlike (a b : list str) : bool := forallb (fun x => negb (existsb (hsame x) b)) a.
Lemma nodup_app : forall a b : list (list str), NoDup a -> NoDup b -> apart a b -> NoDup (a ++ b).
Proof.
  induction a as [|x a IH]; intros b A B D; [exact B|]. inversion A as [|? ? N A']; subst. cbn [app]. constructor; [intros I; apply in_app_iff in I; destruct I as [I|I]; [exact (N I)|exact (D x (or_introl eq_refl) I)]|]. apply IH; auto. intros p P Q. exact (D p (or_intror P) Q).
Qed.
Lemma apart_headed : forall a b ha hb, headed a ha -> headed b hb -> unlike ha hb = true -> apart a b.
Proof.
  intros a b ha hb A B U p P Q. destruct (A p P) as (s & r & -> & Is). destruct (B _ Q) as (s' & r' & E & Is'). injection E as <- <-. unfold unlike in U. rewrite forallb_forall in U. specialize (U s Is). rewrite negb_true_iff in U.
  assert (X : existsb (hsame s) hb = true) by (apply existsb_exists; exists s; split; [exact Is'|apply hsame_refl]). congruence.
Qed.
Lemma headed_app : forall a b h, headed a h -> headed b h -> headed (a ++ b) h.
Proof. intros a b h A B p P. apply in_app_iff in P. destruct P; auto. Qed.
Lemma headed_incl : forall a h h', headed a h -> (forall s, In s h -> In s h') -> headed a h'.
Proof. intros a h h' A H p P. destruct (A p P) as (s & r & E & I). exists s, r. auto. Qed.
Lemma nodup_flat : forall {A} (F : A -> list (list str)) xs, NoDup xs -> (forall x, In x xs -> NoDup (F x)) -> (forall x y, In x xs -> In y xs -> x <> y -> apart (F x) (F y)) -> NoDup (flat_map F xs).
Proof.
  induction xs as [|x xs IH]; intros N H D; [constructor|]. inversion N as [|? ? Nx N']; subst. cbn [flat_map]. apply nodup_app; [apply H; now left|apply IH; auto; [intros; apply H; now right|intros; apply D; [now right|now right|assumption]]|]. intros p P Q. apply in_flat_map in Q. destruct Q as (y & Y & Q). apply (D x y (or_introl eq_refl) (or_intror Y)) with p; auto. intros ->. exact (Nx Y).
Qed.
Lemma nodup_map : forall {A} (F : A -> list str) xs, NoDup xs -> (forall x y, In x xs -> In y xs -> F x = F y -> x = y) -> NoDup (map F xs).
Proof.
  induction xs as [|x xs IH]; intros N H; [constructor|]. inversion N as [|? ? Nx N']; subst. cbn [map]. constructor; [|apply IH; auto; intros; apply H; auto; now right]. intros I. apply in_map_iff in I. destruct I as (y & E & Y). apply Nx. rewrite (H x y); auto; [now left|now right].
Qed.
(** A group and what is in it. *)
Definition within_group (s : str) (l : list (list str)) : list (list str) := [s] :: map (cons s) l.
Lemma nodup_group : forall s l, NoDup l -> ~ In [] l -> NoDup (within_group s l).
Proof.
  intros s l N E. constructor; [intros I; apply in_map_iff in I; destruct I as (p & Ep & I); injection Ep as ->; exact (E I)|]. apply nodup_map; [exact N|]. intros x y _ _ Q. now injection Q.
Qed.
Lemma headed_group : forall s l, headed (within_group s l) [s].
Proof. intros s l p [<-|I]; [exists s, []; split; [reflexivity|now left]|]. apply in_map_iff in I. destruct I as (q & <- & _). exists s, q. split; [reflexivity|now left]. Qed.
Lemma headed_nonempty : forall l h, headed l h -> ~ In [] l.
Proof. intros l h H I. destruct (H _ I) as (s & r & E & _). discriminate. Qed.
Definition unique (l : list str) : bool := (fix go l := match l with [] => true | x :: r => negb (existsb (hsame x) r) && go r end) l.
Lemma nodup_singles : forall l, unique l = true -> NoDup (map (fun s => [s]) l).
Proof.
  induction l as [|x l IH]; intros U; [constructor|]. cbn [unique] in U. apply andb_true_iff in U. destruct U as [U1 U2]. cbn [map]. constructor; [|now apply IH]. intros I. apply in_map_iff in I. destruct I as (y & E & Y). injection E as ->. rewrite negb_true_iff in U1.
  assert (X : existsb (hsame x) l = true) by (apply existsb_exists; exists x; split; [exact Y|apply hsame_refl]). congruence.
Qed.
Lemma headed_singles : forall l, headed (map (fun s => [s]) l) l.
Proof. intros l p I. apply in_map_iff in I. destruct I as (s & <- & S). exists s, []. auto. Qed.

(** ** Paths relative to the node that is written to *)
Definition aq_rel := within_group (nm "ang_quad") (map (fun s => [s]) [nm "n_polar"; nm "n_azimuthal"; nm "alpha"; nm "theta"; nm "omega_x"; nm "omega_y"; nm "omega_z"; nm "weight"]).
Definition moc_rel (ng : nat) (fsr : bool) : list (list str) :=
  [nm "flux"] :: (if fsr then [nm "fsr_flux"] :: map (fun ig => [nm "fsr_flux"; num3 (ig + 1)]) (seq 0 ng) else []) ++ map (fun ig => [nm "flux"; num3 (ig + 1)]) (seq 0 ng) ++ [nm "pin_powers"] :: aq_rel.
Definition xs_in (ng : nat) : list (list str) := map (fun s => [s]) [nm "xstr"; nm "xsnf"; nm "xsf"; nm "xsch"; nm "eubounds"] ++
  flat_map (fun ig => [[nm "xstr"; dec ig]; [nm "xsnf"; dec ig]; [nm "xsch"; dec ig]; [nm "xsf"; dec ig]]) (seq 0 ng) ++ [[nm "xssc"]].
Definition xs_rel (ng : nat) := within_group (nm "xsmesh") (xs_in ng).
Definition sn_rel (ng : nat) := [nm "flux"] :: map (fun ig => [nm "flux"; num3 (ig + 1)]) (seq 0 ng) ++ [[nm "pin_powers"]; [nm "pin_powers_2d"]] ++ aq_rel ++ xs_rel ng.
Definition co_rel (ng na : nat) := [[nm "alpha_x"]; [nm "alpha_y"]; [nm "beta"]] ++ flat_map (fun g => [[nm "alpha_x"; num3 g]; [nm "alpha_y"; num3 g]; [nm "beta"; num3 g]] ++
  flat_map (fun a => [[nm "beta"; num3 g; num3 a]; [nm "alpha_x"; num3 g; num3 a]; [nm "alpha_y"; num3 g; num3 a]]) (seq 0 na)) (seq 0 ng).
Definition re_in (ng : nat) : list (list str) := flat_map (fun ig => [[dec (ig + 1)]; [dec (ig + 1); nm "alpha_x"]; [dec (ig + 1); nm "alpha_y"]; [dec (ig + 1); nm "beta"]]) (seq 0 ng).
Definition cu_in (ng : nat) : list (list str) := [nm "source"] :: flat_map (fun ig => [dec (ig + 1)] :: map (fun s => [dec (ig + 1); s]) surfaces) (seq 0 ng).

Ltac ins := repeat match goal with
  | H : In _ (_ ++ _) |- _ => apply in_app_iff in H; destruct H as [H|H]
  | H : In _ (map _ _) |- _ => apply in_map_iff in H; let y := fresh "y" in destruct H as (y & H & ?)
  | H : In _ (flat_map _ _) |- _ => apply in_flat_map in H; let y := fresh "y" in destruct H as (y & ? & H)
  | H : In _ (_ :: _) |- _ => destruct H as [H|H]
  | H : In _ [] |- _ => destruct H
  | H : _ = ?p |- _ => is_var p; subst p
  | H : ?p = _ |- _ => is_var p; subst p
  end.
Ltac nums := repeat match goal with
  | H : num3 _ = num3 _ |- _ => apply num3_inj in H
  | H : dec _ = dec _ |- _ => apply dec_inj in H
  | H : num3 _ ++ _ = num3 _ ++ _ |- _ => apply stdev_inj in H
  | H : num3 _ = num3 _ ++ _ |- _ => destruct (num3_stdev _ _ H)
  | H : num3 _ ++ _ = num3 _ |- _ => symmetry in H; destruct (num3_stdev _ _ H)
  end.
Ltac clash := unfold not in *; intros; ins; solve [discriminate | match goal with H : _ :: _ = _ :: _ |- _ => injection H; intros; nums; first [discriminate|lia|congruence] end].
Lemma dec_not : forall n s, forallb digit s = false -> dec n <> s.
Proof. intros n s H E. subst s. now rewrite dec_digits in H. Qed.
Lemma nodup_fam : forall (F : nat -> list str) ng, (forall a b, F a = F b -> a = b) -> NoDup (map F (seq 0 ng)).
Proof. intros F ng H. apply nodup_map; [apply seq_NoDup|]. intros x y _ _. apply H. Qed.

Lemma aq_nodup : NoDup aq_rel.
Proof. apply nodup_group; [now apply nodup_singles|eapply headed_nonempty, headed_singles]. Qed.
Lemma aq_headed : headed aq_rel [nm "ang_quad"]. Proof. apply headed_group. Qed.
Ltac hd := let q := fresh "q" in let J := fresh "J" in intros q J; ins; eexists _, _; (split; [reflexivity|cbn [In]; tauto]).
Definition moc_heads := [nm "flux"; nm "fsr_flux"; nm "pin_powers"; nm "ang_quad"].
Lemma fam2_headed : forall s (F : nat -> str) ng, headed (map (fun ig => [s; F ig]) (seq 0 ng)) [s].
Proof. intros s F ng. hd. Qed.
Lemma moc_headed : forall ng fsr, headed (moc_rel ng fsr) moc_heads.
Proof.
  intros ng fsr p I. unfold moc_rel in I. destruct I as [<-|I]; [exists (nm "flux"), []; cbn; auto|]. apply in_app_iff in I. destruct I as [I|I].
  - destruct fsr; [|destruct I]. destruct I as [<-|I]; [exists (nm "fsr_flux"), []; cbn; auto|]. ins. eexists _, _. split; [reflexivity|cbn; auto].
  - apply in_app_iff in I. destruct I as [I|[<-|I]]; [ins; eexists _, _; split; [reflexivity|cbn; auto]|eexists _, _; split; [reflexivity|cbn; auto]|]. destruct (aq_headed p I) as (s & r & E & S). exists s, r. split; [exact E|]. cbn in *. tauto.
Qed.
Lemma num3s : forall s a b, [s; num3 (a + 1)] = [s; num3 (b + 1)] -> a = b.
Proof. intros s a b E. injection E as E. nums. lia. Qed.
Lemma moc_nodup : forall ng fsr, NoDup (moc_rel ng fsr).
Proof.
  intros ng fsr. unfold moc_rel. assert (T : NoDup (map (fun ig => [nm "flux"; num3 (ig + 1)]) (seq 0 ng) ++ [nm "pin_powers"] :: aq_rel)).
  { apply nodup_app; [apply nodup_fam; apply num3s| |].
    - constructor; [|apply aq_nodup]. intros I. destruct (aq_headed _ I) as (s & r & E & [<-|[]]). discriminate.
    - apply (apart_headed _ _ [nm "flux"] [nm "pin_powers"; nm "ang_quad"]); [apply fam2_headed| |reflexivity]. intros p [<-|I]; [exists (nm "pin_powers"), []; cbn; auto|]. destruct (aq_headed p I) as (s & r & E & S). exists s, r. split; [exact E|]. cbn in *. tauto. }
  assert (Ht : headed (map (fun ig => [nm "flux"; num3 (ig + 1)]) (seq 0 ng) ++ [nm "pin_powers"] :: aq_rel) [nm "flux"; nm "pin_powers"; nm "ang_quad"]).
  { apply headed_app; [intros p I; ins; eexists _, _; split; [reflexivity|cbn; auto]|]. intros p [<-|I]; [exists (nm "pin_powers"), []; cbn; auto|]. destruct (aq_headed p I) as (s & r & E & S). exists s, r. split; [exact E|]. cbn in *. tauto. }
  constructor.
  - intros I. apply in_app_iff in I. destruct I as [I|I]; [destruct fsr; [|destruct I]; clash|]. apply in_app_iff in I. destruct I as [I|[I|I]]; [clash|discriminate|]. destruct (aq_headed _ I) as (s & r & E & [<-|[]]). discriminate.
  - apply nodup_app; [|exact T|].
    + destruct fsr; [|constructor]. constructor; [clash|]. apply nodup_fam, num3s.
    + apply (apart_headed _ _ [nm "fsr_flux"] [nm "flux"; nm "pin_powers"; nm "ang_quad"]); [|exact Ht|reflexivity]. destruct fsr; hd.
Qed.
Lemma xs_in_headed : forall ng, headed (xs_in ng) [nm "xstr"; nm "xsnf"; nm "xsf"; nm "xsch"; nm "eubounds"; nm "xssc"].
Proof. intros ng. unfold xs_in. apply headed_app; [|apply headed_app]; hd. Qed.
Lemma xs_in_nodup : forall ng, NoDup (xs_in ng).
Proof.
  intros ng. unfold xs_in. apply nodup_app; [now apply nodup_singles| |].
  - apply nodup_app; [|repeat constructor; intros []|intros p P Q; clash]. apply nodup_flat; [apply seq_NoDup| |intros x y _ _ N p P Q; clash]. intros x _. repeat constructor; clash.
  - intros p P Q. apply in_app_iff in Q. destruct Q as [Q|Q]; clash.
Qed.
Lemma xs_nodup : forall ng, NoDup (xs_rel ng).
Proof. intros ng. apply nodup_group; [apply xs_in_nodup|eapply headed_nonempty, xs_in_headed]. Qed.
Lemma xs_headed : forall ng, headed (xs_rel ng) [nm "xsmesh"]. Proof. intros. apply headed_group. Qed.
Definition sn_heads := [nm "flux"; nm "pin_powers"; nm "pin_powers_2d"; nm "ang_quad"; nm "xsmesh"].
Lemma sn_headed : forall ng, headed (sn_rel ng) sn_heads.
Proof.
  intros ng p I. unfold sn_rel in I. destruct I as [<-|I]; [eexists _, _; split; [reflexivity|cbn; auto]|]. apply in_app_iff in I. destruct I as [I|[<-|[<-|I]]]; [ins|..]; try (eexists _, _; split; [reflexivity|cbn; tauto]).
  cbn [app] in I. apply in_app_iff in I. destruct I as [I|I]; [destruct (aq_headed p I) as (s & r & E & S)|destruct (xs_headed ng p I) as (s & r & E & S)]; exists s, r; (split; [exact E|]); cbn in *; tauto.
Qed.
Lemma sn_nodup : forall ng, NoDup (sn_rel ng).
Proof.
  intros ng. unfold sn_rel. assert (B : NoDup (aq_rel ++ xs_rel ng)) by (apply nodup_app; [apply aq_nodup|apply xs_nodup|apply (apart_headed _ _ _ _ aq_headed (xs_headed ng)); reflexivity]).
  assert (Hb : headed (aq_rel ++ xs_rel ng) [nm "ang_quad"; nm "xsmesh"]) by (apply headed_app; [eapply headed_incl; [apply aq_headed|cbn; tauto]|eapply headed_incl; [apply xs_headed|cbn; tauto]]).
  assert (C : NoDup ([[nm "pin_powers"]; [nm "pin_powers_2d"]] ++ aq_rel ++ xs_rel ng)) by (apply nodup_app; [repeat constructor; clash|exact B|apply (apart_headed _ _ [nm "pin_powers"; nm "pin_powers_2d"] [nm "ang_quad"; nm "xsmesh"]); [hd|exact Hb|reflexivity]]).
  assert (Hc : headed ([[nm "pin_powers"]; [nm "pin_powers_2d"]] ++ aq_rel ++ xs_rel ng) [nm "pin_powers"; nm "pin_powers_2d"; nm "ang_quad"; nm "xsmesh"]) by (apply headed_app; [hd|eapply headed_incl; [exact Hb|cbn; tauto]]).
  change ([nm "flux"] :: map (fun ig => [nm "flux"; num3 (ig + 1)]) (seq 0 ng) ++ [[nm "pin_powers"]; [nm "pin_powers_2d"]] ++ aq_rel ++ xs_rel ng) with (([nm "flux"] :: map (fun ig => [nm "flux"; num3 (ig + 1)]) (seq 0 ng)) ++ [[nm "pin_powers"]; [nm "pin_powers_2d"]] ++ aq_rel ++ xs_rel ng).
  apply nodup_app; [constructor; [clash|apply nodup_fam, num3s]|exact C|]. apply (apart_headed _ _ [nm "flux"] [nm "pin_powers"; nm "pin_powers_2d"; nm "ang_quad"; nm "xsmesh"]); [hd|exact Hc|reflexivity].
Qed.
Definition co_heads := [nm "alpha_x"; nm "alpha_y"; nm "beta"].
Lemma co_headed : forall ng na, headed (co_rel ng na) co_heads.
Proof. intros ng na. unfold co_rel, co_heads. apply headed_app; [hd|]. intros p I. apply in_flat_map in I. destruct I as (g & _ & I). apply in_app_iff in I. destruct I as [I|I]; ins; eexists _, _; (split; [reflexivity|cbn; tauto]). Qed.
Lemma co_nodup : forall ng na, NoDup (co_rel ng na).
Proof.
  intros ng na. unfold co_rel. apply nodup_app; [repeat constructor; clash| |intros p P Q; clash]. apply nodup_flat; [apply seq_NoDup| |intros x y _ _ N p P Q; clash].
  intros g _. apply nodup_app; [repeat constructor; clash| |intros p P Q; clash]. apply nodup_flat; [apply seq_NoDup| |intros x y _ _ N p P Q; clash]. intros a _. repeat constructor; clash.
Qed.
Lemma re_nodup : forall ng, NoDup (re_in ng) /\ ~ In [] (re_in ng).
Proof. intros ng. unfold re_in. split; [|clash]. apply nodup_flat; [apply seq_NoDup| |intros x y _ _ N p P Q; clash]. intros a _. repeat constructor; clash. Qed.
Lemma cu_nodup : forall ng, NoDup (cu_in ng) /\ ~ In [] (cu_in ng).
Proof.
  intros ng. unfold cu_in. split.
  - constructor; [intros I; apply in_flat_map in I; destruct I as (g & _ & [I|I]); [injection I as I; now apply (dec_not (g + 1) (nm "source")) in I|clash]|]. apply nodup_flat; [apply seq_NoDup| |intros x y _ _ N p P Q; clash].
    intros a _. constructor; [clash|]. apply nodup_map; [|intros x y _ _ E; now injection E]. apply (NoDup_map_inv (fun s => [s])). now apply nodup_singles.
  - intros [I|I]; clash.
Qed.
