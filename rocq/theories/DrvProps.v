(** Properties C177-C179: what a run's status, results file, screen and log tell, and what an interrupt does. *)
From Coq Require Import String Ascii List Bool ZArith Lia.
From Verif Require Import UtilModel DrvModel.
Import ListNotations.
Open Scope list_scope.

(** * What is said, and where it should be found. *)
Definition on_screen (p : Put) : list ascii := match p with OnScreen s | OnBoth s => s | _ => [] end.
Definition on_err (p : Put) : list ascii := match p with OnErr s => s | _ => [] end.
Definition on_log (p : Put) : list ascii := match p with OnBoth s | OnLog s => s | _ => [] end.
Definition only_screen (p : Put) : list ascii := match p with OnScreen s => s | _ => [] end.
Definition only_log (p : Put) : list ascii := match p with OnLog s => s | _ => [] end.
Definition only_both (p : Put) : list ascii := match p with OnBoth s => s | _ => [] end.
Definition said_on (f : Put -> list ascii) (l : list Put) : list ascii := concat (map f l).
Definition reported {A} (r : SR A) : list Put := match r with Thrown m => [OnErr (lit "Error:" ++ nl); OnErr m; OnLog (lit "Error:" ++ nl); OnLog m] | _ => [] end.
Definition and_then {A} (s : list Put * SR A) (k : list Put) : list Put := fst s ++ match snd s with Fine _ => k | r => reported r end.
(** Everything a run says once it has a case name [c] and has named its log. *)
Definition said {Res} (number : nat -> list ascii) (d : Driver Res) (c : list ascii) : list Put :=
  OnBoth (lit "Running case: " ++ c ++ d_intro d) ::
  and_then (d_process d) ([OnBoth (d_threads d); OnLog (d_mesh d)] ++
  and_then (d_solve d) (and_then (d_out d) (and_then ([OnLog (nl ++ lit "Full input:" ++ nl)], d_save d)
  (warned number (d_warn d) ++ [OnScreen (lit "Output written to '" ++ c ++ lit "'" ++ nl); OnScreen (d_timers d ++ nl); OnLog (d_timers d)])))).
(** Everything a run says. *)
Definition told {Res} (number : nat -> list ascii) (d : Driver Res) : list Put :=
  OnScreen (d_banner d) :: fst (d_ctor d) ++ match snd (d_ctor d) with Fine c => OnScreen (lit "Logging output to: " ++ (c ++ lit ".log") ++ nl ++ nl) :: said number d c | r => reported r end.

Lemma said_app : forall f a b, said_on f (a ++ b) = said_on f a ++ said_on f b.
Proof. intros f a b. unfold said_on. rewrite map_app, concat_app. reflexivity. Qed.

Section P.
Context {Res : Type}.
Notation World := (World Res).
Implicit Types w : World.

(** What writing does not touch. *)
Definition rest_same w w' : Prop := w_open w' = w_open w /\ w_tee w' = w_tee w /\ w_h5 w' = w_h5 w /\ w_proc w' = w_proc w /\ w_solver w' = w_solver w.
Lemma rest_refl : forall w, rest_same w w. Proof. intros w. repeat split. Qed.
Lemma rest_trans : forall a b c, rest_same a b -> rest_same b c -> rest_same a c.
Proof. intros a b c [A [B [C [D E]]]] [F [G [H [I J]]]]. repeat split; congruence. Qed.
Lemma tee_char_rest : forall c w, rest_same w (fst (tee_char c w)) /\ w_err (fst (tee_char c w)) = w_err w /\ w_lfail (fst (tee_char c w)) = w_lfail w /\ w_tfail (fst (tee_char c w)) = w_tfail w.
Proof. intros c w. unfold tee_char. destruct (w_tee w); [destruct (w_open w)|]; cbn; repeat split. Qed.
Lemma tee_rest : forall s w, rest_same w (tee_chars s w) /\ w_err (tee_chars s w) = w_err w /\ w_lfail (tee_chars s w) = w_lfail w.
Proof.
  induction s as [|c s IH]; intros w; [repeat split|]. cbn [tee_chars].
  destruct (tee_char_rest c w) as [A [B [C D]]]. destruct (tee_char c w) as [w' ok]. cbn [fst] in *. destruct ok.
  - destruct (IH w') as [E [F G]]. split; [exact (rest_trans _ _ _ A E)|]. split; congruence.
  - split; [|split; cbn; congruence]. destruct A as [A1 [A2 [A3 [A4 A5]]]]. repeat split; cbn; congruence.
Qed.
Lemma put_rest : forall p w, rest_same w (put p w) /\ w_err (put p w) = w_err w ++ on_err p.
Proof.
  intros [s|s|s|s] w; cbn [put on_err].
  - split; [repeat split|]. cbn. symmetry. apply app_nil_r.
  - split; [repeat split|]. reflexivity.
  - unfold to_both. destruct (w_tfail w); [rewrite app_nil_r; split; [apply rest_refl|reflexivity]|].
    destruct (tee_rest s w) as [A [B C]]. rewrite app_nil_r. split; assumption.
  - unfold to_log. rewrite app_nil_r. destruct (w_lfail w); [split; [apply rest_refl|reflexivity]|].
    destruct s as [|c s]; [split; [apply rest_refl|reflexivity]|]. destruct (w_open w) eqn:E; (split; [repeat split; cbn; congruence|reflexivity]).
Qed.
Lemma puts_rest : forall l w, rest_same w (puts l w) /\ w_err (puts l w) = w_err w ++ said_on on_err l.
Proof.
  induction l as [|p l IH]; intros w; [split; [apply rest_refl|cbn; symmetry; apply app_nil_r]|].
  cbn [puts fold_left]. change (fold_left (fun w p => put p w) l (put p w)) with (puts l (put p w)).
  destruct (put_rest p w) as [A B]. destruct (IH (put p w)) as [C D]. split; [exact (rest_trans _ _ _ A C)|].
  rewrite D, B. unfold said_on. cbn [map concat]. symmetry. apply app_assoc.
Qed.
Lemma puts_app : forall a b w, puts (a ++ b) w = puts b (puts a w).
Proof. intros a b w. unfold puts. apply fold_left_app. Qed.

(** * The run as one piece: the text it says, in order, with the log started after the case name is known and closed at the end. *)
Definition stop_of {A} (r : SR A) : option Fin := match r with Fine _ => None | Thrown _ => Some (Returns 1) | Foreign => Some Aborts | Quit => Some (Exits 1) | Broken => Some Anything end.
Definition or_else (a b : option Fin) : option Fin := match a with Some _ => a | None => b end.
(** The end of the first stage that does not come to its own end. *)
Definition first_stop (d : Driver Res) : option Fin :=
  or_else (stop_of (snd (d_ctor d))) (or_else (stop_of (snd (d_process d))) (or_else (stop_of (snd (d_solve d))) (or_else (stop_of (snd (d_out d))) (stop_of (d_save d))))).

Lemma ends_puts : forall A (r : SR A) w, (forall a, r <> Fine a) -> ends r w = (stop_of r, puts (reported r) w).
Proof. intros A [a|m| | |] w H; reflexivity. Qed.
Lemma stage_fine : forall A (s : list Put * SR A) k w a, snd s = Fine a -> stage s k w = (None, k a (puts (fst s) w)).
Proof. intros A s k w a H. unfold stage. rewrite H. reflexivity. Qed.
Lemma stage_stop : forall A (s : list Put * SR A) k w, (forall a, snd s <> Fine a) -> stage s k w = (stop_of (snd s), puts (fst s ++ reported (snd s)) w).
Proof.
  intros A s k w H. unfold stage. rewrite puts_app. rewrite <- ends_puts by exact H.
  destruct (snd s); try reflexivity. exfalso. exact (H a eq_refl).
Qed.
Lemma stop_some : forall A (r : SR A), (forall a, r <> Fine a) -> exists f, stop_of r = Some f.
Proof. intros A [a|m| | |] H; try (eexists; reflexivity). exfalso. exact (H a eq_refl). Qed.
Lemma fine_dec : forall A (r : SR A), (exists a, r = Fine a) \/ (forall a, r <> Fine a).
Proof. intros A [a|m| | |]; [left; exists a; reflexivity| | | |]; right; intros a H; discriminate H. Qed.

(** A world seen without results and pointers. *)
Definition strip w : World := mkWorld (w_screen w) (w_err w) (w_text w) (w_open w) (w_lfail w) (w_tee w) (w_tfail w) [] None None.
Lemma strip_both : forall s w, strip (tee_chars s w) = tee_chars s (strip w).
Proof.
  induction s as [|c s IH]; intros w; [reflexivity|]. cbn [tee_chars]. unfold tee_char. cbn [w_tee w_open strip].
  destruct (w_tee w); [destruct (w_open w); [|reflexivity]|]; rewrite IH; reflexivity.
Qed.
Lemma strip_put : forall p w, strip (put p w) = put p (strip w).
Proof.
  intros [s|s|s|s] w; try reflexivity.
  - cbn [put]. unfold to_both. cbn [w_tfail strip]. destruct (w_tfail w); [reflexivity|apply strip_both].
  - cbn [put]. unfold to_log. cbn [w_lfail w_open strip]. destruct (w_lfail w); [reflexivity|]. destruct s; [reflexivity|]. destruct (w_open w); reflexivity.
Qed.
Lemma strip_puts : forall l w, strip (puts l w) = puts l (strip w).
Proof.
  induction l as [|p l IH]; intros w; [reflexivity|].
  change (puts (p :: l) w) with (puts l (put p w)). rewrite IH, strip_put. reflexivity.
Qed.
Lemma strip_start : forall can c w, strip (start_log can c w) = start_log can c (strip w).
Proof. intros can c w. unfold start_log. cbn [w_open strip to_screen]. destruct (w_open w); [reflexivity|]. destruct (can (c ++ lit ".log")); reflexivity. Qed.
Lemma strip_stop : forall w, strip (stop_log w) = stop_log (strip w).
Proof. intros w. unfold stop_log. cbn [w_open strip]. destruct (w_open w); reflexivity. Qed.
Lemma strip_ends : forall A (r : SR A) w, strip (snd (ends r w)) = snd (ends r (strip w)).
Proof. intros A [a|m| | |] w; try reflexivity. cbn [ends snd]. change (to_log m (to_log (lit "Error:" ++ nl) (to_err m (to_err (lit "Error:" ++ nl) w)))) with (puts (reported (@Thrown A m)) w).
  rewrite strip_puts. reflexivity. Qed.
Lemma start_rest : forall can c w, w_h5 (start_log can c w) = w_h5 w /\ w_proc (start_log can c w) = w_proc w /\ w_solver (start_log can c w) = w_solver w /\ w_err (start_log can c w) = w_err w.
Proof. intros can c w. unfold start_log. destruct (w_open w); [repeat split|]. destruct (can (c ++ lit ".log")); repeat split. Qed.
Lemma stop_rest : forall w, w_h5 (stop_log w) = w_h5 w /\ w_proc (stop_log w) = w_proc w /\ w_solver (stop_log w) = w_solver w /\ w_err (stop_log w) = w_err w.
Proof. intros w. unfold stop_log. destruct (w_open w); repeat split. Qed.

(** The results of a run. *)
Definition results (d : Driver Res) : list (Result Res) :=
  match snd (d_ctor d), snd (d_process d), snd (d_solve d), snd (d_out d) with
  | Fine c, Fine _, Fine _, Fine r => [mkRes (c ++ lit ".h5") r (match d_save d with Fine i => Some (i, d_sha d) | _ => None end)]
  | _, _, _, _ => []
  end.
(** The text of a run. *)
Definition text_run (number : nat -> list ascii) (d : Driver Res) w : World :=
  let w1 := puts (OnScreen (d_banner d) :: fst (d_ctor d)) w in
  match snd (d_ctor d) with
  | Fine c => let w2 := puts (said number d c) (start_log (d_can d) c w1) in match first_stop d with None => stop_log w2 | Some _ => w2 end
  | r => puts (reported r) w1
  end.

Lemma exec_none : forall (s : World -> option Fin * World) l w w', s w = (None, w') -> exec (s :: l) w = exec l w'.
Proof. intros s l w w' H. cbn [exec]. rewrite H. reflexivity. Qed.
Lemma exec_some : forall (s : World -> option Fin * World) l w f w', s w = (Some f, w') -> exec (s :: l) w = (f, w').
Proof. intros s l w f w' H. cbn [exec]. rewrite H. reflexivity. Qed.
Lemma exec_stop : forall A (s : list Put * SR A) k l w, (forall a, snd s <> Fine a) -> exec (stage s k :: l) w = (match stop_of (snd s) with Some f => f | None => Returns 0 end, puts (fst s ++ reported (snd s)) w).
Proof.
  intros A s k l w H. destruct (stop_some A (snd s) H) as [f Hf]. rewrite (exec_some _ _ _ f (puts (fst s ++ reported (snd s)) w)); [rewrite Hf; reflexivity|].
  rewrite <- Hf. apply stage_stop. exact H.
Qed.

Lemma fst_sel : forall A (r : SR A) (a : option Fin), (forall x, r <> Fine x) -> or_else (stop_of r) a = stop_of r.
Proof. intros A [x|m| | |] a H; try reflexivity. exfalso. exact (H x eq_refl). Qed.
Lemma then_stop : forall A (s : list Put * SR A) k, (forall a, snd s <> Fine a) -> and_then s k = fst s ++ reported (snd s).
Proof. intros A s k H. unfold and_then. destruct (snd s); try reflexivity. exfalso. exact (H a eq_refl). Qed.
Lemma then_fine : forall A (s : list Put * SR A) k a, snd s = Fine a -> and_then s k = fst s ++ k.
Proof. intros A s k a H. unfold and_then. rewrite H. reflexivity. Qed.
Lemma case_puts : forall l w, case_of (puts l w) = case_of w.
Proof. intros l w. unfold case_of. destruct (puts_rest l w) as [[_ [_ [_ [H _]]]] _]. rewrite H. reflexivity. Qed.
Lemma h5_puts : forall l w, w_h5 (puts l w) = w_h5 w.
Proof. intros l w. destruct (puts_rest l w) as [[_ [_ [H _]]] _]. exact H. Qed.
Lemma case_start : forall can c w, case_of (start_log can c w) = case_of w.
Proof. intros can c w. unfold case_of. destruct (start_rest can c w) as [_ [H _]]. rewrite H. reflexivity. Qed.

Definition fin_of (o : option Fin) : Fin := match o with Some f => f | None => Returns 0 end.

Lemma run_is : forall number d w, fst (drv_run number d w) = fin_of (first_stop d) /\ strip (snd (drv_run number d w)) = text_run number d (strip w) /\ w_h5 (snd (drv_run number d w)) = w_h5 w ++ results d.
Proof.
  intros number d w. unfold drv_run, drv_steps, text_run, results, first_stop.
  erewrite exec_none by reflexivity.
  set (w0 := to_screen (d_banner d) w). assert (H0 : w_h5 w0 = w_h5 w) by reflexivity.
  replace (strip w) with (strip w) by reflexivity.
  assert (E0 : puts (OnScreen (d_banner d) :: fst (d_ctor d)) (strip w) = puts (fst (d_ctor d)) (strip w0)) by reflexivity. rewrite E0. clear E0.
  rewrite <- H0. clearbody w0. clear H0 w.
  destruct (fine_dec _ (snd (d_ctor d))) as [[c Hc]|Hc].
  2:{ rewrite exec_stop by exact Hc. cbn [fst snd]. rewrite fst_sel by exact Hc. rewrite strip_puts, h5_puts, puts_app.
      destruct (snd (d_ctor d)) eqn:E; [exfalso; exact (Hc a eq_refl)|..]; rewrite ?app_nil_r; repeat split; reflexivity. }
  rewrite (exec_none _ _ _ _ (stage_fine _ _ _ _ c Hc)). rewrite Hc. cbn [stop_of or_else].
  set (w1 := set_proc c (puts (fst (d_ctor d)) w0)).
  assert (S1 : strip w1 = puts (fst (d_ctor d)) (strip w0)) by (unfold w1; rewrite <- strip_puts; reflexivity).
  assert (H1 : w_h5 w1 = w_h5 w0) by (unfold w1; cbn [set_proc w_h5]; apply h5_puts).
  assert (C1 : case_of w1 = c) by reflexivity. rewrite <- S1, <- H1. clearbody w1. clear S1 H1 w0.
  erewrite exec_none by reflexivity. rewrite C1. rewrite <- strip_start.
  set (w2 := start_log (d_can d) c w1).
  assert (H2 : w_h5 w2 = w_h5 w1) by (unfold w2; apply start_rest).
  assert (C2 : case_of w2 = c) by (unfold w2; rewrite case_start; exact C1). rewrite <- H2. clearbody w2. clear C1 H2 w1.
  erewrite exec_none by reflexivity. rewrite C2. unfold said.
  match goal with |- context [puts (?p :: ?l) (strip w2)] => change (puts (p :: l) (strip w2)) with (puts l (puts [p] (strip w2))) end. rewrite <- strip_puts.
  set (w3 := to_both (lit "Running case: " ++ c ++ d_intro d) w2).
  change (puts [OnBoth (lit "Running case: " ++ c ++ d_intro d)] w2) with w3.
  assert (H3 : w_h5 w3 = w_h5 w2) by (apply (h5_puts [OnBoth (lit "Running case: " ++ c ++ d_intro d)] w2)).
  assert (C3 : case_of w3 = c) by (rewrite <- C2; apply (case_puts [OnBoth (lit "Running case: " ++ c ++ d_intro d)] w2)).
  rewrite <- H3. clearbody w3. clear C2 H3 w2.
  destruct (fine_dec _ (snd (d_process d))) as [[u Hp]|Hp].
  2:{ rewrite exec_stop by exact Hp. cbn [fst snd]. rewrite fst_sel by exact Hp. rewrite then_stop by exact Hp. rewrite strip_puts, h5_puts.
      destruct (stop_some _ _ Hp) as [f Hf]. rewrite Hf.
      destruct (snd (d_process d)) eqn:E; [exfalso; exact (Hp a eq_refl)|..]; rewrite ?app_nil_r; repeat split; reflexivity. }
  rewrite (exec_none _ _ _ _ (stage_fine _ _ _ _ u Hp)). rewrite Hp, (then_fine _ _ _ u Hp). cbn [stop_of or_else].
  rewrite puts_app, <- strip_puts.
  set (w4 := puts (fst (d_process d)) w3).
  assert (H4 : w_h5 w4 = w_h5 w3) by apply h5_puts. assert (C4 : case_of w4 = c) by (rewrite <- C3; apply case_puts).
  rewrite <- H4. clearbody w4. clear C3 H4 w3.
  erewrite exec_none by reflexivity.
  rewrite puts_app, <- strip_puts.
  change (to_log (d_mesh d) (to_both (d_threads d) w4)) with (puts [OnBoth (d_threads d); OnLog (d_mesh d)] w4).
  set (w5 := puts [OnBoth (d_threads d); OnLog (d_mesh d)] w4).
  assert (H5 : w_h5 w5 = w_h5 w4) by apply h5_puts. assert (C5 : case_of w5 = c) by (rewrite <- C4; apply case_puts).
  rewrite <- H5. clearbody w5. clear C4 H5 w4.
  erewrite exec_none by reflexivity. rewrite C5.
  set (w6 := set_solver c w5). assert (S6 : strip w5 = strip w6) by reflexivity. assert (H6 : w_h5 w5 = w_h5 w6) by reflexivity. assert (C6 : case_of w6 = c) by exact C5.
  rewrite S6, H6. clearbody w6. clear C5 S6 H6 w5.
  destruct (fine_dec _ (snd (d_solve d))) as [[u' Hs]|Hs].
  2:{ rewrite exec_stop by exact Hs. cbn [fst snd]. rewrite fst_sel by exact Hs. rewrite then_stop by exact Hs. rewrite strip_puts, h5_puts.
      destruct (stop_some _ _ Hs) as [f Hf]. rewrite Hf.
      destruct (snd (d_solve d)) eqn:E; [exfalso; exact (Hs a eq_refl)|..]; rewrite ?app_nil_r; repeat split; reflexivity. }
  rewrite (exec_none _ _ _ _ (stage_fine _ _ _ _ u' Hs)). rewrite Hs, (then_fine _ _ _ u' Hs). cbn [stop_of or_else].
  rewrite puts_app, <- strip_puts.
  set (w7 := puts (fst (d_solve d)) w6).
  assert (H7 : w_h5 w7 = w_h5 w6) by apply h5_puts. assert (C7 : case_of w7 = c) by (rewrite <- C6; apply case_puts).
  rewrite <- H7. clearbody w7. clear C6 H7 w6.
  destruct (fine_dec _ (snd (d_out d))) as [[r Ho]|Ho].
  2:{ destruct (stop_some _ _ Ho) as [f Hf].
      rewrite (exec_some _ _ _ f (puts (fst (d_out d) ++ reported (snd (d_out d))) w7)) by (rewrite <- Hf; apply stage_stop; exact Ho).
      cbn [fst snd]. rewrite fst_sel by exact Ho. rewrite then_stop by exact Ho. rewrite strip_puts, h5_puts. rewrite Hf.
      destruct (snd (d_out d)) eqn:E; [exfalso; exact (Ho a eq_refl)|..]; rewrite ?app_nil_r; repeat split; reflexivity. }
  rewrite (exec_none _ _ _ (add_h5 (case_of w7) r (puts (fst (d_out d)) w7))) by (apply stage_fine; exact Ho).
  rewrite Ho, (then_fine _ _ _ r Ho). cbn [stop_of or_else]. rewrite C7, puts_app, <- strip_puts.
  set (w8 := add_h5 c r (puts (fst (d_out d)) w7)).
  assert (S8 : strip (puts (fst (d_out d)) w7) = strip w8) by reflexivity.
  assert (H8 : w_h5 w8 = w_h5 w7 ++ [mkRes (c ++ lit ".h5") r None]) by (unfold w8; cbn [add_h5 w_h5]; rewrite h5_puts; reflexivity).
  assert (C8 : case_of w8 = c) by (unfold w8; rewrite <- C7; apply (case_puts (fst (d_out d)) w7)).
  rewrite S8. clearbody w8.
  destruct (fine_dec _ (d_save d)) as [[i Hi]|Hi].
  2:{ destruct (stop_some _ _ Hi) as [f Hf].
      rewrite (exec_some _ _ _ f (puts ([OnLog (nl ++ lit "Full input:" ++ nl)] ++ reported (d_save d)) w8)) by (rewrite <- Hf; apply (stage_stop _ ([OnLog (nl ++ lit "Full input:" ++ nl)], d_save d)); exact Hi).
      cbn [fst snd]. rewrite then_stop by exact Hi. cbn [fst snd]. rewrite strip_puts, h5_puts, Hf, H8.
      destruct (d_save d) eqn:E; [exfalso; exact (Hi a eq_refl)|..]; repeat split; reflexivity. }
  rewrite (exec_none _ _ _ (end_h5 (i, d_sha d) (puts [OnLog (nl ++ lit "Full input:" ++ nl)] w8))) by (apply (stage_fine _ ([OnLog (nl ++ lit "Full input:" ++ nl)], d_save d) (fun i => end_h5 (i, d_sha d)) w8 i); exact Hi).
  rewrite Hi, (then_fine _ ([OnLog (nl ++ lit "Full input:" ++ nl)], Fine i) _ i eq_refl). cbn [stop_of]. cbn [fst]. rewrite puts_app, <- strip_puts.
  set (w9 := end_h5 (i, d_sha d) (puts [OnLog (nl ++ lit "Full input:" ++ nl)] w8)).
  assert (S9 : strip (puts [OnLog (nl ++ lit "Full input:" ++ nl)] w8) = strip w9) by reflexivity.
  assert (H9 : w_h5 w9 = w_h5 w7 ++ [mkRes (c ++ lit ".h5") r (Some (i, d_sha d))]).
  { unfold w9, end_h5. cbn [w_h5]. rewrite h5_puts, H8, rev_app_distr. cbn [rev app]. rewrite rev_involutive. reflexivity. }
  assert (C9 : case_of w9 = c) by (unfold w9; rewrite <- C8; apply (case_puts [OnLog (nl ++ lit "Full input:" ++ nl)] w8)).
  rewrite S9, <- H9. clearbody w9.
  erewrite exec_none by reflexivity. rewrite puts_app, <- strip_puts.
  set (w10 := puts (warned number (d_warn d)) w9). assert (H10 : w_h5 w10 = w_h5 w9) by apply h5_puts.
  assert (C10 : case_of w10 = c) by (unfold w10; rewrite case_puts; exact C9). rewrite <- H10. clearbody w10.
  do 2 (erewrite exec_none by reflexivity). rewrite C10.
  rewrite <- strip_puts.
  set (w11 := to_log (d_timers d) (to_screen (d_timers d ++ nl) (to_screen (lit "Output written to '" ++ c ++ lit "'" ++ nl) w10))).
  match goal with |- context [strip (puts ?l w10)] => change (puts l w10) with w11 end.
  assert (H11 : w_h5 w11 = w_h5 w10) by (apply (h5_puts [OnScreen (lit "Output written to '" ++ c ++ lit "'" ++ nl); OnScreen (d_timers d ++ nl); OnLog (d_timers d)] w10)).
  rewrite <- H11. clearbody w11.
  cbn [exec]. cbn [fst snd fin_of]. rewrite strip_stop. split; [reflexivity|]. split; [reflexivity|]. apply stop_rest.
Qed.

(** * Where text goes. *)
Lemma usame_refl : forall a, usame a a = true. Proof. intros a. unfold usame. destruct (list_eq_dec ascii_dec a a); [reflexivity|contradiction]. Qed.
Lemma usame_diff : forall a b, a <> b -> usame a b = false. Proof. intros a b H. unfold usame. destruct (list_eq_dec ascii_dec a b); [contradiction|reflexivity]. Qed.
Lemma add_same : forall f s t u, u f = Some t -> add_text f s u f = Some (t ++ s). Proof. intros f s t u H. unfold add_text. rewrite usame_refl, H. reflexivity. Qed.
Lemma add_other : forall f s u g, g <> f -> add_text f s u g = u g. Proof. intros f s u g H. unfold add_text. rewrite (usame_diff g f H). reflexivity. Qed.

Lemma tee_open : forall s w f t, w_open w = Some f -> w_text w f = Some t ->
  w_screen (tee_chars s w) = w_screen w ++ s /\ w_text (tee_chars s w) f = Some (t ++ if w_tee w then s else []) /\ (forall g, g <> f -> w_text (tee_chars s w) g = w_text w g) /\ w_tfail (tee_chars s w) = w_tfail w.
Proof.
  induction s as [|c s IH]; intros w f t Ho Ht.
  - cbn [tee_chars]. rewrite app_nil_r. destruct (w_tee w); rewrite app_nil_r; repeat split; assumption.
  - cbn [tee_chars]. unfold tee_char. rewrite Ho. destruct (w_tee w) eqn:T.
    + set (w1 := set_text (to_screen [c] w) (add_text f [c] (w_text (to_screen [c] w)))).
      assert (O1 : w_open w1 = Some f) by exact Ho. assert (T1 : w_text w1 f = Some (t ++ [c])) by (unfold w1; cbn [set_text w_text to_screen]; apply add_same; exact Ht).
      destruct (IH w1 f (t ++ [c]) O1 T1) as [A [B [C D]]]. assert (E1 : w_tee w1 = true) by exact T. rewrite E1 in B. rewrite <- app_assoc in B.
      split; [rewrite A; unfold w1; cbn [set_text to_screen w_screen]; rewrite <- app_assoc; reflexivity|]. split; [exact B|].
      split; [|exact D]. intros g Hg. rewrite (C g Hg). unfold w1. cbn [set_text to_screen w_text]. apply add_other. exact Hg.
    + set (w1 := to_screen [c] w). assert (O1 : w_open w1 = Some f) by exact Ho. assert (T1 : w_text w1 f = Some t) by exact Ht.
      destruct (IH w1 f t O1 T1) as [A [B [C D]]]. assert (E1 : w_tee w1 = false) by exact T. rewrite E1 in B.
      split; [rewrite A; unfold w1; cbn [to_screen w_screen]; rewrite <- app_assoc; reflexivity|]. split; [exact B|]. split; [exact C|exact D].
Qed.

(** With a file open nothing fails. *)
Definition scr (w : World) (p : Put) : list ascii := if w_tfail w then only_screen p else on_screen p.
Definition lgd (w : World) (p : Put) : list ascii := (if w_tfail w || negb (w_tee w) then [] else only_both p) ++ (if w_lfail w then [] else only_log p).
Lemma open_put : forall p w f t, w_open w = Some f -> w_text w f = Some t ->
  w_screen (put p w) = w_screen w ++ scr w p /\ w_text (put p w) f = Some (t ++ lgd w p) /\ (forall g, g <> f -> w_text (put p w) g = w_text w g) /\ w_tfail (put p w) = w_tfail w /\ w_lfail (put p w) = w_lfail w.
Proof.
  intros [s|s|s|s] w f t Ho Ht; unfold scr, lgd; cbn [put on_screen only_screen only_both only_log].
  - assert (E : ((if w_tfail w || negb (w_tee w) then [] else []) ++ (if w_lfail w then [] else [])) = @nil ascii) by (destruct (w_tfail w || negb (w_tee w)), (w_lfail w); reflexivity).
    rewrite E, app_nil_r. cbn [to_screen w_screen w_text w_tfail w_lfail]. destruct (w_tfail w); repeat split; assumption.
  - assert (E : ((if w_tfail w || negb (w_tee w) then [] else []) ++ (if w_lfail w then [] else [])) = @nil ascii) by (destruct (w_tfail w || negb (w_tee w)), (w_lfail w); reflexivity).
    rewrite E, app_nil_r. cbn [to_err w_screen w_text w_tfail w_lfail]. destruct (w_tfail w); rewrite app_nil_r; repeat split; assumption.
  - assert (E : (if w_lfail w then [] else []) = @nil ascii) by (destruct (w_lfail w); reflexivity). rewrite E, app_nil_r. clear E.
    unfold to_both. destruct (w_tfail w) eqn:T; [cbn [orb]; rewrite !app_nil_r; repeat split; assumption|].
    destruct (tee_open s w f t Ho Ht) as [A [B [C D]]]. destruct (tee_rest s w) as [_ [_ L]]. cbn [orb].
    split; [exact A|]. split; [rewrite B; destruct (w_tee w); reflexivity|]. split; [exact C|]. split; [rewrite D; exact T|exact L].
  - assert (E : (if w_tfail w || negb (w_tee w) then [] else []) = @nil ascii) by (destruct (w_tfail w || negb (w_tee w)); reflexivity). rewrite E. cbn [app]. clear E.
    assert (E : (if w_tfail w then [] else []) = @nil ascii) by (destruct (w_tfail w); reflexivity). rewrite E, app_nil_r. clear E.
    unfold to_log. destruct (w_lfail w) eqn:L; [rewrite app_nil_r; repeat split; assumption|].
    destruct s as [|c s]; [rewrite app_nil_r; repeat split; assumption|]. rewrite Ho. cbn [set_text w_screen w_text w_tfail w_lfail].
    split; [reflexivity|]. split; [apply add_same; exact Ht|]. split; [intros g Hg; apply add_other; exact Hg|]. split; [reflexivity|exact L].
Qed.
Lemma open_puts : forall l w f t, w_open w = Some f -> w_text w f = Some t ->
  w_screen (puts l w) = w_screen w ++ said_on (scr w) l /\ w_text (puts l w) f = Some (t ++ said_on (lgd w) l) /\ (forall g, g <> f -> w_text (puts l w) g = w_text w g) /\ w_tfail (puts l w) = w_tfail w /\ w_lfail (puts l w) = w_lfail w.
Proof.
  induction l as [|p l IH]; intros w f t Ho Ht.
  - cbn. rewrite !app_nil_r. repeat split; assumption.
  - change (puts (p :: l) w) with (puts l (put p w)). unfold said_on in *. cbn [map concat].
    destruct (open_put p w f t Ho Ht) as [A [B [C [D E]]]]. destruct (put_rest p w) as [[F [G _]] _].
    assert (Ho' : w_open (put p w) = Some f) by congruence.
    destruct (IH (put p w) f _ Ho' B) as [A' [B' [C' [D' E']]]].
    assert (Hs : scr (put p w) = scr w) by (unfold scr; rewrite D; reflexivity).
    assert (Hl : lgd (put p w) = lgd w) by (unfold lgd; rewrite D, E, G; reflexivity).
    rewrite Hs in A'. rewrite Hl in B'.
    split; [rewrite A', A, <- app_assoc; reflexivity|]. split; [rewrite B', <- app_assoc; reflexivity|].
    split; [intros g Hg; rewrite (C' g Hg); apply C; exact Hg|]. split; congruence.
Qed.
Lemma tee_null : forall s w, w_tee w = false -> w_screen (tee_chars s w) = w_screen w ++ s /\ w_text (tee_chars s w) = w_text w /\ w_tfail (tee_chars s w) = w_tfail w.
Proof.
  induction s as [|c s IH]; intros w T; [cbn; rewrite app_nil_r; repeat split|].
  cbn [tee_chars]. unfold tee_char. rewrite T. destruct (IH (to_screen [c] w) T) as [A [B C]].
  split; [rewrite A; cbn [to_screen w_screen]; rewrite <- app_assoc; reflexivity|]. split; [exact B|exact C].
Qed.
(** Before any log. *)
Lemma null_puts : forall l w, w_tee w = false -> w_open w = None -> w_tfail w = false ->
  w_screen (puts l w) = w_screen w ++ said_on on_screen l /\ w_text (puts l w) = w_text w /\ w_tfail (puts l w) = false.
Proof.
  induction l as [|p l IH]; intros w T O F; [cbn; rewrite app_nil_r; repeat split; exact F|].
  change (puts (p :: l) w) with (puts l (put p w)). unfold said_on in *. cbn [map concat].
  assert (P : w_screen (put p w) = w_screen w ++ on_screen p /\ w_text (put p w) = w_text w /\ w_tfail (put p w) = false).
  { destruct p as [s|s|s|s]; cbn [put on_screen]; [repeat split; exact F|cbn; rewrite app_nil_r; repeat split; exact F| |].
    - unfold to_both. rewrite F. destruct (tee_null s w T) as [A [B C]]. rewrite F in C. repeat split; assumption.
    - rewrite app_nil_r. unfold to_log. destruct (w_lfail w); [repeat split; exact F|]. destruct s; [repeat split; exact F|]. rewrite O. repeat split; exact F. }
  destruct P as [A [B C]]. destruct (put_rest p w) as [[G [H _]] _].
  destruct (IH (put p w) ltac:(congruence) ltac:(congruence) C) as [A' [B' C']].
  split; [rewrite A', A, <- app_assoc; reflexivity|]. split; [congruence|exact C'].
Qed.
(** With no file open, once LogScreen has failed. *)
Lemma shut_puts : forall l w, w_open w = None -> w_tfail w = true ->
  w_screen (puts l w) = w_screen w ++ said_on only_screen l /\ w_text (puts l w) = w_text w /\ w_tfail (puts l w) = true.
Proof.
  induction l as [|p l IH]; intros w O F; [cbn; rewrite app_nil_r; repeat split; exact F|].
  change (puts (p :: l) w) with (puts l (put p w)). unfold said_on in *. cbn [map concat].
  assert (P : w_screen (put p w) = w_screen w ++ only_screen p /\ w_text (put p w) = w_text w /\ w_tfail (put p w) = true).
  { destruct p as [s|s|s|s]; cbn [put only_screen]; [repeat split; exact F|cbn; rewrite app_nil_r; repeat split; exact F| |].
    - unfold to_both. rewrite F, app_nil_r. repeat split; assumption.
    - rewrite app_nil_r. unfold to_log. destruct (w_lfail w); [repeat split; exact F|]. destruct s; [repeat split; exact F|]. rewrite O. repeat split; exact F. }
  destruct P as [A [B C]]. destruct (put_rest p w) as [[G [H _]] _].
  destruct (IH (put p w) ltac:(congruence) C) as [A' [B' C']].
  split; [rewrite A', A, <- app_assoc; reflexivity|]. split; [congruence|exact C'].
Qed.
Lemma said_ext : forall (f g : Put -> list ascii) l, (forall p, f p = g p) -> said_on f l = said_on g l.
Proof. intros f g l H. unfold said_on. rewrite (map_ext _ _ H). reflexivity. Qed.

(** * C177: the status tells whether everything was done, and results are there exactly when they should be. *)
Theorem C177_status : forall number d w, fst (drv_run number d w) = fin_of (first_stop d).
Proof. intros number d w. apply run_is. Qed.
Theorem C177_zero : forall number d w,
  fst (drv_run number d w) = Returns 0 <-> exists c r i, snd (d_ctor d) = Fine c /\ snd (d_process d) = Fine tt /\ snd (d_solve d) = Fine tt /\ snd (d_out d) = Fine r /\ d_save d = Fine i /\
    w_h5 (snd (drv_run number d w)) = w_h5 w ++ [mkRes (c ++ lit ".h5") r (Some (i, d_sha d))].
Proof.
  intros number d w. destruct (run_is number d w) as [A [_ B]]. rewrite A, B. unfold first_stop, results. split.
  - intros H. destruct (snd (d_ctor d)) as [c|m| | |]; cbn in H; try discriminate H. destruct (snd (d_process d)) as [[]|m| | |]; cbn in H; try discriminate H.
    destruct (snd (d_solve d)) as [[]|m| | |]; cbn in H; try discriminate H. destruct (snd (d_out d)) as [r|m| | |]; cbn in H; try discriminate H. destruct (d_save d) as [i|m| | |]; cbn in H; try discriminate H.
    exists c, r, i. repeat split.
  - intros [c [r [i [H1 [H2 [H3 [H4 [H5 _]]]]]]]]. rewrite H1, H2, H3, H4, H5. reflexivity.
Qed.
(** A status of 1 from [main] means that one of the program's own exceptions was thrown; the message ends standard error. *)
Definition first_message (d : Driver Res) : option (list ascii) :=
  match snd (d_ctor d) with Thrown m => Some m | Fine _ =>
  match snd (d_process d) with Thrown m => Some m | Fine _ =>
  match snd (d_solve d) with Thrown m => Some m | Fine _ =>
  match snd (d_out d) with Thrown m => Some m | Fine _ =>
  match d_save d with Thrown m => Some m | _ => None end | _ => None end | _ => None end | _ => None end | _ => None end.
Lemma stop_one : forall d, first_stop d = Some (Returns 1) <-> exists m, first_message d = Some m.
Proof.
  intros d. unfold first_stop, first_message.
  destruct (snd (d_ctor d)); cbn; try (split; [discriminate|intros [m H]; discriminate H]); [|split; [intros _; eexists; reflexivity|reflexivity]].
  destruct (snd (d_process d)); cbn; try (split; [discriminate|intros [m H]; discriminate H]); [|split; [intros _; eexists; reflexivity|reflexivity]].
  destruct (snd (d_solve d)); cbn; try (split; [discriminate|intros [m H]; discriminate H]); [|split; [intros _; eexists; reflexivity|reflexivity]].
  destruct (snd (d_out d)); cbn; try (split; [discriminate|intros [m H]; discriminate H]); [|split; [intros _; eexists; reflexivity|reflexivity]].
  destruct (d_save d); cbn; try (split; [discriminate|intros [m H]; discriminate H]). split; [intros _; eexists; reflexivity|reflexivity].
Qed.
Theorem C177_one : forall number d w, fst (drv_run number d w) = Returns 1 <-> exists m, first_message d = Some m.
Proof.
  intros number d w. rewrite C177_status, <- stop_one. destruct (first_stop d) as [f|]; cbn [fin_of]; [split; intros H; [rewrite H; reflexivity|injection H as H; exact H]|].
  split; intros H; discriminate H.
Qed.
Lemma err_strip : forall w, w_err (strip w) = w_err w. Proof. reflexivity. Qed.
Lemma told_err : forall number d w, w_err (snd (drv_run number d w)) = w_err w ++ said_on on_err (told number d).
Proof.
  intros number d w. destruct (run_is number d w) as [_ [B _]]. rewrite <- (err_strip (snd _)), B, <- (err_strip w). generalize (strip w). clear. intros w.
  unfold text_run, told.
  assert (E1 : w_err (puts (OnScreen (d_banner d) :: fst (d_ctor d)) w) = w_err w ++ said_on on_err (fst (d_ctor d))) by (destruct (puts_rest (OnScreen (d_banner d) :: fst (d_ctor d)) w) as [_ H]; exact H).
  change (said_on on_err (OnScreen (d_banner d) :: fst (d_ctor d) ++ ?x)) with (said_on on_err (fst (d_ctor d) ++ x)).
  destruct (fine_dec _ (snd (d_ctor d))) as [[c Hc]|Hc].
  - rewrite Hc. cbn [app]. 
    assert (E2 : w_err (puts (said number d c) (start_log (d_can d) c (puts (OnScreen (d_banner d) :: fst (d_ctor d)) w))) = w_err w ++ said_on on_err (fst (d_ctor d)) ++ said_on on_err (said number d c)).
    { destruct (puts_rest (said number d c) (start_log (d_can d) c (puts (OnScreen (d_banner d) :: fst (d_ctor d)) w))) as [_ H]. rewrite H.
      destruct (start_rest (d_can d) c (puts (OnScreen (d_banner d) :: fst (d_ctor d)) w)) as [_ [_ [_ H']]]. rewrite H', E1. symmetry. apply app_assoc. }
    unfold said_on at 1. cbn [map concat on_err app]. fold (said_on on_err (fst (d_ctor d) ++ OnScreen (lit "Logging output to: " ++ (c ++ lit ".log") ++ nl ++ nl) :: said number d c)).
    rewrite said_app. unfold said_on at 2. cbn [map concat on_err app]. fold (said_on on_err (said number d c)). rewrite <- E2.
    destruct (first_stop d); [reflexivity|]. apply stop_rest.
  - assert (E : w_err (puts (reported (snd (d_ctor d))) (puts (OnScreen (d_banner d) :: fst (d_ctor d)) w)) = w_err w ++ said_on on_err (fst (d_ctor d) ++ reported (snd (d_ctor d)))).
    { destruct (puts_rest (reported (snd (d_ctor d))) (puts (OnScreen (d_banner d) :: fst (d_ctor d)) w)) as [_ H]. rewrite H, E1, said_app. symmetry. apply app_assoc. }
    destruct (snd (d_ctor d)); [exfalso; exact (Hc a eq_refl)|..]; exact E.
Qed.
Theorem C177_message : forall number d w m, first_message d = Some m ->
  exists before_it, w_err (snd (drv_run number d w)) = w_err w ++ before_it ++ lit "Error:" ++ nl ++ m.
Proof.
  intros number d w m Hm. rewrite told_err.
  assert (H : exists l, told number d = l ++ [OnErr (lit "Error:" ++ nl); OnErr m; OnLog (lit "Error:" ++ nl); OnLog m]).
  { assert (K : forall (p : Put) l suf, (exists a, l = a ++ suf) -> exists a, p :: l = a ++ suf) by (intros p l suf [a ->]; exists (p :: a); reflexivity).
    assert (KA : forall (b l suf : list Put), (exists a, l = a ++ suf) -> exists a, b ++ l = a ++ suf) by (intros b l suf [a ->]; exists (b ++ a); apply app_assoc).
    assert (KZ : forall suf : list Put, exists a, suf = a ++ suf) by (intros suf; exists []; reflexivity).
    unfold told, said, and_then. unfold first_message in Hm. cbn [fst snd]. apply K, KA.
    destruct (snd (d_ctor d)) as [c|m'| | |]; try discriminate Hm; [|injection Hm as ->; apply KZ]. apply K, K, KA.
    destruct (snd (d_process d)) as [u|m'| | |]; try discriminate Hm; [|injection Hm as ->; apply KZ]. apply KA, KA.
    destruct (snd (d_solve d)) as [u'|m'| | |]; try discriminate Hm; [|injection Hm as ->; apply KZ]. apply KA.
    destruct (snd (d_out d)) as [r|m'| | |]; try discriminate Hm; [|injection Hm as ->; apply KZ]. apply KA.
    destruct (d_save d) as [i|m'| | |]; try discriminate Hm. injection Hm as ->. apply KZ. }
  destruct H as [l ->]. exists (said_on on_err l). rewrite said_app. cbn. rewrite ?app_nil_r, <- ?app_assoc. reflexivity.
Qed.
(** Nothing is written when a stage before the output does not come to its end, and what an earlier run wrote is kept. *)
Theorem C177_results : forall number d w, w_h5 (snd (drv_run number d w)) = w_h5 w ++ results d.
Proof. intros number d w. apply run_is. Qed.

(** * C178: what the screen and the log show. *)
Lemma strip_screen : forall w, w_screen (strip w) = w_screen w. Proof. reflexivity. Qed.
Lemma start_made : forall (can : list ascii -> bool) c w, w_open w = None -> can (c ++ lit ".log") = true ->
  let w' := start_log can c w in
  w_screen w' = w_screen w ++ lit "Logging output to: " ++ (c ++ lit ".log") ++ nl ++ nl /\ w_text w' (c ++ lit ".log") = Some [] /\ (forall g, g <> c ++ lit ".log" -> w_text w' g = w_text w g) /\
  w_open w' = Some (c ++ lit ".log") /\ w_lfail w' = false /\ w_tee w' = true /\ w_tfail w' = w_tfail w.
Proof.
  intros can c w O C w'. unfold w', start_log. rewrite O, C. cbn [w_screen w_text w_open w_lfail w_tee w_tfail to_screen].
  split; [reflexivity|]. split; [rewrite usame_refl; reflexivity|]. split; [intros g Hg; rewrite (usame_diff _ _ Hg); reflexivity|]. repeat split.
Qed.
Lemma said_cons : forall f p l, said_on f (p :: l) = f p ++ said_on f l. Proof. reflexivity. Qed.
Lemma stop_screen : forall w, w_screen (stop_log w) = w_screen w /\ w_text (stop_log w) = w_text w /\ w_tee (stop_log w) = w_tee w /\ w_tfail (stop_log w) = w_tfail w /\ w_open (stop_log w) = None /\ (w_open w <> None -> w_lfail (stop_log w) = w_lfail w).
Proof. intros w. unfold stop_log. destruct (w_open w) eqn:E; repeat split; try exact E; intros H; contradiction H; reflexivity. Qed.
(** The state a run ends in, for what can be seen and for the next run. *)
Lemma text_of_run : forall number d w, let w' := snd (drv_run number d w) in let v := text_run number d (strip w) in
  w_screen w' = w_screen v /\ w_text w' = w_text v /\ w_open w' = w_open v /\ w_lfail w' = w_lfail v /\ w_tee w' = w_tee v /\ w_tfail w' = w_tfail v.
Proof. intros number d w w' v. destruct (run_is number d w) as [_ [B _]]. unfold w', v. rewrite <- B. repeat split. Qed.

(** In a process's first run, when the log can be made: the screen shows everything meant for it in order, and the log everything said from then on. *)
Theorem C178_log : forall number d w c, w_open w = None -> w_tee w = false -> w_tfail w = false -> snd (d_ctor d) = Fine c -> d_can d (c ++ lit ".log") = true ->
  let w' := snd (drv_run number d w) in
  w_screen w' = w_screen w ++ said_on on_screen (told number d) /\
  w_text w' (c ++ lit ".log") = Some (said_on on_log (said number d c)) /\
  (forall g, g <> c ++ lit ".log" -> w_text w' g = w_text w g) /\
  w_open w' = (match first_stop d with None => None | Some _ => Some (c ++ lit ".log") end) /\ w_tee w' = true /\ w_tfail w' = false /\ w_lfail w' = false.
Proof.
  intros number d w c O T F Hc Hcan w'. destruct (text_of_run number d w) as [A1 [A2 [A3 [A6 [A4 A5]]]]].
  fold w' in A1, A2, A3, A4, A5, A6. rewrite A1, A2, A3, A4, A5, A6. clear A1 A2 A3 A4 A5 A6 w'.
  assert (O' : w_open (strip w) = None) by exact O. assert (T' : w_tee (strip w) = false) by exact T. assert (F' : w_tfail (strip w) = false) by exact F.
  rewrite <- (strip_screen w). assert (X : forall g, w_text w g = w_text (strip w) g) by reflexivity. setoid_rewrite X. revert O' T' F'. generalize (strip w). clear w O T F X.
  intros w O T F. unfold text_run, told. rewrite Hc.
  set (l1 := OnScreen (d_banner d) :: fst (d_ctor d)).
  destruct (null_puts l1 w T O F) as [S1 [X1 F1]]. destruct (puts_rest l1 w) as [[O1 [T1 _]] _].
  set (w1 := puts l1 w) in *.
  destruct (start_made (d_can d) c w1 ltac:(congruence) Hcan) as [S2 [X2 [Y2 [O2 [L2 [T2 F2]]]]]].
  set (w2 := start_log (d_can d) c w1) in *.
  destruct (open_puts (said number d c) w2 _ _ O2 X2) as [S3 [X3 [Y3 [F3 L3]]]]. destruct (puts_rest (said number d c) w2) as [[O3 [T3 _]] _].
  set (w3 := puts (said number d c) w2) in *.
  assert (E1 : said_on (scr w2) (said number d c) = said_on on_screen (said number d c)) by (apply said_ext; intros p; unfold scr; rewrite F2, F1; reflexivity).
  assert (E2 : said_on (lgd w2) (said number d c) = said_on on_log (said number d c)) by (apply said_ext; intros p; unfold lgd; rewrite F2, F1, T2, L2; cbn [orb negb]; destruct p; cbn; rewrite ?app_nil_r; reflexivity).
  assert (R : w_screen w3 = w_screen w ++ said_on on_screen (OnScreen (d_banner d) :: fst (d_ctor d) ++ OnScreen (lit "Logging output to: " ++ (c ++ lit ".log") ++ nl ++ nl) :: said number d c)).
  { rewrite S3, S2, S1, E1. unfold l1. rewrite !said_cons, said_app, said_cons. cbn [on_screen]. rewrite <- !app_assoc. reflexivity. }
  assert (G1 : w_text w3 (c ++ lit ".log") = Some (said_on on_log (said number d c))) by (rewrite X3, E2; reflexivity).
  assert (G2 : forall g, g <> c ++ lit ".log" -> w_text w3 g = w_text w g) by (intros g Hg; rewrite (Y3 g Hg), (Y2 g Hg), X1; reflexivity).
  destruct (first_stop d); [|destruct (stop_screen w3) as [P1 [P2 [P3 [P4 [P5 P6]]]]]; rewrite P1, P2, P3, P4, P5, P6 by congruence].
  - split; [exact R|]. split; [exact G1|]. split; [exact G2|]. repeat split; congruence.
  - split; [exact R|]. split; [exact G1|]. split; [exact G2|]. repeat split; congruence.
Qed.
(** When the log cannot be made, one character of what LogScreen is given is shown, and nothing else of it ever. *)
Lemma first_char : forall ch s w, w_open w = None -> w_tee w = true -> w_tfail w = false -> put (OnBoth (ch :: s)) w = tee_fails (to_screen [ch] w).
Proof. intros ch s w O T F. cbn [put]. unfold to_both. rewrite F. cbn [tee_chars]. unfold tee_char. rewrite T, O. reflexivity. Qed.
Theorem C178_unlogged : forall number d w c, w_open w = None -> w_tee w = false -> w_tfail w = false -> snd (d_ctor d) = Fine c -> d_can d (c ++ lit ".log") = false ->
  let w' := snd (drv_run number d w) in
  exists later, said number d c = OnBoth (lit "Running case: " ++ c ++ d_intro d) :: later /\
  w_screen w' = w_screen w ++ d_banner d ++ said_on on_screen (fst (d_ctor d)) ++ (lit "Logging output to: " ++ (c ++ lit ".log") ++ nl ++ nl) ++ lit "R" ++ said_on only_screen later /\
  (forall g, w_text w' g = w_text w g).
Proof.
  intros number d w c O T F Hc Hcan w'. destruct (text_of_run number d w) as [A1 [A2 _]].
  fold w' in A1, A2. rewrite A1, A2. clear A1 A2 w'.
  assert (O' : w_open (strip w) = None) by exact O. assert (T' : w_tee (strip w) = false) by exact T. assert (F' : w_tfail (strip w) = false) by exact F.
  rewrite <- (strip_screen w). assert (X : forall g, w_text w g = w_text (strip w) g) by reflexivity. setoid_rewrite X. revert O' T' F'. generalize (strip w). clear w O T F X.
  intros w O T F. unfold text_run. rewrite Hc.
  set (l1 := OnScreen (d_banner d) :: fst (d_ctor d)).
  destruct (null_puts l1 w T O F) as [S1 [X1 F1]]. destruct (puts_rest l1 w) as [[O1 [T1 _]] _].
  set (w1 := puts l1 w) in *.
  eexists. split; [reflexivity|]. match goal with |- context [said_on only_screen ?x] => set (later := x) end.
  change (said number d c) with (OnBoth (lit "Running case: " ++ c ++ d_intro d) :: later).
  assert (O1' : w_open w1 = None) by congruence.
  assert (St : exists w2, start_log (d_can d) c w1 = w2 /\ w_screen w2 = w_screen w1 ++ (lit "Logging output to: " ++ (c ++ lit ".log") ++ nl ++ nl) /\ w_text w2 = w_text w1 /\ w_open w2 = None /\ w_tee w2 = true /\ w_tfail w2 = false).
  { eexists. split; [reflexivity|]. unfold start_log. rewrite O1', Hcan. cbn [w_screen w_text w_open w_tee w_tfail to_screen log_fails]. repeat split; assumption. }
  destruct St as [w2 [E2 [S2 [X2 [O2 [T2 F2]]]]]]. rewrite E2. clear E2.
  change (puts (OnBoth (lit "Running case: " ++ c ++ d_intro d) :: later) w2) with (puts later (put (OnBoth ("R"%char :: lit "unning case: " ++ c ++ d_intro d)) w2)).
  rewrite (first_char _ _ w2 O2 T2 F2). set (w3 := tee_fails (to_screen ["R"%char] w2)).
  destruct (shut_puts later w3 O2 eq_refl) as [S4 [X4 _]].
  assert (R : w_screen (puts later w3) = w_screen w ++ d_banner d ++ said_on on_screen (fst (d_ctor d)) ++ (lit "Logging output to: " ++ (c ++ lit ".log") ++ nl ++ nl) ++ lit "R" ++ said_on only_screen later).
  { rewrite S4. unfold w3. cbn [tee_fails to_screen w_screen]. rewrite S2, S1. unfold l1. rewrite said_cons. cbn [on_screen]. change (lit "R") with ["R"%char]. rewrite <- !app_assoc. reflexivity. }
  assert (G : forall g, w_text (puts later w3) g = w_text w g) by (intros g; rewrite X4; change (w_text w3) with (w_text w2); rewrite X2, X1; reflexivity).
  destruct (first_stop d); [split; assumption|]. destruct (stop_screen (puts later w3)) as [P1 [P2 _]]. rewrite P1, P2. split; assumption.
Qed.

(** A second run in the same process, after one that succeeded: its first words ("Parsing: ") go to LogScreen, whose second half is the closed log, so of everything it gives LogScreen one character is shown and none is logged. *)
Theorem C178_again : forall number d1 d2 w c1 c2 ch s more, w_open w = None -> w_tee w = false -> w_tfail w = false ->
  snd (d_ctor d1) = Fine c1 -> d_can d1 (c1 ++ lit ".log") = true -> fst (drv_run number d1 w) = Returns 0 ->
  d_ctor d2 = (OnBoth (ch :: s) :: more, Fine c2) -> d_can d2 (c2 ++ lit ".log") = true ->
  let w1 := snd (drv_run number d1 w) in let w2 := snd (drv_run number d2 w1) in
  w_screen w2 = w_screen w1 ++ d_banner d2 ++ [ch] ++ said_on only_screen more ++ (lit "Logging output to: " ++ (c2 ++ lit ".log") ++ nl ++ nl) ++ said_on only_screen (said number d2 c2) /\
  w_text w2 (c2 ++ lit ".log") = Some (said_on only_log (said number d2 c2)).
Proof.
  intros number d1 d2 w c1 c2 ch s more O T F Hc1 Hcan1 Hok Hc2 Hcan2 w1 w2.
  destruct (C178_log number d1 w c1 O T F Hc1 Hcan1) as [_ [_ [_ [O1 [T1 [F1 _]]]]]]. fold w1 in O1, T1, F1.
  assert (E : first_stop d1 = None) by (rewrite C177_status in Hok; apply C177_zero with (number := number) (w := w) in Hok || idtac; unfold first_stop in *; destruct (or_else _ _) as [f|] eqn:Q; [|reflexivity]; cbn [fin_of] in Hok; subst f; exfalso; revert Q;
    destruct (snd (d_ctor d1)); try discriminate; cbn; destruct (snd (d_process d1)); try discriminate; cbn; destruct (snd (d_solve d1)); try discriminate; cbn; destruct (snd (d_out d1)); try discriminate; cbn; destruct (d_save d1); discriminate).
  rewrite E in O1. clear E. clearbody w1. clear O T F Hc1 Hcan1 Hok d1 c1 w.
  destruct (text_of_run number d2 w1) as [A1 [A2 _]]. fold w2 in A1, A2. rewrite A1, A2. clear A1 A2 w2.
  assert (O' : w_open (strip w1) = None) by exact O1. assert (T' : w_tee (strip w1) = true) by exact T1. assert (F' : w_tfail (strip w1) = false) by exact F1.
  rewrite <- (strip_screen w1). revert O' T' F'. generalize (strip w1). clear w1 O1 T1 F1. intros w O T F.
  unfold text_run. rewrite Hc2. cbn [fst snd].
  change (puts (OnScreen (d_banner d2) :: OnBoth (ch :: s) :: more) w) with (puts more (put (OnBoth (ch :: s)) (to_screen (d_banner d2) w))).
  rewrite first_char by assumption. set (wa := tee_fails (to_screen [ch] (to_screen (d_banner d2) w))).
  destruct (shut_puts more wa O eq_refl) as [S1 [X1 F1]]. destruct (puts_rest more wa) as [[O1 [T1 _]] _].
  assert (O1' : w_open (puts more wa) = None) by (rewrite O1; exact O).
  set (wb := puts more wa) in *.
  destruct (start_made (d_can d2) c2 wb O1' Hcan2) as [S2 [X2 [Y2 [O2 [L2 [T2 F2]]]]]].
  set (wc := start_log (d_can d2) c2 wb) in *.
  destruct (open_puts (said number d2 c2) wc _ _ O2 X2) as [S3 [X3 _]]. set (wd := puts (said number d2 c2) wc) in *.
  assert (E1 : said_on (scr wc) (said number d2 c2) = said_on only_screen (said number d2 c2)) by (apply said_ext; intros p; unfold scr; rewrite F2, F1; reflexivity).
  assert (E2 : said_on (lgd wc) (said number d2 c2) = said_on only_log (said number d2 c2)) by (apply said_ext; intros p; unfold lgd; rewrite F2, F1, L2; reflexivity).
  assert (R : w_screen wd = w_screen w ++ d_banner d2 ++ [ch] ++ said_on only_screen more ++ (lit "Logging output to: " ++ (c2 ++ lit ".log") ++ nl ++ nl) ++ said_on only_screen (said number d2 c2)).
  { rewrite S3, S2, S1, E1. unfold wa. cbn [tee_fails to_screen w_screen]. rewrite <- !app_assoc. reflexivity. }
  assert (G : w_text wd (c2 ++ lit ".log") = Some (said_on only_log (said number d2 c2))) by (rewrite X3, E2; reflexivity).
  destruct (first_stop d2); [split; assumption|]. destruct (stop_screen wd) as [P1 [P2 _]]. rewrite P1, P2. split; assumption.
Qed.
(** A second run after one that ended in an error: the first run's log is still open, takes what the second gives LogScreen, and the second's own log is not made. *)
Theorem C178_error : forall number d1 d2 w c1 c2, w_open w = None -> w_tee w = false -> w_tfail w = false ->
  snd (d_ctor d1) = Fine c1 -> d_can d1 (c1 ++ lit ".log") = true -> fst (drv_run number d1 w) = Returns 1 -> snd (d_ctor d2) = Fine c2 ->
  let w1 := snd (drv_run number d1 w) in let w2 := snd (drv_run number d2 w1) in
  w_screen w2 = w_screen w1 ++ said_on on_screen (told number d2) /\
  w_text w2 (c1 ++ lit ".log") = Some (said_on on_log (said number d1 c1) ++ said_on on_log (fst (d_ctor d2)) ++ said_on only_both (said number d2 c2)) /\
  (forall g, g <> c1 ++ lit ".log" -> w_text w2 g = w_text w g).
Proof.
  intros number d1 d2 w c1 c2 O T F Hc1 Hcan1 Hok Hc2 w1 w2.
  destruct (C178_log number d1 w c1 O T F Hc1 Hcan1) as [_ [X1 [Y1 [O1 [T1 [F1 L1]]]]]]. fold w1 in X1, Y1, O1, T1, F1, L1.
  assert (E : first_stop d1 <> None) by (intros E; rewrite C177_status, E in Hok; discriminate Hok).
  destruct (first_stop d1) as [fz|] eqn:E'; [clear E E'|contradiction E; reflexivity].
  assert (Z : w_screen w2 = w_screen w1 ++ said_on on_screen (told number d2) /\ w_text w2 (c1 ++ lit ".log") = Some (said_on on_log (said number d1 c1) ++ said_on on_log (fst (d_ctor d2)) ++ said_on only_both (said number d2 c2)) /\ (forall g, g <> c1 ++ lit ".log" -> w_text w2 g = w_text w1 g)).
  2:{ destruct Z as [Z1 [Z2 Z3]]. split; [exact Z1|]. split; [exact Z2|]. intros g Hg. rewrite (Z3 g Hg). exact (Y1 g Hg). }
  set (t := said_on on_log (said number d1 c1)) in *. set (f := c1 ++ lit ".log") in *. clearbody w1 t f. clear Y1 O T F Hc1 Hcan1 Hok d1 c1 w.
  destruct (text_of_run number d2 w1) as [A1 [A2 _]]. fold w2 in A1, A2. rewrite A1, A2. clear A1 A2 w2.
  assert (X' : w_text (strip w1) f = Some t) by exact X1. assert (O' : w_open (strip w1) = Some f) by exact O1. assert (T' : w_tee (strip w1) = true) by exact T1.
  assert (F' : w_tfail (strip w1) = false) by exact F1. assert (L' : w_lfail (strip w1) = false) by exact L1.
  rewrite <- (strip_screen w1). assert (X : forall g, w_text w1 g = w_text (strip w1) g) by reflexivity. setoid_rewrite X. revert X' O' T' F' L'. generalize (strip w1). clear w1 X1 O1 T1 F1 L1 X. intros w X O T F L.
  unfold text_run, told. rewrite Hc2. set (l1 := OnScreen (d_banner d2) :: fst (d_ctor d2)).
  destruct (open_puts l1 w f t O X) as [S1 [X1 [Y1 [F1 L1]]]]. destruct (puts_rest l1 w) as [[O1 [T1 _]] _].
  assert (E1 : said_on (scr w) l1 = said_on on_screen l1) by (apply said_ext; intros p; unfold scr; rewrite F; reflexivity).
  assert (E2 : said_on (lgd w) l1 = said_on on_log (fst (d_ctor d2))) by (rewrite (said_ext (lgd w) on_log l1) by (intros p; unfold lgd; rewrite F, T, L; cbn [orb negb]; destruct p; cbn; rewrite ?app_nil_r; reflexivity); reflexivity).
  rewrite E1 in S1. rewrite E2 in X1. set (wa := puts l1 w) in *.
  assert (O1' : w_open wa = Some f) by congruence.
  assert (St : exists wb, start_log (d_can d2) c2 wa = wb /\ w_screen wb = w_screen wa ++ (lit "Logging output to: " ++ (c2 ++ lit ".log") ++ nl ++ nl) /\ w_text wb = w_text wa /\ w_open wb = Some f /\ w_tee wb = true /\ w_tfail wb = w_tfail wa /\ w_lfail wb = true).
  { eexists. split; [reflexivity|]. unfold start_log. rewrite O1'. cbn [w_screen w_text w_open w_tee w_tfail w_lfail to_screen log_fails]. repeat split; exact O1'. }
  destruct St as [wb [Eb [S2 [X2 [O2 [T2 [F2 L2]]]]]]]. rewrite Eb. clear Eb.
  assert (X2' : w_text wb f = Some (t ++ said_on on_log (fst (d_ctor d2)))) by (rewrite X2; exact X1).
  destruct (open_puts (said number d2 c2) wb f _ O2 X2') as [S3 [X3 [Y3 _]]]. set (wc := puts (said number d2 c2) wb) in *.
  assert (E3 : said_on (scr wb) (said number d2 c2) = said_on on_screen (said number d2 c2)) by (apply said_ext; intros p; unfold scr; rewrite F2, F1, F; reflexivity).
  assert (E4 : said_on (lgd wb) (said number d2 c2) = said_on only_both (said number d2 c2)) by (apply said_ext; intros p; unfold lgd; rewrite F2, F1, F, T2, L2; cbn [orb negb]; apply app_nil_r).
  assert (R : w_screen wc = w_screen w ++ said_on on_screen (OnScreen (d_banner d2) :: fst (d_ctor d2) ++ OnScreen (lit "Logging output to: " ++ (c2 ++ lit ".log") ++ nl ++ nl) :: said number d2 c2)).
  { rewrite S3, S2, S1, E3. unfold l1. rewrite !said_cons, said_app, said_cons. cbn [on_screen]. rewrite <- !app_assoc. reflexivity. }
  assert (G1 : w_text wc f = Some (t ++ said_on on_log (fst (d_ctor d2)) ++ said_on only_both (said number d2 c2))) by (rewrite X3, E4, <- app_assoc; reflexivity).
  assert (G2 : forall g, g <> f -> w_text wc g = w_text w g) by (intros g Hg; rewrite (Y3 g Hg), X2; apply Y1; exact Hg).
  destruct (first_stop d2); [repeat split; assumption|]. destruct (stop_screen wc) as [P1 [P2 _]]. rewrite P1, P2. repeat split; assumption.
Qed.

(** * C179: an interrupt. *)
Lemma puts_ptr : forall l w, w_proc (puts l w) = w_proc w /\ w_solver (puts l w) = w_solver w.
Proof. intros l w. destruct (puts_rest l w) as [[_ [_ [_ [A B]]]] _]. split; assumption. Qed.

Definition keeps (s : World -> option Fin * World) : Prop := forall w w', s w = (None, w') -> w_proc w' = w_proc w /\ w_solver w' = w_solver w.
Lemma keeps_all : forall l, Forall keeps l -> forall k w w', after_steps k l w = Some w' -> w_proc w' = w_proc w /\ w_solver w' = w_solver w.
Proof.
  induction l as [|s l IH]; intros H k w w' E.
  - destruct k; [injection E as ->; split; reflexivity|discriminate E].
  - destruct k; [injection E as ->; split; reflexivity|]. inversion H as [|? ? Hs Hl]; subst. cbn [after_steps] in E.
    destruct (s w) as [[f|] w1] eqn:Es; [discriminate E|]. destruct (Hs w w1 Es) as [A B]. destruct (IH Hl k w1 w' E) as [C D]. split; congruence.
Qed.
Lemma after_app : forall l1 l2 k w w', after_steps k (l1 ++ l2) w = Some w' ->
  (k <= length l1 /\ after_steps k l1 w = Some w')%nat \/ (exists w1, after_steps (length l1) l1 w = Some w1 /\ (length l1 < k)%nat /\ after_steps (k - length l1) l2 w1 = Some w').
Proof.
  induction l1 as [|s l1 IH]; intros l2 k w w' E.
  - destruct k; [left; split; [lia|exact E]|]. right. exists w. split; [reflexivity|]. split; [cbn; lia|exact E].
  - destruct k; [left; split; [cbn; lia|exact E]|]. cbn [app after_steps length] in *.
    destruct (s w) as [[f|] w1]; [discriminate E|]. destruct (IH l2 k w1 w' E) as [[A B]|[w2 [A [B C]]]]; [left; split; [lia|exact B]|].
    right. exists w2. split; [exact A|]. split; [lia|]. replace (S k - S (length l1))%nat with (k - length l1)%nat by lia. exact C.
Qed.
Lemma stage_keeps : forall A (s : list Put * SR A) (k : A -> World -> World), (forall a w, w_proc (k a w) = w_proc w /\ w_solver (k a w) = w_solver w) -> keeps (stage s k).
Proof.
  intros A s k H w w' E. unfold stage in E. destruct (snd s) as [a|m| | |]; cbn [ends] in E; try discriminate E. injection E as <-.
  destruct (H a (puts (fst s) w)) as [B C]. rewrite B, C. apply puts_ptr.
Qed.
(** The case and the solver's case that an interrupt after the first [k] steps finds. *)
Lemma found : forall number d w k w' c, snd (d_ctor d) = Fine c -> after_steps k (drv_steps number d) w = Some w' ->
  w_proc w' = (if (2 <=? k)%nat then Some c else w_proc w) /\ w_solver w' = (if (7 <=? k)%nat then Some c else w_solver w).
Proof.
  intros number d w k w' c Hc E.
  assert (Put : forall l : World -> list Put, keeps (fun w => (None, puts (l w) w))) by (intros l v v' Q; injection Q as <-; apply puts_ptr).
  assert (K1 : keeps (fun w : World => (None, to_screen (d_banner d) w))) by (intros v v' Q; injection Q as <-; split; reflexivity).
  assert (K3 : keeps (fun w : World => (None, start_log (d_can d) (case_of w) w))) by (intros v v' Q; injection Q as <-; destruct (start_rest (d_can d) (case_of v) v) as [_ [A [B _]]]; split; assumption).
  assert (K4 : keeps (fun w : World => (None, to_both (lit "Running case: " ++ case_of w ++ d_intro d) w))) by (exact (Put (fun w => [OnBoth (lit "Running case: " ++ case_of w ++ d_intro d)]))).
  assert (K5 : keeps (stage (d_process d) (fun _ w => w))) by (apply stage_keeps; intros; split; reflexivity).
  assert (K6 : keeps (fun w : World => (None, to_log (d_mesh d) (to_both (d_threads d) w)))) by (exact (Put (fun w => [OnBoth (d_threads d); OnLog (d_mesh d)]))).
  assert (K8 : keeps (stage (d_solve d) (fun _ w => w))) by (apply stage_keeps; intros; split; reflexivity).
  assert (K9 : keeps (fun w => stage (d_out d) (fun r => add_h5 (case_of w) r) w)) by (intros v v' Q; apply (stage_keeps _ (d_out d) (fun r => add_h5 (case_of v) r)); [intros; split; reflexivity|exact Q]).
  assert (K10 : keeps (fun w => stage ([OnLog (nl ++ lit "Full input:" ++ nl)], d_save d) (fun i => end_h5 (i, d_sha d)) w)) by (apply stage_keeps; intros; split; reflexivity).
  assert (K11 : keeps (fun w : World => (None, puts (warned number (d_warn d)) w))) by (exact (Put (fun _ => warned number (d_warn d)))).
  assert (K12 : keeps (fun w : World => (None, to_screen (lit "Output written to '" ++ case_of w ++ lit "'" ++ nl) w))) by (intros v v' Q; injection Q as <-; split; reflexivity).
  assert (K13 : keeps (fun w : World => (None, to_log (d_timers d) (to_screen (d_timers d ++ nl) w)))) by (exact (Put (fun w => [OnScreen (d_timers d ++ nl); OnLog (d_timers d)]))).
  assert (K14 : keeps (fun w : World => (None, stop_log w))) by (intros v v' Q; injection Q as <-; destruct (stop_rest v) as [_ [A [B _]]]; split; assumption).
  destruct k as [|k]; [injection E as ->; split; reflexivity|].
  unfold drv_steps in E. cbn [after_steps] in E. destruct k as [|k]; [injection E as <-; split; reflexivity|].
  cbn [after_steps] in E. rewrite (stage_fine _ _ _ _ c Hc) in E. 
  set (w1 := set_proc c (puts (fst (d_ctor d)) (to_screen (d_banner d) w))) in E.
  assert (P1 : w_proc w1 = Some c) by reflexivity. assert (S1 : w_solver w1 = w_solver w) by (unfold w1; cbn [set_proc w_solver]; destruct (puts_ptr (fst (d_ctor d)) (to_screen (d_banner d) w)) as [_ Q]; exact Q).
  clearbody w1. replace (2 <=? S (S k))%nat with true by reflexivity.
  match type of E with after_steps k (?a :: ?b :: ?x :: ?y :: ?r) w1 = _ => change (a :: b :: x :: y :: r) with ([a; b; x; y] ++ r) in E end.
  apply after_app in E. destruct E as [[L E]|[w2 [E [L E']]]].
  - assert (Q : w_proc w' = w_proc w1 /\ w_solver w' = w_solver w1) by (eapply keeps_all; [|exact E]; repeat (constructor; [assumption|]); constructor).
    cbn [length] in L. replace (7 <=? S (S k))%nat with false by (symmetry; apply Nat.leb_gt; lia). split; [rewrite (proj1 Q); exact P1|rewrite (proj2 Q); exact S1].
  - assert (Q : w_proc w2 = w_proc w1 /\ w_solver w2 = w_solver w1) by (eapply keeps_all; [|exact E]; repeat (constructor; [assumption|]); constructor).
    cbn [length] in L, E'. destruct (k - 4)%nat as [|j] eqn:Ej; [lia|]. cbn [after_steps] in E'.
    assert (Q' : w_proc w' = w_proc (set_solver (case_of w2) w2) /\ w_solver w' = w_solver (set_solver (case_of w2) w2)) by (eapply keeps_all; [|exact E']; repeat (constructor; [assumption|]); constructor).
    cbn [set_solver w_proc w_solver] in Q'. replace (7 <=? S (S k))%nat with true by (symmetry; apply Nat.leb_le; lia).
    assert (P2 : w_proc w2 = Some c) by (rewrite (proj1 Q); exact P1). split; [rewrite (proj1 Q'); exact P2|]. rewrite (proj2 Q'). unfold case_of. rewrite P2. reflexivity.
Qed.
(** In a process's first run: until the solver is there an interrupt is undefined; from then on it ends the process with a failure status after the solver's results have gone to the case's file. *)
Theorem C179_first : forall number d w k w' c out, w_proc w = None -> w_solver w = None -> snd (d_ctor d) = Fine c -> after_steps k (drv_steps number d) w = Some w' ->
  ((k < 7)%nat -> fst (interrupt out w') = Anything) /\
  ((7 <= k)%nat -> forall r, out c = Fine r -> fst (interrupt out w') = Exits 1 /\ w_h5 (snd (interrupt out w')) = w_h5 w' ++ [mkRes (c ++ lit ".h5") r None]).
Proof.
  intros number d w k w' c out P Q Hc E. destruct (found number d w k w' c Hc E) as [A B]. unfold interrupt. rewrite A, B. split.
  - intros H. replace (7 <=? k)%nat with false by (symmetry; apply Nat.leb_gt; exact H). rewrite Q. destruct (if (2 <=? k)%nat then Some c else w_proc w); reflexivity.
  - intros H r Hr. replace (7 <=? k)%nat with true by (symmetry; apply Nat.leb_le; exact H). replace (2 <=? k)%nat with true by (symmetry; apply Nat.leb_le; lia). rewrite Hr. split; reflexivity.
Qed.
(** In a later run of the same process, from when the input is read until the new solver is there, the earlier case's results go to the new case's file. *)
Theorem C179_later : forall number d w k w' c earlier out r, w_solver w = Some earlier -> snd (d_ctor d) = Fine c -> after_steps k (drv_steps number d) w = Some w' -> (2 <= k)%nat -> (k < 7)%nat -> out earlier = Fine r ->
  fst (interrupt out w') = Exits 1 /\ w_h5 (snd (interrupt out w')) = w_h5 w' ++ [mkRes (c ++ lit ".h5") r None].
Proof.
  intros number d w k w' c earlier out r Q Hc E L U Hr. destruct (found number d w k w' c Hc E) as [A B]. unfold interrupt. rewrite A, B.
  replace (7 <=? k)%nat with false by (symmetry; apply Nat.leb_gt; exact U). replace (2 <=? k)%nat with true by (symmetry; apply Nat.leb_le; exact L). rewrite Q, Hr. split; reflexivity.
Qed.
(** If writing the results then throws, the exception leaves the handler, which is undefined, and no results are in the file. *)
Theorem C179_thrown : forall (out : list ascii -> SR Res) w c s, w_proc w = Some c -> w_solver w = Some s -> (out s = Foreign \/ exists m, out s = Thrown m) ->
  fst (interrupt out w) = Anything /\ w_h5 (snd (interrupt out w)) = w_h5 w.
Proof. intros out w c s P Q H. unfold interrupt. rewrite P, Q. destruct H as [H|[m H]]; rewrite H; split; reflexivity. Qed.
(** An interrupted process never ends with status 0. *)
Theorem C179_failure : forall (out : list ascii -> SR Res) w, fst (interrupt out w) = Exits 1 \/ fst (interrupt out w) = Anything.
Proof. intros out w. unfold interrupt. destruct (w_proc w) as [c|]; [|right; reflexivity]. destruct (w_solver w) as [s|]; [|right; reflexivity]. destruct (out s); (left; reflexivity) || (right; reflexivity). Qed.
End P.

(** * Instances. *)
Definition digits (n : nat) : list ascii := [ascii_of_nat (48 + n)].
(** A run that works, with a warning. *)
Definition good_run : Driver nat := mkDrv (lit "banner") ([OnBoth (lit "Parsing: a.xml" ++ nl)], Fine (lit "a")) (fun _ => true) (lit "." ++ nl) ([OnLog (lit "XML")], Fine tt) (lit "Running with 4 treads" ++ nl) (lit "mesh")
  ([OnBoth (lit "k 1.0")], Fine tt) ([], Fine 7%nat) (Fine (lit "<x/>")) (lit "sha") [lit "odd"] (lit "timers").
(** One whose input is refused. *)
Definition bad_run : Driver nat := mkDrv (lit "banner") ([OnBoth (lit "Parsing: b.xml" ++ nl)], Fine (lit "b")) (fun _ => true) (lit "." ++ nl) ([OnLog (lit "XML")], Thrown (lit "No pins")) (lit "") (lit "") ([], Fine tt) ([], Fine 0%nat) (Fine (lit "")) (lit "sha") [] (lit "").
(** One whose log cannot be made. *)
Definition mute_run : Driver nat := mkDrv (lit "banner") ([OnBoth (lit "Parsing: a.xml" ++ nl)], Fine (lit "a")) (fun _ => false) (lit "." ++ nl) ([OnLog (lit "XML")], Fine tt) (lit "Running with 4 treads" ++ nl) (lit "mesh")
  ([OnBoth (lit "k 1.0")], Fine tt) ([], Fine 7%nat) (Fine (lit "<x/>")) (lit "sha") [] (lit "timers").

Example C177_instance : fst (drv_run digits good_run fresh) = Returns 0 /\ w_h5 (snd (drv_run digits good_run fresh)) = [mkRes (lit "a.h5") 7%nat (Some (lit "<x/>", lit "sha"))] /\
  fst (drv_run digits bad_run fresh) = Returns 1 /\ first_message bad_run = Some (lit "No pins") /\ w_err (snd (drv_run digits bad_run fresh)) = lit "Error:" ++ nl ++ lit "No pins" /\ w_h5 (snd (drv_run digits bad_run fresh)) = [].
Proof. repeat split; vm_compute; reflexivity. Qed.
Example C178_instance :
  w_text (snd (drv_run digits good_run fresh)) (lit "a.log") = Some (lit "Running case: a." ++ nl ++ lit "XML" ++ lit "Running with 4 treads" ++ nl ++ lit "meshk 1.0" ++ nl ++ lit "Full input:" ++ nl ++ lit "There was  warning:" ++ nl ++ ["009"%char] ++ lit "odd" ++ nl ++ lit "timers") /\
  w_screen (snd (drv_run digits mute_run fresh)) = lit "bannerParsing: a.xml" ++ nl ++ lit "Logging output to: a.log" ++ nl ++ nl ++ lit "ROutput written to 'a'" ++ nl ++ lit "timers" ++ nl /\
  w_text (snd (drv_run digits good_run (snd (drv_run digits good_run fresh)))) (lit "a.log") = Some (lit "XMLmesh" ++ nl ++ lit "Full input:" ++ nl ++ lit "timers") /\
  w_text (snd (drv_run digits good_run (snd (drv_run digits bad_run fresh)))) (lit "a.log") = None /\
  w_text (snd (drv_run digits good_run (snd (drv_run digits bad_run fresh)))) (lit "b.log") = Some (lit "Running case: b." ++ nl ++ lit "XMLError:" ++ nl ++ lit "No pins" ++ lit "Parsing: a.xml" ++ nl ++ lit "Running case: a." ++ nl ++ lit "Running with 4 treads" ++ nl ++ lit "k 1.0There was  warning:" ++ nl ++ ["009"%char] ++ lit "odd" ++ nl).
Proof. repeat split; vm_compute; reflexivity. Qed.
Example C179_instance : w_proc (@fresh nat) = None /\ w_solver (@fresh nat) = None /\ snd (d_ctor good_run) = Fine (lit "a") /\
  (exists w', after_steps 6 (drv_steps digits good_run) fresh = Some w' /\ fst (interrupt (fun _ => Fine 5%nat) w') = Anything) /\
  (exists w', after_steps 7 (drv_steps digits good_run) fresh = Some w' /\ fst (interrupt (fun _ => Fine 5%nat) w') = Exits 1 /\ w_h5 (snd (interrupt (fun _ => Fine 5%nat) w')) = [mkRes (lit "a.h5") 5%nat None]) /\
  (exists w', after_steps 5 (drv_steps digits good_run) (snd (drv_run digits good_run fresh)) = Some w' /\ fst (interrupt (fun _ => Fine 5%nat) w') = Exits 1) /\
  (exists w', after_steps 7 (drv_steps digits good_run) fresh = Some w' /\ fst (interrupt (fun _ => Thrown (lit "disk full")) w') = Anything /\ w_h5 (snd (interrupt (fun _ => Thrown (lit "disk full")) w')) = []).
Proof. split; [reflexivity|]. split; [reflexivity|]. split; [reflexivity|]. repeat split; (eexists; split; [reflexivity|]); repeat split; vm_compute; reflexivity. Qed.

Print Assumptions C177_status.
Print Assumptions C177_zero.
Print Assumptions C177_one.
Print Assumptions C177_message.
Print Assumptions C177_results.
Print Assumptions C178_log.
Print Assumptions C178_unlogged.
Print Assumptions C178_again.
Print Assumptions C178_error.
Print Assumptions C179_first.
Print Assumptions C179_later.
Print Assumptions C179_thrown.
Print Assumptions C179_failure.
