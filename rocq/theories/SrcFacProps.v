(** C203: the source that a solver gets from its input. *)
From Coq Require Import Ascii String List Bool Arith Lia.
From Verif Require Import StrModel StrProps UtilModel H5Model SrcFacModel.
From Verif Require LibFileProofs.
Import ListNotations.
Local Open Scope char_scope.
Local Open Scope nat_scope.
Local Open Scope list_scope.

(** ** Spec *)
(** The scattering asked for is P0: with blanks around and the letter in either case. *)
Definition asks_p0 (s : str) : Prop := exists a c b, blank a /\ blank b /\ (c = "p" \/ c = "P") /\ s = a ++ [c; "0"] ++ b.
(** The external source that a file name stands for: a data set of one row for each group and one column for each region, in a file that opens. *)
Definition Supplies {V} (disk : str -> option (@HNode V)) (ng nreg : nat) (file : option str) (e : option (list nat * list V)) : Prop :=
  match file with
  | None => e = None
  | Some fn => exists kids v, disk fn = Some (HGroup kids) /\ kid (list_ascii_of_string "source") kids = Some (HData [ng; nreg] v) /\ e = Some ([ng; nreg], v)
  end.
Definition opens {V} (disk : str -> option (@HNode V)) (fn : str) : Prop := exists kids, disk fn = Some (HGroup kids).
Definition plain_sweeper (k : SweeperKind) : Prop := forall s, k <> SW_2D3D s.

(** ** The scattering treatment *)
Lemma usame_eq : forall a b, usame a b = true <-> a = b.
Proof. intros a b. unfold usame. destruct (list_eq_dec ascii_dec a b); split; intros; congruence. Qed.
Lemma blank_low : forall a, blank a -> existsb high a = false.
Proof. induction a as [|c a IH]; intros H; [reflexivity|]. inversion H; subst. cbn. rewrite IH by assumption. destruct c as [[] [] [] [] [] [] [] []]; try reflexivity; discriminate. Qed.
Lemma lower_p : forall c, tolower c = "p" -> c = "p" \/ c = "P".
Proof. intros [[] [] [] [] [] [] [] []] H; try (left; reflexivity); try (right; reflexivity); vm_compute in H; discriminate. Qed.
Lemma lower_0 : forall c, tolower c = "0" -> c = "0".
Proof. intros [[] [] [] [] [] [] [] []] H; try reflexivity; vm_compute in H; discriminate. Qed.
Lemma sanitize_p0 : forall s, sanitize s = SVal (lit "p0") <-> asks_p0 s.
Proof.
  intros s. unfold sanitize. rewrite LibFileProofs.lower_trim. split.
  - destruct (existsb high s) eqn:H; [discriminate|]. intros E. inversion E as [E1]. destruct (trim_split s) as [a [b [S1 [S2 S3]]]].
    destruct (trim s) as [|c [|d [|x y]]]; try discriminate. cbn in E1. inversion E1 as [[P Q]]. apply lower_p in P. apply lower_0 in Q. subst d.
    exists a, c, b. auto.
  - intros [a [c [b [A [B [C ->]]]]]].
    assert (H : existsb high (a ++ [c; "0"] ++ b) = false) by (rewrite !existsb_app, (blank_low a A), (blank_low b B); destruct C as [->| ->]; reflexivity). rewrite H.
    assert (T : trim (a ++ [c; "0"] ++ b) = [c; "0"]).
    { unfold trim, rtrim. rewrite !rev_app_distr, <- app_assoc. rewrite (ltrim_blank (List.rev b)) by (apply blank_rev; assumption). cbn [List.rev app]. 
      replace (ltrim ("0" :: c :: List.rev a)) with ("0" :: c :: List.rev a) by reflexivity. cbn [List.rev]. rewrite rev_involutive, <- !app_assoc, (ltrim_blank a) by assumption. destruct C as [->| ->]; reflexivity. }
    rewrite T. destruct C as [->| ->]; reflexivity.
Qed.

(** ** The external source *)
Section P.
Context {V : Type}.
Variable disk : str -> option (@HNode V).
Lemma external_first : forall ng nreg file e, external disk ng nreg file None = HOk e <-> Supplies disk ng nreg file e.
Proof.
  intros ng nreg [fn|] e; cbn [external Supplies]; [|split; [intros H; inversion H; reflexivity|intros ->; reflexivity]].
  unfold h5_open. destruct (disk fn) as [[d v|kids]|] eqn:D; try (split; [discriminate|]; intros [k [w [X _]]]; discriminate).
  unfold read_arr, resolve. cbn [hp_abs hp_names look a_size a_shape prod fold_right Nat.mul Nat.ltb Nat.leb andb Nat.eqb List.length a_contig].
  destruct (kid (lit "source") kids) as [[dims v|l]|] eqn:K; unfold lit in K.
  - destruct dims as [|d0 [|d1 [|d2 ds]]]; cbn [List.length Nat.eqb a_shape a_vals nth]; try (split; [discriminate|]; intros [k [w [X [Y _]]]]; inversion X; subst k; rewrite K in Y; discriminate).
    destruct (d0 =? ng) eqn:E0; cbn [negb].
    + destruct (d1 =? nreg) eqn:E1; cbn [negb].
      * apply Nat.eqb_eq in E0, E1. subst. split.
        -- intros H. inversion H; subst. eauto 6.
        -- intros [k [w [X [Y ->]]]]. inversion X; subst k. rewrite K in Y. inversion Y; subst. reflexivity.
      * split; [discriminate|]. intros [k [w [X [Y _]]]]. inversion X; subst k. rewrite K in Y. inversion Y; subst. rewrite Nat.eqb_refl in E1. discriminate.
    + split; [discriminate|]. intros [k [w [X [Y _]]]]. inversion X; subst k. rewrite K in Y. inversion Y; subst. rewrite Nat.eqb_refl in E0. discriminate.
  - split; [discriminate|]. intros [k [w [X [Y _]]]]. inversion X; subst k. rewrite K in Y. discriminate.
  - split; [discriminate|]. intros [k [w [X [Y _]]]]. inversion X; subst k. rewrite K in Y. discriminate.
Qed.
(** Reading again into what was read changes nothing. *)
Lemma external_again : forall ng nreg file e, Supplies disk ng nreg file e -> external disk ng nreg file e = HOk e.
Proof.
  intros ng nreg [fn|] e H; cbn [Supplies external] in *; [|subst; reflexivity]. destruct H as [kids [v [D [K ->]]]]. unfold h5_open. rewrite D.
  unfold read_arr, resolve. cbn [hp_abs hp_names look a_contig negb]. rewrite andb_false_r. unfold lit. rewrite K. unfold a_size. cbn [a_shape a_vals].
  destruct (prod [ng; nreg] =? 0) eqn:Z; cbn [List.length Nat.eqb a_shape a_vals nth same_extents]; rewrite ?Nat.eqb_refl; cbn [negb]; [reflexivity|].
  unfold fill. rewrite Nat.ltb_irrefl, skipn_all, app_nil_r. cbn [a_shape a_vals nth]. rewrite !Nat.eqb_refl. reflexivity.
Qed.
Lemma external_fails : forall ng nreg file, (external disk ng nreg file None = HUncaught <-> exists fn, file = Some fn /\ ~ opens disk fn)
  /\ external disk ng nreg file None <> HUB /\ external disk ng nreg file None <> HAbort.
Proof.
  intros ng nreg [fn|]; cbn [external]; [|split; [split; [discriminate|intros [fn [X _]]; discriminate]|split; discriminate]].
  unfold h5_open. destruct (disk fn) as [[d v|kids]|] eqn:D.
  - split; [|split; discriminate]. split; [|reflexivity]. intros _. exists fn. split; [reflexivity|]. intros [k X]. congruence.
  - unfold read_arr, resolve. cbn [hp_abs hp_names look a_size a_shape prod fold_right Nat.mul Nat.ltb Nat.leb andb Nat.eqb List.length a_contig].
    assert (O : forall (A : Prop), (exists fn', Some fn = Some fn' /\ ~ opens disk fn') -> A) by (intros A [fn' [X Y]]; inversion X; subst; exfalso; apply Y; exists kids; exact D).
    destruct (kid (lit "source") kids) as [[dims v|l]|]; try (split; [split; [discriminate|apply O]|split; discriminate]).
    destruct dims as [|d0 [|d1 [|d2 ds]]]; cbn [List.length Nat.eqb a_shape a_vals nth]; try (split; [split; [discriminate|apply O]|split; discriminate]).
    destruct (negb (d0 =? ng)); [split; [split; [discriminate|apply O]|split; discriminate]|]. destruct (negb (d1 =? nreg)); (split; [split; [discriminate|apply O]|split; discriminate]).
  - split; [|split; discriminate]. split; [|reflexivity]. intros _. exists fn. split; [reflexivity|]. intros [k X]. congruence.
Qed.

Lemma p0_nonempty : forall s, asks_p0 s -> s <> [].
Proof. intros s [a [c [b [_ [_ [_ ->]]]]]] H. destruct a; discriminate. Qed.
Lemma factory_eq : forall ng nreg t s, tg_scattering t = Some s -> asks_p0 s -> source_factory disk ng nreg (Some t) = add_to disk ng nreg (tg_file t) (mkSrc None None).
Proof.
  intros ng nreg t s S1 P. cbn [source_factory]. rewrite S1. cbn [attr]. destruct (usame s []) eqn:U; [apply usame_eq in U; destruct (p0_nonempty s P U)|].
  rewrite (proj2 (sanitize_p0 s) P). rewrite (proj2 (usame_eq _ _) eq_refl). reflexivity.
Qed.
(** Without P0 there is no source. *)
Lemma factory_no : forall ng nreg t, (forall s, tg_scattering t = Some s -> ~ asks_p0 s) ->
  source_factory disk ng nreg (Some t) = (if existsb high (attr "" (tg_scattering t)) then HUB else HThrow).
Proof.
  intros ng nreg t H. cbn [source_factory]. destruct (usame (attr "" (tg_scattering t)) []) eqn:U; [apply usame_eq in U; rewrite U; reflexivity|].
  destruct (tg_scattering t) as [s|]; [|cbn in U; discriminate]. cbn [attr] in *. specialize (H s eq_refl). destruct (sanitize s) as [z| | |] eqn:Z; unfold sanitize in Z; destruct (existsb high s) eqn:E; try discriminate; [|reflexivity].
  destruct (usame z (lit "p0")) eqn:W; [|reflexivity]. apply usame_eq in W. subst z. exfalso. apply H. apply sanitize_p0. unfold sanitize. rewrite E. exact Z.
Qed.
Lemma plain_create : forall k ng nreg input, plain_sweeper k -> create_source disk k ng nreg input = source_factory disk ng nreg input.
Proof. intros [|s|s|] ng nreg input H; try reflexivity. destruct (H s eq_refl). Qed.
Lemma p0_dec : forall s, asks_p0 s \/ ~ asks_p0 s.
Proof.
  intros s. destruct (sanitize s) as [z| | |] eqn:Z; [destruct (usame z (lit "p0")) eqn:U|..].
  - left. apply usame_eq in U. subst. apply sanitize_p0. exact Z.
  - right. intros H. apply sanitize_p0 in H. rewrite Z in H. inversion H; subst. rewrite (proj2 (usame_eq _ _) eq_refl) in U. discriminate.
  - right. intros H. apply sanitize_p0 in H. congruence.
  - right. intros H. apply sanitize_p0 in H. congruence.
  - right. intros H. apply sanitize_p0 in H. congruence.
Qed.
End P.

(** ** C203 *)
(** With any sweeper but 2D3D, alone or inside an eigenvalue solver: there is a source exactly when P0 is asked for and the file, if one is named, supplies an
    external source of the right extents; the source has that external source. *)
Theorem C203_source : forall V (disk : str -> option (@HNode V)) top k ng nreg input o, plain_sweeper k ->
  solver_source disk top k ng nreg input = HOk o <->
  exists t s, input = Some t /\ tg_scattering t = Some s /\ asks_p0 s /\ Supplies disk ng nreg (tg_file t) (so_main o) /\ so_sn o = None.
Proof.
  intros V disk top k ng nreg input o K. unfold solver_source. rewrite (plain_create disk k ng nreg input K). split.
  - destruct input as [t|]; [|discriminate]. assert (D : (exists s, tg_scattering t = Some s /\ asks_p0 s) \/ forall s, tg_scattering t = Some s -> ~ asks_p0 s).
    { destruct (tg_scattering t) as [s|]; [|right; discriminate]. destruct (p0_dec s); [left; eauto|right; intros x X; inversion X; subst; assumption]. }
    destruct D as [[s [S1 P]]|D]; [|rewrite (factory_no disk ng nreg t D); destruct (existsb high _); discriminate].
    rewrite (factory_eq disk ng nreg t s S1 P). unfold add_to. cbn [so_main so_sn]. destruct (external disk ng nreg (tg_file t) None) as [e| | | |] eqn:E; try discriminate. apply external_first in E.
    intros H. exists t, s. split; [reflexivity|]. split; [assumption|]. split; [assumption|]. destruct top; [cbn [so_main so_sn] in H; rewrite (external_again disk _ _ _ _ E) in H|]; inversion H; subst; auto.
  - intros [t [s [-> [S1 [P [E N]]]]]]. rewrite (factory_eq disk ng nreg t s S1 P). unfold add_to. cbn [so_main so_sn]. rewrite (proj2 (external_first disk ng nreg (tg_file t) (so_main o)) E). destruct o as [m n]. cbn [so_main so_sn] in *. subst n.
    destruct top; [cbn [so_main so_sn]; rewrite (external_again disk _ _ _ _ E)|]; reflexivity.
Qed.
Print Assumptions C203_source.

(** What happens when there is none: a file that does not open ends in an exception of the HDF5 library that nothing catches, a scattering treatment with bytes outside
    ASCII is undefined, everything else is refused with a message. *)
Theorem C203_refused : forall V (disk : str -> option (@HNode V)) top k ng nreg input, plain_sweeper k ->
  (solver_source disk top k ng nreg input = HUncaught <-> exists t s fn, input = Some t /\ tg_scattering t = Some s /\ asks_p0 s /\ tg_file t = Some fn /\ ~ opens disk fn)
  /\ (solver_source disk top k ng nreg input = HUB <-> exists t s, input = Some t /\ tg_scattering t = Some s /\ existsb high s = true)
  /\ solver_source disk top k ng nreg input <> HAbort.
Proof.
  intros V disk top k ng nreg input K. unfold solver_source. rewrite (plain_create disk k ng nreg input K). destruct input as [t|].
  2: { split; [split; [discriminate|intros [t [s [fn [X _]]]]; discriminate]|]. split; [split; [discriminate|intros [t [s [X _]]]; discriminate]|discriminate]. }
  assert (D : (exists s, tg_scattering t = Some s /\ asks_p0 s) \/ forall s, tg_scattering t = Some s -> ~ asks_p0 s).
  { destruct (tg_scattering t) as [s|]; [|right; discriminate]. destruct (p0_dec s); [left; eauto|right; intros x X; inversion X; subst; assumption]. }
  destruct D as [[s [S1 P]]|D].
  - rewrite (factory_eq disk ng nreg t s S1 P). unfold add_to. cbn [so_main so_sn].
    assert (H : existsb high s = false) by (apply sanitize_p0 in P; unfold sanitize in P; destruct (existsb high s); [discriminate|reflexivity]).
    assert (U : forall A : Prop, (exists t0 s0, Some t = Some t0 /\ tg_scattering t0 = Some s0 /\ existsb high s0 = true) -> A) by (intros A [t0 [s0 [X [Y Z]]]]; inversion X; subst; congruence).
    pose proof (external_fails disk ng nreg (tg_file t)) as [F1 [F2 F3]].
    assert (W : (exists t0 s0 fn, Some t = Some t0 /\ tg_scattering t0 = Some s0 /\ asks_p0 s0 /\ tg_file t0 = Some fn /\ ~ opens disk fn) <-> external disk ng nreg (tg_file t) None = HUncaught).
    { rewrite F1. split; [intros [t0 [s0 [fn [X [_ [_ Y]]]]]]; inversion X; subst; eauto|intros [fn [X Y]]; exists t, s, fn; auto]. }
    rewrite W. destruct (external disk ng nreg (tg_file t) None) as [e| | | |] eqn:E; try congruence.
    + apply external_first in E. destruct top; [cbn [so_main so_sn]; rewrite (external_again disk _ _ _ _ E)|]; (split; [split; discriminate|split; [split; [discriminate|apply U]|discriminate]]).
    + split; [split; discriminate|split; [split; [discriminate|apply U]|discriminate]].
    + split; [split; reflexivity|split; [split; [discriminate|apply U]|discriminate]].
  - rewrite (factory_no disk ng nreg t D).
    assert (Q : (if existsb high (attr "" (tg_scattering t)) then @HUB (SrcObj V) else HThrow) <> HUncaught) by (destruct (existsb high _); discriminate).
    assert (X : forall A : Prop, (exists t0 s0 fn, Some t = Some t0 /\ tg_scattering t0 = Some s0 /\ asks_p0 s0 /\ tg_file t0 = Some fn /\ ~ opens disk fn) -> A)
      by (intros A [t0 [s0 [fn [Y [S1 [P _]]]]]]; inversion Y; subst; destruct (D s0 S1 P)).
    destruct (existsb high (attr "" (tg_scattering t))) eqn:E.
    + split; [split; [discriminate|apply X]|]. split; [|discriminate]. split; [|reflexivity]. intros _. destruct (tg_scattering t) as [s|] eqn:S1; [exists t, s; auto|discriminate].
    + split; [split; [discriminate|apply X]|]. split; [|discriminate]. split; [discriminate|]. intros [t0 [s0 [Y [S1 H]]]]. inversion Y; subst. rewrite S1 in E. cbn in E. congruence.
Qed.
Print Assumptions C203_refused.

(** A 2D3D sweeper: the scattering treatment is not looked at; inside an eigenvalue solver the element plays no part, so that no external source is applied and no
    fault noticed; otherwise the external source goes to the MoC part alone. *)
Theorem C203_2d3d : forall V (disk : str -> option (@HNode V)) s ng nreg input,
  solver_source disk false (SW_2D3D s) ng nreg input = HOk (mkSrc None (Some None))
  /\ forall o, solver_source disk true (SW_2D3D s) ng nreg input = HOk o <-> exists t, input = Some t /\ Supplies disk ng nreg (tg_file t) (so_main o) /\ so_sn o = Some None.
Proof.
  intros V disk s ng nreg input. split; [reflexivity|]. intros o. cbn [solver_source create_source]. unfold solver_source. cbn [create_source]. destruct input as [t|].
  - unfold add_to. cbn [so_main so_sn]. split.
    + destruct (external disk ng nreg (tg_file t) None) as [e| | | |] eqn:E; try discriminate. apply external_first in E. intros H. inversion H; subst. eauto.
    + intros [t0 [X [E N]]]. inversion X; subst t0. rewrite (proj2 (external_first disk ng nreg (tg_file t) (so_main o)) E). destruct o as [m n]. cbn [so_main so_sn] in *. subst n. reflexivity.
  - split; [discriminate|]. intros [t [X _]]. discriminate.
Qed.
Print Assumptions C203_2d3d.

(** *** An input with a file of two groups and three regions *)
Definition txt (s : string) : str := list_ascii_of_string s.
Definition a_disk (fn : str) : option (@HNode nat) :=
  if usame fn (txt "s.h5") then Some (HGroup [(txt "title", HData [1] [7]); (txt "source", HData [2; 3] [1; 2; 3; 4; 5; 6])]) else None.
Definition a_tag (sc fn : string) : option SourceTag := Some (mkTag (Some (txt sc)) (Some (txt fn))).
Example C203_instance : plain_sweeper SW_MOC /\ asks_p0 (txt " P0 ")
  /\ (forall top, solver_source a_disk top SW_MOC 2 3 (a_tag " P0 " "s.h5") = HOk (mkSrc (Some ([2; 3], [1; 2; 3; 4; 5; 6])) None))
  /\ solver_source a_disk false SW_MOC 3 2 (a_tag "p0" "s.h5") = HThrow /\ solver_source a_disk false SW_MOC 2 3 (a_tag "pn" "s.h5") = HThrow
  /\ solver_source a_disk false SW_MOC 2 3 (a_tag "p0" "t.h5") = HUncaught
  /\ solver_source a_disk false (SW_2D3D CDD_DD) 2 3 (a_tag "pn" "t.h5") = HOk (mkSrc None (Some None))
  /\ solver_source a_disk true (SW_2D3D CDD_DD) 2 3 (a_tag "pn" "s.h5") = HOk (mkSrc (Some ([2; 3], [1; 2; 3; 4; 5; 6])) (Some None)).
Proof.
  split; [intros s; discriminate|]. split; [exists (txt " "), "P", (txt " "); split; [repeat constructor|]; split; [repeat constructor|]; split; [right; reflexivity|reflexivity]|].
  split; [intros [|]; vm_compute; reflexivity|]. vm_compute. repeat split.
Qed.
