(** C164: the numbers of rays and spacings belong to the angles of the final quadrature.  C166: the warning about regions without rays. *)
From Coq Require Import ZArith List Lia Bool Sorted Permutation Reals Lra Classical.
From Verif Require Import RUtil ListUtil XsModel SrcModel MgModel MeshModel MeshProofs AngModel AngProofs AngProps AqModel AqProps AqwProps BcModel BcProofs StdAlg MatModel GeomModel CoreModel CoreProofs PmModel RatModel RatProofs RatProps RayModel RayProofs RayTrModel RayProps MocModel MocProofs VolModel VolProps OrdProps MocSetModel MocSetProofs.
Import ListNotations.
Open Scope R_scope.

(** ** Specification *)

(** Options and sizes that make sense. *)
Definition sensible (o : RayOpts) (d : CoreDims) : Prop :=
  0 < op_spacing o /\ 0 < cd_hx d /\ 0 < cd_hy d /\ (op_core o = false -> 0 < cd_px d /\ 0 < cd_py d /\ (1 <= cd_nx d)%Z /\ (1 <= cd_ny d)%Z).
(** A direction of the first octant, with a positive weight. *)
Definition sound_angle (a : Angle) : Prop := 0 < AngModel.alpha (adir a) < PI / 2 /\ 0 < sin (theta (adir a)) /\ 0 < weight a.
(** A quadrature as the tags make them: the octants of [oct1]; for a product quadrature the azimuthal angles rise, and its generator of polar
    angles returns those of the quadrature again. *)
Definition usable (gauss yamamoto : option (list (R * R))) (q : Quad) (oct1 : list Angle) : Prop :=
  q_angles q = expand oct1 /\ q_ndir q = length oct1 /\ oct1 <> [] /\ Forall sound_angle oct1 /\ wsum oct1 = 1 /\
  (q_type q = LS \/ q_type q = USER \/ q_type q = IMPORT \/
   exists azi pol, (q_type q = CHEB_GAUSS /\ gauss = Some pol \/ q_type q = CHEB_YAMAMOTO /\ yamamoto = Some pol) /\
     map adir oct1 = directions azi pol /\ q_nazi q = Z.of_nat (length azi) /\ rising 0 azi /\ Forall (fun p => 0 < snd p) pol).

(** ** Lemmas *)

Lemma alpha_slope : forall hx hy Nx Ny Mx My, 0 < hx -> 0 < hy -> (1 <= Nx)%Z -> (1 <= Ny)%Z -> (1 <= Mx)%Z -> (1 <= My)%Z -> mod_alpha hx hy Nx Ny <= mod_alpha hx hy Mx My -> IZR Nx / IZR Ny <= IZR Mx / IZR My.
Proof.
  intros hx hy Nx Ny Mx My Hx Hy A B C D H. apply Rnot_lt_le. intros L. apply IZR_le in A, B, C, D.
  assert (Q : hy * IZR Mx / (hx * IZR My) < hy * IZR Nx / (hx * IZR Ny)).
  { replace (hy * IZR Nx / (hx * IZR Ny)) with (hy / hx * (IZR Nx / IZR Ny)) by (field; lra). replace (hy * IZR Mx / (hx * IZR My)) with (hy / hx * (IZR Mx / IZR My)) by (field; lra). apply Rmult_lt_compat_l; [apply Rdiv_lt_0_compat; assumption|exact L]. }
  apply atan_increasing in Q. unfold mod_alpha in H. lra.
Qed.
(** Order is kept by both methods and both kinds of modularity. *)
Lemma counts_rise : forall o d a b N M, sensible o d -> 0 < a -> a <= b -> b < PI / 2 -> angle_counts o d a = Got N -> angle_counts o d b = Got M ->
  mod_alpha (cd_hx d) (cd_hy d) (fst N) (snd N) <= mod_alpha (cd_hx d) (cd_hy d) (fst M) (snd M).
Proof.
  intros o d a b N M (S0 & Hx & Hy & Pn) A AB B EN EM. unfold angle_counts in EN, EM. set (hx := if op_core o then cd_hx d else cd_px d) in *. set (hy := if op_core o then cd_hy d else cd_py d) in *.
  assert (H0 : 0 < hx /\ 0 < hy) by (unfold hx, hy; destruct (op_core o); [auto|destruct (Pn eq_refl) as (P1 & P2 & _); auto]). destruct H0 as [H1 H2].
  assert (G : forall x K, 0 < x < PI / 2 -> match op_method o with ModRational => match modularize_rational 502 x hx hy (op_spacing o) with Some r => r | None => Undef end | ModTrig => modularize_trig x hx hy (op_spacing o) end = Got K -> (1 <= fst K)%Z /\ (1 <= snd K)%Z).
  { intros x [Kx Ky] X E. destruct (op_method o).
    - destruct (modularize_rational 502 x hx hy (op_spacing o)) as [r|] eqn:Er; [|discriminate]. subst r. destruct (C81_rational 501 x hx hy (op_spacing o) Kx Ky ltac:(lia) X H1 H2 S0 Er) as (C1 & C2 & _). auto.
    - destruct (C81_trig x hx hy (op_spacing o) Kx Ky X H1 H2 S0 E) as (C1 & C2 & _). auto. }
  assert (Q : forall K L, match op_method o with ModRational => match modularize_rational 502 a hx hy (op_spacing o) with Some r => r | None => Undef end | ModTrig => modularize_trig a hx hy (op_spacing o) end = Got K ->
    match op_method o with ModRational => match modularize_rational 502 b hx hy (op_spacing o) with Some r => r | None => Undef end | ModTrig => modularize_trig b hx hy (op_spacing o) end = Got L -> mod_alpha hx hy (fst K) (snd K) <= mod_alpha hx hy (fst L) (snd L)).
  { intros [Kx Ky] [Lx Ly] EK EL. cbn [fst snd]. destruct (op_method o).
    - destruct (modularize_rational 502 a hx hy (op_spacing o)) as [r|] eqn:Ea; [|discriminate]. destruct (modularize_rational 502 b hx hy (op_spacing o)) as [r'|] eqn:Eb; [|discriminate]. subst r r'. apply (C163_rational 501 501 a b hx hy (op_spacing o)); try assumption; lia.
    - apply (C163_trig a b hx hy (op_spacing o) Kx Ky Lx Ly); assumption. }
  set (ra := match op_method o with ModRational => match modularize_rational 502 a hx hy (op_spacing o) with Some r => r | None => Undef end | ModTrig => modularize_trig a hx hy (op_spacing o) end) in *.
  set (rb := match op_method o with ModRational => match modularize_rational 502 b hx hy (op_spacing o) with Some r => r | None => Undef end | ModTrig => modularize_trig b hx hy (op_spacing o) end) in *.
  pose proof (fun K => G a K ltac:(lra)) as Ga. fold ra in Ga. pose proof (fun K => G b K ltac:(lra)) as Gb. fold rb in Gb. clearbody ra rb. clear G.
  destruct ra as [K| |]; try discriminate. destruct rb as [L| |]; try discriminate. cbn [bind] in EN, EM. specialize (Q K L eq_refl eq_refl). destruct (Ga K eq_refl) as [K1 K2]. destruct (Gb L eq_refl) as [L1 L2].
  destruct (op_core o) eqn:C; [injection EN as <-; injection EM as <-; exact Q|]. destruct (Pn eq_refl) as (P1 & P2 & P3 & P4).
  unfold imul, to_int in EN, EM. repeat (match type of EN with context [if ?c then _ else _] => destruct c; [|discriminate] end; cbn [bind] in EN). repeat (match type of EM with context [if ?c then _ else _] => destruct c; [|discriminate] end; cbn [bind] in EM).
  injection EN as <-. injection EM as <-. cbn [fst snd]. apply slope_alpha; try assumption; try nia.
  pose proof (alpha_slope _ _ _ _ _ _ H1 H2 K1 K2 L1 L2 Q) as R. apply IZR_le in K1, K2, L1, L2, P3, P4. rewrite !mult_IZR.
  replace (IZR (fst K) * IZR (cd_nx d) / (IZR (snd K) * IZR (cd_ny d))) with (IZR (fst K) / IZR (snd K) * (IZR (cd_nx d) / IZR (cd_ny d))) by (field; lra).
  replace (IZR (fst L) * IZR (cd_nx d) / (IZR (snd L) * IZR (cd_ny d))) with (IZR (fst L) / IZR (snd L) * (IZR (cd_nx d) / IZR (cd_ny d))) by (field; lra).
  apply Rmult_le_compat_r; [left; apply Rdiv_lt_0_compat; lra|exact R].
Qed.
(** The azimuthal angle that replaces [a]. *)
Definition new_azi (o : RayOpts) (d : CoreDims) (a : R) : R := match angle_counts o d a with Got N => mod_alpha (cd_hx d) (cd_hy d) (fst N) (snd N) | _ => 0 end.
Lemma laid_dirs : forall o d l cs, Forall2 (counted o d) l cs -> map adir (zip (laid d) l cs) = map (fun x => dir_angles (new_azi o d (AngModel.alpha x)) (theta x)) (map adir l).
Proof.
  intros o d. induction 1 as [|a N l cs [C _] F IH]; [reflexivity|]. unfold zip in *. cbn [combine map fst snd]. rewrite IH. f_equal. cbn [laid adir]. unfold mod_dir, new_azi. rewrite C. reflexivity.
Qed.
Lemma laid_weights : forall o d l cs, Forall2 (counted o d) l cs -> map weight (zip (laid d) l cs) = map weight l.
Proof. intros o d. induction 1 as [|a N l cs C F IH]; [reflexivity|]. unfold zip in *. cbn [combine map fst snd]. rewrite IH. reflexivity. Qed.
Lemma zip_length : forall o d l cs, Forall2 (counted o d) l cs -> length (zip (laid d) l cs) = length l.
Proof. intros o d l cs F. unfold zip. rewrite map_length, combine_length. assert (length cs = length l) by (clear - F; induction F; cbn; lia). lia. Qed.
Lemma directions_map : forall f azi pol, directions (map f azi) pol = map (fun x => dir_angles (f (AngModel.alpha x)) (theta x)) (directions azi pol).
Proof. intros f azi pol. unfold directions. induction azi as [|a azi IH]; [reflexivity|]. cbn [map flat_map]. rewrite map_app, IH. f_equal. rewrite map_map. reflexivity. Qed.
Lemma rises : forall same f azi b0, (forall a, same a a = true) -> (forall a b, In a azi -> In b azi -> a <= b -> f a <= f b) -> (forall a, In a azi -> 0 < f a) -> rising b0 azi -> told_apart same (map f azi) -> rising 0 (map f azi).
Proof.
  intros same f azi b0 R M P Ri T. assert (G : forall azi b0 c, rising b0 azi -> (forall a b, In a azi -> In b azi -> a <= b -> f a <= f b) -> told_apart same (map f azi) -> (forall a l, azi = a :: l -> c < f a) -> rising c (map f azi)).
  { clear - R. induction azi as [|a azi IH]; intros b0 c Ri M T C; [exact I|]. cbn [map rising]. split; [apply (C a azi eq_refl)|]. destruct Ri as [_ Ri]. apply (IH a); [exact Ri|intros; apply M; auto; now right| |].
    - intros i x y X Y. apply (T (S i) x y); assumption.
    - intros b l ->. assert (L : f a <= f b) by (apply M; [now left|right; now left|destruct Ri as [Ri _]; lra]). destruct L as [L|L]; [exact L|]. specialize (T 0%nat (f a) (f b) eq_refl eq_refl). rewrite L in T. rewrite R in T. discriminate. }
  apply (G azi b0); auto. intros a l ->. apply P. now left.
Qed.
Lemma weakly : forall f azi b0, (forall a b, In a azi -> In b azi -> a <= b -> f a <= f b) -> rising b0 azi -> StronglySorted Rle (map f azi).
Proof.
  intros f azi b0 M Ri. assert (S : StronglySorted Rle azi).
  { clear - Ri. revert b0 Ri. induction azi as [|a azi IH]; intros b Ri; [constructor|]. destruct Ri as [Hb H]. constructor; [apply (IH a H)|].
    clear IH Hb b. revert a H. induction azi as [|c azi IH]; intros a H; [constructor|]. destruct H as [H1 H2]. constructor; [lra|]. apply IH. destruct azi as [|e azi]; [exact I|]. destruct H2 as [H2 H3]. split; [lra|exact H3]. }
  clear Ri. induction S as [|a azi S IH F]; [constructor|]. cbn [map]. constructor; [apply IH; intros; apply M; auto; now right|]. apply Forall_forall. intros x I. apply in_map_iff in I. destruct I as (y & <- & I). apply M; [now left|now right|]. rewrite Forall_forall in F. now apply F.
Qed.
Lemma in_directions : forall azi pol a p, In a azi -> In p pol -> In (dir_angles a (fst p)) (directions azi pol).
Proof. intros azi pol a p A P. unfold directions. apply in_flat_map. exists a. split; [exact A|]. apply in_map_iff. eauto. Qed.
Lemma Forall2_nth : forall {A B} (R : A -> B -> Prop) l m i a, Forall2 R l m -> nth_error l i = Some a -> exists b, nth_error m i = Some b /\ R a b.
Proof. intros A B R l m i a F. revert i. induction F as [|x y l m H F IH]; intros [|i] E; try discriminate; cbn in E |- *; [injection E as <-; eauto|auto]. Qed.
Lemma zip_nth : forall {A B C} (f : A -> B -> C) l m i a b, nth_error l i = Some a -> nth_error m i = Some b -> nth_error (zip f l m) i = Some (f a b).
Proof. intros A B C f l. induction l as [|x l IH]; intros [|y m] [|i] a b E F; try discriminate; cbn in E, F; unfold zip; cbn [combine map nth_error]; [injection E as ->; injection F as ->; reflexivity|]. apply (IH m i a b E F). Qed.

(** ** C164 *)

(** C164: however the rays are asked for, when the angles of a quadrature have been modularised and its weights updated without an exception,
    then in the place of every angle of the first octant there is the direction its own numbers of rays call for, at its old polar angle and
    with a positive weight; the weights of an octant sum to one; the numbers repeat for octants 2 to 4. *)
Theorem C164_matched : forall same gauss yamamoto o d q oct1 counts q', (forall a, same a a = true) -> sensible o d -> usable gauss yamamoto q oct1 -> lay_quad same gauss yamamoto o d q = Got (counts, q') ->
  exists new, q_angles q' = expand new /\ q_ndir q' = length oct1 /\ length new = length oct1 /\ wsum new = 1 /\ length counts = (4 * length oct1)%nat /\
    (forall k, (k < 4 * length oct1)%nat -> nth_error counts k = nth_error counts (k mod length oct1)) /\
    forall i a, nth_error oct1 i = Some a -> exists N b, nth_error counts i = Some N /\ angle_counts o d (AngModel.alpha (adir a)) = Got N /\ (1 <= fst N)%Z /\ (1 <= snd N)%Z /\
      nth_error new i = Some b /\ adir b = mod_dir (cd_hx d) (cd_hy d) (fst N) (snd N) (theta (adir a)) /\ 0 < weight b.
Proof.
  intros same gauss yamamoto o d q oct1 counts q' Rf Se (QA & QN & Ne & Snd & Ws & Ty) H. unfold lay_quad in H. rewrite QA, QN in H.
  destruct (lay_angles o d (length oct1) (seq 0 (length oct1)) (expand oct1)) as [[cs l']| |] eqn:EL; try discriminate. cbn [bind fst snd] in H.
  destruct (lay_spec o d (length oct1) oct1 0 [] oct1 (cs, l') eq_refl eq_refl eq_refl EL) as [F El]. cbn [fst snd app] in F, El. set (l1 := zip (laid d) oct1 cs) in *.
  assert (Lc : length cs = length oct1) by (clear - F; induction F; cbn; lia). assert (L1 : length l1 = length oct1) by (apply (zip_length o d _ _ F)).
  set (q1 := mkQuad (q_type q) (length oct1) l' (q_npol q) (q_nazi q)) in *. destruct (update_weights same gauss yamamoto q1) as [| |q2] eqn:EU; try discriminate.
  destruct (push_again (seq 0 (3 * q_ndir q2)) cs) as [cs4|] eqn:EP; [|discriminate]. injection H as <- <-.
  assert (Main : exists new, q_angles q2 = expand new /\ q_ndir q2 = length oct1 /\ length new = length oct1 /\ wsum new = 1 /\ map adir new = map adir l1 /\ Forall (fun b => 0 < weight b) new).
  { destruct Ty as [T|[T|[T|(azi & pol & G & D & Na & Ri & Pp)]]].
    1-3: rewrite (C129_others same gauss yamamoto q1) in EU by (cbn [q1 q_type]; auto); injection EU as <-; exists l1; cbn [q1 q_angles q_ndir]; split; [exact El|]; split; [reflexivity|]; split; [exact L1|]; split; [unfold wsum, l1; rewrite (laid_weights o d _ _ F); exact Ws|]; split; [reflexivity|];
      apply Forall_forall; intros b Ib; apply (in_map weight) in Ib; unfold l1 in Ib; rewrite (laid_weights o d _ _ F) in Ib; apply in_map_iff in Ib; destruct Ib as (a & <- & Ia); rewrite Forall_forall in Snd; apply (Snd a Ia).
    assert (EC : update_chebyshev_weights same pol q1 = UOk q2) by (unfold update_weights in EU; cbn [q1 q_type] in EU; destruct G as [[T Gp]|[T Gp]]; rewrite T, Gp in EU; exact EU).
    assert (Pn : pol <> []). { intros ->. apply Ne. apply length_zero_iff_nil. rewrite <- (map_length adir), D. unfold directions. clear. induction azi; [reflexivity|cbn; auto]. }
    assert (An : azi <> []) by (intros ->; apply Ne; apply length_zero_iff_nil; rewrite <- (map_length adir), D; reflexivity).
    destruct pol as [|p0 pol']; [congruence|]. set (pol := p0 :: pol') in *.
    assert (Cnt : forall a, In a azi -> 0 < a < PI / 2 /\ exists N, angle_counts o d a = Got N /\ (1 <= fst N)%Z /\ (1 <= snd N)%Z).
    { intros a Ia. assert (Id : In (dir_angles a (fst p0)) (map adir oct1)) by (rewrite D; apply in_directions; [exact Ia|now left]). apply in_map_iff in Id. destruct Id as (x & Ex & Ix). rewrite Forall_forall in Snd. destruct (Snd x Ix) as (S1 & _). rewrite Ex in S1. cbn [dir_angles AngModel.alpha] in S1. split; [exact S1|].
      apply In_nth_error in Ix. destruct Ix as (i & Ix). destruct (Forall2_nth _ _ _ _ _ F Ix) as (N & _ & C & P1 & P2). rewrite Ex in C. cbn [dir_angles AngModel.alpha] in C. eauto. }
    set (f := new_azi o d). assert (Mono : forall a b, In a azi -> In b azi -> a <= b -> f a <= f b).
    { intros a b Ia Ib AB. destruct (Cnt a Ia) as [A1 (N & EN & _)]. destruct (Cnt b Ib) as [B1 (M & EM & _)]. unfold f, new_azi. rewrite EN, EM. apply (counts_rise o d a b N M); auto; lra. }
    assert (Rng : forall a, In a azi -> 0 < f a < PI / 2). { intros a Ia. destruct (Cnt a Ia) as [_ (N & EN & N1 & N2)]. unfold f, new_azi. rewrite EN. destruct Se as (_ & Hx & Hy & _). destruct (alpha_facts (cd_hx d) (cd_hy d) (fst N) (snd N) Hx Hy N1 N2) as (A1 & _). exact A1. }
    assert (PL : product_like q1 (map f azi) pol).
    { exists l1. cbn [q1 q_angles q_ndir q_nazi]. split; [exact El|]. split; [symmetry; exact L1|]. split; [|rewrite map_length; exact Na]. unfold l1. rewrite (laid_dirs o d _ _ F), D. symmetry. apply directions_map. }
    destruct (classic (told_apart same (map f azi))) as [T|T]; [|exfalso; rewrite (C129_collapsed same pol q1 (map f azi) Rf Pn (weakly f azi 0 Mono Ri) PL T) in EC; discriminate].
    assert (Ri' : rising 0 (map f azi)) by (apply (rises same f azi 0 Rf Mono (fun a Ia => proj1 (Rng a Ia)) Ri T)).
    destruct (C129_update same pol q1 (map f azi) Rf Pn ltac:(destruct azi; [congruence|discriminate]) Pp Ri') as (q3 & E3 & D3 & N3 & A3 & _ & W3 & (new & X1 & X2 & X3 & _) & P3); [apply Forall_forall; intros x Ix; apply in_map_iff in Ix; destruct Ix as (a & <- & Ia); apply (Rng a Ia)|exact PL|exact T|].
    rewrite EC in E3. injection E3 as <-. exists new. cbn [q1 q_ndir] in N3. split; [exact X1|]. split; [exact N3|]. split; [congruence|]. rewrite X1, expand_wsum in W3. split; [lra|]. destruct PL as (l1' & Y1 & Y2 & Y3 & _). cbn [q1 q_angles q_ndir] in Y1, Y2.
    assert (DD : map adir new = map adir l1) by (rewrite X3; symmetry; unfold l1; rewrite (laid_dirs o d _ _ F), D; symmetry; apply directions_map). split; [exact DD|].
    apply Forall_forall. intros b Ib. apply In_nth_error in Ib. destruct Ib as (k & Ek). assert (Lk : (k < length new)%nat) by (apply nth_error_Some; congruence).
    assert (Ld : length new = (length (map f azi) * length pol)%nat). { rewrite <- (map_length adir), X3. unfold directions. generalize (map f azi). intros l. clear. induction l as [|a l IH]; [reflexivity|]. cbn [flat_map length]. rewrite app_length, map_length, IH. lia. }
    assert (Lp : (0 < length pol)%nat) by (cbn; lia). pose proof (Nat.div_mod k (length pol) ltac:(lia)) as DM. pose proof (Nat.mod_upper_bound k (length pol) ltac:(lia)) as MU.
    assert (DU : (k / length pol < length (map f azi))%nat) by (apply Nat.div_lt_upper_bound; [lia|]; rewrite Nat.mul_comm; lia).
    destruct (nth_error (map f azi) (k / length pol)) as [a|] eqn:Ea; [|apply nth_error_None in Ea; lia]. destruct (nth_error pol (k mod length pol)) as [p|] eqn:Ep; [|apply nth_error_None in Ep; lia].
    destruct (P3 _ _ a p Ea Ep) as (x & Ex & _ & Px). replace (k / length pol * length pol + k mod length pol)%nat with k in Ex by lia. rewrite X1 in Ex. unfold expand in Ex. rewrite nth_error_app1 in Ex by exact Lk. rewrite Ek in Ex. injection Ex as ->. exact Px. }
  destruct Main as (new & M1 & M2 & M3 & M4 & M5 & M6). exists new. split; [exact M1|]. split; [exact M2|]. split; [exact M3|]. split; [exact M4|].
  rewrite M2, <- Lc in EP. assert (Cn : cs <> []) by (intros ->; apply Ne; apply length_zero_iff_nil; cbn in Lc; lia). destruct (push_four cs cs4 Cn EP) as [P1 P2]. rewrite Lc in P1, P2.
  assert (L0 : (0 < length oct1)%nat) by (destruct oct1; [congruence|cbn; lia]). split; [exact P1|]. split.
  - intros k K. rewrite (P2 k K), (P2 (k mod length oct1)) by (pose proof (Nat.mod_upper_bound k (length oct1) ltac:(lia)); lia). rewrite Nat.mod_mod by lia. reflexivity.
  - intros i a Ei. assert (Li : (i < length oct1)%nat) by (apply nth_error_Some; congruence). destruct (Forall2_nth _ _ _ _ _ F Ei) as (N & EN & C & N1 & N2).
    pose proof (zip_nth (laid d) oct1 cs i a N Ei EN) as Z. fold l1 in Z. destruct (nth_error new i) as [b|] eqn:Eb; [|apply nth_error_None in Eb; lia].
    exists N, b. split; [rewrite P2 by lia; rewrite Nat.mod_small by lia; exact EN|]. split; [exact C|]. split; [exact N1|]. split; [exact N2|]. split; [reflexivity|]. split.
    + assert (Q : nth_error (map adir new) i = nth_error (map adir l1) i) by (rewrite M5; reflexivity). rewrite !nth_error_map, Eb, Z in Q. cbn [option_map laid adir] in Q. injection Q as ->. reflexivity.
    + rewrite Forall_forall in M6. apply M6. eapply nth_error_In; exact Eb.
Qed.
Print Assumptions C164_matched.

(** A domain of 4 by 4, rays 1 apart, one angle of 30 degrees: 2 and 4 rays, and a slope of a half instead. *)
Definition so_o : RayOpts := mkRayOpts 1 CorrFlat true ModTrig.
Definition so_d : CoreDims := mkDims 4 4 4 4 1 1.
Definition so_a : Angle := mkAngle (dir_angles (PI / 6) (PI / 2)) 1.
Definition so_q : Quad := mkQuad USER 1 (expand [so_a]) 1 1.
Definition so_b : Angle := mkAngle (dir_angles (atan (4 * 2 / (4 * 4))) (PI / 2)) 1.
Lemma so_counts : angle_counts so_o so_d (PI / 6) = Got (2, 4)%Z.
Proof. unfold angle_counts. cbn [so_o so_d op_core op_method op_spacing cd_hx cd_hy]. destruct C163_instance as (-> & _). reflexivity. Qed.
Example C164_instance : (forall a, Reqb a a = true) /\ sensible so_o so_d /\ usable None None so_q [so_a] /\ exists q', lay_quad Reqb None None so_o so_d so_q = Got (repeat (2, 4)%Z 4, q') /\ q_angles q' = expand [so_b] /\ q_ndir q' = 1%nat.
Proof.
  split; [intros a; destruct (Reqb_spec a a); auto|]. split; [unfold sensible, so_o, so_d; cbn; repeat split; try lra; discriminate|]. pose proof PI_RGT_0. split.
  { unfold usable, so_q. cbn [q_angles q_ndir q_type]. split; [reflexivity|]. split; [reflexivity|]. split; [discriminate|]. split; [|split; [unfold wsum; cbn; lra|auto]]. constructor; [|constructor]. unfold sound_angle, so_a. cbn [adir weight dir_angles AngModel.alpha theta]. rewrite sin_PI2. repeat split; lra. }
  unfold lay_quad, so_q. cbn [q_ndir q_angles q_type q_npol q_nazi seq lay_angles]. change (nth_error (expand [so_a]) 0) with (Some so_a). cbn [so_a adir dir_angles AngModel.alpha]. rewrite so_counts. cbn [bind fst snd Z.ltb Z.compare Pos.compare Pos.compare_cont orb theta weight].
  change (mkAngle (mkDir (sin (PI / 2) * cos (PI / 6)) (sin (PI / 2) * sin (PI / 6)) (cos (PI / 2)) (PI / 6) (PI / 2) (1 / sin (PI / 2))) 1) with so_a.
  replace (modify_angle 1 0 (mkAngle (dir_angles (mod_alpha (cd_hx so_d) (cd_hy so_d) 2 4) (PI / 2)) 1) (expand [so_a])) with (Some (expand [so_b])) by (symmetry; apply (modify_angle_ok [so_a] [so_b] 0 _); reflexivity).
  cbn [bind fst snd]. eexists. split; [reflexivity|]. cbn [q_angles q_ndir]. auto.
Qed.
