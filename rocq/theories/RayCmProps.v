(** Property theorem for the coarse mesh data of a ray: C111. *)
From Coq Require Import Reals ZArith List Bool Lia Lra Psatz.
From Verif Require Import RUtil ListUtil McModel McProofs GeomModel GeomProofs TallyProofs MeshModel MeshSpec MeshProofs CoreModel CoreProofs LatProps EquivProps LocProps PmModel PmProps PmTraceProps PmCylTrace PmCylChord RayTrModel RayTrProps MocModel MocProofs CurModel CurProofs CurProps RayCmModel.
Import ListNotations.
Local Open Scope Z_scope.

(** ** Specification *)
(** Directions: [u] = the coordinate grows along the ray. *)
Definition sx (u : bool) : Surface := if u then EAST else WEST.
Definition sy (u : bool) : Surface := if u then NORTH else SOUTH.
Definition oct_of (ux uy : bool) : Oct := match ux, uy with true, true => O1 | false, true => O2 | false, false => O3 | true, false => O4 end.
(** Along one coordinate the stretch from [v] to [w] lies between lines [i] and [i + 1], in the direction [u]. *)
Definition between (vs : list R) (u : bool) (i : nat) (v w : R) : Prop :=
  exists a b, nth_error vs i = Some a /\ nth_error vs (S i) = Some b /\ (if u then a <= v /\ v < w /\ w <= b else a <= w /\ w < v /\ v <= b)%R.
(** [w] is on the line through which a stretch leaves cell [i]; [v] on the one through which it enters. *)
Definition leaving (vs : list R) (u : bool) (i : nat) (w : R) : Prop := nth_error vs (if u then S i else i) = Some w.
Definition entering (vs : list R) (u : bool) (i : nat) (v : R) : Prop := nth_error vs (if u then i else S i) = Some v.
(** The piece from [p] to [q] crosses the cell [g] from side to side. *)
Definition crosses (xs ys : list R) (ux uy : bool) (g : nat * nat) (p q : Point2) : Prop :=
  between xs ux (fst g) (ptx p) (ptx q) /\ between ys uy (snd g) (pty p) (pty q) /\
  (entering xs ux (fst g) (ptx p) \/ entering ys uy (snd g) (pty p)) /\ (leaving xs ux (fst g) (ptx q) \/ leaving ys uy (snd g) (pty q)).
(** The pieces between the cuts cross the cells [gs] in turn. *)
Fixpoint travels (xs ys : list R) (ux uy : bool) (cuts : list Point2) (gs : list (nat * nat)) : Prop :=
  match cuts, gs with
  | [_], [] => True
  | p :: (q :: _) as r, g :: gs' => crosses xs ys ux uy g p q /\ travels xs ys ux uy r gs'
  | _, _ => False
  end.
(** The lines are told apart from the value: it is on a line or clear of it. *)
Definition sharp (vs : list R) (v : R) : Prop := forall e, In e vs -> e = v \/ (tol v < Rabs (v - e))%R.
Definition pos (k : Z) (g : nat * nat) : Position := {| px := Z.of_nat (fst g); py := Z.of_nat (snd g); pz := k |}.
(** What a direction must tally: every cell in turn, with the indices of the segments in it. *)
Fixpoint stays (k dir i : Z) (ns : list Z) (gs : list (nat * nat)) : list (Position * Z * Z) :=
  match ns, gs with n :: ns', g :: gs' => (pos k g, i, i + dir * n) :: stays k dir (i + dir * n) ns' gs' | _, _ => [] end.
Definition proper (v : Position * Z * Z) : bool := negb (snd (fst v) =? snd v).

(** ** Proofs *)
Lemma increasing_lt : forall vs i j a b, CoreProofs.increasing vs -> (i < j)%nat -> nth_error vs i = Some a -> nth_error vs j = Some b -> (a < b)%R.
Proof. intros vs i j a b I L A B. exact (I i j a b L A B). Qed.
Lemma increasing_tl : forall e vs, CoreProofs.increasing (e :: vs) -> CoreProofs.increasing vs.
Proof. intros e vs I i j a b L A B. apply (I (S i) (S j) a b); [lia|exact A|exact B]. Qed.
Section Index.
Variables (eqv : R -> R -> bool).
Hypothesis E1 : forall a, eqv a a = true.
Hypothesis E2 : forall v e, eqv v e = true -> (Rabs (v - e) <= tol v)%R.
Lemma sharp_eqv : forall vs v e, sharp vs v -> In e vs -> eqv v e = true -> e = v.
Proof. intros vs v e S I H. destruct (S e I) as [Q|Q]; [exact Q|]. apply E2 in H. lra. Qed.
Lemma line_index_on : forall vs v k i, CoreProofs.increasing vs -> sharp vs v -> nth_error vs k = Some v -> line_index eqv v vs i = (i + Z.of_nat k, true).
Proof.
  induction vs as [|e vs IH]; intros v k i I S K; [destruct k; discriminate|]. cbn [line_index]. destruct k as [|k].
  - injection K as ->. rewrite E1. f_equal. lia.
  - cbn [nth_error] in K. assert (L : (e < v)%R) by (apply (increasing_lt (e :: vs) 0 (Datatypes.S k) e v I); [lia|reflexivity|exact K]).
    destruct (eqv v e) eqn:Q; [apply (sharp_eqv (e :: vs)) in Q; [lra|exact S|now left]|]. rewrite Rltb_false by lra.
    rewrite (IH v k (i + 1)); [f_equal; lia|exact (increasing_tl _ _ I)|intros x Ix; apply S; now right|exact K].
Qed.
Lemma line_index_in : forall vs v k i a b, CoreProofs.increasing vs -> sharp vs v -> nth_error vs k = Some a -> nth_error vs (S k) = Some b -> (a < v < b)%R -> line_index eqv v vs i = (i + Z.of_nat k, false).
Proof.
  induction vs as [|e vs IH]; intros v k i a b I S Ka Kb H; [destruct k; discriminate|]. cbn [line_index].
  assert (Le : (e <= a)%R) by (apply (increasing_le (e :: vs) 0 k e a I); [lia|reflexivity|exact Ka]).
  destruct (eqv v e) eqn:Q; [apply (sharp_eqv (e :: vs)) in Q; [lra|exact S|now left]|]. rewrite Rltb_false by lra.
  destruct k as [|k].
  - cbn [nth_error] in Kb. destruct vs as [|e' vs]; [discriminate|]. injection Kb as ->. cbn [line_index]. destruct (eqv v b) eqn:Q'; [apply (sharp_eqv (e :: b :: vs)) in Q'; [lra|exact S|right; now left]|].
    destruct (Rltb_spec v b); [|lra]. f_equal. lia.
  - cbn [nth_error] in Ka, Kb. rewrite (IH v k (i + 1) a b); [f_equal; lia|exact (increasing_tl _ _ I)|intros x Ix; apply S; now right|exact Ka|exact Kb|exact H].
Qed.
Lemma uniq_nth : forall vs i j v, CoreProofs.increasing vs -> nth_error vs i = Some v -> nth_error vs j = Some v -> i = j.
Proof.
  intros vs i j v I A B. destruct (Nat.lt_trichotomy i j) as [L|[L|L]]; [|exact L|].
  - pose proof (increasing_lt vs i j v v I L A B). lra.
  - pose proof (increasing_lt vs j i v v I L B A). lra.
Qed.
(** Where the end of a stretch is found. *)
Lemma exit_index : forall vs u i v w, CoreProofs.increasing vs -> sharp vs w -> between vs u i v w ->
  exists e : bool, (e = true <-> leaving vs u i w) /\ line_index eqv w vs 0 = (if e then (if u then Z.of_nat i + 1 else Z.of_nat i) else Z.of_nat i, e).
Proof.
  intros vs u i v w I S (a & b & A & B & H). destruct u; unfold leaving.
  - destruct (Req_EM_T w b) as [->|N].
    + exists true. split; [split; auto|]. rewrite (line_index_on vs b (Datatypes.S i) 0 I S B). f_equal. lia.
    + exists false. split; [split; [discriminate|intros Q; rewrite B in Q; injection Q as Q; lra]|]. rewrite (line_index_in vs w i 0 a b I S A B) by lra. f_equal.
  - destruct (Req_EM_T w a) as [->|N].
    + exists true. split; [split; auto|]. rewrite (line_index_on vs a i 0 I S A). f_equal.
    + exists false. split; [split; [discriminate|intros Q; rewrite A in Q; injection Q as Q; lra]|]. rewrite (line_index_in vs w i 0 a b I S A B) by lra. f_equal.
Qed.
Lemma between_rev : forall vs u i v w, between vs u i v w -> between vs (negb u) i w v.
Proof. intros vs u i v w (a & b & A & B & H). exists a, b. split; [exact A|]. split; [exact B|]. destruct u; cbn in *; lra. Qed.
Lemma entry_index : forall vs u i v w, CoreProofs.increasing vs -> sharp vs v -> between vs u i v w ->
  exists e : bool, (e = true <-> entering vs u i v) /\ line_index eqv v vs 0 = (if e then (if u then Z.of_nat i else Z.of_nat i + 1) else Z.of_nat i, e).
Proof.
  intros vs u i v w I S B. destruct (exit_index vs (negb u) i w v I S (between_rev _ _ _ _ _ B)) as (e & E & L). exists e. destruct u; cbn [negb] in *; auto.
Qed.
(** The next stretch is in the cell the last one left for. *)
Lemma next_index : forall vs u i i' v w z (e : bool), CoreProofs.increasing vs -> between vs u i v w -> between vs u i' w z -> (e = true <-> leaving vs u i w) ->
  Z.of_nat i' = if e then (if u then Z.of_nat i + 1 else Z.of_nat i - 1) else Z.of_nat i.
Proof.
  clear E1 E2 eqv. intros vs u i i' v w z e I (a & b & A & B & H) (a' & b' & A' & B' & H') E.
  assert (LT : forall k l p q, nth_error vs k = Some p -> nth_error vs l = Some q -> (p < q)%R -> (k < l)%nat).
  { intros k l p q K L Q. destruct (Nat.lt_ge_cases k l) as [G|G]; [exact G|]. pose proof (increasing_le vs l k q p I G L K). lra. }
  unfold leaving in E. destruct u.
  - destruct e.
    + assert (Q : nth_error vs (Datatypes.S i) = Some w) by (apply E; reflexivity). assert (w = b) by congruence. subst w.
      assert ((Datatypes.S i < Datatypes.S i')%nat) by (apply (LT _ _ b b'); auto; lra). assert ((i' <= Datatypes.S i)%nat) by (destruct (Nat.le_gt_cases i' (Datatypes.S i)) as [G|G]; [exact G|pose proof (increasing_lt vs _ _ b a' I G B A'); lra]). lia.
    + assert (N : w <> b) by (intros ->; assert (false = true) by (apply E, B); discriminate).
      assert ((i < Datatypes.S i')%nat) by (apply (LT _ _ a b'); auto; lra). assert ((i' < Datatypes.S i)%nat) by (apply (LT _ _ a' b); auto; lra). lia.
  - destruct e.
    + assert (Q : nth_error vs i = Some w) by (apply E; reflexivity). assert (w = a) by congruence. subst w.
      assert ((i' < i)%nat) by (apply (LT _ _ a' a); auto; lra). assert ((i <= Datatypes.S i')%nat) by (destruct (Nat.le_gt_cases i (Datatypes.S i')) as [G|G]; [exact G|pose proof (increasing_lt vs _ _ b' a I G B' A); lra]). lia.
    + assert (N : w <> a) by (intros ->; assert (false = true) by (apply E, A); discriminate).
      assert ((i < Datatypes.S i')%nat) by (apply (LT _ _ a b'); auto; lra). assert ((i' < Datatypes.S i)%nat) by (apply (LT _ _ a' b); auto; lra). lia.
Qed.
End Index.

(** The surfaces crossed at the end of a piece. *)
Lemma norm_exit : forall nx ny i j (ux uy ex ey : bool), 0 <= i < nx -> 0 <= j < ny -> ex = true \/ ey = true ->
  (ex = true -> ey = true -> ~ ((if ux then i = nx - 1 else i = 0) /\ (if uy then j = ny - 1 else j = 0))) ->
  norm_of nx ny (if ex then (if ux then i + 1 else i) else i, ex) (if ey then (if uy then j + 1 else j) else j, ey) (oct_of ux uy) =
  match ex, ey with
  | true, false => [sx ux]
  | false, true => [sy uy]
  | _, _ => if (if ux then i =? nx - 1 else i =? 0) then [sy uy; sx ux] else [sx ux; sy uy]
  end.
Proof.
  intros nx ny i j ux uy ex ey Hi Hj H N. unfold norm_of. destruct ex, ey; [|destruct ux, uy|destruct ux, uy|destruct H; discriminate].
  - specialize (N eq_refl eq_refl). destruct ux, uy; cbn [oct_of negb andb xorb]; repeat match goal with |- context[?a =? ?b] => destruct (Z.eqb_spec a b) | |- context[?a <? ?b] => destruct (Z.ltb_spec a b) end; cbn [andb]; try reflexivity; exfalso; try lia; apply N; lia.
  - cbn [oct_of negb andb xorb]. repeat match goal with |- context[?a =? ?b] => destruct (Z.eqb_spec a b) end; cbn [andb]; try reflexivity; lia.
  - cbn [oct_of negb andb xorb]. repeat match goal with |- context[?a =? ?b] => destruct (Z.eqb_spec a b) end; cbn [andb]; try reflexivity; lia.
  - cbn [oct_of negb andb xorb]. repeat match goal with |- context[?a =? ?b] => destruct (Z.eqb_spec a b) end; cbn [andb]; try reflexivity; lia.
  - cbn [oct_of negb andb xorb]. repeat match goal with |- context[?a =? ?b] => destruct (Z.eqb_spec a b) end; cbn [andb]; try reflexivity; lia.
  - cbn [oct_of negb andb xorb]. repeat match goal with |- context[?a =? ?b] => destruct (Z.eqb_spec a b) end; cbn [andb]; try reflexivity; lia.
  - cbn [oct_of negb andb xorb]. repeat match goal with |- context[?a =? ?b] => destruct (Z.eqb_spec a b) end; cbn [andb]; try reflexivity; lia.
  - cbn [oct_of negb andb xorb]. repeat match goal with |- context[?a =? ?b] => destruct (Z.eqb_spec a b) end; cbn [andb]; try reflexivity; lia.
  - cbn [oct_of negb andb xorb]. repeat match goal with |- context[?a =? ?b] => destruct (Z.eqb_spec a b) end; cbn [andb]; try reflexivity; lia.
Qed.
(** The surface through which a ray enters the mesh. *)
Lemma norm_entry : forall nx ny i j (ux uy ex ey : bool), 0 <= i < nx -> 0 <= j < ny ->
  (ex = true /\ (if ux then i = 0 else i = nx - 1)) \/ (ey = true /\ (if uy then j = 0 else j = ny - 1)) ->
  norm_of nx ny (if ex then (if ux then i else i + 1) else i, ex) (if ey then (if uy then j else j + 1) else j, ey) (oct_of ux uy) =
  [if ex && (if ux then i =? 0 else i =? nx - 1) then sx (negb ux) else sy (negb uy)].
Proof.
  intros nx ny i j ux uy ex ey Hi Hj H. unfold norm_of.
  destruct ex, ey, ux, uy; cbn [oct_of negb andb xorb sx sy] in *; repeat match goal with |- context[?a =? ?b] => destruct (Z.eqb_spec a b) | |- context[?a <? ?b] => destruct (Z.ltb_spec a b) end; cbn [andb negb]; try reflexivity; exfalso; destruct H as [[? ?]|[? ?]]; (discriminate || lia).
Qed.

(** The value is on the last line in the direction. *)
Definition far (vs : list R) (u : bool) (v : R) : Prop := nth_error vs (if u then length vs - 1 else 0)%nat = Some v.
(** A border point of the mesh, other than a corner, towards the direction. *)
Definition rim (xs ys : list R) (ux uy : bool) (q : Point2) : Prop := (far xs ux (ptx q) /\ ~ far ys uy (pty q)) \/ (~ far xs ux (ptx q) /\ far ys uy (pty q)).
Definition nxt (u e : bool) (i : Z) : Z := if e then (if u then i + 1 else i - 1) else i.

Lemma last_d : forall {A} (l : list A) x d d', last (x :: l) d = last (x :: l) d'.
Proof. induction l as [|y l IH]; intros x d d'; [reflexivity|]. change (last (y :: l) d = last (y :: l) d'). apply IH. Qed.
Lemma last_cons : forall {A} (l : list A) x d, last (x :: l) d = last l x.
Proof. induction l as [|y l IH]; intros x d; [reflexivity|]. change (last (y :: l) d = last (y :: l) x). apply last_d. Qed.
Section Way.
Variables (eqv : R -> R -> bool) (m : Mesh) (xs ys : list R) (k : Z).
Hypothesis E1 : forall a, eqv a a = true.
Hypothesis E2 : forall v e, eqv v e = true -> (Rabs (v - e) <= tol v)%R.
Hypothesis IX : CoreProofs.increasing xs.
Hypothesis IY : CoreProofs.increasing ys.
Hypothesis LX : Z.of_nat (length xs) = nx m + 1.
Hypothesis LY : Z.of_nat (length ys) = ny m + 1.
Hypothesis X0 : nth_error xs 0 = Some 0%R.
Hypothesis Y0 : nth_error ys 0 = Some 0%R.
Hypothesis M : mesh_ok m.
Hypothesis K : 0 <= k < nz m.

Lemma between_range : forall vs u i v w n, Z.of_nat (length vs) = n + 1 -> between vs u i v w -> 0 <= Z.of_nat i < n.
Proof. intros vs u i v w n L (a & b & _ & B & _). assert (H : (S i < length vs)%nat) by (apply nth_error_Some; congruence). lia. Qed.
Lemma crosses_in : forall ux uy g p q, crosses xs ys ux uy g p q -> in_mesh m (pos k g).
Proof. intros ux uy g p q (Bx & By & _). unfold in_mesh, pos. cbn [px py pz]. pose proof (between_range _ _ _ _ _ _ LX Bx). pose proof (between_range _ _ _ _ _ _ LY By). lia. Qed.

Section Dir.
Variables (ux uy : bool) (wx wy W : R) (nseg dir : Z).
Hypothesis FX : flow wx wy (sx ux) = W.
Hypothesis FY : flow wx wy (sy uy) = W.
Hypothesis D : dir = 1 \/ dir = -1.
Let o := oct_of ux uy.
Let norm (q : Point2) := norm_point eqv m xs ys q o.

Lemma step : forall g p q, crosses xs ys ux uy g p q -> sharp xs (ptx q) -> sharp ys (pty q) -> ~ (far xs ux (ptx q) /\ far ys uy (pty q)) ->
  exists ex ey : bool, (ex = true <-> leaving xs ux (fst g) (ptx q)) /\ (ey = true <-> leaving ys uy (snd g) (pty q)) /\
  snd (line_index eqv (ptx q) xs 0) = ex /\ snd (line_index eqv (pty q) ys 0) = ey /\ (length (norm q) = if ex && ey then 2 else 1)%nat /\
  forall n rest i, 1 <= n -> 0 <= i + dir * n <= nseg -> let q' := {| px := nxt ux ex (Z.of_nat (fst g)); py := nxt uy ey (Z.of_nat (snd g)); pz := k |} in
  (path_ok m wx wy W nseg dir rest q' (i + dir * n) -> path_ok m wx wy W nseg dir (expected [(n, norm q)] ++ rest) (pos k g) i) /\
  filter proper (visits dir (expected [(n, norm q)] ++ rest) (pos k g) i) = (pos k g, i, i + dir * n) :: filter proper (visits dir rest q' (i + dir * n)).
Proof.
  intros g p q C Sx' Sy' N. pose proof (crosses_in ux uy g p q C) as Ig. destruct C as (Bx & By & _ & Lv).
  destruct (exit_index eqv E1 E2 xs ux (fst g) (ptx p) (ptx q) IX Sx' Bx) as (ex & Hx & Ex). destruct (exit_index eqv E1 E2 ys uy (snd g) (pty p) (pty q) IY Sy' By) as (ey & Hy & Ey).
  exists ex, ey. split; [exact Hx|]. split; [exact Hy|]. rewrite Ex, Ey. split; [reflexivity|]. split; [reflexivity|].
  pose proof (between_range _ _ _ _ _ _ LX Bx) as Rx. pose proof (between_range _ _ _ _ _ _ LY By) as Ry.
  assert (NC : ex = true -> ey = true -> ~ ((if ux then Z.of_nat (fst g) = nx m - 1 else Z.of_nat (fst g) = 0) /\ (if uy then Z.of_nat (snd g) = ny m - 1 else Z.of_nat (snd g) = 0))).
  { intros Tx Ty [Q1 Q2]. apply N. apply Hx in Tx. apply Hy in Ty. unfold leaving in Tx, Ty. unfold far. split.
    - destruct ux; [replace (length xs - 1)%nat with (Datatypes.S (fst g)) by lia; exact Tx|replace 0%nat with (fst g) by lia; exact Tx].
    - destruct uy; [replace (length ys - 1)%nat with (Datatypes.S (snd g)) by lia; exact Ty|replace 0%nat with (snd g) by lia; exact Ty]. }
  assert (En := norm_exit (nx m) (ny m) (Z.of_nat (fst g)) (Z.of_nat (snd g)) ux uy ex ey Rx Ry ltac:(destruct Lv as [Q|Q]; [left; now apply Hx|right; now apply Hy]) NC).
  unfold norm, norm_point. rewrite Ex, Ey. fold o in En. rewrite En.
  assert (PX : in_plane (sx ux)) by (destruct ux; exact I). assert (PY : in_plane (sy uy)) by (destruct uy; exact I).
  assert (MX : forall a b, move {| px := a; py := b; pz := k |} (sx ux) = {| px := nxt ux true a; py := b; pz := k |}) by (intros a b; destruct ux; reflexivity).
  assert (MY : forall a b, move {| px := a; py := b; pz := k |} (sy uy) = {| px := a; py := nxt uy true b; pz := k |}) by (intros a b; destruct uy; reflexivity).
  assert (PR : forall n i (r : list (Position * Z * Z)), 1 <= n -> filter proper ((pos k g, i, i + dir * n) :: r) = (pos k g, i, i + dir * n) :: filter proper r).
  { intros n i r Hn. cbn [filter]. unfold proper at 1. cbn [fst snd]. destruct (Z.eqb_spec i (i + dir * n)); [exfalso; destruct D; subst dir; lia|reflexivity]. }
  assert (PR0 : forall z i (r : list (Position * Z * Z)), filter proper ((z, i, i + dir * 0) :: r) = filter proper r).
  { intros z i r. cbn [filter]. unfold proper at 1. cbn [fst snd]. rewrite Z.mul_0_r, Z.add_0_r, Z.eqb_refl. reflexivity. }
  destruct ex, ey; [|split; [reflexivity|]|split; [reflexivity|]|exfalso; destruct Lv as [Q|Q]; [apply Hx in Q|apply Hy in Q]; discriminate].
  - specialize (NC eq_refl eq_refl). set (c := if ux then Z.of_nat (fst g) =? nx m - 1 else Z.of_nat (fst g) =? 0).
    assert (Hc : c = true <-> if ux then Z.of_nat (fst g) = nx m - 1 else Z.of_nat (fst g) = 0) by (unfold c; destruct ux; apply Z.eqb_eq).
    split; [destruct c; reflexivity|]. intros n rest i Hn Hi. cbn zeta. unfold in_mesh, pos in Ig. cbn [px py pz] in Ig. split.
    + intros Po. destruct c; cbn [expected flat_map fst snd map app path_ok]; fold (pos k g); (split; [unfold in_mesh, pos; cbn [px py pz]; lia|]); (split; [assumption|]); (split; [assumption|]); (split; [exact Hi|]); unfold pos; rewrite ?MX, ?MY, ?MX, ?MY, Z.mul_0_r, Z.add_0_r; (split; [|split; [assumption|split; [assumption|split; [exact Hi|exact Po]]]]); unfold in_mesh; cbn [px py pz]; unfold nxt.
      * assert (if ux then Z.of_nat (fst g) = nx m - 1 else Z.of_nat (fst g) = 0) as Q by (apply Hc; reflexivity). destruct uy; split; [lia| |lia|]; split; try lia; destruct (Z.eq_dec (Z.of_nat (snd g)) (ny m - 1)), (Z.eq_dec (Z.of_nat (snd g)) 0); try lia; exfalso; apply NC; auto.
      * assert (~ if ux then Z.of_nat (fst g) = nx m - 1 else Z.of_nat (fst g) = 0) as Q by (intros Q; apply Hc in Q; discriminate). destruct ux; lia.
    + destruct c; cbn [expected flat_map fst snd map app visits]; rewrite PR by exact Hn; rewrite PR0; unfold pos; rewrite ?MX, ?MY, ?MX, ?MY, Z.mul_0_r, Z.add_0_r; reflexivity.
  - intros n rest i Hn Hi. cbn zeta. split; [intros Po|]; cbn [expected flat_map fst snd map app path_ok visits].
    + split; [exact Ig|]. split; [exact PX|]. split; [exact FX|]. split; [exact Hi|]. unfold pos. rewrite MX. exact Po.
    + rewrite PR by exact Hn. unfold pos. rewrite MX. reflexivity.
  - intros n rest i Hn Hi. cbn zeta. split; [intros Po|]; cbn [expected flat_map fst snd map app path_ok visits].
    + split; [exact Ig|]. split; [exact PY|]. split; [exact FY|]. split; [exact Hi|]. unfold pos. rewrite MY. exact Po.
    + rewrite PR by exact Hn. unfold pos. rewrite MY. reflexivity.
Qed.

Definition both (q : Point2) : nat := if snd (line_index eqv (ptx q) xs 0) && snd (line_index eqv (pty q) ys 0) then 1 else 0.
(** All the crossings of one direction. *)
Lemma way : forall gs g p cuts ns n i, travels xs ys ux uy (p :: cuts) (g :: gs) -> length ns = length gs -> Forall (fun n => 1 <= n) (n :: ns) ->
  (forall q, In q cuts -> sharp xs (ptx q) /\ sharp ys (pty q)) -> rim xs ys ux uy (last cuts p) ->
  (0 <= i + dir * zsum (n :: ns) <= nseg) -> 0 <= i <= nseg ->
  path_ok m wx wy W nseg dir (expected (combine (n :: ns) (map norm cuts))) (pos k g) i /\
  filter proper (visits dir (expected (combine (n :: ns) (map norm cuts))) (pos k g) i) = stays k dir i (n :: ns) (g :: gs) /\
  one_or_two (combine (n :: ns) (map norm cuts)) /\ Forall (fun q => length (norm q) = 1 + both q)%nat cuts.
Proof.
  induction gs as [|g' gs IH]; intros g p cuts ns n i T Ln Fn Sh Rm Hi Hi0.
  - destruct ns; [|discriminate]. destruct cuts as [|q [|q' cuts]]; cbn [travels] in T; [destruct T| |destruct T as [_ []]]. destruct T as [C _]. cbn [last] in Rm. destruct (Sh q ltac:(now left)) as [S1 S2].
    destruct (step g p q C S1 S2 ltac:(destruct Rm; tauto)) as (ex & ey & Hx & Hy & Lx & Ly & Ll & St). cbn [zsum] in Hi. apply Forall_inv in Fn. destruct (St n [] i Fn ltac:(lia)) as [St1 St2].
    cbn [map combine]. rewrite app_nil_r in St1, St2. rewrite St2. split; [apply St1|split; [reflexivity|split]].
    + cbn [path_ok]. intros (Qx & Qy & _). cbn [px py] in Qx, Qy. destruct C as (Bx & By & _). pose proof (between_range _ _ _ _ _ _ LX Bx) as Rx. pose proof (between_range _ _ _ _ _ _ LY By) as Ry.
      destruct Rm as [[Rm _]|[_ Rm]].
      * assert (Lv : leaving xs ux (fst g) (ptx q) /\ (if ux then Z.of_nat (fst g) = nx m - 1 else Z.of_nat (fst g) = 0)).
        { unfold far in Rm. unfold leaving. destruct Bx as (a & b & A & B & Hb). destruct ux.
          - pose proof (increasing_le xs (Datatypes.S (fst g)) (length xs - 1) b (ptx q) IX ltac:(lia) B Rm). assert (Q : ptx q = b) by lra. rewrite <- Q in B. split; [exact B|]. pose proof (uniq_nth xs _ _ _ IX B Rm). lia.
          - pose proof (increasing_le xs 0 (fst g) (ptx q) a IX ltac:(lia) Rm A). assert (Q : ptx q = a) by lra. rewrite <- Q in A. split; [exact A|]. pose proof (uniq_nth xs _ _ _ IX A Rm). lia. }
        destruct Lv as [Lv Q]. apply Hx in Lv. subst ex. rewrite Lv in Qx. unfold nxt in Qx. destruct ux; lia.
      * assert (Lv : leaving ys uy (snd g) (pty q) /\ (if uy then Z.of_nat (snd g) = ny m - 1 else Z.of_nat (snd g) = 0)).
        { unfold far in Rm. unfold leaving. destruct By as (a & b & A & B & Hb). destruct uy.
          - pose proof (increasing_le ys (Datatypes.S (snd g)) (length ys - 1) b (pty q) IY ltac:(lia) B Rm). assert (Q : pty q = b) by lra. rewrite <- Q in B. split; [exact B|]. pose proof (uniq_nth ys _ _ _ IY B Rm). lia.
          - pose proof (increasing_le ys 0 (snd g) (pty q) a IY ltac:(lia) Rm A). assert (Q : pty q = a) by lra. rewrite <- Q in A. split; [exact A|]. pose proof (uniq_nth ys _ _ _ IY A Rm). lia. }
        destruct Lv as [Lv Q]. apply Hy in Lv. subst ey. rewrite Lv in Qy. unfold nxt in Qy. destruct uy; lia.
    + constructor; [|constructor]. cbn [snd]. rewrite Ll. destruct (ex && ey); auto.
    + constructor; [|constructor]. unfold both. rewrite Ll, Lx, Ly. destruct (ex && ey); reflexivity.
  - destruct ns as [|n' ns]; [discriminate|]. destruct cuts as [|q cuts]; cbn [travels] in T; [destruct T|]. destruct T as [C T]. destruct cuts as [|q' cuts]; [destruct T|].
    destruct (Sh q ltac:(now left)) as [S1 S2]. pose proof T as [C' _].
    assert (NF : ~ (far xs ux (ptx q) /\ far ys uy (pty q))).
    { intros [F1 _]. destruct C' as ((a & b & A & B & Hb) & _). unfold far in F1. destruct ux.
      - assert ((Datatypes.S (fst g') < length xs)%nat) by (apply nth_error_Some; congruence). pose proof (increasing_le xs (Datatypes.S (fst g')) (length xs - 1) b (ptx q) IX ltac:(lia) B F1). lra.
      - pose proof (increasing_le xs 0 (fst g') (ptx q) a IX ltac:(lia) F1 A). lra. }
    destruct (step g p q C S1 S2 NF) as (ex & ey & Hx & Hy & Lx & Ly & Ll & St).
    assert (Hn : 1 <= n) by (now apply Forall_inv in Fn). apply Forall_inv_tail in Fn. cbn [zsum] in Hi.
    assert (Hz : 0 <= zsum ns). { clear -Fn. apply Forall_inv_tail in Fn. induction Fn; cbn [zsum]; lia. } assert (Hn' : 1 <= n') by (now apply Forall_inv in Fn).
    assert (Hi1 : 0 <= i + dir * n <= nseg) by (destruct D; subst dir; lia).
    destruct (IH g' q (q' :: cuts) ns n' (i + dir * n) T ltac:(cbn in Ln; lia) Fn ltac:(intros z Iz; apply Sh; now right)) as (P1 & P2 & P3 & P4).
    { rewrite (last_d cuts q' q p). exact Rm. }
    { cbn [zsum]. lia. } { exact Hi1. }
    assert (EQ : expected (combine (n :: n' :: ns) (map norm (q :: q' :: cuts))) = expected [(n, norm q)] ++ expected (combine (n' :: ns) (map norm (q' :: cuts)))) by (unfold expected; cbn [combine map flat_map]; rewrite app_nil_r; reflexivity).
    rewrite EQ. destruct (St n (expected (combine (n' :: ns) (map norm (q' :: cuts)))) i Hn Hi1) as [St1 St2]. cbn zeta in St1, St2.
    assert (Eg : {| px := nxt ux ex (Z.of_nat (fst g)); py := nxt uy ey (Z.of_nat (snd g)); pz := k |} = pos k g').
    { destruct C as (Bx & By & _). destruct C' as (Bx' & By' & _). unfold pos. rewrite (next_index xs ux (fst g) (fst g') (ptx p) (ptx q) (ptx q') ex IX Bx Bx' Hx), (next_index ys uy (snd g) (snd g') (pty p) (pty q) (pty q') ey IY By By' Hy). reflexivity. }
    rewrite Eg in St1, St2. split; [apply St1, P1|]. split; [rewrite St2, P2; reflexivity|]. split.
    + cbn [combine map]. constructor; [|exact P3]. cbn [snd]. rewrite Ll. destruct (ex && ey); auto.
    + constructor; [|exact P4]. unfold both. rewrite Ll, Lx, Ly. destruct (ex && ey); reflexivity.
Qed.

(** The first cell and the surface of entry. *)
Lemma entry : forall g p q, crosses xs ys ux uy g p q -> sharp xs (ptx p) -> sharp ys (pty p) -> rim xs ys (negb ux) (negb uy) p ->
  boundary_cell eqv m xs ys p o = BCell (coarse_cell m (pos 0 g)) /\ exists s surf, norm p = [s] /\ coarse_surf m (coarse_cell m (pos 0 g)) s = Some surf /\
  entry_ok m wx wy W (coarse_cell m (pos 0 g)) surf (pos 0 g) s.
Proof.
  intros g p q C Sx' Sy' Rm. destruct C as (Bx & By & _ & _).
  destruct (entry_index eqv E1 E2 xs ux (fst g) (ptx p) (ptx q) IX Sx' Bx) as (ex & Hx & Ex). destruct (entry_index eqv E1 E2 ys uy (snd g) (pty p) (pty q) IY Sy' By) as (ey & Hy & Ey).
  pose proof (between_range _ _ _ _ _ _ LX Bx) as Rx. pose proof (between_range _ _ _ _ _ _ LY By) as Ry.
  assert (TE : forall vs u i v w, CoreProofs.increasing vs -> between vs u i v w -> far vs (negb u) v -> entering vs u i v /\ (if u then Z.of_nat i = 0 else Z.of_nat i = Z.of_nat (length vs) - 2)).
  { intros vs u i v w I B F. pose proof (between_rev _ _ _ _ _ B) as B'. destruct B as (a & b & A & Bb & Hb). unfold far in F. unfold entering. destruct u; cbn [negb] in F.
    - pose proof (increasing_le vs 0 i v a I ltac:(lia) F A). assert (Q : v = a) by lra. rewrite Q in F. split; [congruence|]. pose proof (uniq_nth vs _ _ _ I A F). lia.
    - assert ((S i < length vs)%nat) by (apply nth_error_Some; congruence). pose proof (increasing_le vs (S i) (length vs - 1) b v I ltac:(lia) Bb F). assert (Q : v = b) by lra. rewrite Q in F. split; [congruence|]. pose proof (uniq_nth vs _ _ _ I Bb F). lia. }
  assert (TX := TE xs ux (fst g) (ptx p) (ptx q) IX Bx). assert (TY := TE ys uy (snd g) (pty p) (pty q) IY By). rewrite LX in TX. rewrite LY in TY.
  assert (Z2 : forall vs v, sharp vs v -> nth_error vs 0 = Some 0%R -> fp_equiv_abs v 0 = true -> v = 0%R).
  { intros vs v S' V0 H. destruct (S' 0%R ltac:(eapply nth_error_In; exact V0)) as [Q|Q]; [auto|]. exfalso. unfold fp_equiv_abs in H. destruct (Rltb_spec (Rabs (v - 0)) REAL_FUZZ) as [L|]; [|discriminate]. pose proof FUZZ_pos. unfold tol in Q. pose proof (Rmax_l 1 (Rabs v)). nra. }
  assert (LS : forall vs (n : Z), Z.of_nat (length vs) = n + 1 -> 0 < n -> nth_error vs (length vs - 1) = Some (last vs 0%R)) by (intros vs n L H; apply last_nth; intros ->; cbn in L; lia).
  destruct M as (Mx & My & Mz). pose proof (LS xs (nx m) LX Mx) as LSx. pose proof (LS ys (ny m) LY My) as LSy.
  (* which border the point is on, as the code finds out *)
  assert (Q1 : fp_equiv_abs (ptx p) 0 = true -> ux = true).
  { intros H. apply (Z2 xs) in H; auto. destruct Bx as (a & b & A & B & Hb). destruct ux; [reflexivity|]. exfalso. pose proof (increasing_le xs 0 (fst g) 0 a IX ltac:(lia) X0 A). lra. }
  assert (Q2 : eqv (ptx p) (last xs 0%R) = true -> ux = false /\ Z.of_nat (fst g) = nx m - 1 /\ ex = true).
  { intros H. apply (sharp_eqv eqv E2 xs) in H; [|exact Sx'|eapply nth_error_In; exact LSx]. rewrite H in LSx. destruct ux.
    - exfalso. destruct Bx as (a & b & A & B & Hb). assert ((S (fst g) < length xs)%nat) by (apply nth_error_Some; congruence). pose proof (increasing_le xs (S (fst g)) (length xs - 1) b (ptx p) IX ltac:(lia) B LSx). lra.
    - destruct (TX LSx) as [T1 T2]. split; [reflexivity|]. split; [lia|]. now apply Hx. }
  assert (Q3 : fp_equiv_abs (pty p) 0 = true -> uy = true).
  { intros H. apply (Z2 ys) in H; auto. destruct By as (a & b & A & B & Hb). destruct uy; [reflexivity|]. exfalso. pose proof (increasing_le ys 0 (snd g) 0 a IY ltac:(lia) Y0 A). lra. }
  assert (Q4 : eqv (pty p) (last ys 0%R) = true -> uy = false /\ Z.of_nat (snd g) = ny m - 1 /\ ey = true).
  { intros H. apply (sharp_eqv eqv E2 ys) in H; [|exact Sy'|eapply nth_error_In; exact LSy]. rewrite H in LSy. destruct uy.
    - exfalso. destruct By as (a & b & A & B & Hb). assert ((S (snd g) < length ys)%nat) by (apply nth_error_Some; congruence). pose proof (increasing_le ys (S (snd g)) (length ys - 1) b (pty p) IY ltac:(lia) B LSy). lra.
    - destruct (TY LSy) as [T1 T2]. split; [reflexivity|]. split; [lia|]. now apply Hy. }
  assert (Q5 : fp_equiv_abs (ptx p) 0 = false -> eqv (ptx p) (last xs 0%R) = false -> fp_equiv_abs (pty p) 0 = false -> eqv (pty p) (last ys 0%R) = false -> False).
  { intros A1 A2 A3 A4. destruct Rm as [[Rm _]|[_ Rm]]; unfold far in Rm.
    - destruct ux; cbn [negb] in Rm; [rewrite X0 in Rm; injection Rm as Rm; rewrite <- Rm, fp_equiv_abs_refl in A1; discriminate|]. rewrite LSx in Rm. injection Rm as Rm. rewrite Rm, E1 in A2. discriminate.
    - destruct uy; cbn [negb] in Rm; [rewrite Y0 in Rm; injection Rm as Rm; rewrite <- Rm, fp_equiv_abs_refl in A3; discriminate|]. rewrite LSy in Rm. injection Rm as Rm. rewrite Rm, E1 in A4. discriminate. }
  assert (I0 : in_mesh m (pos 0 g)) by (unfold in_mesh, pos; cbn [px py pz]; lia). pose proof (coarse_cell_bounds m (pos 0 g) I0) as CB.
  assert (AT : (if (coarse_cell m (pos 0 g) <? 0) || (n_pin m <=? coarse_cell m (pos 0 g)) then BThrow else BCell (coarse_cell m (pos 0 g))) = BCell (coarse_cell m (pos 0 g))).
  { destruct (Z.ltb_spec (coarse_cell m (pos 0 g)) 0); [lia|]. destruct (Z.leb_spec (n_pin m) (coarse_cell m (pos 0 g))); [lia|reflexivity]. }
  assert (PE : forall a b, a = Z.of_nat (fst g) -> b = Z.of_nat (snd g) -> {| px := a; py := b; pz := 0 |} = pos 0 g) by (intros a b -> ->; reflexivity).
  split.
  - unfold boundary_cell. rewrite Ex, Ey.
    destruct (Z.ltb_spec (nx m) (if ex then if ux then Z.of_nat (fst g) else Z.of_nat (fst g) + 1 else Z.of_nat (fst g))); [destruct ex, ux; lia|].
    destruct (Z.ltb_spec (ny m) (if ey then if uy then Z.of_nat (snd g) else Z.of_nat (snd g) + 1 else Z.of_nat (snd g))); [destruct ey, uy; lia|]. cbn [orb].
    destruct (fp_equiv_abs (ptx p) 0).
    { specialize (Q1 eq_refl). unfold o. rewrite Q1. destruct uy; cbn [oct_of]; rewrite (PE (if ex then Z.of_nat (fst g) else Z.of_nat (fst g))) by (destruct ex, ey; lia); exact AT. }
    destruct (eqv (ptx p) (last xs 0%R)).
    { destruct (Q2 eq_refl) as (U & Gi & Te). unfold o. rewrite U, Te. destruct uy; cbn [oct_of]; rewrite (PE (Z.of_nat (fst g) + 1 - 1)) by (destruct ey; lia); exact AT. }
    destruct (fp_equiv_abs (pty p) 0).
    { specialize (Q3 eq_refl). unfold o. rewrite Q3. destruct ux; cbn [oct_of]; rewrite PE by (destruct ex, ey; lia); exact AT. }
    destruct (eqv (pty p) (last ys 0%R)).
    { destruct (Q4 eq_refl) as (U & Gi & Te). unfold o. rewrite U, Te. destruct ux; cbn [oct_of]; rewrite PE by (destruct ex; lia); exact AT. }
    exfalso. apply Q5; reflexivity.
  - assert (En := norm_entry (nx m) (ny m) (Z.of_nat (fst g)) (Z.of_nat (snd g)) ux uy ex ey Rx Ry).
    assert (Hen : (ex = true /\ (if ux then Z.of_nat (fst g) = 0 else Z.of_nat (fst g) = nx m - 1)) \/ (ey = true /\ (if uy then Z.of_nat (snd g) = 0 else Z.of_nat (snd g) = ny m - 1))).
    { destruct Rm as [[Rm _]|[_ Rm]]; [left; destruct (TX Rm) as [T1 T2]; split; [now apply Hx|destruct ux; lia]|right; destruct (TY Rm) as [T1 T2]; split; [now apply Hy|destruct uy; lia]]. }
    specialize (En Hen). unfold norm, norm_point. rewrite Ex, Ey. fold o in En. rewrite En.
    set (s := if ex && (if ux then Z.of_nat (fst g) =? 0 else Z.of_nat (fst g) =? nx m - 1) then sx (negb ux) else sy (negb uy)).
    assert (PS : in_plane s) by (unfold s; destruct (ex && _), ux, uy; exact I).
    exists s, (face_index m (face_of (pos 0 g) s)). split; [reflexivity|]. rewrite coarse_surf_correct by assumption. split; [reflexivity|]. split; [exact I0|]. split; [exact PS|].
    split; [|split; [|split; [reflexivity|split; [reflexivity|now rewrite coarse_surf_correct by assumption]]]].
    + unfold in_mesh, s, pos. destruct (ex && (if ux then Z.of_nat (fst g) =? 0 else Z.of_nat (fst g) =? nx m - 1)) eqn:Eb.
      * apply andb_true_iff in Eb. destruct Eb as [_ Eb]. destruct ux; apply Z.eqb_eq in Eb; cbn [negb sx move px py pz]; lia.
      * destruct Hen as [[-> Hen]|[_ Hen]]; [exfalso; destruct ux; cbn [andb] in Eb; apply Z.eqb_neq in Eb; lia|]. destruct uy; cbn [negb sy move px py pz]; lia.
    + unfold s. rewrite <- FX in *. destruct (ex && _); [destruct ux; cbn [negb sx flow]; lra|]. rewrite <- FY. destruct uy; cbn [negb sy flow]; lra.
Qed.
End Dir.
End Way.

(** Backwards, the ray travels through the same cells in reverse. *)
Lemma crosses_rev : forall xs ys ux uy g p q, crosses xs ys ux uy g p q -> crosses xs ys (negb ux) (negb uy) g q p.
Proof.
  intros xs ys ux uy g p q (Bx & By & En & Ex). split; [now apply between_rev|]. split; [now apply between_rev|]. unfold entering, leaving in *. split; destruct ux, uy; cbn [negb]; tauto.
Qed.
Lemma travels_snoc : forall xs ys ux uy gs p cuts g q, travels xs ys ux uy (p :: cuts) gs -> crosses xs ys ux uy g (last cuts p) q -> travels xs ys ux uy (p :: cuts ++ [q]) (gs ++ [g]).
Proof.
  intros xs ys ux uy. induction gs as [|h gs IH]; intros p cuts g q T C.
  - destruct cuts as [|c cuts]; [|destruct T]. cbn [app travels last] in *. auto.
  - destruct cuts as [|c cuts]; [destruct T|]. destruct T as [T1 T2]. cbn [app travels]. split; [exact T1|]. apply (IH c cuts g q T2). rewrite <- (last_cons cuts c p). exact C.
Qed.
Lemma travels_rev : forall xs ys ux uy gs cuts, travels xs ys ux uy cuts gs -> travels xs ys (negb ux) (negb uy) (rev cuts) (rev gs).
Proof.
  intros xs ys ux uy. induction gs as [|g gs IH]; intros cuts T.
  - destruct cuts as [|p [|q cuts]]; [destruct T|exact I|destruct T].
  - destruct cuts as [|p [|q cuts]]; [destruct T|destruct T|]. destruct T as [C T]. specialize (IH _ T). cbn [rev] in *. destruct (rev cuts ++ [q]) as [|r l] eqn:E; [destruct (rev cuts); discriminate|].
    change (((r :: l) ++ [p])) with (r :: (l ++ [p])). apply travels_snoc; [exact IH|]. assert (Q : last l r = q). { rewrite <- (last_cons l r r), <- E. apply last_last. } rewrite Q. now apply crosses_rev.
Qed.
Lemma travels_length : forall xs ys ux uy gs cuts, travels xs ys ux uy cuts gs -> length cuts = S (length gs).
Proof.
  intros xs ys ux uy. induction gs as [|g gs IH]; intros cuts T; [destruct cuts as [|p [|q cuts]]; [destruct T|reflexivity|destruct T]|]. destruct cuts as [|p [|q cuts]]; [destruct T|destruct T|]. destruct T as [_ T]. cbn [length]. f_equal. exact (IH _ T).
Qed.
Lemma expected_len : forall (f : Point2 -> list Surface) (h : Point2 -> nat) cuts (ns : list Z), length ns = length cuts -> Forall (fun q => length (f q) = 1 + h q)%nat cuts ->
  length (expected (combine ns (map f cuts))) = (length cuts + list_sum (map h cuts))%nat.
Proof.
  intros f h. induction cuts as [|q cuts IH]; intros [|n ns] L F; try discriminate; [reflexivity|]. inversion F as [|? ? Hq F']; subst. cbn [combine map]. unfold expected. cbn [flat_map]. fold (expected (combine ns (map f cuts))). rewrite app_length, IH by (cbn in L; (lia || assumption)).
  cbn [fst snd]. destruct (f q) as [|s r] eqn:E; [cbn in Hq; lia|]. cbn [length map] in *. rewrite map_length. cbn [list_sum fold_right]. fold (list_sum (map h cuts)). lia.
Qed.
Lemma zsum_rev : forall l, zsum (rev l) = zsum l.
Proof. induction l as [|a l IH]; [reflexivity|]. cbn [rev zsum]. rewrite zsum_app, IH. cbn [zsum]. lia. Qed.
Lemma zsum_fold : forall l, fold_right Z.add 0 l = zsum l.
Proof. induction l as [|a l IH]; [reflexivity|]. cbn [fold_right zsum]. now rewrite IH. Qed.

(** The coarse data of a ray whose pieces cross the cells [gs]. *)
Lemma data : forall eqv m xs ys k ux p1 p2 cuts gs ns wx wy W, (forall a, eqv a a = true) -> (forall v e, eqv v e = true -> (Rabs (v - e) <= tol v)%R) ->
  CoreProofs.increasing xs -> CoreProofs.increasing ys -> Z.of_nat (length xs) = nx m + 1 -> Z.of_nat (length ys) = ny m + 1 -> nth_error xs 0 = Some 0%R -> nth_error ys 0 = Some 0%R -> mesh_ok m -> 0 <= k < nz m ->
  travels xs ys ux true cuts gs -> gs <> [] -> length ns = length gs -> Forall (fun n => 1 <= n < 256) ns -> (forall q, In q cuts -> sharp xs (ptx q) /\ sharp ys (pty q)) ->
  hd p1 cuts = p1 -> last cuts p1 = p2 -> rim xs ys (negb ux) false p1 -> rim xs ys ux true p2 -> Rltb (ptx p1) (ptx p2) = ux ->
  flow wx wy (sx ux) = W -> flow wx wy NORTH = W ->
  exists ray qf qb sf sb, coarse_data eqv m xs ys p1 p2 cuts ns = Some ray /\ cr_nseg ray = zsum ns /\ noop_last (cr_recs ray) /\
  entry_ok m wx wy W (cr_cell_fw ray) (cr_surf_fw ray) qf sf /\ entry_ok m wx wy (- W) (cr_cell_bw ray) (cr_surf_bw ray) qb sb /\
  path_ok m wx wy W (zsum ns) 1 (fw_steps (cr_recs ray)) (lift k qf) 0 /\ path_ok m wx wy (- W) (zsum ns) (-1) (bw_steps (cr_recs ray)) (lift k qb) (zsum ns) /\
  filter proper (visits 1 (fw_steps (cr_recs ray)) (lift k qf) 0) = stays k 1 0 ns gs /\
  filter proper (visits (-1) (bw_steps (cr_recs ray)) (lift k qb) (zsum ns)) = stays k (-1) (zsum ns) (rev ns) (rev gs).
Proof.
  intros eqv m xs ys k ux p1 p2 cuts gs ns wx wy W E1 E2 IX IY LX LY X0 Y0 M K T NG Ln Fn Sh Hd La R1 R2 U FX FY.
  assert (Fn1 : Forall (fun n => 1 <= n) ns) by (revert Fn; apply Forall_impl; intros; lia).
  assert (Hz : 0 <= zsum ns) by (clear -Fn1; induction Fn1; cbn [zsum]; lia).
  assert (FW : exists g gs' p q r n ns', gs = g :: gs' /\ cuts = p :: q :: r /\ ns = n :: ns').
  { destruct gs as [|g gs']; [contradiction|]. destruct cuts as [|p [|q r]]; [destruct T|destruct T|]. destruct ns as [|n ns']; [discriminate|]. now exists g, gs', p, q, r, n, ns'. }
  pose proof (travels_rev _ _ _ _ _ _ T) as TR.
  assert (BW : exists g gs' p q r n ns', rev gs = g :: gs' /\ rev cuts = p :: q :: r /\ rev ns = n :: ns').
  { assert (length (rev gs) <> 0%nat) by (rewrite rev_length; destruct gs; [contradiction|discriminate]). assert (LR : length (rev ns) = length (rev gs)) by (rewrite !rev_length; exact Ln).
    destruct (rev gs) as [|g gs']; [cbn in H; lia|]. destruct (rev cuts) as [|p [|q r]]; [destruct TR|destruct TR|]. destruct (rev ns) as [|n ns']; [discriminate|]. now exists g, gs', p, q, r, n, ns'. }
  destruct FW as (g & gs' & p & q & r & n & ns' & Eg & Ec & En). destruct BW as (g2 & gs2 & p2' & q2 & r2 & n2 & ns2 & Eg2 & Ec2 & En2).
  assert (P1 : p = p1) by (rewrite Ec in Hd; exact Hd). assert (P2 : p2' = p2).
  { rewrite <- La. rewrite <- (rev_involutive cuts), Ec2. cbn [rev]. rewrite last_last. reflexivity. }
  subst p p2'.
  assert (Lq : last (q :: r) p1 = p2) by (rewrite Ec in La; exact La).
  assert (Lq2 : last (q2 :: r2) p2 = p1).
  { assert (Q : rev (rev cuts) = p1 :: q :: r) by (rewrite rev_involutive; exact Ec). rewrite Ec2 in Q. cbn [rev] in Q. destruct (exists_last (l := q2 :: r2) ltac:(discriminate)) as (l' & x & El). rewrite El, last_last. assert (Q' : rev (p2 :: q2 :: r2) = p1 :: q :: r) by exact Q. rewrite El in Q'. cbn [rev] in Q'. rewrite rev_app_distr in Q'. cbn [rev app] in Q'. now injection Q'. }
  assert (SF : forall z, In z (q :: r) -> sharp xs (ptx z) /\ sharp ys (pty z)) by (intros z Iz; apply Sh; rewrite Ec; now right).
  assert (SB : forall z, In z (q2 :: r2) -> sharp xs (ptx z) /\ sharp ys (pty z)) by (intros z Iz; apply Sh; apply in_rev; rewrite Ec2; now right).
  assert (FX' : flow wx wy (sx (negb ux)) = (- W)%R) by (rewrite <- FX; destruct ux; cbn [negb sx flow]; lra).
  assert (FY' : flow wx wy (sy false) = (- W)%R) by (rewrite <- FY; cbn [sy flow]; lra).
  pose proof T as T'. rewrite Eg, Ec in T'. pose proof T' as [C0 _]. rewrite Eg2, Ec2 in TR. pose proof TR as [C2 _]. cbn [negb] in *.
  destruct (Sh p1 ltac:(rewrite Ec; now left)) as [Sx1 Sy1]. destruct (Sh p2 ltac:(apply in_rev; rewrite Ec2; now left)) as [Sx2 Sy2].
  destruct (entry eqv m xs ys E1 E2 IX IY LX LY X0 Y0 M ux true wx wy W 1 FX FY g p1 q C0 Sx1 Sy1 R1) as (Bf & sf & kf & Nf & Cf & Ef). cbv beta in Nf.
  destruct (entry eqv m xs ys E1 E2 IX IY LX LY X0 Y0 M (negb ux) false wx wy (- W) 1 FX' FY' g2 p2 q2 C2 Sx2 Sy2) as (Bb & sb & kb & Nb & Cb & Eb); [rewrite negb_involutive; exact R2|]. cbv beta in Nb.
  assert (Zr : zsum (n2 :: ns2) = zsum ns) by (rewrite <- En2; apply zsum_rev). assert (Zf : zsum (n :: ns') = zsum ns) by now rewrite En.
  assert (Fr : Forall (fun n => 1 <= n) (n2 :: ns2)) by (rewrite <- En2; apply Forall_rev; exact Fn1).
  destruct (way eqv m xs ys k E1 E2 IX IY LX LY K ux true wx wy W (zsum ns) 1 FX FY ltac:(now left) gs' g p1 (q :: r) ns' n 0 T') as (A1 & A2 & A3 & A4);
    [rewrite En, Eg in Ln; cbn in Ln; lia|rewrite <- En; exact Fn1|exact SF|rewrite Lq; exact R2|lia|lia|].
  destruct (way eqv m xs ys k E1 E2 IX IY LX LY K (negb ux) false wx wy (- W) (zsum ns) (-1) FX' FY' ltac:(now right) gs2 g2 p2 (q2 :: r2) ns2 n2 (zsum ns) TR) as (B1 & B2 & B3 & B4);
    [apply (f_equal (@length _)) in En2; apply (f_equal (@length _)) in Eg2; rewrite rev_length in En2, Eg2; cbn in En2, Eg2; lia|exact Fr|exact SB|rewrite Lq2; exact R1|lia|lia|].
  unfold coarse_data. set (o := get_octant p1 p2). assert (Eo : o = oct_of ux true) by (unfold o, get_octant; rewrite U; destruct ux; reflexivity).
  assert (Eo' : (match o with O1 => O3 | _ => O4 end) = oct_of (negb ux) false) by (rewrite Eo; destruct ux; reflexivity). rewrite Eo', Eo.
  assert (WF : one_way eqv m xs ys cuts ns (oct_of ux true) = Some (coarse_cell m (pos 0 g), kf, combine (n :: ns') (map (fun z => norm_point eqv m xs ys z (oct_of ux true)) (q :: r)))) by (rewrite Ec, En; unfold one_way; rewrite Bf, Nf, Cf; reflexivity).
  assert (WB : one_way eqv m xs ys (rev cuts) (rev ns) (oct_of (negb ux) false) = Some (coarse_cell m (pos 0 g2), kb, combine (n2 :: ns2) (map (fun z => norm_point eqv m xs ys z (oct_of (negb ux) false)) (q2 :: r2)))) by (rewrite Ec2, En2; unfold one_way; rewrite Bb, Nb, Cb; reflexivity).
  rewrite WF, WB.
  set (nf := fun z => norm_point eqv m xs ys z (oct_of ux true)) in *. set (nb := fun z => norm_point eqv m xs ys z (oct_of (negb ux) false)) in *.
  assert (LC : length cuts = S (length gs)) by exact (travels_length _ _ _ _ _ _ T).
  assert (Lf : length (n :: ns') = length (q :: r)) by (rewrite <- En, Ln; rewrite Ec in LC; cbn in LC |- *; lia).
  assert (Lb : length (n2 :: ns2) = length (q2 :: r2)) by (rewrite <- En2, rev_length, Ln; apply (f_equal (@length _)) in Ec2; rewrite rev_length in Ec2; cbn in Ec2 |- *; lia).
  set (bo := both eqv xs ys) in *.
  pose proof (expected_len nf bo (q :: r) (n :: ns') Lf A4) as XF. pose proof (expected_len nb bo (q2 :: r2) (n2 :: ns2) Lb B4) as XB.
  assert (SUM : (bo p1 + list_sum (map bo (q :: r)) = bo p2 + list_sum (map bo (q2 :: r2)))%nat).
  { clearbody bo. assert (Y2 : forall x l, list_sum (map bo (x :: l)) = (bo x + list_sum (map bo l))%nat) by reflexivity.
    assert (Y : forall l, list_sum (map bo (rev l)) = list_sum (map bo l)) by (induction l as [|x l IH]; [reflexivity|]; cbn [rev]; rewrite map_app, list_sum_app, IH, !Y2; change (list_sum (map bo [])) with 0%nat; lia).
    pose proof (Y cuts) as Yc. rewrite Ec2, Ec, (Y2 p1), (Y2 p2) in Yc. lia. }
  assert (LEN : length (q :: r) = length (q2 :: r2)) by (apply (f_equal (@length _)) in Ec2; rewrite rev_length, Ec in Ec2; cbn in Ec2 |- *; lia).
  assert (BO : forall z, (bo z <= 1)%nat) by (intros z; unfold bo, both; destruct (_ && _); lia).
  assert (CO : forall (f : Point2 -> list Surface) (l : list Point2) x ns0, length ns0 = length (x :: l) -> Forall (fun z => length (f z) = 1 + bo z)%nat (x :: l) -> bo (last (x :: l) x) = 1%nat -> ends_in_corner (combine ns0 (map f (x :: l)))).
  { intros f l x ns0 L F Hb. destruct (exists_last (l := x :: l) ltac:(discriminate)) as (l' & z & El). rewrite El in *. rewrite last_last in Hb. rewrite map_app.
    destruct (exists_last (l := ns0)) as (ms & y & Em); [intros ->; rewrite app_length in L; cbn in L; lia|]. subst ns0. rewrite !app_length in L. cbn [length] in L. cbn [map]. exists (combine ms (map f l')), (y, f z). split; [|cbn [snd]; apply Forall_app in F; destruct F as [_ F]; inversion F; subst; lia].
    assert (Lm : length ms = length (map f l')) by (rewrite map_length; lia). clear -Lm. revert Lm. generalize (map f l') as ml. induction ms as [|a ms IH]; intros [|b ml] L; try discriminate; [reflexivity|]. cbn [app combine]. f_equal. apply IH. now injection L. }
  destruct (C33_records (combine (n :: ns') (map nf (q :: r))) (combine (n2 :: ns2) (map nb (q2 :: r2))) A3 B3) as (recs & Er & Ff & Fb & _ & _ & Nl).
  - apply Forall_forall. intros [a b] Ia. apply in_combine_l in Ia. rewrite <- En in Ia. rewrite Forall_forall in Fn. specialize (Fn _ Ia). cbn [fst]. lia.
  - apply Forall_forall. intros [a b] Ia. apply in_combine_l in Ia. rewrite <- En2 in Ia. apply in_rev in Ia. rewrite Forall_forall in Fn. specialize (Fn _ Ia). cbn [fst]. lia.
  - rewrite XF, XB. pose proof (BO p1). pose proof (BO p2). destruct (Nat.eq_dec (bo p1) (bo p2)) as [Q|Q]; [left; lia|]. right. destruct (Nat.eq_dec (bo p2) 1) as [Q2|Q2].
    + left. split; [lia|]. apply CO; [exact Lf|exact A4|]. rewrite (last_d r q q p1), Lq. exact Q2.
    + right. split; [lia|]. apply CO; [exact Lb|exact B4|]. rewrite (last_d r2 q2 q2 p2), Lq2. lia.
  - rewrite Er. eexists. exists (pos 0 g), (pos 0 g2), sf, sb. split; [reflexivity|]. cbn [cr_nseg cr_recs cr_cell_fw cr_surf_fw cr_cell_bw cr_surf_bw]. rewrite Ff, Fb. split; [rewrite zsum_fold; reflexivity|]. split; [exact Nl|]. split; [exact Ef|]. split; [exact Eb|].
    change (lift k (pos 0 g)) with (pos k g). change (lift k (pos 0 g2)) with (pos k g2). split; [exact A1|]. split; [exact B1|]. rewrite Eg2, En2. rewrite Eg, En. split; [exact A2|]. rewrite En in B2. exact B2.
Qed.

(** Pieces of a traced ray cross cells from side to side. *)
Lemma on_seg_mono : forall a b x y, on_segment {| p1 := a; p2 := b |} x -> on_segment {| p1 := a; p2 := b |} y -> (pty a < pty b)%R -> ptx a <> ptx b -> (pty x < pty y)%R ->
  if Rltb (ptx a) (ptx b) then (ptx x < ptx y)%R else (ptx y < ptx x)%R.
Proof.
  intros a b x y (t & _ & X1 & X2) (u & _ & Y1 & Y2) Ri Ne L. cbn [p1 p2] in *. assert (t < u)%R by nra. destruct (Rltb_spec (ptx a) (ptx b)); rewrite X1, Y1; nra.
Qed.
Lemma crosses_of : forall xs ys (ux : bool) i j x0 x1 y0 y1 x y, nth_error xs i = Some x0 -> nth_error xs (S i) = Some x1 -> nth_error ys j = Some y0 -> nth_error ys (S j) = Some y1 ->
  (pty x < pty y)%R -> (if ux then (ptx x < ptx y)%R else (ptx y < ptx x)%R) -> (x0 <= ptx x <= x1 /\ y0 <= pty x <= y1)%R -> (x0 <= ptx y <= x1 /\ y0 <= pty y <= y1)%R ->
  (ptx x = x0 \/ ptx x = x1 \/ pty x = y0 \/ pty x = y1) -> (ptx y = x0 \/ ptx y = x1 \/ pty y = y0 \/ pty y = y1) -> crosses xs ys ux true (i, j) x y.
Proof.
  intros xs ys ux i j x0 x1 y0 y1 x y A1 A2 B1 B2 Ly Lx Bx By Rx Ry. unfold crosses. cbn [fst snd]. split; [|split; [|split]].
  - exists x0, x1. split; [exact A1|]. split; [exact A2|]. destruct ux; lra.
  - exists y0, y1. split; [exact B1|]. split; [exact B2|]. lra.
  - unfold entering. destruct ux; destruct Rx as [Q|[Q|[Q|Q]]]; try (exfalso; lra); rewrite Q; auto.
  - unfold leaving. destruct ux; destruct Ry as [Q|[Q|[Q|Q]]]; try (exfalso; lra); rewrite Q; auto.
Qed.
Lemma travels_of : forall xs ys ux uy cuts p, (forall x y, adjacent x y (p :: cuts) -> exists g, crosses xs ys ux uy g x y) -> exists gs, travels xs ys ux uy (p :: cuts) gs.
Proof.
  intros xs ys ux uy. induction cuts as [|q cuts IH]; intros p H; [exists []; exact I|]. destruct (IH q ltac:(intros x y A; apply H; now right)) as (gs & T). destruct (H p q ltac:(left; auto)) as (g & C). exists (g :: gs). split; assumption.
Qed.
Lemma visit_filter : forall psi vs p, visit_sum psi (filter proper vs) p = visit_sum psi vs p.
Proof.
  intros psi vs p. unfold visit_sum. induction vs as [|[[q i] j] vs IH]; [reflexivity|]. cbn [filter]. unfold proper at 1. cbn [fst snd]. destruct (Z.eqb_spec i j) as [->|N]; cbn [negb lsum fst snd]; rewrite IH; [|reflexivity]. destruct (pos_eqb p q); lra.
Qed.

Definition corner (xs ys : list R) (p : Point2) : Prop := (ptx p = 0 \/ ptx p = last xs 0)%R /\ (pty p = 0 \/ pty p = last ys 0)%R.

(** The coarse data of a ray traced through the mesh lets the current worker visit exactly the cells the ray crosses, in order and
    in both directions, each with the segments in it: whatever the fluxes along the ray, its currents add to the outflow of every
    cell what the flux gains there.  The ray is neither horizontal nor vertical and does not end in a corner of the core. *)
Theorem C111_ray : forall ulp m xs ys srt eqp a b ns k wx wy W, ulp_sound ulp -> mesh_ok m -> 0 <= k < nz m ->
  CoreProofs.increasing xs -> CoreProofs.increasing ys -> nth_error xs 0 = Some 0%R -> nth_error ys 0 = Some 0%R -> Z.of_nat (length xs) = nx m + 1 -> Z.of_nat (length ys) = ny m + 1 -> (last ys 0 <= last xs 0)%R ->
  (forall l, sort_gives l (srt l)) -> (pty a < pty b)%R -> ptx a <> ptx b -> on_border xs ys a -> on_border xs ys b -> ~ corner xs ys a -> ~ corner xs ys b ->
  let lines := mesh_lines xs ys (last xs 0%R) in let cuts := mesh_trace srt eqp lines a b in let ux := Rltb (ptx a) (ptx b) in
  told eqp (a :: b :: trace_points lines {| GeomModel.p1 := a; GeomModel.p2 := b |}) ->
  (forall x y, adjacent x y cuts -> clear xs (ptx (midpoint y x)) /\ clear ys (pty (midpoint y x))) -> (forall q, In q cuts -> sharp xs (ptx q) /\ sharp ys (pty q)) ->
  length cuts = S (length ns) -> Forall (fun n => 1 <= n < 256) ns -> flow wx wy (sx ux) = W -> flow wx wy NORTH = W ->
  exists ray gs, coarse_data (fp_equiv ulp) m xs ys a b cuts ns = Some ray /\ cr_nseg ray = zsum ns /\ travels xs ys ux true cuts gs /\
  forall psi1 psi2 cur, length psi1 = S (Z.to_nat (zsum ns)) -> length psi2 = S (Z.to_nat (zsum ns)) -> length cur = Z.to_nat (n_surf m) ->
  exists cur', post_ray m k wx wy psi1 psi2 ray cur = Some cur' /\ length cur' = length cur /\
    forall p, in_mesh m p -> outflow m cur' p = (outflow m cur p + W * (visit_sum psi1 (stays k 1 0 ns gs) p + visit_sum psi2 (stays k (-1) (zsum ns) (rev ns) (rev gs)) p))%R.
Proof.
  intros ulp m xs ys srt eqp a b ns k wx wy W Us M K IX IY X0 Y0 LX LY Fl So Rise Ne Ba Bb Ka Kb lines cuts ux T Cl Sh Ln Fn FX FY.
  destruct (fp_equiv_sound ulp Us) as [E1 E2]. pose proof (So (a :: b :: trace_points lines {| GeomModel.p1 := a; GeomModel.p2 := b |})) as Su. set (pts := trace_points lines {| GeomModel.p1 := a; GeomModel.p2 := b |}) in *.
  pose proof (pts_on_chord xs ys a b) as F. fold lines pts in F.
  destruct (unique_sorted a b Rise eqp pts _ Su F) as (r & Eu & Lr & Fr & Uq).
  assert (Eo : cuts = unique eqp (srt (a :: b :: pts))) by reflexivity.
  assert (EC : exists w, cuts = a :: w /\ last w a = b).
  { rewrite Eo, Uq. destruct (uniq_head eqp r a) as [w Ew]. exists w. split; [exact Ew|].
    assert (LQ : last (uniq eqp a r) a = last w a) by (rewrite Ew; apply last_cons). rewrite <- LQ.
    assert (NL : forall (l : list Point2) d, l <> [] -> In (last l d) l).
    { induction l as [|q l IH]; intros d N; [contradiction|]. destruct l as [|q' l]; [now left|]. right. apply IH. discriminate. }
    assert (Tu : forall p q, In p (srt (a :: b :: pts)) -> In q (srt (a :: b :: pts)) -> eqp p q = true -> p = q) by (intros p q Hp Hq; apply T; apply (Permutation.Permutation_in _ (Permutation.Permutation_sym (proj1 Su))); assumption).
    destruct (uniq_last eqp r a a) as [Q|Q]; rewrite Lr in Q; [exact Q|]. apply Tu; [|rewrite Eu, <- Lr|exact Q].
    - rewrite Eu. apply (uniq_in eqp). apply NL. rewrite Ew. discriminate.
    - rewrite <- (last_cons r a a). apply NL. discriminate. }
  destruct EC as (w & EC & LW).
  assert (TR : exists gs, travels xs ys ux true cuts gs).
  { rewrite EC. apply travels_of. rewrite <- EC. intros x y A. destruct (Cl x y A) as [Cx Cy]. rewrite Eo in A.
    destruct (piece_cell xs ys a b IX IY X0 Y0 Fl Rise Ba Bb eqp _ x y Su T A Cx Cy) as (i & j & x0 & x1 & y0 & y1 & Ei & Ei' & Ej & Ej' & Lt & _ & _ & Bx & By & Rx & Ry).
    destruct (adjacent_on a b Rise eqp pts _ x y Su F A) as [Sx' Sy']. exists (i, j). apply (crosses_of xs ys ux i j x0 x1 y0 y1 x y); auto. exact (on_seg_mono a b x y Sx' Sy' Rise Ne Lt). }
  destruct TR as (gs & TR). pose proof (travels_length _ _ _ _ _ _ TR) as LG. rewrite Ln in LG.
  assert (NG : gs <> []). { intros ->. cbn in LG. assert (ns = []) by (destruct ns; [reflexivity|discriminate]). subst ns. rewrite EC in Ln. cbn in Ln. assert (w = []) by (destruct w; [reflexivity|discriminate]). subst w. cbn in LW. rewrite LW in Rise. lra. }
  assert (NX : xs <> []) by (intros Q; rewrite Q in X0; discriminate). assert (NY : ys <> []) by (intros Q; rewrite Q in Y0; discriminate).
  pose proof (last_nth xs 0 NX) as LSx. pose proof (last_nth ys 0 NY) as LSy.
  assert (FA : forall vs u v, nth_error vs 0 = Some 0%R -> nth_error vs (length vs - 1) = Some (last vs 0%R) -> (far vs u v <-> v = if u then last vs 0%R else 0%R)).
  { intros vs u v V0 VL. unfold far. destruct u; [rewrite VL|rewrite V0]; split; [intros Q; now injection Q|intros ->; reflexivity|intros Q; now injection Q|intros ->; reflexivity]. }
  assert (Ux : ux = true /\ (ptx a < ptx b)%R \/ ux = false /\ (ptx b < ptx a)%R) by (unfold ux; destruct (Rltb_spec (ptx a) (ptx b)); [left|right]; split; auto; lra).
  destruct Ba as (Ba1 & Ba2 & Ba3). destruct Bb as (Bb1 & Bb2 & Bb3). unfold corner in Ka, Kb.
  assert (R1 : rim xs ys (negb ux) false a).
  { unfold rim. rewrite !(FA xs), !(FA ys) by assumption. destruct Ux as [[Eux Ux]|[Eux Ux]]; rewrite Eux; cbn [negb]; destruct Ba3 as [Q|[Q|[Q|Q]]]; try (exfalso; lra); try (left; split; [exact Q|intros Q'; apply Ka; auto]); try (right; split; [intros Q'; apply Ka; auto|exact Q]). }
  assert (R2 : rim xs ys ux true b).
  { unfold rim. rewrite !(FA xs), !(FA ys) by assumption. destruct Ux as [[Eux Ux]|[Eux Ux]]; rewrite Eux; destruct Bb3 as [Q|[Q|[Q|Q]]]; try (exfalso; lra); try (left; split; [exact Q|intros Q'; apply Kb; auto]); try (right; split; [intros Q'; apply Kb; auto|exact Q]). }
  destruct (data (fp_equiv ulp) m xs ys k ux a b cuts gs ns wx wy W E1 E2 IX IY LX LY X0 Y0 M K TR NG ltac:(lia) Fn Sh) as (ray & qf & qb & sf & sb & D1 & D2 & D3 & D4 & D5 & D6 & D7 & D8 & D9); auto.
  { rewrite EC. reflexivity. } { rewrite EC, last_cons. exact LW. }
  exists ray, gs. split; [exact D1|]. split; [exact D2|]. split; [exact TR|]. intros psi1 psi2 cur L1 L2 Lc.
  assert (Hz : 0 <= zsum ns) by (clear -Fn; induction Fn; cbn [zsum]; lia).
  destruct (C84_cell_balance m k wx wy W psi1 psi2 ray qf qb sf sb cur M K Lc) as (cur' & P1 & P2 & P3); auto; try (rewrite D2; assumption); try lia.
  exists cur'. split; [exact P1|]. split; [exact P2|]. intros p Ip. rewrite (P3 p Ip), <- D8, <- D9, !visit_filter, D2. reflexivity.
Qed.
Print Assumptions C111_ray.

Lemma tol4 : forall v, (0 <= v <= 4)%R -> (tol v <= 1/8)%R.
Proof. intros v V. pose proof FUZZ_pos as F. unfold tol. rewrite Rabs_pos_eq by lra. unfold Rmax. destruct (Rle_dec 1 v); nra. Qed.
Lemma sharp_by : forall vs v, (0 <= v <= 4)%R -> (forall e, In e vs -> e = v \/ v - e <= - (1/4) \/ 1/4 <= v - e)%R -> sharp vs v.
Proof. intros vs v V H e Ie. pose proof (tol4 v V). destruct (H e Ie) as [Q|[Q|Q]]; [now left|right; rewrite Rabs_left by lra; lra|right; rewrite Rabs_pos_eq by lra; lra]. Qed.
Lemma clear_by : forall vs v, (0 <= v <= 4)%R -> (forall e, In e vs -> v - e <= - (1/4) \/ 1/4 <= v - e)%R -> clear vs v.
Proof. intros vs v V H e Ie. pose proof (tol4 v V). destruct (H e Ie) as [Q|Q]; [rewrite Rabs_left by lra; lra|rewrite Rabs_pos_eq by lra; lra]. Qed.

(** A ray that ends in a corner of the core is recorded as leaving it by one surface and then crossing another, of a cell that does
    not exist: the current worker then has no defined behaviour.  Here in the only cell of a core. *)
Theorem C111_corner_refuted : exists ulp m xs ys a b ray, ulp_sound ulp /\ mesh_ok m /\ CoreProofs.increasing xs /\ CoreProofs.increasing ys /\ nth_error xs 0 = Some 0%R /\ nth_error ys 0 = Some 0%R /\
  Z.of_nat (length xs) = nx m + 1 /\ Z.of_nat (length ys) = ny m + 1 /\ (pty a < pty b)%R /\ ptx a <> ptx b /\ on_border xs ys a /\ on_border xs ys b /\ ~ corner xs ys a /\
  let cuts := mesh_trace by_height exact_eq (mesh_lines xs ys (last xs 0%R)) a b in
  (forall x y, adjacent x y cuts -> clear xs (ptx (midpoint y x)) /\ clear ys (pty (midpoint y x))) /\ (forall q, In q cuts -> sharp xs (ptx q) /\ sharp ys (pty q)) /\
  coarse_data (fp_equiv ulp) m xs ys a b cuts [1] = Some ray /\ forall wx wy psi1 psi2 cur, post_ray m 0 wx wy psi1 psi2 ray cur = None.
Proof.
  set (m := {| nx := 1; ny := 1; nz := 1 |}). set (vs := psums 0 [2%R]). set (a := {| ptx := 0; pty := 1 |}%R). set (b := {| ptx := 2; pty := 2 |}%R).
  assert (Iv : CoreProofs.increasing vs) by (apply psums_increasing; intros v [<-|[]]; lra). destruct (fp_equiv_sound Reqb Reqb_sound) as [E1 E2].
  assert (Ev : vs = [0; 0 + 2]%R) by reflexivity.
  assert (ME : mesh_trace by_height exact_eq (mesh_lines vs vs (last vs 0%R)) a b = [a; b]).
  { rewrite Ev. unfold mesh_trace, mesh_lines, interior. cbn [tl removelast map app trace_points flat_map]. unfold by_height. cbn [fold_right put_in]. unfold a, b. cbn [pty]. destruct (Rleb_spec 1 2); [|lra]. cbn [unique uniq].
    assert (N : exact_eq {| ptx := 0; pty := 1 |} {| ptx := 2; pty := 2 |} = false) by (apply not_true_is_false; intro Q; apply exact_eq_spec in Q; injection Q as Q _; lra). rewrite N. reflexivity. }
  assert (S0 : sharp vs 0) by (apply sharp_by; [lra|]; rewrite Ev; intros e [<-|[<-|[]]]; lra). assert (S1 : sharp vs 1) by (apply sharp_by; [lra|]; rewrite Ev; intros e [<-|[<-|[]]]; lra). assert (S2 : sharp vs 2) by (apply sharp_by; [lra|]; rewrite Ev; intros e [<-|[<-|[]]]; lra).
  assert (V2 : nth_error vs 1 = Some 2%R) by (rewrite Ev; cbn; f_equal; lra).
  assert (L0 : line_index (fp_equiv Reqb) 0 vs 0 = (0, true)) by (apply (line_index_on _ E1 E2 vs 0%R 0%nat 0 Iv S0); reflexivity).
  assert (L1 : line_index (fp_equiv Reqb) 1 vs 0 = (0, false)) by (apply (line_index_in _ E1 E2 vs 1%R 0%nat 0 0%R 2%R Iv S1); [reflexivity|exact V2|lra]).
  assert (L2 : line_index (fp_equiv Reqb) 2 vs 0 = (1, true)) by (apply (line_index_on _ E1 E2 vs 2%R 1%nat 0 Iv S2); exact V2).
  assert (LV : last vs 0%R = 2%R) by (rewrite Ev; cbn; lra).
  assert (A0 : fp_equiv_abs 0 0 = true) by apply fp_equiv_abs_refl. assert (A2 : fp_equiv_abs 2 0 = false) by (unfold fp_equiv_abs; apply Rltb_false; rewrite Rminus_0_r, Rabs_pos_eq by lra; pose proof FUZZ_pos; lra).
  assert (CD : coarse_data (fp_equiv Reqb) m vs vs a b [a; b] [1] = Some (mkCRay 0 0 1 2 1 [mkRC (Some NORTH) (Some WEST) 1 1; mkRC (Some EAST) None 0 0])).
  { assert (GO : get_octant a b = O1) by (unfold get_octant, a, b; cbn [ptx]; destruct (Rltb_spec 0 2); [reflexivity|lra]). unfold coarse_data. rewrite GO. cbn [rev app]. unfold one_way, boundary_cell, norm_point, a, b. cbn [ptx pty map]. rewrite L0, L1, L2, LV, A0, A2, E1. cbn [nx ny m]. reflexivity. }
  assert (Qb : on_border vs vs a /\ on_border vs vs b) by (unfold on_border, a, b; cbn [ptx pty]; rewrite LV; lra). destruct Qb as [Qa Qb].
  exists Reqb, m, vs, vs, a, b. eexists. split; [exact Reqb_sound|]. split; [unfold mesh_ok, m; cbn; lia|]. split; [exact Iv|]. split; [exact Iv|]. split; [reflexivity|]. split; [reflexivity|]. split; [reflexivity|]. split; [reflexivity|].
  split; [unfold a, b; cbn; lra|]. split; [unfold a, b; cbn; lra|]. split; [exact Qa|]. split; [exact Qb|]. split; [unfold corner, a; cbn [ptx pty]; rewrite LV; lra|].
  cbv zeta. rewrite ME. split; [|split; [|split; [exact CD|]]].
  - intros x y [[<- <-]|[]]. unfold midpoint, a, b. cbn [ptx pty]. split; apply clear_by; try lra; rewrite Ev; intros e [<-|[<-|[]]]; lra.
  - intros q [<-|[<-|[]]]; unfold a, b; cbn [ptx pty]; auto.
  - intros wx wy psi1 psi2 cur. unfold post_ray. cbn [cr_surf_fw cr_surf_bw cr_nseg cr_recs cr_cell_fw cr_cell_bw]. destruct (tally _ _ _ _ _ _ _ _) as [c1|]; [|reflexivity]. destruct (tally _ _ _ _ _ _ _ _) as [c2|]; [|reflexivity].
    cbn [walk rc_fw rc_bw rc_nfw rc_nbw]. destruct (cross m wx wy 1 psi1 _ _ _ _ _ _) as [[j1 c3]|]; [|reflexivity]. destruct (cross m wx wy (-1) psi2 _ _ _ _ _ _) as [[j2 c4]|]; [|reflexivity].
    assert (NC : next_cell m (0 + nx m * ny m * 0) (Some NORTH) = -1) by reflexivity. rewrite NC. assert (CS : coarse_surf m (-1) EAST = None) by reflexivity. unfold cross. rewrite CS. reflexivity.
Qed.
Print Assumptions C111_corner_refuted.

(** A ray through the grid point of a two by two core: it is traced through two cells, with two surfaces at the middle. *)
Example C111_instance : let m := {| nx := 2; ny := 2; nz := 1 |} in let vs := psums 0 [2; 2]%R in let a := {| ptx := 0; pty := 1 |}%R in let b := {| ptx := 4; pty := 3 |}%R in
  let lines := mesh_lines vs vs (last vs 0%R) in let cuts := mesh_trace by_height exact_eq lines a b in
  ulp_sound Reqb /\ mesh_ok m /\ CoreProofs.increasing vs /\ (pty a < pty b)%R /\ ptx a <> ptx b /\ on_border vs vs a /\ on_border vs vs b /\ ~ corner vs vs a /\ ~ corner vs vs b /\
  told exact_eq (a :: b :: trace_points lines {| GeomModel.p1 := a; GeomModel.p2 := b |}) /\ cuts = [a; {| ptx := 2; pty := 2 |}%R; b] /\
  (forall x y, adjacent x y cuts -> clear vs (ptx (midpoint y x)) /\ clear vs (pty (midpoint y x))) /\ (forall q, In q cuts -> sharp vs (ptx q) /\ sharp vs (pty q)) /\
  flow 1 1 (sx (Rltb (ptx a) (ptx b))) = 1%R /\ flow 1 1 NORTH = 1%R /\ travels vs vs true true cuts [(0, 0); (1, 1)]%nat.
Proof.
  cbv zeta. set (vs := psums 0 [2; 2]%R). set (a := {| ptx := 0; pty := 1 |}%R). set (b := {| ptx := 4; pty := 3 |}%R). set (c := {| ptx := 2; pty := 2 |}%R).
  assert (Iv : CoreProofs.increasing vs) by (apply psums_increasing; intros v [<-|[<-|[]]]; lra). assert (Ev : vs = [0; 0 + 2; 0 + 2 + 2]%R) by reflexivity. assert (LV : last vs 0%R = 4%R) by (rewrite Ev; cbn; lra).
  assert (TP : trace_points (mesh_lines vs vs (last vs 0%R)) {| GeomModel.p1 := a; GeomModel.p2 := b |} = [c; c]).
  { rewrite Ev. unfold mesh_lines, interior, trace_points. cbn [tl removelast map app flat_map last]. rewrite !(intersect_ll_complete _ _ c); [reflexivity| | | | | |].
    all: try (unfold GeomProofs.cross, a, b; cbn; lra). all: exists (1/2)%R; unfold at_param, c, a, b; cbn; lra. }
  assert (ME : mesh_trace by_height exact_eq (mesh_lines vs vs (last vs 0%R)) a b = [a; c; b]).
  { unfold mesh_trace. rewrite TP. unfold by_height. cbn [fold_right put_in]. unfold a, b, c. cbn [pty ptx].
    destruct (Rleb_spec 2 2); [|lra]. cbn [put_in pty]. destruct (Rleb_spec 3 2); [lra|]. cbn [put_in pty]. destruct (Rleb_spec 1 2); [|lra]. destruct (Rleb_spec 3 2); [lra|]. cbn [put_in pty unique uniq].
    assert (N1 : exact_eq {| ptx := 0; pty := 1 |} {| ptx := 2; pty := 2 |} = false) by (apply not_true_is_false; intro Q; apply exact_eq_spec in Q; injection Q as Q _; lra).
    assert (N2 : exact_eq {| ptx := 2; pty := 2 |} {| ptx := 2; pty := 2 |} = true) by (unfold exact_eq; cbn [ptx pty]; destruct (Reqb_spec 2 2); [reflexivity|lra]).
    assert (N3 : exact_eq {| ptx := 2; pty := 2 |} {| ptx := 4; pty := 3 |} = false) by (apply not_true_is_false; intro Q; apply exact_eq_spec in Q; injection Q as Q _; lra).
    rewrite N1, N2, N3. reflexivity. }
  split; [exact Reqb_sound|]. split; [unfold mesh_ok; cbn; lia|]. split; [exact Iv|]. split; [unfold a, b; cbn; lra|]. split; [unfold a, b; cbn; lra|].
  split; [unfold on_border, a; cbn [ptx pty]; rewrite LV; lra|]. split; [unfold on_border, b; cbn [ptx pty]; rewrite LV; lra|]. split; [unfold corner, a; cbn [ptx pty]; rewrite LV; lra|]. split; [unfold corner, b; cbn [ptx pty]; rewrite LV; lra|].
  split; [intros p q _ _ H; now apply exact_eq_spec|]. rewrite ME. split; [reflexivity|]. split; [|split; [|split; [|split; [reflexivity|]]]].
  - intros x y [[<- <-]|[[<- <-]|[]]]; unfold midpoint, a, b, c; cbn [ptx pty]; split; apply clear_by; try lra; rewrite Ev; intros e [<-|[<-|[<-|[]]]]; lra.
  - intros q [<-|[<-|[<-|[]]]]; unfold a, b, c; cbn [ptx pty]; split; apply sharp_by; try lra; rewrite Ev; intros e [<-|[<-|[<-|[]]]]; lra.
  - unfold a, b. cbn [ptx]. destruct (Rltb_spec 0 4); [reflexivity|lra].
  - rewrite Ev. split; [|split; [|exact I]].
    + apply (crosses_of _ _ true _ _ 0%R (0 + 2)%R 0%R (0 + 2)%R); try reflexivity; unfold a, b, c; cbn [ptx pty]; lra.
    + apply (crosses_of _ _ true _ _ (0 + 2)%R (0 + 2 + 2)%R (0 + 2)%R (0 + 2 + 2)%R); try reflexivity; unfold a, b, c; cbn [ptx pty]; lra.
Qed.
