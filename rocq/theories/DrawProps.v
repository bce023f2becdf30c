(** Property theorems for the drawing of the geometry: C197. *)
From Coq Require Import Reals ZArith List Bool Lia Lra Psatz.
From Verif Require Import RUtil ListUtil McModel McProofs GeomModel GeomProofs TallyProofs MatModel CoreModel CoreProofs PlaneProps AsmModel AsmProps LatProps EquivProps LocProps PmModel PmProps PmTraceProps PmCylTrace PmCylChord PartProps BcProofs RayTrModel DrawModel.
Import ListNotations.
Local Open Scope R_scope.

(** ** Specification *)
(** What is on paper, in the coordinates of the core. *)
Inductive Mark := Seg (a b : Point2) | Circ (c : Point2) (r : R).
Definition on_mark (q : Point2) (k : Mark) : Prop :=
  match k with
  | Seg a b => exists t, 0 <= t <= 1 /\ ptx q = ptx a + t * (ptx b - ptx a) /\ pty q = pty a + t * (pty b - pty a)
  | Circ c r => (ptx q - ptx c) * (ptx q - ptx c) + (pty q - pty c) * (pty q - pty c) = r * r
  end.
(** A drawing context: the translation, the path begun, the current point with the start of its part of the path, what has been drawn. *)
Record Ctx := mkCtx { c_off : Point2; c_path : list Mark; c_cur : option (Point2 * Point2); c_ink : list Mark }.
Definition pt (x y : R) : Point2 := {| ptx := x; pty := y |}.
Definition plus (o : Point2) (x y : R) : Point2 := pt (ptx o + x) (pty o + y).
(** The drawing library: a line starts at the current point; an arc is joined to the current point by a line; closing goes back to
    the start; a stroke draws the path and forgets it. *)
Definition exec (c : Ctx) (k : Cmd) : Ctx :=
  match k with
  | Translate x y => mkCtx (plus (c_off c) x y) (c_path c) (c_cur c) (c_ink c)
  | MoveTo x y => let p := plus (c_off c) x y in mkCtx (c_off c) (c_path c) (Some (p, p)) (c_ink c)
  | LineTo x y => let p := plus (c_off c) x y in match c_cur c with Some (q, s) => mkCtx (c_off c) (c_path c ++ [Seg q p]) (Some (p, s)) (c_ink c) | None => mkCtx (c_off c) (c_path c) (Some (p, p)) (c_ink c) end
  | Arc x y r => let p := plus (c_off c) (x + r) y in let a := Circ (plus (c_off c) x y) r in match c_cur c with Some (q, s) => mkCtx (c_off c) (c_path c ++ [Seg q p; a]) (Some (p, s)) (c_ink c) | None => mkCtx (c_off c) (c_path c ++ [a]) (Some (p, p)) (c_ink c) end
  | ClosePath => match c_cur c with Some (q, s) => mkCtx (c_off c) (c_path c ++ [Seg q s]) (Some (s, s)) (c_ink c) | None => c end
  | Stroke => mkCtx (c_off c) [] None (c_ink c ++ c_path c)
  end.
Definition run (l : list Cmd) (c : Ctx) : Ctx := fold_left exec l c.
Definition blank : Ctx := mkCtx (pt 0 0) [] None [].
Definition inked (l : list Cmd) (q : Point2) : Prop := exists k, In k (c_ink (run l blank)) /\ on_mark q k.
(** Printing a number and reading it back. *)
Definition printing (num : R -> R) : Prop := num 0 = 0 /\ (forall x, num (- x) = - num x) /\ forall x y, x <= y -> num x <= num y.
(** The shapes of a pin, at a place. *)
Definition line_mark (num : R -> R) (x y : R) (l : Line) : Mark := Seg (pt (x + num (ptx (p1 l))) (y + num (pty (p1 l)))) (pt (x + num (ptx (p2 l))) (y + num (pty (p2 l)))).
Definition geo_lines (g : Geo) : list Line := match g with GRect r => rp_lines r | GCyl c => cp_lines c end.
Definition geo_radii (g : Geo) : list R := match g with GRect _ => [] | GCyl c => cp_radii c end.
Definition pin_marks (num : R -> R) (g : Geo) (x y : R) : list Mark := map (line_mark num x y) (geo_lines g) ++ map (fun r => Circ (pt x y) (num r)) (geo_radii g).
(** A line of the pin runs from its centre along x, past the circles. *)
Definition lined (g : Geo) : Prop := geo_radii g <> [] -> exists h, In {| p1 := pt 0 0; p2 := pt h 0 |} (geo_lines g) /\ Forall (fun r => 0 <= r <= h) (geo_radii g).

(** ** Proofs *)
Lemma run_app : forall a b c, run (a ++ b) c = run b (run a c).
Proof. intros. apply fold_left_app. Qed.
Lemma plus0 : forall x y, plus (pt 0 0) x y = pt x y.
Proof. intros. unfold plus, pt. cbn. f_equal; ring. Qed.
Lemma flat_lines : forall num l c, exists cur, run (draw_lines num l) c = mkCtx (c_off c) (c_path c ++ map (line_mark num (ptx (c_off c)) (pty (c_off c))) l) cur (c_ink c).
Proof.
  intros num l. induction l as [|a l IH]; intros c; [exists (c_cur c); cbn [draw_lines flat_map map]; rewrite app_nil_r; destruct c; reflexivity|].
  change (draw_lines num (a :: l)) with ([MoveTo (num (ptx (p1 a))) (num (pty (p1 a))); LineTo (num (ptx (p2 a))) (num (pty (p2 a)))] ++ draw_lines num l). rewrite run_app. destruct c as [o p cu ik]. cbn [run fold_left exec c_off c_path c_cur c_ink].
  destruct (IH (mkCtx o (p ++ [Seg (plus o (num (ptx (p1 a))) (num (pty (p1 a)))) (plus o (num (ptx (p2 a))) (num (pty (p2 a))))]) (Some (plus o (num (ptx (p2 a))) (num (pty (p2 a))), plus o (num (ptx (p1 a))) (num (pty (p1 a))))) ik)) as (cur & ->). exists cur. cbn [c_off c_path c_ink map]. rewrite <- app_assoc. reflexivity.
Qed.
Definition twice (num : R -> R) (x y : R) (l : Line) : list Mark := match line_mark num x y l with Seg a b => [Seg a b; Seg b a] | k => [k] end.
Lemma flat_pin_lines : forall num l c, exists cur, run (pin_lines num l) c = mkCtx (c_off c) (c_path c ++ flat_map (twice num (ptx (c_off c)) (pty (c_off c))) l) cur (c_ink c).
Proof.
  intros num l. induction l as [|a l IH]; intros c; [exists (c_cur c); cbn [pin_lines flat_map]; rewrite app_nil_r; destruct c; reflexivity|].
  change (pin_lines num (a :: l)) with ([MoveTo (num (ptx (p1 a))) (num (pty (p1 a))); LineTo (num (ptx (p2 a))) (num (pty (p2 a))); ClosePath] ++ pin_lines num l). rewrite run_app. destruct c as [o p cu ik]. cbn [run fold_left exec c_off c_path c_cur c_ink].
  match goal with |- context [run (pin_lines num l) ?c0] => destruct (IH c0) as (cur & E) end. rewrite E. exists cur. cbn [c_off c_path c_ink flat_map twice line_mark]. rewrite <- !app_assoc. reflexivity.
Qed.
Lemma twice_on : forall num x y l q, (exists k, In k (twice num x y l) /\ on_mark q k) <-> on_mark q (line_mark num x y l).
Proof.
  intros num x y l q. unfold twice. cbn [line_mark]. split.
  - intros (k & [<-|[<-|[]]] & H); [exact H|]. destruct H as (t & T & A & B). exists (1 - t). split; [lra|]. split; [rewrite A|rewrite B]; ring.
  - intros H. eexists. split; [now left|exact H].
Qed.
(** The arcs of a pin, with the joining lines. *)
Fixpoint arcs (num : R -> R) (o p : Point2) (rs : list R) : list Mark := match rs with [] => [] | r :: t => Seg p (plus o (num 0 + num r) (num 0)) :: Circ (plus o (num 0) (num 0)) (num r) :: arcs num o (plus o (num 0 + num r) (num 0)) t end.
Lemma run_arcs : forall num rs c p s, c_cur c = Some (p, s) -> exists cur, run (map (fun r => Arc (num 0) (num 0) (num r)) rs) c = mkCtx (c_off c) (c_path c ++ arcs num (c_off c) p rs) cur (c_ink c).
Proof.
  intros num rs. induction rs as [|r rs IH]; intros c p s H; [exists (c_cur c); cbn [map arcs]; rewrite app_nil_r; destruct c; reflexivity|]. destruct c as [o pa cu ik]. cbn [c_cur] in H. subst cu. cbn [map run fold_left exec c_cur c_off c_path c_ink].
  match goal with |- context [fold_left exec _ ?c0] => destruct (IH c0 _ _ eq_refl) as (cur & E) end. unfold run in E. rewrite E. exists cur. cbn [c_off c_path c_ink arcs]. rewrite <- app_assoc. reflexivity.
Qed.
Definition stroked (num : R -> R) (g : Geo) (o : Point2) : list Mark := match g with GCyl c => arcs num o o (cp_radii c) ++ flat_map (twice num (ptx o) (pty o)) (cp_lines c) | GRect r => flat_map (twice num (ptx o) (pty o)) (rp_lines r) end.
Lemma run_pin : forall num g c, run (draw_pin num g) c = mkCtx (c_off c) [] None (c_ink c ++ c_path c ++ stroked num g (c_off c)).
Proof.
  intros num g c. destruct g as [r|p]; cbn [draw_pin stroked].
  - rewrite run_app. destruct (flat_pin_lines num (rp_lines r) c) as (cur & ->). reflexivity.
  - change (MoveTo 0 0 :: ?l) with ([MoveTo 0 0] ++ l). rewrite !run_app. set (c1 := run [MoveTo 0 0] c). assert (E1 : c1 = mkCtx (c_off c) (c_path c) (Some (c_off c, c_off c)) (c_ink c)) by (unfold c1; cbn [run fold_left exec]; replace (plus (c_off c) 0 0) with (c_off c) by (destruct c as [[a b] ? ? ?]; unfold plus, pt; cbn; f_equal; ring); reflexivity).
    rewrite E1. destruct (run_arcs num (cp_radii p) (mkCtx (c_off c) (c_path c) (Some (c_off c, c_off c)) (c_ink c)) _ _ eq_refl) as (cur & ->). cbn [c_off c_path c_ink]. match goal with |- context [run (pin_lines num _) ?c0] => destruct (flat_pin_lines num (cp_lines p) c0) as (cur' & ->) end. cbn [run fold_left exec c_off c_path c_ink]. now rewrite <- !app_assoc.
Qed.
(** The joining lines are on the line along x. *)
Lemma arcs_on : forall num o q h rs a, printing num -> 0 <= a <= num h -> 0 <= h -> Forall (fun r => 0 <= r <= h) rs -> forall k, In k (arcs num o (plus o a 0) rs) -> on_mark q k ->
  on_mark q (Seg o (plus o (num h) 0)) \/ exists r, In r rs /\ on_mark q (Circ o (num r)).
Proof.
  intros num o q h rs. induction rs as [|r rs IH]; intros a (P0 & Po & Pm) Ha H0 Hf k Ik Hk; [contradiction|]. inversion Hf as [|? ? Hr Hf']; subst. cbn [arcs] in Ik. rewrite P0, Rplus_0_l in Ik.
  assert (Rr : 0 <= num r <= num h) by (split; [rewrite <- P0; apply Pm; lra|apply Pm; lra]). destruct Ik as [<-|[<-|Ik]].
  - left. destruct Hk as (t & T & A & B). unfold plus, pt in A, B. cbn [ptx pty] in A, B. set (v := (1 - t) * a + t * num r). assert (V : 0 <= v <= num h) by (unfold v; split; [apply Rplus_le_le_0_compat; apply Rmult_le_pos; lra|]; assert ((1 - t) * a <= (1 - t) * num h) by (apply Rmult_le_compat_l; lra); assert (t * num r <= t * num h) by (apply Rmult_le_compat_l; lra); lra).
    assert (A' : ptx q = ptx o + v) by (rewrite A; unfold v; ring). assert (B' : pty q = pty o) by (rewrite B; ring).
    destruct (Req_dec (num h) 0) as [Z|NZ].
    + exists 0. split; [lra|]. unfold plus, pt. cbn [ptx pty]. split; lra.
    + exists (v / num h). split; [split; [apply Rmult_le_pos; [lra|apply Rlt_le, Rinv_0_lt_compat; lra]|apply (Rmult_le_reg_r (num h)); [lra|]; unfold Rdiv; rewrite Rmult_assoc, Rinv_l by lra; lra]|]. unfold plus, pt. cbn [ptx pty]. split; [rewrite A'; field; lra|rewrite B'; ring].
  - right. exists r. split; [now left|]. unfold on_mark in *. cbn [plus pt ptx pty] in Hk. rewrite !Rplus_0_r in Hk. exact Hk.
  - destruct (IH (num r) (conj P0 (conj Po Pm)) Rr H0 Hf' k Ik Hk) as [L|(r' & I' & L)]; [now left|right; exists r'; split; [now right|exact L]].
Qed.
Lemma arcs_circ : forall num o rs p r, num 0 = 0 -> In r rs -> In (Circ o (num r)) (arcs num o p rs).
Proof.
  intros num o rs. induction rs as [|a rs IH]; intros p r P0 I; [contradiction|]. cbn [arcs]. destruct I as [->|I]; [right; left; f_equal; unfold plus, pt; rewrite P0; destruct o; cbn; f_equal; ring|]. right. right. now apply IH.
Qed.
Lemma stroked_on : forall num g x y q, printing num -> lined g -> (exists k, In k (stroked num g (pt x y)) /\ on_mark q k) <-> exists k, In k (pin_marks num g x y) /\ on_mark q k.
Proof.
  intros num g x y q P L. assert (Lines : forall l, (exists k, In k (flat_map (twice num x y) l) /\ on_mark q k) <-> exists k, In k (map (line_mark num x y) l) /\ on_mark q k).
  { intros l. split.
    - intros (k & I & H). apply in_flat_map in I. destruct I as (a & Ia & I). exists (line_mark num x y a). split; [now apply in_map|]. apply twice_on. now exists k.
    - intros (k & I & H). apply in_map_iff in I. destruct I as (a & <- & Ia). apply twice_on in H. destruct H as (k & I & H). exists k. split; [apply in_flat_map; now exists a|exact H]. }
  destruct g as [r|c]; unfold pin_marks; cbn [geo_lines geo_radii stroked ptx pty pt map].
  - rewrite app_nil_r. apply Lines.
  - split.
    + intros (k & I & H). apply in_app_or in I. destruct I as [I|I].
      * destruct (cp_radii c) as [|r rs] eqn:Er; [contradiction|]. destruct L as (h & Lh & Fh); [cbn [geo_radii]; rewrite Er; discriminate|]. cbn [geo_lines geo_radii] in Lh, Fh. rewrite Er in Fh. assert (H0 : 0 <= h) by (inversion Fh; subst; lra).
        assert (Nh : 0 <= num h) by (rewrite <- (proj1 P); apply P; exact H0). replace (pt x y) with (plus (pt x y) 0 0) in I at 2 by (unfold plus, pt; cbn; f_equal; ring).
        destruct (arcs_on num (pt x y) q h (r :: rs) 0 P ltac:(lra) H0 Fh k I H) as [S|(r' & Ir & S)].
        -- exists (line_mark num x y {| p1 := pt 0 0; p2 := pt h 0 |}). split; [apply in_or_app; left; now apply in_map|]. unfold line_mark. cbn [p1 p2 pt ptx pty]. rewrite !(proj1 P), !Rplus_0_r. unfold plus, pt in S. cbn [ptx pty] in S. rewrite Rplus_0_r in S. exact S.
        -- exists (Circ (pt x y) (num r')). split; [apply in_or_app; right; apply (in_map (fun r => Circ (pt x y) (num r))); exact Ir|exact S].
      * destruct (proj1 (Lines (cp_lines c))) as (k' & I' & H'); [now exists k|]. exists k'. split; [apply in_or_app; now left|exact H'].
    + intros (k & I & H). apply in_app_or in I. destruct I as [I|I].
      * destruct (proj2 (Lines (cp_lines c))) as (k' & I' & H'); [now exists k|]. exists k'. split; [apply in_or_app; now right|exact H'].
      * apply in_map_iff in I. destruct I as (r & <- & Ir). exists (Circ (pt x y) (num r)). split; [apply in_or_app; left; apply arcs_circ; [apply P|exact Ir]|exact H].
Qed.
(** The pins, each at its place: the marks in order. *)
Lemma run_pins : forall num geo M pins i l c, printing num -> c_off c = pt 0 0 -> draw_pins num geo M pins i = Some l -> pins <> [] ->
  exists ms, run l c = mkCtx (pt 0 0) [] None (c_ink c ++ c_path c ++ ms) /\
    forall k, In k ms <-> exists n p x y, nth_error pins n = Some p /\ cm_pin_origin M (i + n) = Some (x, y) /\ In k (stroked num (geo (pin_mesh p)) (pt (num x) (num y))).
Proof.
  intros num geo M pins. induction pins as [|p pins IH]; intros i l c P Oc E N; [contradiction|]. cbn [draw_pins] in E. destruct (cm_pin_origin M i) as [[x y]|] eqn:Eo; [|discriminate]. destruct (draw_pins num geo M pins (S i)) as [l'|] eqn:El; [|discriminate]. injection E as <-.
  change (Translate (num x) (num y) :: ?l) with ([Translate (num x) (num y)] ++ l). rewrite !run_app. set (c1 := run [Translate (num x) (num y)] c). assert (E1 : c1 = mkCtx (pt (num x) (num y)) (c_path c) (c_cur c) (c_ink c)) by (unfold c1; cbn [run fold_left exec]; rewrite Oc, plus0; reflexivity). rewrite E1, run_pin. cbn [c_off c_path c_ink].
  change (Translate (num (- x)) (num (- y)) :: l') with ([Translate (num (- x)) (num (- y))] ++ l'). rewrite run_app. cbn [run fold_left exec c_off c_path c_cur c_ink]. fold (run l').
  assert (E2 : plus (pt (num x) (num y)) (num (- x)) (num (- y)) = pt 0 0) by (destruct P as (_ & Po & _); unfold plus, pt; cbn; rewrite !Po; f_equal; ring). rewrite E2. set (st := stroked num (geo (pin_mesh p)) (pt (num x) (num y))) in *.
  destruct pins as [|p' pins'].
  - cbn [draw_pins] in El. injection El as <-. exists st. split; [cbn [fold_left]; reflexivity|]. intros k. split.
    + intros I. exists 0%nat, p, x, y. rewrite Nat.add_0_r. auto.
    + intros (n & p0 & x0 & y0 & A & B & C). destruct n as [|n]; [|destruct n; discriminate]. cbn in A. injection A as <-. rewrite Nat.add_0_r in B. rewrite Eo in B. injection B as <- <-. exact C.
  - destruct (IH (S i) l' (mkCtx (pt 0 0) [] None (c_ink c ++ c_path c ++ st)) P eq_refl El ltac:(discriminate)) as (ms & E3 & H3). rewrite E3. exists (st ++ ms). cbn [c_ink c_path]. split; [f_equal; rewrite <- !app_assoc; reflexivity|]. intros k. rewrite in_app_iff, H3. split.
    + intros [I|(n & p0 & x0 & y0 & A & B & C)]; [exists 0%nat, p, x, y; rewrite Nat.add_0_r; auto|exists (S n), p0, x0, y0; split; [exact A|]; split; [rewrite <- B; f_equal; lia|exact C]].
    + intros (n & p0 & x0 & y0 & A & B & C). destruct n as [|n]; [left; cbn in A; injection A as <-; rewrite Nat.add_0_r in B; rewrite Eo in B; injection B as <- <-; exact C|right; exists n, p0, x0, y0; split; [exact A|]; split; [rewrite <- B; f_equal; lia|exact C]].
Qed.

(** C197: the drawing shows the lines of the mesh and, at the place of each pin of the plane, the lines and circles of that pin, and nothing else. *)
Theorem C197_drawn : forall num gp geo M node file plane f l, printing num -> output_geometry num gp geo M node file plane = DScript f l -> (0 < cm_nx M * cm_ny M)%nat -> (forall p, In p (sc_pins (cm_scan M)) -> lined (geo (pin_mesh p))) ->
  let z := match plane with Some z => z | None => 0%Z end in
  forall q, inked l q <-> (exists a, In a (mesh_lines (cm_xv M) (cm_yv M) (cm_hx M)) /\ on_mark q (line_mark num 0 0 a)) \/
    exists n p x y k, (n < cm_nx M * cm_ny M)%nat /\ nth_error (sc_pins (cm_scan M)) (cm_nx M * cm_ny M * Z.to_nat z + n) = Some p /\ cm_pin_origin M n = Some (x, y) /\ In k (pin_marks num (geo (pin_mesh p)) (num x) (num y)) /\ on_mark q k.
Proof.
  intros num gp geo M node file plane f l P E Np Ln z q. unfold output_geometry in E. destruct node; [|discriminate]. cbn [negb] in E. fold z in E. destruct ((z <? 0)%Z || (Z.of_nat (cm_nz M) <=? z)%Z)%bool; [discriminate|]. unfold plane_pins in E. set (per := (cm_nx M * cm_ny M)%nat) in *.
  destruct (Nat.leb_spec (per * (Z.to_nat z + 1)) (length (sc_pins (cm_scan M)))) as [Le|]; [|discriminate]. set (pins := firstn per (skipn (per * Z.to_nat z) (sc_pins (cm_scan M)))) in *. destruct (draw_pins num geo M pins 0) as [l'|] eqn:Ed; [|discriminate]. injection E as <- <-.
  assert (Lp : length pins = per) by (unfold pins; rewrite firstn_length, skipn_length; lia). assert (Nn : pins <> []) by (intros Q; rewrite Q in Lp; cbn in Lp; lia).
  assert (Nth : forall n, (n < per)%nat -> nth_error pins n = nth_error (sc_pins (cm_scan M)) (per * Z.to_nat z + n)).
  { intros n Hn. unfold pins. rewrite BcProofs.nth_error_firstn_lt by exact Hn. apply BcProofs.nth_error_skipn'. }
  unfold inked. rewrite run_app. destruct (flat_lines num (mesh_lines (cm_xv M) (cm_yv M) (cm_hx M)) blank) as (cur & ->). cbn [blank c_off c_path c_ink ptx pty pt app].
  match goal with |- context [run l' ?c0] => destruct (run_pins num geo M pins 0 l' c0 P eq_refl Ed Nn) as (ms & -> & Hm) end. cbn [c_ink c_path app]. split.
  - intros (k & I & H). apply in_app_or in I. destruct I as [I|I].
    + left. apply in_map_iff in I. destruct I as (a & <- & Ia). exists a. auto.
    + right. apply Hm in I. destruct I as (n & p & x & y & A & B & C). assert (Hn : (n < per)%nat) by (rewrite <- Lp; apply nth_error_Some; congruence). rewrite Nth in A by exact Hn. destruct (proj1 (stroked_on num (geo (pin_mesh p)) (num x) (num y) q P (Ln p (nth_error_In _ _ A)))) as (k' & I' & H'); [now exists k|]. exists n, p, x, y, k'. auto.
  - intros [(a & Ia & H)|(n & p & x & y & k & Hn & A & B & I & H)].
    + exists (line_mark num 0 0 a). split; [apply in_or_app; left; now apply in_map|exact H].
    + destruct (proj2 (stroked_on num (geo (pin_mesh p)) (num x) (num y) q P (Ln p (nth_error_In _ _ A)))) as (k' & I' & H'); [now exists k|]. exists k'. split; [apply in_or_app; right; apply Hm; exists n, p, x, y; split; [rewrite Nth by exact Hn; exact A|auto]|exact H'].
Qed.
Print Assumptions C197_drawn.

(** C197: rectangular pins, and cylindrical ones made with two, four, six or eight sectors, have the line the circles are joined along. *)
Theorem C197_lined : (forall r, lined (GRect r)) /\
  forall id pitch xs azi sub pm, cyl_ctor id pitch xs azi sub = PVal pm -> growing 0 xs -> Forall (fun k => (1 <= k)%Z) sub -> In azi [2; 4; 6; 8]%Z -> REAL_FUZZ < pitch / 2 -> pitch / 2 < 10 ^ 11 -> lined (GCyl pm).
Proof.
  split; [intros r H; now elim H|]. intros id pitch xs azi sub pm H G K Ia H1 H2 _. assert (A1 : (1 <= azi)%Z) by (cbn in Ia; lia). destruct (cyl_ctor_inv id pitch xs azi sub pm H G K A1) as (Pp & _ & _ & El & Gr).
  assert (Hl : last (cp_radii pm) 0 <= pitch / 2).
  { unfold cyl_ctor, base_ctor in H. destruct (Z.ltb_spec id 0); [discriminate|]. destruct (Rleb_spec pitch 0) as [P|P]; [discriminate|]. cbn [pbind] in H. destruct xs as [|x0 xs]; [discriminate|]. set (xs' := x0 :: xs) in *. destruct (negb (ordered xs')); [discriminate|]. destruct (Rltb_spec (pitch * 0.5) (last xs' 0)); [discriminate|].
    destruct (negb (Z.rem azi 2 =? 0)%Z || (8 <? azi)%Z); [discriminate|]. destruct (Nat.eqb_spec (length sub) (length xs')) as [L|L]; [|discriminate]. cbn [negb] in H. destruct (mesh_radii xs' sub 0 0) as [radii| |] eqn:M; try discriminate. cbn [pbind] in H. destruct radii as [|q0 radii]; [discriminate|]. injection H as <-.
    destruct (mesh_radii_spec xs' sub 0 azi (Rle_refl 0) G L K A1) as [rr [E [_ [E2 [E3 _]]]]]. rewrite M in E. injection E as <-. cbn [cp_radii]. rewrite E2. lra. }
  assert (E : exists i, (i < Z.to_nat azi)%nat /\ ray_dir azi i = PI) by (exists (Z.to_nat (azi / 2)); unfold ray_dir; cbn in Ia; destruct Ia as [<-|[<-|[<-|[<-|[]]]]]; (split; [cbn; lia|]); [change (Z.to_nat (2 / 2)) with 1%nat|change (Z.to_nat (4 / 2)) with 2%nat|change (Z.to_nat (6 / 2)) with 3%nat|change (Z.to_nat (8 / 2)) with 4%nat]; cbn [INR]; field).
  destruct E as (i & Hi & Er). destruct (azi_lines_has pitch azi i 1 0 H1 H2 Hi) as (m & M0 & Im & Mm); [rewrite Er, cos_PI; ring|rewrite Er, sin_PI; ring|rewrite Rabs_R1, Rabs_R0; lra|lia|].
  exists m. cbn [geo_lines geo_radii]. rewrite El. split; [unfold origin in Im; rewrite Rmult_1_r, Rmult_0_r in Im; exact Im|]. assert (Mh : pitch / 2 <= m) by (apply Mm; [lra|rewrite Rmult_1_r, Rabs_pos_eq; lra|rewrite Rmult_0_r, Rabs_R0; lra]).
  apply Forall_forall. intros r Ir. destruct (growing_last _ _ _ Gr Ir) as [B1 B2]. lra.
Qed.
(** C197: without the input, or for a plane the core does not have, nothing is written; otherwise the file named, or the usual one, is. *)
Theorem C197_accepted : forall num gp geo M node file plane, let z := match plane with Some z => z | None => 0%Z end in
  (output_geometry num gp geo M node file plane = DThrow <-> node = false \/ ~ (0 <= z < Z.of_nat (cm_nz M))%Z) /\
  forall f l, output_geometry num gp geo M node file plane = DScript f l -> f = match file with Some f => f | None => gp end.
Proof.
  intros num gp geo M node file plane z. unfold output_geometry. fold z. destruct node; cbn [negb]; [|split; [split; [now left|reflexivity]|intros; discriminate]].
  destruct (Z.ltb_spec z 0), (Z.leb_spec (Z.of_nat (cm_nz M)) z); cbn [orb]; try (split; [split; [intros _; right; lia|reflexivity]|intros; discriminate]).
  destruct (plane_pins M (Z.to_nat z)); [destruct (draw_pins num geo M _ 0)|]; (split; [split; [discriminate|intros [Q|Q]; [discriminate|lia]]|intros f l' Q; try discriminate]). now injection Q as <- <-.
Qed.
Print Assumptions C197_lined.
Print Assumptions C197_accepted.

(** Two assemblies of one pin side by side, each pin of side 2 with a circle of radius 1/2 and four sectors: a point of the circle of the
    second pin is drawn, one in its corner is not. *)
Example C197_instance : exists M pm f l, make_core_mesh Reqb coreN = Got M /\ cyl_ctor 0 2 [1 / 2] 4 [1%Z] = PVal pm /\ printing (fun x => x) /\ (0 < cm_nx M * cm_ny M)%nat /\ lined (GCyl pm) /\
  output_geometry (fun x => x) 7 (fun _ => GCyl pm) M true None None = DScript f l /\ f = 7%nat /\ inked l (pt 3 (3 / 2)) /\ ~ inked l (pt (7 / 2) (9 / 5)) /\ output_geometry (fun x => x) 7 (fun _ => GCyl pm) M true None (Some 1%Z) = DThrow.
Proof.
  assert (MN : exists M, make_core_mesh Reqb coreN = Got M /\ cm_xv M = psums 0 [2%R; 2%R] /\ cm_yv M = psums 0 [2%R] /\ cm_hx M = last (psums 0 [2%R; 2%R]) 0 /\ cm_nx M = 2%nat /\ cm_ny M = 1%nat /\ cm_nz M = 1%nat /\ sc_pins (cm_scan M) = [pin2; pin2] /\ sc_planes (cm_scan M) = [mkPlane [latA; latA] 2 1 2 1 2 2 (psums 0 [2%R; 2%R]) (psums 0 [2%R]) [0; 1]%nat 0 2]).
  { unfold make_core_mesh. cbn [co_asys coreN as_nz asyN]. unfold scan_planes. cbn [seq fold_out]. unfold scan_plane at 1. cbn [plane_lats co_asys coreN map as_lats asyN nth_error all_some co_nx co_ny].
    rewrite planeN. cbn -[psums Rplus]. eexists. repeat split. }
  destruct MN as (M & E & X & Y & Hx & Nx & Ny & Nz & Pi & Pl).
  assert (Gr : growing 0 [1 / 2]) by (cbn; lra). destruct (mesh_radii_spec [1 / 2] [1%Z] 0 4 (Rle_refl 0) Gr eq_refl ltac:(repeat constructor; lia) ltac:(lia)) as (rr & Mr & _ & La & _ & Ln). cbn [fold_right] in Ln. destruct rr as [|r0 [|]]; cbn [length] in Ln; [lia| |lia]. cbn [last] in La. subst r0.
  eexists M, _. assert (Cy := cyl_ctor_eval 0 2 (1 / 2) [] 4 [1%Z] [1 / 2] ltac:(lia) ltac:(lra) eq_refl ltac:(cbn; lra) eq_refl ltac:(lia) eq_refl Mr ltac:(discriminate)). set (pm := mkCyl _ _ _ _ _ _ _) in Cy.
  assert (Li : lined (GCyl pm)) by (apply (proj2 C197_lined 0%Z 2 [1 / 2] 4%Z [1%Z] pm Cy Gr); [repeat constructor; lia|cbn; auto|pose proof fuzz_small; lra|cbn; lra]).
  assert (Pr : printing (fun x => x)) by (split; [reflexivity|]; split; auto).
  assert (Or : cm_pin_origin M 0 = Some ((0 + (0 + 2)) * 0.5, (0 + (0 + 2)) * 0.5)%R /\ cm_pin_origin M 1 = Some ((0 + 2 + (0 + 2 + 2)) * 0.5, (0 + (0 + 2)) * 0.5)%R) by (unfold cm_pin_origin, cm_pin_position; rewrite Nx, Ny, Pl, X, Y; split; reflexivity). destruct Or as [O0 O1].
  assert (S0 : exists l, output_geometry (fun x => x) 7 (fun _ => GCyl pm) M true None None = DScript 7 l).
  { unfold output_geometry, plane_pins. cbn [negb]. rewrite Nx, Ny, Nz, Pi. cbn [draw_pins firstn skipn Nat.mul Nat.add Z.to_nat length Nat.leb Z.ltb Z.leb Z.compare orb Z.of_nat]. rewrite O0, O1. eexists. reflexivity. }
  destruct S0 as (l & Sl). exists 7%nat, l. split; [exact E|]. split; [exact Cy|]. split; [exact Pr|]. split; [rewrite Nx, Ny; cbn; lia|]. split; [exact Li|]. split; [exact Sl|]. split; [reflexivity|].
  pose proof (C197_drawn (fun x => x) 7 (fun _ => GCyl pm) M true None None 7 l Pr Sl ltac:(rewrite Nx, Ny; cbn; lia) (fun _ _ => Li)) as D. cbn zeta in D. rewrite Nx, Ny, Pi, X, Y, Hx in D. split; [|split].
  - apply D. right. exists 1%nat, pin2, ((0 + 2 + (0 + 2 + 2)) * 0.5)%R, ((0 + (0 + 2)) * 0.5)%R, (Circ (pt ((0 + 2 + (0 + 2 + 2)) * 0.5) ((0 + (0 + 2)) * 0.5)) (1 / 2)). split; [cbn; lia|]. split; [reflexivity|]. split; [exact O1|]. split; [apply in_or_app; right; left; reflexivity|]. cbn [on_mark pt ptx pty]. lra.
  - intros Q. apply D in Q. destruct Q as [(a & Ia & t & T & Qx & Qy)|(n & p & x & y & k & Hn & _ & Eo & Ik & Q)].
    + unfold mesh_lines, interior in Ia. cbn in Ia. destruct Ia as [<-|[]]. cbn in Qx, Qy. lra.
    + assert (Xy : (x = 1 \/ x = 3) /\ y = 1) by (destruct n as [|[|n]]; [rewrite O0 in Eo; injection Eo as <- <-; split; [left|]; lra|rewrite O1 in Eo; injection Eo as <- <-; split; [right|]; lra|cbn in Hn; lia]). destruct Xy as [Hx' ->].
      apply in_app_or in Ik. destruct Ik as [Ik|[<-|[]]].
      * apply in_map_iff in Ik. destruct Ik as (a & <- & Ia). destruct (azi4 a Ia) as (A1 & A2). unfold line_mark in Q. rewrite A1 in Q. destruct Q as (t & T & Qx & Qy). destruct A2 as [(s & Hs & A2)|(s & Hs & A2)]; rewrite A2 in Qx, Qy; cbn in Qx, Qy; destruct Hx' as [-> | ->], Hs as [-> | ->]; lra.
      * cbn [on_mark pt ptx pty] in Q. destruct Hx' as [-> | ->]; lra.
  - unfold output_geometry. rewrite Nz. reflexivity.
Qed.
