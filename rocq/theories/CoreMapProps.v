(** Property C78: the core map. *)
From Coq Require Import List Lia Bool Reals Lra ZArith Arith.
From Verif Require Import RUtil McModel McProofs ListUtil StdAlg StdAlgProofs MatModel MatProps BcModel CoreModel CoreProofs BcProofs LatProps PlaneProps EquivProps AsmModel AsmProps.
Import ListNotations.
Open Scope nat_scope.

(** The facts about an accepted assembly (with plane heights) used below. *)
Record wf_asy (A : Assembly) : Prop := {
  wa_nz : 1 <= as_nz A; wa_len : length (as_lats A) = as_nz A; wa_dz : length (as_dz A) = as_nz A; wa_sub : list_sum (as_sub A) = as_nz A;
  wa_lat : forall L, In L (as_lats A) -> wf_lat L;
  wa_grid : forall L M, In L (as_lats A) -> In M (as_lats A) -> same_grid L M /\ lat_hx L = as_hx A /\ lat_hy L = as_hy A;
  wa_nreg : as_nreg A = list_sum (map lat_nreg (as_lats A)); wa_nxs : as_nxs A = list_sum (map lat_nxs (as_lats A))
}.
Lemma made_asy : forall lattices id np hz hzs blocks A, (0 < np < 2 ^ 32)%Z ->
  (forall i L, map_at Z.eqb lattices i = Some L -> wf_lat L) -> (forall h, hz = Some h -> (0 < h)%R) ->
  make_assembly lattices id np hz hzs blocks = Got A -> wf_asy A.
Proof.
  intros lattices id np hz hzs blocks A Hnp HL Hh E.
  destruct (C77_assembly_order _ _ _ _ _ _ _ Hnp HL E) as (LL & G & _ & Sm & SG & R1 & R2 & D1 & D2).
  destruct (assembly_shape _ _ _ _ _ _ _ Hnp E) as (_ & _ & _ & H & _ & Nz & _).
  constructor; try rewrite Nz; auto; try lia.
  - destruct hzs as [l|]; [now destruct (D1 l eq_refl) as (_ & ? & _)|]. unfold asy_heights in H. destruct hz as [h|]; [|discriminate].
    rewrite (D2 h eq_refl (Hh h eq_refl)). apply repeat_length.
  - intros L I. apply In_nth_error in I. destruct I as [k I]. destruct (G k) as (M & E1 & E2). { rewrite <- LL. apply nth_error_Some. congruence. }
    rewrite I in E1. injection E1 as <-. unfold listed in E2. destruct (nth_error _ _) in E2; [|discriminate]. eauto.
Qed.

Lemma same_heights_total : forall ulp n a b, n <= length a -> n <= length b -> exists r, same_heights ulp n a b = Some r /\
  (r = true <-> forall k x y, k < n -> nth_error a k = Some x -> nth_error b k = Some y -> ulp x y = true).
Proof.
  intros ulp. induction n as [|n IH]; intros a b La Lb; cbn [same_heights].
  - exists true. split; auto. split; auto. intros; lia.
  - destruct a as [|x a]; [cbn in La; lia|]. destruct b as [|y b]; [cbn in Lb; lia|]. cbn in La, Lb.
    destruct (ulp x y) eqn:U.
    + destruct (IH a b ltac:(lia) ltac:(lia)) as (r & E & H). exists r. split; auto. rewrite H. split.
      * intros K [|k] u v Hk Eu Ev; cbn in Eu, Ev; [congruence|]. apply (K k u v); auto. lia.
      * intros K k u v Hk Eu Ev. apply (K (S k) u v); auto. lia.
    + exists false. split; auto. split; [discriminate|]. intros K. rewrite (K 0 x y) in U by (auto; lia). discriminate.
Qed.
(** Specification: assemblies that stack alike: equally many planes of (nearly) the same heights in the same blocks. *)
Definition stacks_alike (ulp : R -> R -> bool) (A B : Assembly) : Prop :=
  as_nz A = as_nz B /\ as_sub A = as_sub B /\ forall k x y, nth_error (as_dz A) k = Some x -> nth_error (as_dz B) k = Some y -> ulp x y = true.
Lemma combine_eq : forall a b, length a = length b -> forallb (fun q => fst q =? snd q) (combine a b) = true <-> a = b.
Proof.
  induction a as [|x a IH]; intros [|y b] L; cbn in L; try discriminate; [cbn; tauto|]. cbn [combine forallb fst snd].
  rewrite andb_true_iff, IH by lia. rewrite Nat.eqb_eq. split; [intros [-> ->]; auto|]. intros H. injection H as -> ->. auto.
Qed.
Lemma asy_compatible_spec : forall ulp A B, wf_asy A -> wf_asy B -> exists b, asy_compatible ulp A B = Some b /\ (b = true <-> stacks_alike ulp A B).
Proof.
  intros ulp A B WA WB. unfold asy_compatible, stacks_alike. rewrite (wa_len A WA), (wa_len B WB).
  destruct (Nat.eqb_spec (as_nz A) (as_nz B)) as [N|N]; cbn [negb].
  2:{ exists false. split; auto. split; [discriminate|]. intros [H _]. contradiction. }
  destruct (Nat.eqb_spec (length (as_sub A)) (length (as_sub B))) as [S|S]; cbn [negb].
  2:{ exists false. split; auto. split; [discriminate|]. intros (_ & H & _). rewrite H in S. contradiction. }
  destruct (same_heights_total ulp (as_nz A) (as_dz A) (as_dz B)) as (r & -> & H). { rewrite (wa_dz A WA). lia. } { rewrite (wa_dz B WB). lia. }
  destruct r.
  - eexists. split; [reflexivity|]. rewrite combine_eq by auto. split.
    + intros E. split; auto. split; auto. intros k x y Ex Ey. apply (proj1 H eq_refl k x y); auto. rewrite <- (wa_dz A WA). apply nth_error_Some. congruence.
    + intros (_ & E & _). exact E.
  - exists false. split; auto. split; [discriminate|]. intros (_ & _ & K). apply H. intros k x y _. apply K.
Qed.

Record wf_core (ulp : R -> R -> bool) (C : Core) : Prop := {
  wc_nx : 1 <= co_nx C; wc_ny : 1 <= co_ny C; wc_len : length (co_asys C) = co_nx C * co_ny C;
  wc_asy : forall A, In A (co_asys C) -> wf_asy A;
  wc_stack : forall A0, nth_error (co_asys C) 0 = Some A0 -> forall A, In A (co_asys C) -> stacks_alike ulp A0 A;
  wc_npinx : co_npinx C = list_sum (map (fun X => match nth_error (co_asys C) X with Some A => as_nx A | None => 0 end) (seq 0 (co_nx C)));
  wc_npiny : co_npiny C = list_sum (map (fun Y => match nth_error (co_asys C) (Y * co_nx C) with Some A => as_ny A | None => 0 end) (seq 0 (co_ny C)))
}.

Lemma reads_row' : forall {P Q} (ls : list P) nx ny (f : P -> Q) d q, reads ls f (map (fun iy => iy * nx) (seq 0 ny)) = Some q ->
  q = map (fun Y => match nth_error ls (Y * nx) with Some l => f l | None => d end) (seq 0 ny).
Proof.
  intros P Q ls nx ny f d q E. destruct (reads_map ls f _ q E) as [L H]. rewrite map_length, seq_length in L. apply list_eq_nth; [now rewrite map_length, seq_length|].
  intros k a K. assert (k < ny) as Hk by (rewrite <- L; apply nth_error_Some; congruence). rewrite nth_error_map, nth_seq by auto. cbn [option_map].
  destruct (H k (k * nx)) as (p & N & Q1). { rewrite nth_error_map, nth_seq by auto. reflexivity. } rewrite N. congruence.
Qed.
Lemma reads_col' : forall {P Q} (ls : list P) nx (f : P -> Q) d q, reads ls f (seq 0 nx) = Some q ->
  q = map (fun X => match nth_error ls X with Some l => f l | None => d end) (seq 0 nx).
Proof.
  intros P Q ls nx f d q E. destruct (reads_map ls f _ q E) as [L H]. rewrite seq_length in L. apply list_eq_nth; [now rewrite map_length, seq_length|].
  intros k a K. assert (k < nx) as Hk by (rewrite <- L; apply nth_error_Some; congruence). rewrite nth_error_map, nth_seq by auto. cbn [option_map].
  destruct (H k k) as (p & N & Q1); [now apply nth_seq|]. rewrite N. congruence.
Qed.

(** C78.  For a map of the right size whose identifiers are known, a core is accepted exactly when every boundary
    attribute is "vacuum", "reflect" or "prescribed" and all assemblies stack like the first; the assembly in column x
    and row y counted from the bottom is the one drawn there; otherwise construction throws. *)
Theorem C78_core_map : forall ulp assemblies nx0 ny0 bcs ids, (0 < nx0)%Z -> (0 < ny0)%Z -> (nx0 * ny0 < 2 ^ 32)%Z ->
  (forall i A, map_at Z.eqb assemblies i = Some A -> wf_asy A) ->
  let nx := Z.to_nat nx0 in let ny := Z.to_nat ny0 in
  let fine := (forall b, In b bcs -> b = Some VACUUM \/ b = Some REFLECT \/ b = Some PRESCRIBED) /\ length ids = nx * ny /\ known assemblies ids /\
    (forall x y A B, x < nx -> y < ny -> drawn assemblies ids nx ny 0 0 = Some A -> drawn assemblies ids nx ny x y = Some B -> stacks_alike ulp A B) in
  (fine -> exists C, make_core ulp assemblies nx0 ny0 bcs ids = Got C /\ wf_core ulp C /\ co_nx C = nx /\ co_ny C = ny /\
     map Some (co_bc C) = bcs /\ (forall x y, x < nx -> y < ny -> nth_error (co_asys C) (y * nx + x) = drawn assemblies ids nx ny x y)) /\
  (~ fine -> make_core ulp assemblies nx0 ny0 bcs ids = Threw).
Proof.
  intros ulp assemblies nx0 ny0 bcs ids Hx Hy Hxy HA nx ny fine.
  assert (nx0 < 2 ^ 32 /\ ny0 < 2 ^ 32)%Z as [Bx By] by (split; nia).
  assert (1 <= nx /\ 1 <= ny) as [Px Py] by (unfold nx, ny; lia).
  assert (Z.to_nat (nx0 * ny0) = nx * ny) as Nxy by (unfold nx, ny; nia).
  assert (Hb : existsb (fun b => match bc_parse b with INVALID => true | _ => false end) bcs = false <->
     (forall b, In b bcs -> b = Some VACUUM \/ b = Some REFLECT \/ b = Some PRESCRIBED)).
  { split.
    - intros E b I.
      assert ((match bc_parse b with INVALID => true | _ => false end) = false) as Q
        by (destruct (match bc_parse b with INVALID => true | _ => false end) eqn:T; auto;
            assert (existsb (fun b => match bc_parse b with INVALID => true | _ => false end) bcs = true) by (apply existsb_exists; eauto); congruence).
      destruct b as [[]|]; cbn in Q; try discriminate; auto.
    - intros H. destruct (existsb _ bcs) eqn:E; auto. apply existsb_exists in E. destruct E as (b & I & T). destruct (H b I) as [-> | [-> | ->]]; discriminate. }
  assert (Go : make_core ulp assemblies nx0 ny0 bcs ids =
    if existsb (fun b => match bc_parse b with INVALID => true | _ => false end) bcs then Threw
    else if negb (Z.of_nat (length ids) =? nx0 * ny0)%Z then Threw
    else match place_pins assemblies ids nx ny (nx * ny) with
    | Threw => Threw
    | Undef => Undef
    | Got st =>
        match all_some st with
        | None => Undef
        | Some asys =>
            match check_compatible ulp asys with
            | Threw => Threw
            | Undef => Undef
            | Got _ =>
                match reads asys as_nx (seq 0 nx), reads asys as_ny (map (fun iy => iy * nx) (seq 0 ny)) with
                | Some cx, Some cy => Got (mkCore nx ny (list_sum cx) (list_sum cy) (map bc_parse bcs) asys)
                | _, _ => Undef
                end
            end
        end
    end).
  { unfold make_core. rewrite !u32_small by (try rewrite !u32_small; nia). destruct (Z.ltb_spec nx0 1); [lia|]. destruct (Z.ltb_spec ny0 1); [lia|]. cbn [orb].
    rewrite Nxy. reflexivity. }
  rewrite Go. clear Go.
  destruct (existsb _ bcs) eqn:EB.
  { split; [|auto]. intros (F & _). apply Hb in F. congruence. }
  destruct (Z.eqb_spec (Z.of_nat (length ids)) (nx0 * ny0)%Z) as [Hl|Hl]; cbn [negb].
  2:{ split; [|auto]. intros (_ & F & _). exfalso. apply Hl. unfold nx, ny in F. nia. }
  assert (length ids = nx * ny) as Hl' by (unfold nx, ny; nia).
  assert (Dec : known assemblies ids \/ ~ known assemblies ids).
  { destruct (find_all assemblies ids) eqn:F.
    - left. intros i I. apply In_nth_error in I. destruct I as [k K]. destruct (find_all_got _ _ _ F) as [L N]. rewrite <- (N k i K). apply nth_error_Some. rewrite L. apply nth_error_Some. congruence.
    - right. intros K. destruct (find_all_known _ _ K). congruence.
    - right. intros K. destruct (find_all_known _ _ K). congruence. }
  destruct Dec as [K|K].
  2:{ rewrite place_throws by auto. split; [|auto]. intros (_ & _ & F & _). contradiction. }
  destruct (place_ok assemblies ids nx ny Hl' K) as (asys & -> & La & Nth).
  assert (all_some (map Some asys) = Some asys) as -> by now apply all_some_spec.
  assert (WA : forall A, In A asys -> wf_asy A).
  { intros A I. apply In_nth_error in I. destruct I as [k Nk]. assert (k < nx * ny) as Hk by (rewrite <- La; apply nth_error_Some; congruence).
    destruct (index_split nx ny k Hk) as (y & x & Y & X & ->). rewrite (Nth x y X Y) in Nk. unfold drawn in Nk.
    destruct (nth_error ids ((ny - 1 - y) * nx + x)); [|discriminate]. eauto. }
  destruct asys as [|A0 rest] eqn:Ea. { cbn in La. pose proof (index_bound nx ny 0 0 ltac:(lia) ltac:(lia)). lia. }
  rewrite <- Ea in *. assert (N0 : nth_error asys 0 = Some A0) by now rewrite Ea.
  assert (D0 : drawn assemblies ids nx ny 0 0 = Some A0) by (rewrite <- (Nth 0 0) by lia; exact N0).
  assert (W0 : wf_asy A0) by (apply WA; eapply nth_error_In; eauto).
  assert (CC : check_compatible ulp asys = fold_out (fun _ a => match asy_compatible ulp A0 a with Some true => Got tt | Some false => Threw | None => Undef end) tt asys)
    by (unfold check_compatible; now rewrite Ea).
  rewrite CC. clear CC.
  rewrite (fold_out_ext _ (fun _ a => match (match asy_compatible ulp A0 a with Some b => Got b | None => Undef end) with Got true => Got tt | Got false => Threw | Threw => Threw | Undef => Undef end))
    by (intros ? a; destruct (asy_compatible ulp A0 a) as [[|]|]; auto).
  rewrite fold_check by (intros a I; destruct (asy_compatible_spec ulp A0 a W0 (WA a I)) as (b & -> & _); eauto).
  assert (CS : forallb (fun x => match match asy_compatible ulp A0 x with Some b => Got b | None => Undef end with Got b => b | _ => false end) asys = true <->
    (forall A, In A asys -> stacks_alike ulp A0 A)).
  { rewrite forallb_forall. split; intros H A I; specialize (H A I); destruct (asy_compatible_spec ulp A0 A W0 (WA A I)) as (b & Eb & Sb).
    - rewrite Eb in H. now apply Sb.
    - rewrite Eb. now apply Sb. }
  destruct (forallb _ asys) eqn:FB.
  - pose proof (proj1 CS eq_refl) as ST.
    destruct (reads_spec asys as_nx (seq 0 nx)) as [cx E1].
    { intros i I. apply in_seq in I. pose proof (index_bound nx ny 0 i ltac:(lia) ltac:(lia)). lia. }
    destruct (reads_spec asys as_ny (map (fun iy => iy * nx) (seq 0 ny))) as [cy E2].
    { intros i I. apply in_map_iff in I. destruct I as (y & <- & I). apply in_seq in I. pose proof (index_bound nx ny y 0 ltac:(lia) ltac:(lia)). lia. }
    destruct E1 as [E1 _]. destruct E2 as [E2 _]. rewrite E1, E2. split.
    + intros _. eexists. split; [reflexivity|]. cbn. split; [|repeat split; auto].
      * constructor; cbn; auto.
        -- intros A EA. change (nth_error asys 0 = Some A) in EA. assert (A = A0) by congruence. subst A. exact ST.
        -- now rewrite (reads_col' asys nx as_nx 0 cx E1).
        -- now rewrite (reads_row' asys nx ny as_ny 0 cy E2).
      * pose proof (proj1 Hb eq_refl) as HB. clear - HB. induction bcs as [|b bcs IH]; auto. cbn [map]. rewrite IH by (intros c I; apply HB; now right).
        destruct (HB b (or_introl eq_refl)) as [-> | [-> | ->]]; reflexivity.
    + intros NF. exfalso. apply NF. split; [now apply Hb|]. split; auto. split; auto. intros x y A B X Y EA EBB. assert (A = A0) by congruence. subst A.
      apply ST. rewrite <- (Nth x y X Y) in EBB. eapply nth_error_In; eauto.
  - split; auto. intros (_ & _ & _ & F). assert (false = true) as Q; [|discriminate]. apply CS. intros A I. apply In_nth_error in I. destruct I as [k Nk].
    assert (k < nx * ny) as Hk by (rewrite <- La; apply nth_error_Some; congruence). destruct (index_split nx ny k Hk) as (y & x & Y & X & ->).
    apply (F x y A0 A X Y D0). now rewrite <- (Nth x y X Y).
Qed.
Print Assumptions C78_core_map.

(** C78 fails for negative dimensions: -1 by -1 with one assembly passes every check and then writes outside the map. *)
Theorem C78_negative_dimensions_refuted : forall ulp A bcs, (forall b, In b bcs -> b = Some VACUUM) ->
  exists nx0 ny0 ids, (nx0 < 0)%Z /\ (ny0 < 0)%Z /\ make_core ulp [(1%Z, A)] nx0 ny0 bcs ids <> Threw.
Proof.
  intros ulp A bcs HB. exists (-1)%Z, (-1)%Z, [1%Z]. split; [lia|]. split; [lia|]. unfold make_core.
  replace (existsb _ bcs) with false.
  2:{ symmetry. destruct (existsb _ bcs) eqn:E; auto. apply existsb_exists in E. destruct E as (b & I & T). rewrite (HB b I) in T. discriminate. }
  rewrite u32_m1. change (u32 ((2 ^ 32 - 1) * (2 ^ 32 - 1))) with 1%Z. change ((2 ^ 32 - 1 <? 1) || (2 ^ 32 - 1 <? 1))%Z with false.
  change (Z.of_nat (length [1%Z])) with 1%Z. rewrite Z.eqb_refl. cbn [negb]. change (Z.to_nat 1) with 1.
  set (n := Z.to_nat (2 ^ 32 - 1)). assert (2 <= n) as Hn by (unfold n; lia). clearbody n.
  destruct n as [|[|n]]; [lia|lia|]. unfold place_pins, yx_loop. rewrite <- !cons_seq. cbn [flat_map map app fold_out].
  change (nth_error [1%Z] (0 * S (S n) + 0)) with (Some 1%Z). cbn [map_at Z.eqb Pos.eqb fst snd].
  destruct (set_nth (repeat None 1) ((S (S n) - 0 - 1) * S (S n) + 0) (Some A)) as [st|] eqn:E; [|discriminate].
  apply set_nth_spec in E. destruct E as (_ & E & _). cbn [repeat length] in E. replace (S (S n) - 0 - 1) with (S n) in E by lia. cbn [Nat.mul] in E. lia.
Qed.
Print Assumptions C78_negative_dimensions_refuted.

(** ParseCore: exactly one enabled core tag. *)
Theorem C78_one_enabled_core : forall cores C, parse_core cores = Got C <->
  exists pre post, cores = pre ++ (true, Got C) :: post /\ (forall c, In c pre \/ In c post -> fst c = false).
Proof.
  assert (G : forall (cores : list (bool * Out Core)) (s : list Core) (C : Core), match fold_out (fun s c => if fst c : bool then match snd c with Got x => Got (s ++ [x]) | Threw => Threw | Undef => Undef end else Got s) s cores with
     | Got [c] => Got c | Got _ => Threw | Threw => Threw | Undef => Undef end = Got C <->
     (s = [C] /\ forall c, In c cores -> fst c = false) \/
     (s = [] /\ exists pre post, cores = pre ++ (true, Got C) :: post /\ (forall c, In c pre \/ In c post -> fst c = false))).
  { induction cores as [|[e o] cores IH]; intros s C; cbn [fold_out].
    - split.
      + destruct s as [|c [|d s]]; try discriminate. intros [= ->]. left. split; auto. intros ? [].
      + intros [[-> _] | (_ & pre & post & E & _)]; auto. destruct pre; discriminate.
    - cbn [fst snd]. destruct e.
      + destruct o as [x| |].
        * rewrite IH. split.
          -- intros [[E H] | [E _]]; [|destruct s; discriminate]. destruct s as [|a s]; [|destruct s; discriminate]. injection E as ->.
             right. split; auto. exists [], cores. split; auto. intros c [[]|I]; auto.
          -- intros [[_ H] | [-> (pre & post & E & H)]].
             ++ specialize (H (true, Got x) (or_introl eq_refl)). discriminate.
             ++ left. destruct pre as [|p pre]; cbn [app] in E.
                ** injection E as -> ->. split; auto.
                ** injection E as <- E. specialize (H _ (or_introl (or_introl eq_refl))). discriminate.
        * split; [discriminate|]. intros [[_ H] | (_ & pre & post & E & H)].
          -- specialize (H _ (or_introl eq_refl)). discriminate.
          -- destruct pre as [|p pre]; cbn [app] in E; [discriminate|]. injection E as <- E. specialize (H _ (or_introl (or_introl eq_refl))). discriminate.
        * split; [discriminate|]. intros [[_ H] | (_ & pre & post & E & H)].
          -- specialize (H _ (or_introl eq_refl)). discriminate.
          -- destruct pre as [|p pre]; cbn [app] in E; [discriminate|]. injection E as <- E. specialize (H _ (or_introl (or_introl eq_refl))). discriminate.
      + rewrite IH. split.
        * intros [[E H] | [E (pre & post & -> & H)]]; [left|right]; (split; [exact E|]).
          -- intros c [<-|I]; auto.
          -- exists ((false, o) :: pre), post. split; auto. intros c [[<-|I]|I]; auto.
        * intros [[E H] | [E (pre & post & E2 & H)]]; [left|right]; (split; [exact E|]).
          -- intros c I. apply H. now right.
          -- destruct pre as [|p pre]; cbn [app] in E2; [discriminate|]. injection E2 as <- ->. exists pre, post. split; auto.
             intros c [I|I]; apply H; [left; now right | now right]. }
  intros cores C. unfold parse_core. rewrite G. split; [intros [[E _]|[_ H]]; [discriminate|exact H] | intros H; right; split; auto].
Qed.
Print Assumptions C78_one_enabled_core.

(** A 2x1 core of one assembly is accepted. *)
Definition asyA : Assembly := mkAsy 7 1 [1%R] 2 2 1 1 [1] [latA].
Lemma wf_asyA : wf_asy asyA.
Proof.
  constructor; cbn; auto.
  - intros L [<- | []]. apply wf_A.
  - intros L M [<- | []] [<- | []]. cbn. repeat split.
Qed.
Example C78_instance : exists C, make_core Reqb [(7%Z, asyA)] 2 1 [Some VACUUM; Some REFLECT] [7; 7]%Z = Got C /\ wf_core Reqb C /\ co_nx C = 2.
Proof.
  destruct (C78_core_map Reqb [(7%Z, asyA)] 2 1 [Some VACUUM; Some REFLECT] [7; 7]%Z) as [H _]; try lia.
  { intros i A. cbn. destruct (Z.eqb_spec i 7); [|discriminate]. intros [= <-]. apply wf_asyA. }
  destruct H as (C & E & W & N & _).
  - split; [intros b [<- | [<- | []]]; auto|]. split; auto. split.
    + intros i [<- | [<- | []]]; cbn; discriminate.
    + intros x y A B X Y EA EB. assert (forall q w, drawn [(7%Z, asyA)] [7%Z; 7%Z] (Z.to_nat 2) (Z.to_nat 1) q w = Some B -> B = asyA) as D.
      { intros q w. unfold drawn. destruct (nth_error [7%Z; 7%Z] ((Z.to_nat 1 - 1 - w) * Z.to_nat 2 + q)) as [i|] eqn:N; [|discriminate].
        apply nth_error_In in N. destruct N as [<- | [<- | []]]; cbn; congruence. }
      rewrite (D _ _ EB). cbn in EA. injection EA as <-. split; auto. split; auto. intros [|k] u v; cbn; [|destruct k; discriminate].
      intros [= <-] [= <-]. destruct (Reqb_spec 1 1); auto.
  - exists C. auto.
Qed.
