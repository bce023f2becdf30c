(** Properties C77 and C78: assemblies and the core map. *)
From Coq Require Import List Lia Bool Reals Lra ZArith Arith.
From Verif Require Import RUtil McModel McProofs ListUtil StdAlg StdAlgProofs MatModel MatProps BcModel CoreModel CoreProofs BcProofs LatProps PlaneProps EquivProps AsmModel.
Import ListNotations.
Open Scope nat_scope.

Lemma concat_rev : forall {A} (b : list (list A)), concat (map (@rev A) (rev b)) = rev (concat b).
Proof.
  intros A. induction b as [|x b IH]; auto. cbn [rev concat]. rewrite map_app, concat_app, IH, rev_app_distr. cbn [map concat]. now rewrite app_nil_r.
Qed.
Lemma length_concat : forall {A} (b : list (list A)), length (concat b) = list_sum (map (@length A) b).
Proof. intros A. induction b as [|x b IH]; auto. cbn [concat map]. rewrite app_length, IH. reflexivity. Qed.
Lemma map_len_rev : forall {A} (b : list (list A)), map (@length A) (map (@rev A) (rev b)) = rev (map (@length A) b).
Proof. intros A b. rewrite map_map, map_rev. f_equal. apply map_ext. intros l. apply rev_length. Qed.
Lemma nth_rev : forall {A} (l : list A) k, k < length l -> nth_error (rev l) k = nth_error l (length l - 1 - k).
Proof.
  intros A l k H. destruct l as [|x l0] eqn:E; [cbn in H; lia|]. rewrite <- E in *.
  rewrite (nth_error_nth' (rev l) x) by (rewrite rev_length; lia). rewrite (nth_error_nth' l x) by lia. f_equal.
  rewrite rev_nth by lia. f_equal. lia.
Qed.

Lemma find_all_got : forall {P} (m : list (Z * P)) ids ls, find_all m ids = Got ls -> length ls = length ids /\
  forall k i, nth_error ids k = Some i -> nth_error ls k = map_at Z.eqb m i.
Proof.
  intros P m. induction ids as [|i ids IH]; intros ls E; cbn [find_all] in E.
  - injection E as <-. split; auto. intros [|k] i H; discriminate.
  - destruct (map_at Z.eqb m i) as [p|] eqn:M; [|discriminate]. destruct (find_all m ids) as [q| |] eqn:F; try discriminate.
    injection E as <-. destruct (IH q eq_refl) as [L H]. split; [cbn; lia|]. intros [|k] j J; cbn in J; [injection J as <-; cbn; auto|]. cbn. auto.
Qed.
Lemma find_all_known : forall {P} (m : list (Z * P)) ids, known m ids -> exists ls, find_all m ids = Got ls.
Proof.
  intros P m. induction ids as [|i ids IH]; intros K; cbn [find_all]; [eauto|].
  pose proof (K i (or_introl eq_refl)) as Ki. destruct (map_at Z.eqb m i); [|congruence].
  destruct IH as [ls ->]; [intros j J; apply K; now right|]. eauto.
Qed.
Lemma find_all_unknown : forall {P} (m : list (Z * P)) ids, ~ known m ids -> find_all m ids = Threw.
Proof.
  intros P m. induction ids as [|i ids IH]; intros K; cbn [find_all]; [exfalso; apply K; intros ? []|].
  destruct (map_at Z.eqb m i) eqn:E; auto. rewrite IH; auto. intros K2. apply K. intros j [<-|J]; [congruence|auto].
Qed.
Lemma req_list_spec : forall a b, length a = length b -> req_list a b = true <-> a = b.
Proof.
  induction a as [|x a IH]; intros [|y b] L; cbn in L; try discriminate; cbn [req_list]; [tauto|].
  rewrite andb_true_iff, IH by lia. destruct (Reqb_spec x y) as [->|N]; split.
  - intros [_ ->]. reflexivity.
  - intros H. injection H as ->. auto.
  - intros [H _]. discriminate.
  - intros H. injection H as H _. congruence.
Qed.

(** Specification: lattices with the same pin grid. *)
Definition same_grid (L M : Lattice) : Prop := lat_nx L = lat_nx M /\ lat_ny L = lat_ny M /\ lat_hxv L = lat_hxv M /\ lat_hyv L = lat_hyv M.
Lemma compatible_spec : forall L M, wf_lat L -> wf_lat M -> lat_compatible L M = true <-> same_grid L M.
Proof.
  intros L M WL WM. unfold lat_compatible, same_grid. rewrite !andb_true_iff. split.
  - intros [[[[[Hx Hy] Nx] Ny] X] Y]. apply Nat.eqb_eq in Nx. apply Nat.eqb_eq in Ny.
    apply req_list_spec in X; [|rewrite (wl_hxl L WL), (wl_hxl M WM); auto]. apply req_list_spec in Y; [|rewrite (wl_hyl L WL), (wl_hyl M WM); auto]. auto.
  - intros (Nx & Ny & X & Y). rewrite Nx, Ny, !Nat.eqb_refl, (wl_hx L WL), (wl_hx M WM), (wl_hy L WL), (wl_hy M WM), X, Y.
    repeat split; auto; try (apply req_list_spec; auto).
    + destruct (Reqb_spec (fold_left Rplus (lat_hxv M) 0%R) (fold_left Rplus (lat_hxv M) 0%R)); auto.
    + destruct (Reqb_spec (fold_left Rplus (lat_hyv M) 0%R) (fold_left Rplus (lat_hyv M) 0%R)); auto.
Qed.

(** Specification: the lattice the input lists as number [iz] counted from the bottom. *)
Definition listed (lattices : list (Z * Lattice)) (blocks : list (list Z)) (nz iz : nat) : option Lattice :=
  match nth_error (concat blocks) (nz - 1 - iz) with Some id => map_at Z.eqb lattices id | None => None end.

Lemma assembly_shape : forall lattices id np hz hzs blocks A, (0 < np < 2 ^ 32)%Z ->
  make_assembly lattices id np hz hzs blocks = Got A ->
  let nz := Z.to_nat np in
  id <> 0%Z /\ length (concat blocks) = nz /\ known lattices (concat blocks) /\ asy_heights nz hz hzs = Got (as_dz A) /\
  as_id A = id /\ as_nz A = nz /\ length (as_lats A) = nz /\ as_sub A = rev (map (@length Z) blocks) /\
  as_nreg A = list_sum (map lat_nreg (as_lats A)) /\ as_nxs A = list_sum (map lat_nxs (as_lats A)) /\
  (forall iz, iz < nz -> nth_error (as_lats A) iz = listed lattices blocks nz iz) /\
  (exists l0, nth_error (as_lats A) 0 = Some l0 /\ as_hx A = lat_hx l0 /\ as_hy A = lat_hy l0 /\ forall l, In l (as_lats A) -> lat_compatible l l0 = true).
Proof.
  intros lattices id np hz hzs blocks A Hnp E nz. unfold make_assembly in E.
  destruct (Z.eqb_spec id 0); [discriminate|]. destruct (Z.eqb_spec np 0); [discriminate|].
  rewrite u32_small in E by lia. fold nz in E. destruct (asy_heights nz hz hzs) as [dz| |] eqn:H; try discriminate.
  rewrite concat_rev, map_len_rev in E.
  destruct (find_all lattices (rev (concat blocks))) as [ls| |] eqn:F; try discriminate.
  destruct (Nat.eqb_spec (length ls) nz) as [L|]; [|discriminate]. cbn [negb] in E. destruct ls as [|l0 ls0] eqn:Els; [discriminate|]. rewrite <- Els in *.
  destruct (forallb _ ls) eqn:FA; [|discriminate]. injection E as <-. cbn [as_id as_nz as_dz as_lats as_sub as_nreg as_nxs as_hx as_hy].
  destruct (find_all_got _ _ _ F) as [FL FN]. rewrite rev_length in FL.
  split; auto. split; [lia|]. split.
  { intros i I. destruct (In_nth_error _ _ (proj1 (in_rev _ _) I)) as [k K]. pose proof (FN k i K) as N. rewrite <- N. apply nth_error_Some.
    rewrite FL, <- rev_length. apply nth_error_Some. congruence. }
  split; auto. split; auto. split; auto. split; auto. split; auto. split; auto. split; auto. split.
  - intros iz Hz. unfold listed. destruct (nth_error (concat blocks) (nz - 1 - iz)) as [i|] eqn:N; [|apply nth_error_None in N; lia].
    apply FN. rewrite nth_rev by lia. rewrite <- FL, L. exact N.
  - exists l0. split; [now rewrite Els|]. split; auto. split; auto. intros l I. rewrite forallb_forall in FA. auto.
Qed.

(** C77 (order).  In an accepted assembly, plane [iz] counted from the bottom holds the lattice listed at that place
    counted from the end of the input, with its height likewise; the sub-plane sizes are the block sizes bottom to
    top and add up to the number of planes; all lattices share one pin grid; region counts are the totals. *)
Theorem C77_assembly_order : forall lattices id np hz hzs blocks A, (0 < np < 2 ^ 32)%Z ->
  (forall i L, map_at Z.eqb lattices i = Some L -> wf_lat L) ->
  make_assembly lattices id np hz hzs blocks = Got A ->
  let nz := Z.to_nat np in
  length (as_lats A) = nz /\ (forall iz, iz < nz -> exists L, nth_error (as_lats A) iz = Some L /\ listed lattices blocks nz iz = Some L) /\
  as_sub A = rev (map (@length Z) blocks) /\ list_sum (as_sub A) = nz /\
  (forall L M, In L (as_lats A) -> In M (as_lats A) -> same_grid L M /\ lat_hx L = as_hx A /\ lat_hy L = as_hy A) /\
  as_nreg A = list_sum (map lat_nreg (as_lats A)) /\ as_nxs A = list_sum (map lat_nxs (as_lats A)) /\
  (forall l, hzs = Some l -> hz = None /\ length (as_dz A) = nz /\ forall iz, iz < nz -> nth_error (as_dz A) iz = nth_error l (nz - 1 - iz)) /\
  (forall h, hz = Some h -> (0 < h)%R -> as_dz A = repeat h nz).
Proof.
  intros lattices id np hz hzs blocks A Hnp HL E nz.
  destruct (assembly_shape _ _ _ _ _ _ _ Hnp E) as (_ & CL & K & H & _ & Nz & LL & Sub & R1 & R2 & Nth & (l0 & L0 & Hx & Hy & Cmp)). fold nz in CL, H, Nz, LL, Nth.
  assert (forall iz, iz < nz -> exists L, nth_error (as_lats A) iz = Some L /\ listed lattices blocks nz iz = Some L) as G.
  { intros iz Hz. destruct (nth_error (as_lats A) iz) as [L|] eqn:N; [|apply nth_error_None in N; lia]. exists L. split; auto. rewrite <- (Nth iz Hz). auto. }
  assert (forall L, In L (as_lats A) -> wf_lat L) as W.
  { intros L I. apply In_nth_error in I. destruct I as [k I]. assert (k < nz) as Hk by (rewrite <- LL; apply nth_error_Some; congruence).
    rewrite (Nth k Hk) in I. unfold listed in I. destruct (nth_error (concat blocks) (nz - 1 - k)); [|discriminate]. eauto. }
  split; auto. split; auto. split; auto. split.
  { rewrite Sub. rewrite <- map_rev, <- length_concat. rewrite <- CL. clear. induction blocks as [|b bs IH]; auto.
    cbn [rev concat]. rewrite concat_app, !app_length, IH. cbn [concat]. rewrite app_nil_r. lia. }
  split.
  { intros L M IL IM. assert (wf_lat l0) as W0 by (apply W; eapply nth_error_In; eauto).
    pose proof (proj1 (compatible_spec L l0 (W L IL) W0) (Cmp L IL)) as (A1 & A2 & A3 & A4).
    pose proof (proj1 (compatible_spec M l0 (W M IM) W0) (Cmp M IM)) as (B1 & B2 & B3 & B4).
    split; [repeat split; congruence|]. rewrite Hx, Hy, (wl_hx L (W L IL)), (wl_hy L (W L IL)), (wl_hx l0 W0), (wl_hy l0 W0), A3, A4. auto. }
  split; auto. split; auto. split.
  - intros l ->. unfold asy_heights in H. destruct hz; [discriminate|]. destruct (Nat.eqb_spec (length l) nz) as [Ll|]; [|discriminate]. injection H as <-.
    split; auto. rewrite rev_length. split; auto. intros iz Hz. rewrite nth_rev by lia. now rewrite Ll.
  - intros h -> Hh. unfold asy_heights in H. destruct hzs; [discriminate|]. rewrite Rltb_true in H by auto. congruence.
Qed.
Print Assumptions C77_assembly_order.

(** C77 (acceptance).  With exactly one height specification of the right length, an assembly is accepted exactly when
    its identifier is not 0, the listed lattices are known, their number is the number of planes, and they share one
    pin grid; otherwise construction throws. *)
Theorem C77_assembly_acceptance : forall lattices id np hz hzs blocks, (0 < np < 2 ^ 32)%Z ->
  (forall i L, map_at Z.eqb lattices i = Some L -> wf_lat L) ->
  let nz := Z.to_nat np in
  let fine := id <> 0%Z /\ (match hz, hzs with Some _, None => True | None, Some l => length l = nz | _, _ => False end) /\
    known lattices (concat blocks) /\ length (concat blocks) = nz /\
    (forall a b L M, a < nz -> b < nz -> listed lattices blocks nz a = Some L -> listed lattices blocks nz b = Some M -> same_grid L M) in
  ((exists A, make_assembly lattices id np hz hzs blocks = Got A) <-> fine) /\ (~ fine -> make_assembly lattices id np hz hzs blocks = Threw).
Proof.
  intros lattices id np hz hzs blocks Hnp HL nz fine.
  assert (D : fine -> exists A, make_assembly lattices id np hz hzs blocks = Got A).
  { intros (Hid & Hh & K & CL & G). unfold make_assembly. destruct (Z.eqb_spec id 0); [contradiction|]. destruct (Z.eqb_spec np 0); [lia|].
    rewrite u32_small by lia. fold nz.
    assert (exists dz, asy_heights nz hz hzs = Got dz) as [dz ->].
    { unfold asy_heights. destruct hz, hzs; try contradiction; [eauto|]. rewrite Hh, Nat.eqb_refl. eauto. }
    rewrite concat_rev. destruct (find_all_known lattices (rev (concat blocks))) as [ls F]. { intros i I. apply K. now apply in_rev. }
    rewrite F. destruct (find_all_got _ _ _ F) as [FL FN]. rewrite rev_length in FL.
    rewrite FL, CL, Nat.eqb_refl. cbn [negb]. destruct ls as [|l0 ls0] eqn:Els; [cbn in FL; unfold nz in *; lia|]. rewrite <- Els in *.
    assert (Nth : forall k, k < nz -> nth_error ls k = listed lattices blocks nz k).
    { intros k Hk. unfold listed. destruct (nth_error (concat blocks) (nz - 1 - k)) as [i|] eqn:N; [|apply nth_error_None in N; lia].
      apply FN. rewrite nth_rev by lia. rewrite CL. exact N. }
    assert (N0 : nth_error ls 0 = Some l0) by now rewrite Els.
    assert (forallb (fun l => lat_compatible l l0) ls = true) as ->; [|eauto].
    apply forallb_forall. intros l I. apply In_nth_error in I. destruct I as [k Nk].
    assert (k < nz) as Hk by (rewrite <- CL, <- FL; apply nth_error_Some; congruence). assert (0 < nz) as H0 by lia.
    rewrite (Nth k Hk) in Nk. rewrite (Nth 0 H0) in N0. apply compatible_spec; [| |exact (G k 0 l l0 Hk H0 Nk N0)].
    - unfold listed in Nk. destruct (nth_error (concat blocks) (nz - 1 - k)); [|discriminate]. eauto.
    - unfold listed in N0. destruct (nth_error (concat blocks) (nz - 1 - 0)); [|discriminate]. eauto. }
  assert (U : make_assembly lattices id np hz hzs blocks <> Undef).
  { unfold make_assembly. destruct (Z.eqb_spec id 0); [discriminate|]. destruct (Z.eqb_spec np 0); [discriminate|].
    rewrite u32_small by lia. fold nz. destruct (asy_heights nz hz hzs) eqn:Eh; try discriminate.
    2:{ exfalso. revert Eh. unfold asy_heights. destruct hz, hzs; try discriminate. destruct (Nat.eqb (length l) nz); discriminate. }
    destruct (find_all lattices (concat (map (@rev Z) (rev blocks)))) as [ls| |] eqn:F; try discriminate.
    2:{ clear - F. revert F. generalize (concat (map (@rev Z) (rev blocks))). intros l. induction l as [|x l IH]; cbn [find_all]; try discriminate.
        destruct (map_at Z.eqb lattices x); try discriminate. destruct (find_all lattices l); try discriminate. auto. }
    destruct (Nat.eqb_spec (length ls) nz) as [L|]; [|discriminate]. cbn [negb]. destruct ls; [cbn in L; unfold nz in L; lia|].
    destruct (forallb _ _); discriminate. }
  split.
  - split; [|exact D]. intros [A E].
    destruct (C77_assembly_order _ _ _ _ _ _ _ Hnp HL E) as (LL & G & _ & _ & SG & _). fold nz in LL, G.
    destruct (assembly_shape _ _ _ _ _ _ _ Hnp E) as (Hid & CL & K & H & _). fold nz in CL, H.
    split; auto. split; [|split; auto; split; auto].
    + unfold asy_heights in H. destruct hz, hzs; try discriminate; auto. destruct (Nat.eqb_spec (length l) nz); [auto|discriminate].
    + intros a b L M Ha Hb Ea Eb. destruct (G a Ha) as (L' & N1 & E1). destruct (G b Hb) as (M' & N2 & E2).
      assert (L' = L) by congruence. assert (M' = M) by congruence. subst. apply SG; eapply nth_error_In; eauto.
  - intros N. destruct (make_assembly lattices id np hz hzs blocks) as [A| |] eqn:E; auto; [|contradiction].
    exfalso. apply N. destruct (C77_assembly_order _ _ _ _ _ _ _ Hnp HL E) as (LL & G & _ & _ & SG & _). fold nz in LL, G.
    destruct (assembly_shape _ _ _ _ _ _ _ Hnp E) as (Hid & CL & K & H & _). fold nz in CL, H.
    split; auto. split; [|split; auto; split; auto].
    + unfold asy_heights in H. destruct hz, hzs; try discriminate; auto. destruct (Nat.eqb_spec (length l) nz); [auto|discriminate].
    + intros a b L M Ha Hb Ea Eb. destruct (G a Ha) as (L' & N1 & E1). destruct (G b Hb) as (M' & N2 & E2).
      assert (L' = L) by congruence. assert (M' = M) by congruence. subst. apply SG; eapply nth_error_In; eauto.
Qed.
Print Assumptions C77_assembly_acceptance.

(** C77 fails for plane heights: an assembly whose "hz" is zero or negative is accepted with no plane heights at all,
    and a list may contain negative heights. *)
Theorem C77_heights_refuted :
  (exists A, make_assembly [(1%Z, latA)] 1 2 (Some (-1)%R) None [[1; 1]]%Z = Got A /\ as_nz A = 2 /\ as_dz A = []) /\
  (exists A, make_assembly [(1%Z, latA)] 1 2 None (Some [1; -1]%R) [[1; 1]]%Z = Got A /\ as_dz A = [-1; 1]%R).
Proof.
  assert (lat_compatible latA latA = true) as C. { apply compatible_spec; auto using wf_A. repeat split. }
  split; unfold make_assembly; cbn [asy_heights]; change (Z.to_nat (u32 2)) with 2; cbn -[Rltb u32 lat_compatible]; rewrite C; cbn -[Rltb u32]; eexists; split; try reflexivity.
  split; [reflexivity|]. rewrite Rltb_false; [reflexivity|lra].
Qed.
Print Assumptions C77_heights_refuted.

(** An accepted three-plane assembly: blocks "{1 2} {2}" from the top. *)
Definition pin2b : Pin := mkPin 3 (mkPM 1 1 1 2 2) [2%Z] false.
Definition latA2 : Lattice := mkLat 3 1 1 1 1 2 2 [2%R] [2%R] [0%R; (0 + 2)%R] [0%R; (0 + 2)%R] [pin2b] [0].
Lemma wf_A2 : wf_lat latA2.
Proof. constructor; cbn; auto; try lra. intros x y p X Y. assert (x = 0) by lia. assert (y = 0) by lia. subst. cbn. intros [= <-]. auto. Qed.
Example C77_instance : exists A, make_assembly [(1%Z, latA); (2%Z, latA2)] 7 3 None (Some [1; 2; 3]%R) [[1; 2]; [2]]%Z = Got A /\
  as_lats A = [latA2; latA2; latA] /\ as_dz A = [3; 2; 1]%R /\ as_sub A = [1; 2].
Proof.
  assert (lat_compatible latA latA2 = true) as C. { apply compatible_spec; auto using wf_A, wf_A2. repeat split. }
  assert (lat_compatible latA2 latA2 = true) as C2. { apply compatible_spec; auto using wf_A, wf_A2. repeat split. }
  unfold make_assembly; cbn [asy_heights]; change (Z.to_nat (u32 3)) with 3; cbn -[u32 lat_compatible]. rewrite C, C2. cbn -[u32].
  eexists. repeat split.
Qed.
