(** C192, continued: what the Sn sweeper writes, and the powers that both sweepers write. *)
From Coq Require Import List Bool Reals ZArith Arith Lia Lra.
From Verif Require Import RUtil ListUtil McModel MeshModel AngModel BcModel BcProofs StdAlg CoreModel CoreProofs ScatModel ScatProofs MatModel ExpModel MocModel MocProofs MocProps XsModel SrcModel HomProps SrcProps SolModel SolProps MgModel MgProps PflModel PflProps SnOutModel ResModel ResProofs ResProps SolModel.
From Verif Require SnOutProps MeshSpec.
Import ListNotations.
Open Scope nat_scope.

(** C192: the file of an Sn calculation has the flux of each cell in the data set of its group, times one factor for all cells and groups; in the data
    set of pin powers the power of each cell, and in that of axial sums the power of each column of cells, each times a factor of its own that makes
    them average to one over those with positive power.  There are no fluxes of regions. *)
Theorem C192_sn : forall g ng m xs fl vol f, MeshSpec.mesh_ok g -> let nxy := Z.to_nat (nx g) * Z.to_nat (ny g) in let nreg := nxy * Z.to_nat (nz g) in
  mesh_fits xs nreg -> data_fits ng m xs -> flux_fits nreg ng fl -> length vol = nreg -> let w := region_power xs ng fl vol in rsum w nreg <> 0%R -> sn_output g xs ng vol fl = Some f ->
  (exists q, length (ff_flux f) = ng /\ (forall h, h < ng -> length (nth h (ff_flux f) []) = nreg) /\ forall h i, h < ng -> i < nreg -> at0 (nth h (ff_flux f) []) i = (phi fl i h * q)%R) /\ ff_fsr f = None /\
  exists p2 c3 c2, ff_pow2 f = Some p2 /\ length (ff_pow f) = nreg /\ length p2 = nxy /\
    (forall i, i < nreg -> at0 (ff_pow f) i = (w i * (INR c3 / rsum w nreg))%R) /\ rsum (at0 (ff_pow f)) nreg = INR c3 /\ c3 = length (filter (fun i => Rltb 0 (w i)) (seq 0 nreg)) /\
    (forall j, j < nxy -> at0 p2 j = (rsum (fun z => w (nxy * z + j)%nat) (Z.to_nat (nz g)) * (INR c2 / rsum w nreg))%R) /\ rsum (at0 p2) nxy = INR c2 /\
    c2 = length (filter (fun j => Rltb 0 (rsum (fun z => w (nxy * z + j)%nat) (Z.to_nat (nz g)))) (seq 0 nxy)).
Proof.
  intros g ng m xs fl vol f M nxy nreg Mf D F Lv w Nz H. destruct (SnOutProps.C112_pin_powers g ng m xs fl vol M Mf D F Lv Nz) as (p3 & p2 & c3 & c2 & E3 & E2 & V). unfold sn_output in H.
  destruct (groups_from Some fl 0 ng) as [pfs|] eqn:E; [|discriminate]. destruct (normalized pfs) as [a|] eqn:Ea; [|discriminate]. rewrite E3, E2 in H. injection H as <-. cbn [ff_flux ff_fsr ff_pow ff_pow2].
  destruct (groups_spec _ _ _ _ _ E) as [Lp Hp]. destruct (norm_spec pfs a Ea) as (q & -> & _). destruct F as [Lf Rf].
  assert (C : forall h, h < ng -> nth h pfs [] = map (fun row => nth h row 0%R) fl). { intros h Hh. destruct (Hp h Hh) as (col & C1 & C2). cbn [Nat.add] in C1. rewrite (col_is ng fl h Rf Hh) in C1. injection C1 as <-. now injection C2 as <-. }
  assert (Nt : forall h, nth h (map (map (fun v => v * q)%R) pfs) [] = map (fun v => v * q)%R (nth h pfs [])) by (intros h; apply (map_nth (map (fun v => v * q)%R) pfs [] h)).
  split; [|split; [reflexivity|exists p2, c3, c2; split; [reflexivity|exact V]]]. exists q. split; [now rewrite map_length|]. split.
  - intros h Hh. rewrite Nt, C by exact Hh. now rewrite !map_length.
  - intros h i Hh Hi. rewrite Nt, C by exact Hh. unfold at0. rewrite map_map. rewrite (nth_indep _ 0%R ((fun row => nth h row 0 * q)%R [])) by (rewrite map_length; lia). rewrite (map_nth (fun row => nth h row 0 * q)%R). unfold phi. reflexivity.
Qed.
Print Assumptions C192_sn.

(** C192: the pin powers that a MoC calculation writes are those of the pins' regions, by macroplane, all times one factor that makes them add up to
    the number of fuel pins. *)
Theorem C192_moc_powers : forall fsr cell nxy nz ms nf xs ng m vol fl f, fills cell nxy -> (forall mp, In mp ms -> length (ml_pins mp) = nxy) -> let planes := map (fun mp => map (fun p => length (pg_areas p)) (ml_pins mp)) ms in list_sum (concat planes) = length vol ->
  mesh_fits xs (length vol) -> data_fits ng m xs -> flux_fits (length vol) ng fl -> let w := region_power xs ng fl vol in rsum w (length vol) <> 0%R -> moc_output fsr cell nxy nz ms nf xs ng vol fl = Some f ->
  length (ff_pow f) = nxy * length ms /\ ff_pow2 f = None /\ rsum (at0 (ff_pow f)) (nxy * length ms) = nf /\
  forall k i, k < length ms -> i < nxy -> at0 (ff_pow f) (nxy * k + cell i) = (rsum (fun r => w (list_sum (firstn (k * nxy + i) (concat planes)) + r)%nat) (nth i (nth k planes []) 0%nat) * (nf / rsum w (length vol)))%R.
Proof.
  intros fsr cell nxy nz ms nf xs ng m vol fl f Fi Hp planes Hs Mf D F w Nz H. destruct (C88_pin_powers (length vol) ng m cell nxy planes nf xs fl vol Fi) as (pw & E & L & V & T); auto.
  - intros p I. apply in_map_iff in I. destruct I as (mp & <- & I). rewrite map_length. now apply Hp.
  - unfold moc_output in H. destruct (groups_from _ fl 0 ng); [|discriminate]. destruct (normalized l); [|discriminate]. destruct (if fsr then _ else _); [|discriminate]. fold planes in H. rewrite E in H. injection H as <-. cbn [ff_pow ff_pow2].
    assert (Lm : length planes = length ms) by apply map_length. rewrite Lm in L, V, T. split; [exact L|]. split; [reflexivity|]. split; [exact T|exact V].
Qed.
Print Assumptions C192_moc_powers.

(** One column of two cells, the upper one with all the power. *)
Example C192_sn_instance : exists f p2, sn_output {| nx := 1; ny := 1; nz := 2 |} [xr_a; xr_b] 2 [1; 2]%R [[1; 2]; [3; 4]]%R = Some f /\ at0 (nth 1 (ff_flux f) []) 0 = (2 * (4 / 10))%R /\ at0 (ff_pow f) 0 = 0%R /\ at0 (ff_pow f) 1 = 1%R /\ ff_pow2 f = Some p2 /\ length p2 = 1 /\ at0 p2 0 = 1%R.
Proof.
  destruct SnOutProps.C112_instance as (p3 & p2 & E3 & E2 & A & B & C).
  assert (N : normalized [[1; 3]; [2; 4]]%R = Some (map (map (fun v => v * (4 / 10))%R) [[1; 3]; [2; 4]]%R)).
  { unfold normalized, normalize. assert (T : total (concat [[1; 3]; [2; 4]]%R) = 10%R) by (rewrite total_is; cbn; lra). assert (Q : count_pos (concat [[1; 3]; [2; 4]]%R) = 4) by (unfold count_pos; cbn [concat app filter]; rewrite !Rltb_true by lra; reflexivity).
    rewrite T, Q. destruct (Reqb_spec 10 0); [lra|]. replace (INR 4) with 4%R by (cbn; lra). reflexivity. }
  assert (E : sn_output {| nx := 1; ny := 1; nz := 2 |} [xr_a; xr_b] 2 [1; 2]%R [[1; 2]; [3; 4]]%R = Some (mkFF (map (map (fun v => v * (4 / 10))%R) [[1; 3]; [2; 4]]%R) None p3 (Some p2))).
  { unfold sn_output. change (groups_from Some [[1; 2]; [3; 4]]%R 0 2) with (Some [[1; 3]; [2; 4]]%R). cbv iota beta. now rewrite N, E3, E2. }
  eexists. exists p2. split; [exact E|]. cbn [ff_flux ff_pow ff_pow2]. split; [reflexivity|]. split; [exact A|]. split; [exact B|]. split; [reflexivity|]. split; [|exact C].
  assert (T : rsum (region_power [xr_a; xr_b] 2 [[1; 2]; [3; 4]]%R [1; 2]%R) 2 = 6%R) by (rewrite (rsum_ext _ _ _ (fun i _ => region_power_two i)); cbn; lra). destruct mesh_two as (M & D & Fl).
  destruct (C192_sn {| nx := 1; ny := 1; nz := 2 |} 2 (fun _ => sc_two) [xr_a; xr_b] [[1; 2]; [3; 4]]%R [1; 2]%R (mkFF (map (map (fun v => v * (4 / 10))%R) [[1; 3]; [2; 4]]%R) None p3 (Some p2)) ltac:(unfold MeshSpec.mesh_ok; cbn; lia) M D Fl eq_refl) with (2 := E) as (_ & _ & q2 & c3 & c2 & Eq & _ & L & _); [|injection Eq as <-; exact L].
  change (Z.to_nat (nx {| nx := 1; ny := 1; nz := 2 |}) * Z.to_nat (ny {| nx := 1; ny := 1; nz := 2 |}) * Z.to_nat (nz {| nx := 1; ny := 1; nz := 2 |})) with 2. rewrite T. lra.
Qed.
(** The two pins and three planes of [C192_instance]: the powers by macroplane are 18, 2 and 9, 5. *)
Lemma ri_power : forall i, region_power [ri_x] 2 ri_fl ri_vol i = at0 [4; 14; 2; 3; 6; 5]%R i.
Proof.
  intros i. unfold region_power. cbn [lsum]. do 6 (destruct i as [|i]; [cbn; unfold phi, at0; cbn; lra|]). cbn. unfold at0. destruct i; cbn; lra.
Qed.
Lemma ri_data : mesh_fits [ri_x] 6 /\ data_fits 2 (fun _ => FixProps.mf_sc) [ri_x] /\ flux_fits 6 2 ri_fl.
Proof.
  split; [split; [cbn; repeat constructor; cbn; intuition lia|cbn; intuition lia]|]. split.
  - intros x [<-|[]]. split; [unfold compress, band, FixProps.mf_sc; cbn [first_bound last_bound map seq]; rewrite ?(Rltb_true 0 (1 / 2)), ?(Rltb_true 0 (1 / 4)), ?(Rltb_false 0 0) by lra; reflexivity|]. split; [intros i g Hi Hg _; destruct i as [|[|i]]; destruct g as [|[|g]]; try lia; unfold FixProps.mf_sc; lra|]. repeat split.
  - split; [reflexivity|]. intros row I. repeat (destruct I as [<-|I]; [reflexivity|]). destruct I.
Qed.
Example C192_moc_powers_instance : exists f, moc_output true (fun i => 1 - i) 2 3 ri_ms 4 [ri_x] 2 ri_vol ri_fl = Some f /\ length (ff_pow f) = 4 /\ at0 (ff_pow f) 1 = (18 * (4 / 34))%R /\ at0 (ff_pow f) 3 = (9 * (4 / 34))%R /\ at0 (ff_pow f) 2 = (5 * (4 / 34))%R.
Proof.
  destruct C192_instance as (f & E & O & _). exists f. split; [exact E|]. destruct ri_data as (M & D & F).
  assert (T : rsum (region_power [ri_x] 2 ri_fl ri_vol) 6 = 34%R) by (rewrite (rsum_ext _ _ _ (fun i _ => ri_power i)); unfold at0; cbn; lra).
  destruct (C192_moc_powers true (fun i => 1 - i) 2 3 ri_ms 4 [ri_x] 2 (fun _ => FixProps.mf_sc) ri_vol ri_fl f) as (L & _ & _ & V); auto.
  - apply O.
  - intros mp [<-|[<-|[]]]; reflexivity.
  - change (length ri_vol) with 6. rewrite T. lra.
  - split; [exact L|]. change (length ri_vol) with 6 in V. rewrite T in V. pose proof (V 0 0 ltac:(cbn; lia) ltac:(lia)) as V0. pose proof (V 1 0 ltac:(cbn; lia) ltac:(lia)) as V1. pose proof (V 1 1 ltac:(cbn; lia) ltac:(lia)) as V2.
    cbn [Nat.mul Nat.add Nat.sub] in V0, V1, V2. rewrite V0, V1, V2. cbn [map ri_ms ml_pins pg_areas length concat app firstn list_sum fold_right nth Nat.add rsum]. rewrite !ri_power. unfold at0. cbn. repeat split; lra.
Qed.
