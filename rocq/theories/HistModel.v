(** Histories of Monte Carlo particles: the planes and surfaces of the core mesh a point is on
    (src/core/mesh.hpp, src/core/core_mesh.cpp) and the loop that follows one particle
    (src/sweepers/mc/particle_pusher.cpp).  Random numbers are the list of values RNG.random() will return. *)
From Coq Require Import Reals ZArith List Bool.
From Verif Require Import RUtil StdAlg GeomModel MeshModel CoreModel AsmModel BcModel AngModel PmModel ScatModel XsModel PartModel.
Import ListNotations.
Local Open Scope R_scope.

(** ** Places in the core *)
(** Outcomes of plane_index.  See src/core/mesh.hpp:837-854. *)
Inductive PlaneIx := PlIx (i : Z) | PlThrow | PlUB.
(** src/core/mesh.hpp:837-854 Mesh::plane_index; [eqv] stands for fp_equiv.  A height beyond the last interface reads past the
    end of the interfaces. *)
Definition plane_index (eqv : R -> R -> bool) (zv : list R) (nz : nat) (z oz : R) : PlaneIx :=
  match lower_bound fuzzy_lt zv z with
  | None => PlUB
  | Some i =>
      match nth_error zv i with
      | None => PlUB
      | Some v =>
          let clamp := fun j => PlIx (Z.max 0 (Z.min (j - 1) (Z.of_nat nz - 1))) in
          if eqv z v then (if Reqb oz 0 then PlThrow else clamp (if Rltb 0 oz then Z.of_nat i + 1 else Z.of_nat i)%Z) else clamp (Z.of_nat i)
      end
  end.
(** src/core/mesh.hpp:539-559 Mesh::boundary_surface; [None] = Surface::INTERNAL.  The extents are not zero. *)
Definition boundary_surface (hx hy hz : R) (x y z : R) (d : Dir) : list (option Surface) :=
  [ if Rltb x REAL_FUZZ && Rltb (ox d) 0 then Some WEST else if Rltb y REAL_FUZZ && Rltb (oy d) 0 then Some SOUTH else None;
    if Rltb z REAL_FUZZ && Rltb (oz d) 0 then Some BOTTOM else if Rltb (1 - REAL_FUZZ) (x / hx) && Rltb 0 (ox d) then Some EAST else None;
    if Rltb (1 - REAL_FUZZ) (y / hy) && Rltb 0 (oy d) then Some NORTH else if Rltb (1 - REAL_FUZZ) (z / hz) && Rltb 0 (oz d) then Some TOP else None ].
(** src/core/core_mesh.hpp:40-58 LocationInfo: pin position, first region of the pin, pin mesh, the point relative to the pin
    origin, corners of the pin's box. *)
Record LocInfo := mkLI { li_x : Z; li_y : Z; li_z : Z; li_first : nat; li_pm : CoreModel.PinMesh; li_px : R; li_py : R; li_lo : R * R * R; li_hi : R * R * R }.
(** A read at a signed index; [None] = out of range.  See src/core/core_mesh.cpp:246-279. *)
Definition zat {A} (l : list A) (i : Z) : option A := if (i <? 0)%Z then None else nth_error l (Z.to_nat i).
(** src/core/core_mesh.cpp:246-279 CoreMesh::get_location_info; [None] = a read out of range, or no plane. *)
Definition get_location_info (ulp : R -> R -> bool) (M : CoreMesh) (x y z : R) (d : Dir) : option LocInfo :=
  match lower_bound Rltb (cm_xv M) x, lower_bound Rltb (cm_yv M) y, plane_index (fp_equiv ulp) (cm_zv M) (cm_nz M) z (oz d) with
  | Some ix, Some iy, PlIx iz =>
      let px := (Z.of_nat ix - 1)%Z in let py := (Z.of_nat iy - 1)%Z in
      match zat (sc_freg (cm_scan M)) iz, zat (sc_uid (cm_scan M)) iz with
      | Some f, Some u =>
          match nth_error (sc_planes (cm_scan M)) u with
          | Some P =>
              match pl_get_pinmesh ulp P x y f (Rltb 0 (ox d)) (Rltb 0 (oy d)) with
              | Some (pm, mx, my, first) =>
                  match zat (cm_xv M) px, zat (cm_yv M) py, zat (cm_zv M) iz, zat (cm_xv M) (px + 1), zat (cm_yv M) (py + 1), zat (cm_zv M) (iz + 1) with
                  | Some x0, Some y0, Some z0, Some x1, Some y1, Some z1 => Some (mkLI px py iz first pm (x - mx) (y - my) (x0, y0, z0) (x1, y1, z1))
                  | _, _, _, _, _, _ => None
                  end
              | None => None
              end
          | None => None
          end
      | _, _ => None
      end
  | _, _, _ => None
  end.

(** ** One history *)
(** What the loop asks of the mesh at a place: the coarse cell, the first region of the pin, the point relative to the pin, the
    pin mesh's distance_to_surface and find_reg, and the pin's box.  See src/sweepers/mc/particle_pusher.cpp:166-357. *)
Record Loc := mkLoc { lo_pin : nat; lo_off : Z; lo_local : Point2; lo_dist : Point2 -> Dir -> Z -> option R * bool * Z; lo_reg : Point2 -> Dir -> option Z; lo_low : R * R * R; lo_high : R * R * R }.
(** The mesh and materials: get_location_info, boundary_surface, boundary_condition, xs_mesh_ and xsmesh_regions_.  See src/sweepers/mc/particle_pusher.cpp:166-357. *)
Record World := mkWorld { wo_locate : R -> R -> R -> Dir -> option Loc; wo_bound : R -> R -> R -> Dir -> list (option Surface); wo_bc : Surface -> Boundary; wo_xs : list XReg; wo_map : list Z }.
(** Scores: track-length k, pin power, coarse and fine flux by group; collision k and fine flux.  See src/sweepers/mc/particle_pusher.cpp:166-357. *)
Inductive Ev := TrackK (v : R) | Power (pin : nat) (v : R) | Coarse (g pin : nat) (v : R) | Fine (g reg : nat) (v : R) | CollideK (v : R) | FineCol (g reg : nat) (v : R).
(** The state of the loop: the particle, where it is, its region and cross-section region, the scores made (latest first), the
    sites banked, and the random numbers left.  See src/sweepers/mc/particle_pusher.cpp:166-357. *)
Record Hist := mkHist { hi_p : Particle; hi_loc : Loc; hi_reg : nat; hi_xs : nat; hi_ev : list Ev; hi_sites : list Particle; hi_us : list R }.
(** As above, src/sweepers/mc/particle_pusher.cpp:166-357. *)
Inductive HOut := HNext (h : Hist) | HThrow | HUB.
(** src/sweepers/mc/particle_pusher.cpp:190-191,269-270,329-331: the region and its cross-section region; [None] = an index
    that is negative or out of range (the assertions beneath). *)
Definition regions (W : World) (L : Loc) (q : Point2) (d : Dir) : option (nat * nat) :=
  match lo_reg L q d with
  | None => None
  | Some r => let i := (lo_off L + r)%Z in
              match zat (wo_map W) i with
              | Some xs => match zat (wo_xs W) xs with Some _ => Some (Z.to_nat i, Z.to_nat xs) | None => None end
              | None => None
              end
  end.
(** As above, src/sweepers/mc/particle_pusher.cpp:166-357. *)
Definition at_loc (p : Particle) (q : Point2) : Particle := mkPart (pweight p) (pgroup p) q (pdir p) (pgx p) (pgy p) (pgz p) (pid p) (pcoinc p) (palive p).
(** As above, src/sweepers/mc/particle_pusher.cpp:166-357. *)
Definition set_coinc (p : Particle) (c : Z) : Particle := mkPart (pweight p) (pgroup p) (ploc p) (pdir p) (pgx p) (pgy p) (pgz p) (pid p) c (palive p).
(** As above, src/sweepers/mc/particle_pusher.cpp:166-357. *)
Definition set_dir (p : Particle) (d : Dir) : Particle := mkPart (pweight p) (pgroup p) (ploc p) d (pgx p) (pgy p) (pgz p) (pid p) (pcoinc p) (palive p).
(** src/sweepers/mc/particle_pusher.cpp:187-209 and 325-345: find the particle. *)
Definition relocate (W : World) (p : Particle) : option (Particle * Loc * nat * nat) :=
  match wo_locate W (pgx p) (pgy p) (pgz p) (pdir p) with
  | None => None
  | Some L => match regions W L (lo_local L) (pdir p) with
              | Some (ireg, ixs) => Some (at_loc p (lo_local L), L, ireg, ixs)
              | None => None
              end
  end.
(** src/sweepers/mc/particle_pusher.cpp:187-212: the start of a history. *)
Definition start (W : World) (p : Particle) (us : list R) : HOut :=
  match relocate W p with
  | Some (q, L, ireg, ixs) => HNext (mkHist (set_alive q true) L ireg ixs [] [] us)
  | None => HUB
  end.
(** src/sweepers/mc/particle_pusher.cpp:217: distance to the collision; [None] = infinite. *)
Definition to_collision (xstr u : R) : option R := if Reqb u 0 || Reqb xstr 0 then None else Some (- ln u / xstr).
(** src/sweepers/mc/particle_pusher.cpp:231-235: the nearer of the pin's surfaces and its box, and whether it is the box. *)
Definition to_surface (s : option R * bool) (pin : option R) : option R * bool :=
  match pin, fst s with
  | Some a, Some b => if Rltb a b then (Some a, true) else s
  | Some a, None => (Some a, true)
  | None, _ => s
  end.
(** src/sweepers/mc/particle_pusher.cpp:283-308: the loop over the boundary surfaces; [None] = the exception on line 306. *)
Fixpoint cross_bounds (W : World) (l : list (option Surface)) (p : Particle) (refl : bool) : option (Particle * bool) :=
  match l with
  | [] => Some (p, refl)
  | None :: r => cross_bounds W r p refl
  | Some s :: r =>
      if palive p then
        match wo_bc W s with
        | REFLECT => cross_bounds W r (set_dir p (dir_reflect (pdir p) s)) true
        | VACUUM => cross_bounds W r (set_alive p false) refl
        | _ => None
        end
      else cross_bounds W r p refl
  end.
(** src/sweepers/mc/particle_pusher.cpp:282-316: the boundary conditions, and the move back after a reflection. *)
Definition at_boundary (W : World) (p : Particle) : option Particle :=
  match cross_bounds W (wo_bound W (pgx p) (pgy p) (pgz p) (pdir p)) p false with
  | Some (q, refl) => Some (if refl then move q BUMP else q)
  | None => None
  end.
(** src/sweepers/mc/particle_pusher.cpp:214-351: one turn of the loop.  HUB stands for a read out of range, an index the
    assertions reject, a division by zero, running out of random numbers, and an infinite flight. *)
Definition turn (ltr : bool) (W : World) (h : Hist) : HOut :=
  let p := hi_p h in
  match nth_error (wo_xs W) (hi_xs h), hi_us h with
  | Some x, u :: us1 =>
      match nth_error (xr_tr x) (pgroup p), nth_error (xr_nf x) (pgroup p), nth_error (xr_f x) (pgroup p) with
      | Some tr, Some nf, Some f =>
          let dc := to_collision tr u in
          let '(d0, flag0, c) := lo_dist (hi_loc h) (ploc p) (pdir p) (pcoinc p) in
          let '(lx, ly, lz) := lo_low (hi_loc h) in
          let '(hx, hy, hz) := lo_high (hi_loc h) in
          let '(ds, box) := to_surface (d0, flag0) (distance_to_pin lx ly lz hx hy hz p) in
          let p1 := set_coinc p c in
          match omin dc ds with
          | None => HUB
          | Some tl =>
              let ev := Fine (pgroup p) (hi_reg h) (tl * pweight p) :: Coarse (pgroup p) (lo_pin (hi_loc h)) (tl * pweight p) ::
                        Power (lo_pin (hi_loc h)) (tl * pweight p * f) :: TrackK (tl * pweight p * nf) :: hi_ev h in
              if match dc, ds with Some a, Some b => Rltb a b | Some _, None => true | None, _ => false end then
                match collide ltr x (set_coinc (move p1 tl) (-1)) us1 with
                | Some c => HNext (mkHist (c_part c) (hi_loc h) (hi_reg h) (hi_xs h) (FineCol (pgroup p) (hi_reg h) (c_flux c) :: CollideK (c_k c) :: ev)
                                          (hi_sites h ++ c_sites c) (c_left c))
                | None => HUB
                end
              else if negb box then
                let q := move p1 tl in
                match regions W (hi_loc h) (ploc q) (pdir q) with
                | Some (ireg, ixs) => HNext (mkHist q (hi_loc h) ireg ixs ev (hi_sites h) us1)
                | None => HUB
                end
              else
                match at_boundary W (move (set_coinc p1 (-1)) tl) with
                | None => HThrow
                | Some q =>
                    if palive q then
                      match relocate W q with
                      | Some (q', L, ireg, ixs) => HNext (mkHist q' L ireg ixs ev (hi_sites h) us1)
                      | None => HUB
                      end
                    else HNext (mkHist q (hi_loc h) (hi_reg h) (hi_xs h) ev (hi_sites h) us1)
                end
          end
      | _, _, _ => HUB
      end
  | _, _ => HUB
  end.
(** src/sweepers/mc/particle_pusher.cpp:214: the turns taken while the particle is alive. *)
Inductive runs (ltr : bool) (W : World) : Hist -> Hist -> Prop :=
  | runs_here : forall h, runs ltr W h h
  | runs_turn : forall h h1 h2, runs ltr W h h1 -> palive (hi_p h1) = true -> turn ltr W h1 = HNext h2 -> runs ltr W h h2.
