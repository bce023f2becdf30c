(** Model of assemblies, the core and the core mesh.  src/core/assembly.{hpp,cpp}, src/core/core.{hpp,cpp},
    src/core/core_mesh.{hpp,cpp}, src/core/plane.hpp (MacroPlane).  Doubles are exact reals; XML parsing is not modelled
    (the parsed values are arguments). *)
From Coq Require Import List Lia Bool Reals ZArith.
From Verif Require Import RUtil McModel StdAlg MatModel BcModel CoreModel.
Import ListNotations.
Open Scope nat_scope.

(** src/core/assembly.hpp:134-149. *)
Record Assembly := mkAsy {
  as_id : Z; as_nz : nat; as_dz : list R; as_hx : R; as_hy : R; as_nreg : nat; as_nxs : nat; as_sub : list nat; as_lats : list Lattice
}.

(** src/core/assembly.cpp:48-77: the plane heights from the "hz" attribute or the list, exactly one of which is given.
    A non-positive attribute leaves the heights empty (lines 57-60). *)
Definition asy_heights (nz : nat) (hz : option R) (hzs : option (list R)) : Out (list R) :=
  match hz, hzs with
  | Some h, None => Got (if Rltb 0 h then repeat h nz else [])
  | None, Some l => if length l =? nz then Got (rev l) else Threw
  | _, _ => Threw
  end.

(** src/core/assembly.cpp:94-104: look the lattices up in order, stopping at the first unknown one. *)
Fixpoint find_all {P} (known : list (Z * P)) (ids : list Z) : Out (list P) :=
  match ids with
  | [] => Got []
  | i :: r => match map_at Z.eqb known i with
              | None => Threw
              | Some p => match find_all known r with Got q => Got (p :: q) | o => o end
              end
  end.

(** src/core/assembly.cpp:30-133 Assembly::Assembly.  [np] is the "np" attribute (0 when absent), stored unsigned;
    [blocks] the result of explode_braces on the lattice list.  The assertion of line 130 is not a check. *)
Definition make_assembly (lattices : list (Z * Lattice)) (id np : Z) (hz : option R) (hzs : option (list R)) (blocks : list (list Z)) : Out Assembly :=
  if (id =? 0)%Z then Threw
  else if (np =? 0)%Z then Threw
  else
    let nz := Z.to_nat (u32 np) in
    match asy_heights nz hz hzs with
    | Threw => Threw
    | Undef => Undef
    | Got dz =>
        let blocks := map (@rev Z) (rev blocks) in
        match find_all lattices (concat blocks) with
        | Threw => Threw
        | Undef => Undef
        | Got ls =>
            if negb (length ls =? nz) then Threw
            else match ls with
                 | [] => Undef
                 | l0 :: _ =>
                     if forallb (fun l => lat_compatible l l0) ls
                     then Got (mkAsy id nz dz (lat_hx l0) (lat_hy l0) (list_sum (map lat_nreg ls)) (list_sum (map lat_nxs ls))
                                     (map (@length Z) blocks) ls)
                     else Threw
                 end
        end
    end.

(** src/core/assembly.cpp:148-152: heights compared pairwise over [n] planes; [None] = read past the end. *)
Fixpoint same_heights (ulp : R -> R -> bool) (n : nat) (a b : list R) : option bool :=
  match n with
  | 0 => Some true
  | S n => match a, b with
           | x :: r, y :: s => if ulp x y then same_heights ulp n r s else Some false
           | _, _ => None
           end
  end.
(** src/core/assembly.cpp:140-160 Assembly::compatible. *)
Definition asy_compatible (ulp : R -> R -> bool) (A B : Assembly) : option bool :=
  if negb (length (as_lats A) =? length (as_lats B)) then Some false
  else if negb (length (as_sub A) =? length (as_sub B)) then Some false
  else match same_heights ulp (length (as_lats A)) (as_dz A) (as_dz B) with
       | Some true => Some (forallb (fun q => fst q =? snd q) (combine (as_sub A) (as_sub B)))
       | o => o
       end.

(** src/core/core.hpp:130-147. *)
Record Core := mkCore { co_nx : nat; co_ny : nat; co_npinx : nat; co_npiny : nat; co_bc : list Boundary; co_asys : list Assembly }.

(** src/core/core.cpp:26-38 bc_parse: the attribute, when it is one of the three names. *)
Definition bc_parse (s : option Boundary) : Boundary :=
  match s with Some VACUUM => VACUUM | Some REFLECT => REFLECT | Some PRESCRIBED => PRESCRIBED | _ => INVALID end.

(** src/core/assembly.hpp:43-54: pins across (up) the bottom lattice. *)
Definition as_nx (A : Assembly) : nat := match as_lats A with l :: _ => lat_nx l | [] => 0 end.
(** As above, src/core/assembly.hpp:43-54. *)
Definition as_ny (A : Assembly) : nat := match as_lats A with l :: _ => lat_ny l | [] => 0 end.

(** src/core/core.cpp:108-112: every assembly is compatible with the first. *)
Definition check_compatible (ulp : R -> R -> bool) (asys : list Assembly) : Out unit :=
  match asys with
  | [] => Got tt
  | a0 :: _ => fold_out (fun _ a => match asy_compatible ulp a0 a with Some true => Got tt | Some false => Threw | None => Undef end) tt asys
  end.

(** src/core/core.cpp:46-135 Core::Core.  [nx0], [ny0] as read (0 when absent), stored unsigned; [ids] the parsed
    assembly map; [bcs] the boundary attributes.  hx_vec_ and hy_vec_ (lines 124-134) are never read and omitted. *)
Definition make_core (ulp : R -> R -> bool) (assemblies : list (Z * Assembly)) (nx0 ny0 : Z) (bcs : list (option Boundary)) (ids : list Z) : Out Core :=
  if ((u32 nx0 <? 1) || (u32 ny0 <? 1))%Z then Threw
  else if existsb (fun b => match bc_parse b with INVALID => true | _ => false end) bcs then Threw
  else if negb (Z.of_nat (length ids) =? u32 (u32 nx0 * u32 ny0))%Z then Threw
  else
    let nx := Z.to_nat (u32 nx0) in let ny := Z.to_nat (u32 ny0) in
    match place_pins assemblies ids nx ny (Z.to_nat (u32 (u32 nx0 * u32 ny0))) with
    | Threw => Threw
    | Undef => Undef
    | Got st =>
        match all_some st with
        | None => Undef
        | Some asys =>
            match check_compatible ulp asys with
            | Threw => Threw
            | Undef => Undef
            | Got _ =>
                match reads asys as_nx (seq 0 nx), reads asys as_ny (map (fun iy => iy * nx) (seq 0 ny)) with
                | Some cx, Some cy => Got (mkCore nx ny (list_sum cx) (list_sum cy) (map bc_parse bcs) asys)
                | _, _ => Undef
                end
            end
        end
    end.

(** src/core/core.cpp:141-168 ParseCore: of the core tags with their "enabled" flags, exactly one must be enabled; each
    enabled one is constructed (and may throw) before the count is checked. *)
Definition parse_core (cores : list (bool * Out Core)) : Out Core :=
  match fold_out (fun s c => if fst c : bool then match snd c with Got x => Got (s ++ [x]) | Threw => Threw | Undef => Undef end else Got s) [] cores with
  | Got [c] => Got c
  | Got _ => Threw
  | Threw => Threw
  | Undef => Undef
  end.

(** src/core/core_mesh.cpp:58-61: the state of the loop over axial planes. *)
Record Scan := mkScan {
  sc_planes : list Plane; sc_uid : list nat; sc_firstu : list nat; sc_freg : list nat; sc_reg : nat; sc_pins : list Pin; sc_nfuel : nat
}.

(** src/core/core_mesh.cpp:80-84: index of the first equivalent plane, or the number of planes. *)
Fixpoint find_plane (planes : list Plane) (P : Plane) (i : nat) : option nat :=
  match planes with
  | [] => Some i
  | Q :: r => match pl_equiv Q P with None => None | Some true => Some i | Some false => find_plane r P (S i) end
  end.

(** src/core/core_mesh.cpp:66-68: the lattices of one axial plane, in assembly order. *)
Definition plane_lats (asys : list Assembly) (iz : nat) : option (list Lattice) := all_some (map (fun a => nth_error (as_lats a) iz) asys).

(** src/core/core_mesh.cpp:62-95: one pass of the loop. *)
Definition scan_plane (ulp : R -> R -> bool) (C : Core) (s : Scan) (iz : nat) : Out Scan :=
  match plane_lats (co_asys C) iz with
  | None => Undef
  | Some ls =>
      match make_plane ulp ls (co_nx C) (co_ny C) with
      | Threw => Threw
      | Undef => Undef
      | Got P =>
          match find_plane (sc_planes s) P 0 with
          | None => Undef
          | Some u =>
              let new := u =? length (sc_planes s) in
              Got (mkScan (if new then sc_planes s ++ [P] else sc_planes s) (sc_uid s ++ [u])
                          (if new then sc_firstu s ++ [iz] else sc_firstu s) (sc_freg s ++ [sc_reg s])
                          (sc_reg s + list_sum (map lat_nreg ls)) (sc_pins s ++ flat_map lat_pins ls) (Nat.max (sc_nfuel s) (pl_nfuel P)))
          end
      end
  end.
(** As above, src/core/core_mesh.cpp:62-95. *)
Definition scan_planes (ulp : R -> R -> bool) (C : Core) (nz : nat) : Out Scan :=
  fold_out (scan_plane ulp C) (mkScan [] [] [] [] 0 [] 0) (seq 0 nz).

(** src/core/core_mesh.cpp:100-121: pin widths (heights) along the bottom row (left column), from the bottom lattices. *)
Definition row_widths (C : Core) : option (list R) :=
  option_map (@concat R) (all_some (map (fun ix => match nth_error (co_asys C) ix with
     | Some a => match as_lats a with l :: _ => Some (lat_hxv l) | [] => None end | None => None end) (seq 0 (co_nx C)))).
(** As above, src/core/core_mesh.cpp:100-121. *)
Definition col_heights (C : Core) : option (list R) :=
  option_map (@concat R) (all_some (map (fun iy => match nth_error (co_asys C) (iy * co_nx C) with
     | Some a => match as_lats a with l :: _ => Some (lat_hyv l) | [] => None end | None => None end) (seq 0 (co_ny C)))).

(** src/core/core_mesh.cpp:165-174: macroplane heights.  [None] = more sub-planes than plane heights. *)
Fixpoint macro_heights (sub : list nat) (dz : list R) : option (list R) :=
  match sub with
  | [] => Some []
  | n :: r => if length dz <? n then None
              else match macro_heights r (skipn n dz) with
                   | Some h => Some (fold_left Rplus (firstn n dz) 0%R :: h)
                   | None => None
                   end
  end.

(** src/core/plane.hpp:214-260 MacroPlane; [mp_stt], [mp_stp] are positions in the list of core pins. *)
Record MacroPlane := mkMP { mp_plane : Plane; mp_min : nat; mp_max : Z; mp_height : R; mp_stt : nat; mp_stp : nat }.

(** src/core/core_mesh.cpp:177-188. *)
Fixpoint make_macros (planes : list Plane) (uid : list nat) (nx ny iz : nat) (sub : list nat) (h : list R) : option (list MacroPlane) :=
  match sub, h with
  | [], _ => Some []
  | n :: r, h0 :: hr =>
      match nth_error uid iz with
      | None => None
      | Some u =>
          match nth_error planes u, make_macros planes uid nx ny (iz + n) r hr with
          | Some P, Some ms => Some (mkMP P iz (Z.of_nat iz + Z.of_nat n - 1) h0 (iz * nx * ny) (iz * nx * ny + nx * ny) :: ms)
          | _, _ => None
          end
      end
  | _ :: _, [] => None
  end.

(** src/core/core_mesh.cpp:194-196: the loop iz_min .. iz_max, setting each entry. *)
Definition write_span (idx : list nat) (lo : nat) (hi : Z) (v : nat) : option (list nat) :=
  fold_left (fun o iz => match o with Some l => set_nth l iz v | None => None end) (seq lo (Z.to_nat (hi + 1) - lo)) (Some idx).
(** src/core/core_mesh.cpp:191-198. *)
Fixpoint macro_index (idx : list nat) (i : nat) (ms : list MacroPlane) : option (list nat) :=
  match ms with
  | [] => Some idx
  | m :: r => match write_span idx (mp_min m) (mp_max m) i with Some idx' => macro_index idx' (S i) r | None => None end
  end.

(** src/core/mesh.hpp (data members) and src/core/core_mesh.hpp:422-475. *)
Record CoreMesh := mkCM {
  cm_nx : nat; cm_ny : nat; cm_nz : nat; cm_bc : list Boundary; cm_hx : R; cm_hy : R; cm_hz : R; cm_scan : Scan;
  cm_dx : list R; cm_dy : list R; cm_dz : list R; cm_xv : list R; cm_yv : list R; cm_zv : list R;
  cm_nreg : nat; cm_nxs : nat; cm_sub : list nat; cm_heights : list R; cm_macros : list MacroPlane; cm_mindex : list nat
}.

(** src/core/core_mesh.cpp:28-206 CoreMesh::CoreMesh, after parsing.  Lines 123-130 (lines, bounding box) and 149-153
    (coarse volumes) are in GeomModel.v; 201 (surfaces) in MeshModel.v. *)
Definition make_core_mesh (ulp : R -> R -> bool) (C : Core) : Out CoreMesh :=
  match co_asys C with
  | [] => Undef
  | a0 :: _ =>
      match reads (co_asys C) as_hx (seq 0 (co_nx C)), reads (co_asys C) as_hy (map (fun iy => iy * co_nx C) (seq 0 (co_ny C))) with
      | Some wx, Some wy =>
          match scan_planes ulp C (as_nz a0) with
          | Threw => Threw
          | Undef => Undef
          | Got s =>
              match row_widths C, col_heights C, macro_heights (as_sub a0) (as_dz a0) with
              | Some dx, Some dy, Some h =>
                  match make_macros (sc_planes s) (sc_uid s) (co_npinx C) (co_npiny C) 0 (as_sub a0) h with
                  | None => Undef
                  | Some ms =>
                      match macro_index (repeat 0 (as_nz a0)) 0 ms with
                      | None => Undef
                      | Some mi =>
                          Got (mkCM (co_npinx C) (co_npiny C) (as_nz a0) (co_bc C) (fold_left Rplus wx 0%R) (fold_left Rplus wy 0%R)
                                    (fold_left Rplus (as_dz a0) 0%R) s dx dy (as_dz a0) (psums 0 dx) (psums 0 dy) (psums 0 (as_dz a0))
                                    (list_sum (map as_nreg (co_asys C))) (list_sum (map as_nxs (co_asys C))) (as_sub a0) h ms mi)
                      end
                  end
              | _, _, _ => Undef
              end
          end
      | _, _ => Undef
      end
  end.

(** src/core/mesh.hpp:58-71, src/core/core_mesh.hpp:61-82 the mesh treatments. *)
Inductive Treatment := T_TRUE | T_PLANE | T_PIN | T_PIN_PLANE.

(** src/core/core_mesh.hpp:68-73: regions of the macroplanes. *)
Fixpoint macro_regs (planes : list Plane) (uid : list nat) (iz : nat) (sub : list nat) : option nat :=
  match sub with
  | [] => Some 0
  | n :: r => match nth_error uid iz with
              | None => None
              | Some u => match nth_error planes u, macro_regs planes uid (iz + n) r with
                          | Some P, Some k => Some (pl_nreg P + k)
                          | _, _ => None
                          end
              end
  end.
(** src/core/core_mesh.hpp:61-82 CoreMesh::n_reg. *)
Definition n_reg (M : CoreMesh) (t : Treatment) : option nat :=
  match t with
  | T_TRUE => Some (cm_nreg M)
  | T_PLANE => macro_regs (sc_planes (cm_scan M)) (sc_uid (cm_scan M)) 0 (cm_sub M)
  | T_PIN => Some (cm_nx M * cm_ny M * cm_nz M)
  | T_PIN_PLANE => Some (cm_nx M * cm_ny M * length (cm_sub M))
  end.

(** src/core/core_mesh.hpp:345-352: volumes of one pin's regions. *)
Definition pin_volumes (areas : PinMesh -> list R) (h : R) (p : Pin) : list R := map (fun a => (a * h)%R) (areas (pin_mesh p)).
(** src/core/core_mesh.hpp:342-354 (TRUE).  [None] = division by zero or plane height read out of range. *)
Fixpoint true_volumes (areas : PinMesh -> list R) (dz : list R) (per : nat) (ipin : nat) (pins : list Pin) : option (list R) :=
  match pins with
  | [] => Some []
  | p :: r => if per =? 0 then None
              else match nth_error dz (ipin / per), true_volumes areas dz per (S ipin) r with
                   | Some h, Some v => Some (pin_volumes areas h p ++ v)
                   | _, _ => None
                   end
  end.
(** src/core/core_mesh.hpp:355-377 (PLANE).  [None] = pin iterators past the end. *)
Fixpoint plane_volumes (areas : PinMesh -> list R) (pins : list Pin) (per iz : nat) (sub : list nat) (h : list R) : option (list R) :=
  match sub, h with
  | [], _ => Some []
  | n :: r, h0 :: hr =>
      if length pins <? per * iz + per then None
      else match plane_volumes areas pins per (iz + n) r hr with
           | Some v => Some (flat_map (pin_volumes areas h0) (firstn per (skipn (per * iz) pins)) ++ v)
           | None => None
           end
  | _ :: _, [] => None
  end.
(** src/core/core_mesh.hpp:378-389 (PIN_PLANE), for the pin widths and heights of the mesh. *)
Definition pin_plane_volumes (dx dy heights : list R) : list R :=
  flat_map (fun h => flat_map (fun b => map (fun a => (a * b * h)%R) dx) dy) heights.
(** src/core/core_mesh.cpp:149-153 with Mesh::coarse_position (src/core/mesh.hpp:457-461): the volume of coarse cell [i]. *)
Definition pin_volume (nx ny : nat) (dx dy dz : list R) (i : nat) : option R :=
  if (nx =? 0) || (ny =? 0) then None
  else match nth_error dx (i mod nx), nth_error dy (i mod (nx * ny) / nx), nth_error dz (i / (nx * ny)) with
       | Some a, Some b, Some c => Some (a * b * c)%R
       | _, _, _ => None
       end.
(** src/core/core_mesh.hpp:338-397 CoreMesh::volumes. *)
Definition volumes (areas : PinMesh -> list R) (M : CoreMesh) (t : Treatment) : option (list R) :=
  match t with
  | T_TRUE => true_volumes areas (cm_dz M) (cm_nx M * cm_ny M) 0 (sc_pins (cm_scan M))
  | T_PLANE => plane_volumes areas (sc_pins (cm_scan M)) (cm_nx M * cm_ny M) 0 (cm_sub M) (cm_heights M)
  | T_PIN_PLANE => Some (pin_plane_volumes (cm_dx M) (cm_dy M) (map mp_height (cm_macros M)))
  | T_PIN => all_some (map (pin_volume (cm_nx M) (cm_ny M) (cm_dx M) (cm_dy M) (cm_dz M)) (seq 0 (cm_nx M * cm_ny M * cm_nz M)))
  end.

(** src/core/core_mesh.cpp:229-234 CoreMesh::pin_position. *)
Definition cm_pin_position (M : CoreMesh) (ipin : nat) : option (nat * nat * nat) :=
  let per := cm_nx M * cm_ny M in
  if per =? 0 then None
  else match sc_planes (cm_scan M) with
       | [] => None
       | P :: _ => match pin_position P (ipin mod per) with Some (x, y) => Some (x, y, ipin / per) | None => None end
       end.

(** src/core/core_mesh.cpp:236-244 CoreMesh::pin_origin. *)
Definition cm_pin_origin (M : CoreMesh) (ipin : nat) : option (R * R) :=
  match cm_pin_position M ipin with
  | None => None
  | Some (x, y, _) =>
      match nth_error (cm_xv M) x, nth_error (cm_xv M) (x + 1), nth_error (cm_yv M) y, nth_error (cm_yv M) (y + 1) with
      | Some a, Some b, Some c, Some d => Some ((a + b) * 0.5, (c + d) * 0.5)%R
      | _, _, _, _ => None
      end
  end.

(** src/sweepers/moc/moc_sweeper.cpp:128-141 (constructor): every assembly holds one lattice throughout a macroplane.
    [None] = a lattice read out of range. *)
Fixpoint same_ids (ls : list Lattice) (ip : nat) (id : Z) (ks : list nat) : option bool :=
  match ks with
  | [] => Some true
  | k :: r => match nth_error ls (ip + k) with
              | None => None
              | Some l => if (lat_id l =? id)%Z then same_ids ls ip id r else Some false
              end
  end.
(** As above, src/sweepers/moc/moc_sweeper.cpp:128-141. *)
Fixpoint moc_check_assembly (ls : list Lattice) (ip : nat) (sub : list nat) : option bool :=
  match sub with
  | [] => Some true
  | n :: r => match nth_error ls ip with
              | None => None
              | Some l => match same_ids ls ip (lat_id l) (seq 1 (n - 1)) with
                          | Some true => moc_check_assembly ls (ip + n) r
                          | o => o
                          end
              end
  end.
(** As above, src/sweepers/moc/moc_sweeper.cpp:128-141. *)
Definition moc_check (asys : list Assembly) (sub : list nat) : Out unit :=
  fold_out (fun _ A => match moc_check_assembly (as_lats A) 0 sub with Some true => Got tt | Some false => Threw | None => Undef end) tt asys.

(** src/sweepers/moc/moc_sweeper.cpp:147-152 (constructor): the running plane counts. *)
Fixpoint sub_bounds (prev : nat) (sub : list nat) : list nat := match sub with [] => [] | n :: r => (prev + n) :: sub_bounds (prev + n) r end.
(** src/sweepers/moc/moc_sweeper.hpp:189-194 moc_plane_index. *)
Definition moc_plane_index (sub : list nat) (iz : nat) : option nat := upper_bound Nat.ltb (sub_bounds 0 sub) iz.
