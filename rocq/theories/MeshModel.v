(** Model of the structured coarse mesh: src/core/mesh.hpp, src/core/mesh.cpp,
    src/core/constants.hpp and CoarseData::zero_data_radial.

    Index arithmetic is done in Z.  The C++ mixes [int] and [size_t]; all intermediate values below
    are non-negative for in-range arguments, where truncated and floored division agree.  Overflow of
    [int] for meshes with more than 2^31 surfaces is not modelled. *)
From Coq Require Import ZArith List Lia Bool.
Import ListNotations.
Open Scope Z_scope.

(** src/core/constants.hpp:35-44 enum Surface (the six real faces; INTERNAL and INVALID are never
    passed to the functions below). *)
Inductive Surface := EAST | NORTH | WEST | SOUTH | TOP | BOTTOM.

(** src/core/constants.hpp:35-44, numeric values used as array offsets. *)
Definition surf_code (s : Surface) : nat :=
  match s with EAST => 0 | NORTH => 1 | WEST => 2 | SOUTH => 3 | TOP => 4 | BOTTOM => 5 end%nat.

(** src/core/constants.cpp:23-24 AllSurfaces. *)
Definition AllSurfaces : list Surface := [EAST; NORTH; WEST; SOUTH; TOP; BOTTOM].

(** src/core/constants.hpp enum Normal.  See src/core/constants.hpp:64. *)
Inductive Normal := X_NORM | Y_NORM | Z_NORM.

(** src/core/constants.cpp:140-158 surface_to_normal. *)
Definition surface_to_normal (s : Surface) : Normal :=
  match s with
  | EAST | WEST => X_NORM
  | NORTH | SOUTH => Y_NORM
  | TOP | BOTTOM => Z_NORM
  end.

(** src/core/mesh.hpp: members nx_, ny_, nz_ of class Mesh.  See src/core/mesh.hpp:916-918. *)
Record Mesh := { nx : Z; ny : Z; nz : Z }.

(** src/core/position.hpp:22-35 struct Position. *)
Record Position := { px : Z; py : Z; pz : Z }.

(** src/core/mesh.hpp:326-329 n_pin. *)
Definition n_pin (m : Mesh) : Z := nx m * ny m * nz m.

(** src/core/mesh.hpp:337-341 n_surf. *)
Definition n_surf (m : Mesh) : Z :=
  (nx m + 1) * ny m * nz m + (ny m + 1) * nx m * nz m + (nz m + 1) * nx m * ny m.

(** src/core/mesh.cpp:38 n_surf_plane_. *)
Definition n_surf_plane (m : Mesh) : Z :=
  (nx m + 1) * ny m + (ny m + 1) * nx m + nx m * ny m.

(** src/core/mesh.hpp:356-359 plane_cell_begin. *)
Definition plane_cell_begin (m : Mesh) (p : Z) : Z := nx m * ny m * p.
(** src/core/mesh.hpp:364-367 plane_cell_end. *)
Definition plane_cell_end (m : Mesh) (p : Z) : Z := nx m * ny m * (p + 1).
(** src/core/mesh.hpp:378-381 plane_surf_begin. *)
Definition plane_surf_begin (m : Mesh) (p : Z) : Z := n_surf_plane m * p.
(** src/core/mesh.hpp:387-390 plane_surf_end. *)
Definition plane_surf_end (m : Mesh) (p : Z) : Z := n_surf_plane m * (p + 1).
(** src/core/mesh.hpp:402-405 plane_surf_xy_begin. *)
Definition plane_surf_xy_begin (m : Mesh) (p : Z) : Z := n_surf_plane m * p + nx m * ny m.

(** src/core/mesh.hpp:437-440 coarse_cell. *)
Definition coarse_cell (m : Mesh) (p : Position) : Z :=
  pz p * nx m * ny m + py p * nx m + px p.

(** src/core/mesh.hpp:457-461 coarse_position. *)
Definition coarse_position (m : Mesh) (c : Z) : Position :=
  {| px := c mod nx m; py := (c mod (nx m * ny m)) / nx m; pz := c / (nx m * ny m) |}.

(** [for (int i = 0; i < n; i++)] as the list of loop values.  See src/core/mesh.cpp:101-130. *)
Definition zrange (n : Z) : list Z := map Z.of_nat (seq 0 (Z.to_nat n)).

(** src/core/mesh.cpp:101-130, body of the innermost loop of prepare_surfaces: the six entries
    written at coarse_surf_[6*i .. 6*i+5], listed in the order of [surf_code]. *)
Definition cell_surfs (m : Mesh) (surf_offset ix iy : Z) : list Z :=
  let nxsurf := nx m + 1 in
  let nysurf := ny m + 1 in
  let nxysurf := (nx m + 1) * ny m + (ny m + 1) * nx m in
  [ surf_offset + nxsurf * iy + ix + 1 + nx m * ny m;
    surf_offset + nx m * ny m + (nx m + 1) * ny m + (ny m + 1) * ix + iy + 1;
    surf_offset + nxsurf * iy + ix + nx m * ny m;
    surf_offset + nxsurf * ny m + nysurf * ix + iy + nx m * ny m;
    surf_offset + nx m * ny m + nxysurf + nx m * iy + ix;
    surf_offset + nx m * iy + ix ].

(** src/core/mesh.cpp:99-132, the iy and ix loops.  The running counter [i] makes successive
    iterations write successive blocks of six, so the array is the concatenation of the blocks. *)
Definition plane_surfs (m : Mesh) (surf_offset : Z) : list Z :=
  flat_map (fun iy => flat_map (fun ix => cell_surfs m surf_offset ix iy) (zrange (nx m)))
           (zrange (ny m)).

(** src/core/mesh.cpp:97-134, the iz loop with its accumulated [surf_offset]. *)
Fixpoint surf_planes (m : Mesh) (surf_offset : Z) (n : nat) : list Z :=
  match n with
  | O => []
  | S n' => plane_surfs m surf_offset ++
            surf_planes m (surf_offset + ((nx m + 1) * ny m + (ny m + 1) * nx m + nx m * ny m)) n'
  end.

(** src/core/mesh.cpp:88-136 prepare_surfaces: the table coarse_surf_. *)
Definition prepare_surfaces (m : Mesh) : list Z := surf_planes m 0 (Z.to_nat (nz m)).

(** src/core/mesh.hpp:482-489 coarse_surf; [None] is an out-of-range read. *)
Definition coarse_surf (m : Mesh) (i : Z) (s : Surface) : option Z :=
  if i <? 0 then None else nth_error (prepare_surfaces m) (Z.to_nat i * 6 + surf_code s).

(** src/core/mesh.hpp:859-871 surface_normal. *)
Definition surface_normal (m : Mesh) (surface : Z) : Normal :=
  let nsurfz := nx m * ny m + (nx m + 1) * ny m + (ny m + 1) * nx m in
  if surface mod nsurfz <? nx m * ny m then Z_NORM
  else if surface mod nsurfz <? nx m * ny m + (nx m + 1) * ny m then X_NORM
  else Y_NORM.

(** src/core/mesh.hpp:575-646 coarse_neigh_cells. *)
Definition coarse_neigh_cells (m : Mesh) (surf : Z) : Z * Z :=
  let iz := surf / n_surf_plane m in
  let s1 := surf - iz * n_surf_plane m in
  let cell x y z := coarse_cell m {| px := x; py := y; pz := z |} in
  match surface_normal m surf with
  | X_NORM =>
      let iy := (s1 - nx m * ny m) / (nx m + 1) in
      let ix := (s1 - nx m * ny m) mod (nx m + 1) in
      (if 0 <? ix then cell (ix - 1) iy iz else -1, if ix <? nx m then cell ix iy iz else -1)
  | Y_NORM =>
      let s2 := s1 - (nx m * ny m + (nx m + 1) * ny m) in
      let iy := s2 mod (ny m + 1) in
      let ix := s2 / (ny m + 1) in
      (if 0 <? iy then cell ix (iy - 1) iz else -1, if iy <? ny m then cell ix iy iz else -1)
  | Z_NORM =>
      let iy := s1 / nx m in
      let ix := s1 mod nx m in
      (if 0 <? iz then cell ix iy (iz - 1) else -1, if iz <? nz m then cell ix iy iz else -1)
  end.

(** src/core/mesh.hpp:779-822 coarse_neighbor. *)
Definition coarse_neighbor (m : Mesh) (cell : Z) (s : Surface) : Z :=
  let pos := coarse_position m cell in
  match s with
  | NORTH => if py pos <? ny m - 1 then cell + nx m else -1
  | SOUTH => if 0 <? py pos then cell - nx m else -1
  | EAST => if px pos <? nx m - 1 then cell + 1 else -1
  | WEST => if 0 <? px pos then cell - 1 else -1
  | TOP => if pz pos <? nz m - 1 then cell + nx m * ny m else -1
  | BOTTOM => if 0 <? pz pos then cell - nx m * ny m else -1
  end.

(** Outcome of coarse_interface: a surface and face, or the exception of mesh.hpp:698, or UB. *)
Inductive iface := Found (surf : Z) (s : Surface) | NotNeighbors | IfaceUB.

(** src/core/mesh.hpp:691-696, the search loop over AllSurfaces. *)
Fixpoint interface_search (m : Mesh) (c1 c2 : Z) (l : list Surface) : iface :=
  match l with
  | [] => NotNeighbors
  | s :: l' =>
      if coarse_neighbor m c1 s =? c2 then
        match coarse_surf m c1 s with Some k => Found k s | None => IfaceUB end
      else interface_search m c1 c2 l'
  end.

(** src/core/mesh.hpp:687-699 coarse_interface. *)
Definition coarse_interface (m : Mesh) (c1 c2 : Z) : iface := interface_search m c1 c2 AllSurfaces.

(** src/core/coarse_data.hpp members current, surface_flux and partial_current (surface index, group):
    arrays as total maps; only reads and writes at in-range surfaces are made below.  See src/core/coarse_data.hpp:151-153. *)
Record CoarseData (A : Type) :=
  { current : Z -> Z -> A; surface_flux : Z -> Z -> A; partial_current : Z -> Z -> A * A }.
Arguments current {A}. Arguments surface_flux {A}. Arguments partial_current {A}.

(** Array element assignment a(i,j) = v.  See src/core/coarse_data.cpp:78-82. *)
Definition upd2 {A} (f : Z -> Z -> A) (i j : Z) (v : A) : Z -> Z -> A :=
  fun i' j' => if (i' =? i) && (j' =? j) then v else f i' j'.

(** src/core/coarse_data.cpp:78-82, body of the surface loop of zero_data_radial. *)
Definition zero_surf {A} (zero : A) (zero_partial : bool) (group : Z) (d : CoarseData A) (surf : Z)
  : CoarseData A :=
  {| current := upd2 (current d) surf group zero;
     surface_flux := upd2 (surface_flux d) surf group zero;
     partial_current := if zero_partial then upd2 (partial_current d) surf group (zero, zero)
                        else partial_current d |}.

(** src/core/coarse_data.cpp:76-77: the surfaces visited, plane by plane, from plane_surf_xy_begin up to
    but excluding plane_surf_end. *)
Definition radial_surfs (m : Mesh) : list Z :=
  flat_map (fun p => map (fun k => plane_surf_xy_begin m p + k)
                         (zrange (plane_surf_end m p - plane_surf_xy_begin m p)))
           (zrange (nz m)).

(** src/core/coarse_data.cpp:65-86 zero_data_radial. *)
Definition zero_data_radial {A} (m : Mesh) (zero : A) (zero_partial : bool) (group : Z)
  (d : CoarseData A) : CoarseData A :=
  fold_left (zero_surf zero zero_partial group) (radial_surfs m) d.
