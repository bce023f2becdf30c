# Formal model of mocc: design

## What this is

`/repo` (youngmit/mocc, C++) is read as text.  `rocq/theories` holds hand-written Gallina models of its functions and
theorems about them.  The code is never built or run here, so the tie between model and code is the file and line citation on
every definition and a re-reading of the cited lines.

## Layout

For each area `X`: `XModel.v` (computable model, function by function, each definition citing `/repo` file and lines and
stating its simplifications), `XProofs.v` (lemmas, where there are many), `X...Props.v` (the property theorems `Cnn_...`,
each followed by `Print Assumptions`, with an `Example Cnn_instance` beside it that exhibits a non-trivial case meeting
the hypotheses).  `RUtil.v`, `ListUtil.v`, `StdAlg.v` hold shared helpers (`StdAlg` models std::lower_bound and friends).

Conventions

* C++ `int` and `size_t` arithmetic is modelled in `Z` (or `nat` for list positions).  Wrap-around is written out
  (`mod 2^32`, `mod 2^64`) where a property depends on it.
* `double` and `float` are Coq's exact reals `R`, except where rounding is the point (random numbers: integer model of
  round-half-even; bitwise comparison).  Theorems over `R` say nothing about rounding error.
* Undefined behaviour (access out of range, division by zero, signed overflow) and exceptions are distinct outcomes
  (`None`, `UB`, `Undef`, `PUB`, `Throw`, `PExc`), never a default value that a theorem could exploit.
* A property that is false of the faithful model gets a theorem `..._refuted` with a concrete witness; the part that is
  true is proved separately under the condition the code really needs.
* A theorem that proves less than the property's wording carries the suffix `_partial`, with the missing part in a comment.

## Trusted base

* The Coq 8.16.1 kernel (and its `vm_compute` for some witnesses).  No plugin, no kernel check switched off, no axiom,
  parameter or unfinished proof of our own, no functor or module type.
* The standard library axioms listed at the end, per theorem.  No other library's axioms are used.
* The reading of the C++ recorded in the citation comments.  What the standard, HDF5, pugixml, Eigen and Blitz libraries do
  is assumed as documented where a comment says so.

## Per property

Status is that of MANIFEST.json.  "partial" means that the statement is refuted as worded by a theorem `..._refuted` (a
real discrepancy of the code or of its documentation, see "Findings") while the part that holds is proved, or that a
stated condition is needed.  "Models" are the files whose definitions the theorems speak about.

| id | title | status | theorems in | models | how proved |
|---|---|---|---|---|---|
| C01 | Jumping the random stream ahead equals drawing one at a time | proved | RngProps | RngModel, StdAlg | powers of an affine map modulo 2^63; the binary loop of jump_ahead computes the n-th power by an invariant on the remaining bits |
| C02 | The random stream has full period and never leaves its range | proved | RngProps | RngModel, StdAlg | Hull-Dobell for modulus 2^63 by induction on the power of two; injectivity gives the permutation |
| C03 | Uniform variates stay in [0,1) and bounded integers stay below the bound | partial | RngProps | RngModel, StdAlg | conversion to double modelled as integer round-half-even to 53 bits; exact threshold, then a draw above it exists by C02 |
| C04 | Different particle histories use non-overlapping parts of the random stream | partial | RngProps | RngModel, StdAlg | interval arithmetic on stream positions; overlap shown with two concrete histories |
| C05 | Sampling a cumulative distribution returns the bin containing the variate | proved | RngProps | RngModel, StdAlg | lower_bound as first index not below; induction on the table |
| C06 | Coarse cell index and (x,y,z) position are mutually inverse | proved | MeshProps | MeshModel | div/mod arithmetic over Z |
| C07 | Every coarse surface number is used, in range, and shared only by adjacent cells | proved | MeshProps | MeshModel | closed form of each surface number; case analysis on side and direction |
| C08 | Looking up the cells on either side of a surface inverts the surface numbering | proved | MeshProps | MeshModel | closed form inverted by div/mod |
| C09 | The reported normal of a surface is the axis it faces | proved | MeshProps | MeshModel | range comparison of surface numbers |
| C10 | Stepping to a neighbour and back returns to the start; leaving the domain is reported | proved | MeshProps | MeshModel | positions of cells; case analysis on the six sides |
| C11 | Coarse areas and volumes are consistent | proved | GeomProps | GeomModel, MeshModel | telescoping sums of widths over R |
| C12 | Per-plane index ranges partition cells and surfaces | proved | MeshProps | MeshModel | prefix sums per plane |
| C13 | Ray tracing through the coarse mesh finds every pin boundary crossing | partial | GeomProps | GeomModel, MeshModel | segment/line intersection lemmas (C68) applied to every mesh line; witness for a tall domain |
| C14 | Reflecting an angle flips exactly one direction cosine | proved | AngProps | AngModel, MeshModel | octant arithmetic for any number of angles per octant |
| C15 | Reversing an angle returns the opposite direction | partial | AngProps | AngModel, MeshModel | octant arithmetic; witness for the failing octants |
| C16 | Level-symmetric generation assigns each ordinate the weight of its own order | partial | AngProps | AngModel, MeshModel | weights table read per order; unit length by ring; witnesses for S12-S16 |
| C17 | Boundary-condition storage gives every group, angle and face its own slice | proved | BcProps | AngModel, BcModel, MeshModel | prefix-sum layout of offsets |
| C18 | A boundary update sets each incoming face according to its condition and nothing else | partial | BcProps | AngModel, BcModel, MeshModel | frame lemmas for slice writes, induction over faces and angles |
| C19 | A scattering matrix round-trips through its compressed storage | partial | ScatProps | McModel, ScatModel | induction over packed rows; witness with a negative entry |
| C20 | Outgoing-group distributions are proper cumulative distributions | proved | ScatProps | McModel, ScatModel | prefix sums of non-negative entries |
| C21 | Monte Carlo results do not depend on thread scheduling | proved | McProps | McModel, RngModel, StdAlg | uniqueness of the sorted bank plus permutation invariance of sums |
| C22 | Resizing a fission bank yields exactly the requested number of sites drawn from the original | partial | McProps | McModel, RngModel, StdAlg | induction over the grow/shrink loops |
| C23 | Tally results do not depend on scoring order and report mean and deviation correctly | partial | TallyProps | GeomModel, McModel, MeshModel, StdAlg, TallyModel | permutation invariance; algebra of mean and variance |
| C24 | Shannon entropy indexing is safe and its value is bounded | partial | TallyProps | GeomModel, McModel, MeshModel, StdAlg, TallyModel | Gibbs inequality by -x ln x bounds |
| C25 | The number of Monte Carlo cycles is what was requested | partial | McProps | McModel, RngModel, StdAlg | loop counter invariant |
| C26 | Ray exits map one-to-one onto boundary slots | proved | RayProps | AngModel, CoreModel, GeomModel, MatModel, McModel, MeshModel, RayModel, StdAlg | explicit entry/exit maps and their inverse over Z; real geometry of each exit point |
| C27 | Sweeping a ray conserves particles and preserves positivity | proved | MocProps | AngModel, BcModel, CoreModel, ExpModel, McModel, MeshModel, MocModel, StdAlg | telescoping along a ray; convex combination bounds; fixed point of the whole sweep |
| C28 | The swept scalar flux does not depend on the order in which rays are processed | proved | MocProps | AngModel, BcModel, CoreModel, ExpModel, McModel, MeshModel, MocModel, StdAlg | commutation of additions to distinct or equal slots; permutation of rays |
| C29 | Volume correction makes ray segments reproduce exact region areas | proved | VolProps | CoreModel, MocModel, StdAlg, VolModel | sums of corrected lengths per region |
| C30 | Writing a pin flux and reading it back returns what was written | partial | PflProps | MatModel, McModel, MocModel, PflModel | list surgery lemmas for pin ranges |
| C31 | Transverse leakage is either added to the source or split, never lost | proved | PflProps | MatModel, McModel, MocModel, PflModel | case split on sign of source plus leakage |
| C32 | Expanding macroplane currents writes exactly the surfaces of that macroplane | partial | CurProps | AngModel, BcModel, CoreModel, CurModel, McModel, MeshModel, MocModel, StdAlg | exact description of the copied ranges |
| C33 | Coarse ray records reproduce every segment of the ray | partial | CurProps | AngModel, BcModel, CoreModel, CurModel, McModel, MeshModel, MocModel, StdAlg | invariant of the packing loop; 8-bit wrap witness |
| C34 | Material regions of the cross-section mesh partition the flat source regions | proved | XsProps | MatModel, McModel, ScatModel, XsModel | grouping invariant of the region builder |
| C35 | Expanded cross sections always reflect the last requested expansion | partial | XsProps | MatModel, McModel, ScatModel, XsModel | refinement: cached state vs last request over any history |
| C36 | Homogenisation preserves reaction rates | partial | HomProps | MatModel, McModel, ScatModel, XsModel | weighted sums over R |
| C37 | Cross-section region equality means equal data | partial | XsProps | MatModel, McModel, ScatModel, XsModel | field-by-field comparison |
| C38 | Material lookup by user identifier returns the material assigned to it | partial | MatProps | MatModel, McModel, ScatModel | history refinement of the id map |
| C39 | Material spectra are normalised and totals are consistent | proved | MatProps | MatModel, McModel, ScatModel | sum of the scaled spectrum |
| C40 | The source for a group is external plus fission plus in-scattering, once each | partial | SrcProps | MatModel, McModel, ScatModel, SrcModel, XsModel | frame lemmas per region, sum over groups |
| C41 | The sweep source is consistent with the cross section used to attenuate | partial | SrcProps | MatModel, McModel, ScatModel, SrcModel, XsModel | algebra over the self-scatter loop |
| C42 | CMFD conserves particles: the linear system is the cell balance of its own currents | proved | CmfdProps | BcModel, CmfdModel, ExpModel, MeshModel, SnModel | matrix row as a sum over sides; antisymmetry of the current of a shared face |
| C43 | CMFD reproduces the transport current it was given | partial | CmfdMacroProps, CmfdProps | BcModel, CmfdModel, ExpModel, MeshModel, SnModel | algebra of D-hat; sums over planes of a macroplane |
| C44 | The CMFD iteration limit is respected and the returned flux is non-negative | partial | CmfdMacroProps | BcModel, CmfdModel, ExpModel, MeshModel, SnModel | loop invariant with arbitrary linear solver |
| C45 | A transport sweep visits each cell once, upwind neighbours first | proved | SnProps, SnSweepProps | AngModel, BcModel, CoreModel, CurModel, ExpModel, McModel, MeshModel, MocModel ... | nested loop as a list of cells; upwind-first by index order; uniqueness by induction along the sweep |
| C46 | Every Sn differencing scheme satisfies the cell balance equation | partial | SnEqProps | SnModel | field identities per scheme |
| C47 | The Sn pin-flux update reports its residual and installs the flux | partial | SnPinProps | CoreModel, ExpModel, McModel, MocModel, SnModel, SnPinModel, StdAlg | loop invariant of the residual; witnesses |
| C48 | The eigenvalue iteration stops when documented and never exceeds its limit | partial | SolProps | MatModel, McModel, RngModel, ScatModel, SolModel, SrcModel, XsModel | loop invariant over arbitrary step and convergence test |
| C49 | Requested iterations are dumped | partial | SolProps | MatModel, McModel, RngModel, ScatModel, SolModel, SrcModel, XsModel | sorted request list invariant |
| C50 | A fixed-source solve needs a positive iteration limit | partial | SolProps | MatModel, McModel, RngModel, ScatModel, SolModel, SrcModel, XsModel | conversion int to size_t |
| C51 | Power iteration: the eigenvalue is the ratio of fission productions and ignores flux scaling | proved | MgProps, SolProps, SrcProps | AngModel, BcModel, CoreModel, ExpModel, MatModel, McModel, MeshModel, MgModel ... | scaling relation preserved by every step, then by the loop |
| C52 | Normalising makes positive entries average to one | partial | SolProps | MatModel, McModel, RngModel, ScatModel, SolModel, SrcModel, XsModel | sum of scaled list |
| C53 | Rational approximation returns a fraction with bounded denominator and terminates | partial | RatProps | MatModel, RatModel, RayModel | Stern-Brocot (Farey) invariant |
| C54 | Brace-expanded plane lists assign every value as written | partial | StrProps | StrModel | recursive-descent specification of the text, loop refinement |
| C55 | Printed ranges decode to the original flags | proved | StrProps | StrModel | run-length specification |
| C56 | Reading a scrubbed file yields exactly the non-empty uncommented lines | proved | StrProps | StrModel | line-splitting specification |
| C57 | Lattice layout indexing maps every pin position to the pin the user drew there | partial | LatProps | CoreModel, MatModel, McModel, StdAlg | row reversal and prefix sums |
| C58 | Plane pin index and core position are mutually inverse | partial | EquivProps, PlaneProps | CoreModel, MatModel, McModel, StdAlg | position arithmetic |
| C59 | Pin mesh areas add up to the pin cell | partial | PmProps | CoreModel, GeomModel, PmModel, StdAlg | telescoping of ring areas; widths |
| C60 | Unknown materials in a pin are rejected | partial | LatProps | CoreModel, MatModel, McModel, StdAlg | fold over materials |
| C61 | Macroplanes partition the axial planes and contain identical geometry | partial | MacroProps | AsmModel, BcModel, CoreModel, MatModel, McModel, StdAlg | grouping of planes |
| C62 | Planes with the same geometry share one unique plane | proved | EquivProps, MacroProps | AsmModel, BcModel, CoreModel, MatModel, McModel, StdAlg | partition by equivalence, scan invariant |
| C63 | The exponential table never reads outside its storage and has bounded error | partial | ExpProps | CoreModel, ExpModel, MatModel, McModel, RayModel, StdAlg | Taylor bound on the exponential |
| C64 | Transverse leakage is the axial current difference and telescopes | proved | TlProps | McModel, MeshModel, TlModel | TlModel.v, TlProps.v: the loop over macroplanes and pins of add_tl, telescoping by induction over the macroplanes |
| C65 | Correction factors written to file can be read back | partial | CorrProps | CorrModel, MatModel, McModel | CorrModel.v, CorrProps.v: files as maps from data set to extents and values; induction over tags, data sets and planes |
| C66 | Zeroing radial coarse data clears exactly the in-plane surfaces of one group | proved | MeshProps | MeshModel | frame condition of the zeroing loop |
| C67 | The Monte Carlo solver's own random stream is independent of the history streams | partial | RngProps | RngModel, StdAlg | both streams start from the same seed |
| C68 | Segment intersection finds the crossing point exactly when there is one | proved | GeomProps | GeomModel, MeshModel | Cramer rule |
| C69 | Ray/circle intersection returns exactly the points on both | proved | GeomProps | GeomModel, MeshModel | quadratic roots |
| C71 | Product quadrature weights integrate the unit sphere | proved | AngProps | AngModel, MeshModel | sums over the product set |
| C72 | The stored azimuthal and polar angles of a direction agree with its cosines | proved | AngProps | AngModel, MeshModel | acos/cos/sin identities |
| C73 | Uniform initialisation respects the boundary condition of every face | proved | BcProps | AngModel, BcModel, MeshModel | per-face case analysis |
| C74 | Comparing scattering matrices compares the matrices | partial | ScatProps | McModel, ScatModel | comparison of packed storage; witness |
| C75 | Library names identify materials | partial | MatProps | MatModel, McModel, ScatModel | first-match lookup |
| C77 | Assemblies stack their lattices bottom-up as drawn top-down | partial | AsmProps | AsmModel, BcModel, CoreModel, MatModel, McModel, StdAlg | list reversal and grids |
| C78 | The core map places assemblies as drawn | partial | CoreMapProps | AsmModel, BcModel, CoreModel, MatModel, McModel, StdAlg | row reversal |
| C81 | Modularised ray spacing respects the request and the angle stays close | partial | RatProps | MatModel, RatModel, RayModel | rounding bounds |
| C83 | Currents from a MoC sweep are consistent with each plane's own height | partial | CurProps | AngModel, BcModel, CoreModel, CurModel, McModel, MeshModel, MocModel, StdAlg | weights over one plane |
| C84 | Coarse currents balance what the sweep deposits in each coarse cell | proved | CurProps | AngModel, BcModel, CoreModel, CurModel, McModel, MeshModel, MocModel, StdAlg | sums over records per coarse cell |
| C82 | The incoming flux of every boundary ray is updated from the surface it enters through | partial | PflProps | MatModel, McModel, MocModel, PflModel | each boundary slot visited once |
| C85 | Homogenised cross sections survive output and read-back | partial | HomProps | MatModel, McModel, ScatModel, XsModel | write/read functions composed |
| C86 | Homogenised regions partition the pin cells | proved | HomProps | MatModel, McModel, ScatModel, XsModel | permutation of grid cells |
| C87 | Reaction and fission spectrum tables are distributions | partial | XsProps | MatModel, McModel, ScatModel, XsModel | prefix sums |
| C88 | Pin powers are the region powers summed per pin and normalised, and the residual sees every change | partial | SrcProps | MatModel, McModel, ScatModel, SrcModel, XsModel | sums over regions of pins |
| C89 | The Sn coarse currents balance every cell | proved | SnCurProps, SnSweepProps | AngModel, BcModel, CoreModel, CurModel, ExpModel, McModel, MeshModel, MocModel ... | sums over angles of cell balances |
| C90 | An Sn sweep with Jacobi boundaries does not depend on the threads | proved | SnSweepProps | AngModel, BcModel, CoreModel, CurModel, ExpModel, McModel, MeshModel, MocModel ... | permutation invariance |
| C91 | The Sn sweep keeps a uniform field uniform | proved | SnSweepProps | AngModel, BcModel, CoreModel, CurModel, ExpModel, McModel, MeshModel, MocModel ... | constant solution is the unique one |
| C92 | The CMFD surface flux and partial currents are those of the diffusion current | partial | CmfdMacroProps, CmfdProps | BcModel, CmfdModel, ExpModel, MeshModel, SnModel | algebra of surface flux and partial currents |
| C70 | The polar angle of a point | partial | PmProps | CoreModel, GeomModel, PmModel, StdAlg | atan and quadrant cases |
| C93 | Ray segments inside a pin | partial | PmCylChord, PmTraceProps | CoreModel, GeomModel, PmModel, StdAlg | points of a chord sorted by position; between two successive points no boundary is crossed |
| C94 | The region found contains the point | partial | PmProps | CoreModel, GeomModel, PmModel, StdAlg | lower_bound cell; polar coordinates |
| C96 | Where a ray leaves a box | partial | PmCylTrace | CoreModel, GeomModel, PmModel, StdAlg | tangent and quadrant cases |
| C97 | Sector areas outside the rings | partial | PmAreaProps | GeomModel, PmModel | shoelace areas |
| C98 | Inner iterations of a group sweep | proved | MgInnerProps | AngModel, BcModel, CoreModel, ExpModel, MatModel, McModel, MeshModel, MgModel ... | induction over inner iterations |
| C99 | What the convergence record says | proved | MgInnerProps | AngModel, BcModel, CoreModel, ExpModel, MatModel, McModel, MeshModel, MgModel ... | unfolding of one iteration, last step of a run |
| C76 | Comparing floating-point numbers | partial | FpProps | CoreModel, FpModel | bit patterns as integers; order isomorphism between patterns and values |
| C95 | Distance along a flight to the next surface | partial | PartProps | AngModel, CoreModel, GeomModel, PartModel, PmModel, StdAlg | sign of the offset along the flight; roots of the quadratic; minimum over a list by induction |
| C100 | Isotropic directions | partial | PartFlightProps | AngModel, CoreModel, GeomModel, MeshModel, PartModel, PmModel, ScatModel, StdAlg ... | polar form and its uniqueness |
| C101 | What a collision does | partial | PartFlightProps | AngModel, CoreModel, GeomModel, MeshModel, PartModel, PmModel, ScatModel, StdAlg ... | lower_bound on running sums; induction over the sites |
| C102 | Distance to the side of a pin | partial | PartFlightProps | AngModel, CoreModel, GeomModel, MeshModel, PartModel, PmModel, ScatModel, StdAlg ... | one axis at a time |
| C103 | Moving a particle | partial | PartFlightProps | AngModel, CoreModel, GeomModel, MeshModel, PartModel, PmModel, ScatModel, StdAlg ... | case analysis on the sign of the cosine |
| C104 | The region ahead of a particle | partial | PartRegProps | AngModel, CoreModel, GeomModel, MeshModel, PartModel, PmModel, ScatModel, StdAlg ... | lower_bound index with tolerance; whole part of the angle over the spacing |
| C105 | Scores of a particle history are consistent | proved | HistProps | AngModel, AsmModel, BcModel, CoreModel, GeomModel, HistModel, MeshModel, PartModel ... | invariant over the steps of the loop |
| C106 | Particles at the boundary of the core | partial | HistProps | AngModel, AsmModel, BcModel, CoreModel, GeomModel, HistModel, MeshModel, PartModel ... | cases on the faces |
| C107 | Finding the pin a particle is in | partial | LocProps | AngModel, AsmModel, BcModel, CoreModel, GeomModel, HistModel, MatModel, McModel ... | lower_bound index; prefix sums of the widths; C62 and C58 for the plane |
| C108 | A group sweep of the Sn sweeper: passes, boundary, currents and clean-up | proved | SnGroupProps | AngModel, BcModel, CoreModel, CurModel, ExpModel, MatModel, McModel, MeshModel ... | SnGroupModel.v, SnGroupProps.v: induction over the angles of the schedule for the boundary (each mirrored face is written by exactly one angle), induction over the inner iterations for the group sweep; balance from C89 |
| C109 | Boundary flux is updated from coarse partial currents | partial | SnIncProps | AngModel, BcModel, McModel, MeshModel, PflModel, SnIncModel | SnIncModel follows the loops over groups, angles, normals and cells. Every position of the packed boundary array is shown to be written once and to lie on a surface with no cell beyond it, entered by its angle. |
| C110 | Segments of a ray: the pins it crosses, their regions, the whole length | partial | RayTrProps | AngModel, AsmModel, BcModel, CoreModel, GeomModel, HistModel, MatModel, McModel ... | Consecutive crossings lie in one cell of the grid of pin boundaries; the lookup of C58 finds its pin, and C93 applies to the chord between two points of the rim of that pin; the lengths telescope along the ray. |
| C111 | Rays leave their currents in the cells they cross | partial | RayCmProps | CoreModel, CurModel, GeomModel, McModel, MeshModel, MocModel, PmModel, RayCmModel ... | RayCmModel.v, RayCmProps.v: a piece of the ray crosses its cell from side to side, the flags of the side it leaves by give the surfaces and the next cell; induction over the pieces, forwards and on the reversed ray, gives the premises of C33 and C84. |
| C80 | Region volumes add up to the core volume | partial | CvolProps | AsmModel, BcModel, CoreModel, MatModel, McModel, MocModel, StdAlg | CvolProps.v: the loops over planes and pins are turned into double sums; areas of a pin add to its cell, cells to the plane, planes to the core. |
| C79 | The region at a point | partial | RegProps | AngModel, AsmModel, BcModel, CoreModel, GeomModel, HistModel, MatModel, McModel ... | RegModel.v and RegProps.v: the lookup of the plane (C107) and of the pin (C58) composed with find_reg (C94). |
| C112 | Pin powers of the Sn sweeper | proved | SnOutProps | AngModel, BcModel, CoreModel, GeomModel, MatModel, McModel, MeshModel, ScatModel ... | SnOutModel.v and SnOutProps.v: the nested loops give each entry the sum of the powers of the regions sent to it (induction), the entry of a cell is its number or its column, Normalize by C52. |
| C113 | The cell balance an Sn sweep reports | partial | SnOutProps | AngModel, BcModel, CoreModel, GeomModel, MatModel, McModel, MeshModel, ScatModel ... | SnOutModel.v and SnOutProps.v: the number printed is rewritten with the balance of C108_currents. |
| C114 | A 2D3D calculation runs the MoC sweeper in exactly the scheduled outer iterations | proved | CmdoProps | CmdoModel, CmfdModel, ExpModel, MatModel, McModel, MocModel, PflModel, SnModel ... | CmdoModel.v and CmdoProps.v: invariant of the record of sweeps over any sequence of events, then induction over outer iterations. |
| C115 | Projecting the Sn solution onto the MoC mesh keeps the two sweepers consistent | partial | CmdoProps | CmdoModel, CmfdModel, ExpModel, MatModel, McModel, MocModel, PflModel, SnModel ... | CmdoModel.v and CmdoProps.v: the flow of one sweep is followed; writing and reading MoC pin fluxes by C30. |
| C116 | Projecting the MoC solution starts the Sn sweep from the MoC pin fluxes | partial | CmdoProps | CmdoModel, CmfdModel, ExpModel, MatModel, McModel, MocModel, PflModel, SnModel ... | CmdoModel.v and CmdoProps.v: as C115, with the scaling of a single-plane macroplane computed; the refutation is a column of two planes. |
| C117 | A CMFD step leaves both 2D3D sweepers with the CMFD solution | proved | CmdoProps | CmdoModel, CmfdModel, ExpModel, MatModel, McModel, MocModel, PflModel, SnModel ... | CmdoModel.v and CmdoProps.v: induction over groups with C30 and C47 in each. |
| C118 | The convergence test sees the fission source of every region | partial | CmdoProps | CmdoModel, CmfdModel, ExpModel, MatModel, McModel, MocModel, PflModel, SnModel ... | CmdoModel.v, SolModel.v and CmdoProps.v: a sum of squares is zero only when every term is; the refutation is computed with the fission source of SrcModel.v. |
| C119 | Correction-factor sums of a cell balance | proved | CorwProps | AngModel, BcModel, CoreModel, CorwModel, CurModel, McModel, MeshModel, MocModel ... | CorwModel.v, CorwProofs.v and CorwProps.v: induction over the records of a ray; the flux change over a segment is its attenuation times the excess of flux over source. |
| C120 | Correction factors make the corrected Sn cell reproduce the MoC cell | partial | CorwProps | AngModel, BcModel, CoreModel, CorwModel, CurModel, McModel, MeshModel, MocModel ... | CorwModel.v and CorwProps.v: C119 gives the balance from which the factors make the corrected cell equation an identity; the refutation is a 1 by 2 cell with a flat flux. |
| C121 | The correction residual measures every change of a factor | proved | CorwProps | AngModel, BcModel, CoreModel, CorwModel, CurModel, McModel, MeshModel, MocModel ... | CorwModel.v and CorwProps.v: induction over cells and angles. |
| C122 | Currents and surface fluxes do not depend on the worker | partial | CorwProps | AngModel, BcModel, CoreModel, CorwModel, CurModel, McModel, MeshModel, MocModel ... | CorwModel.v and CorwProps.v: simulation of one worker by the other, record by record, in a plane lifted to its height. |
| C123 | Surface fluxes of a MoC sweep | partial | MsfProps | AngModel, BcModel, CoreModel, CorwModel, CurModel, McModel, MeshModel, MocModel ... | MsfModel.v, CorwModel.v and MsfProps.v: induction over records, rays and surfaces; the refutation is a core of three planes in two macroplanes. |
| C124 | All users of the homogenised cross sections see one consistent set | partial | XshProps | MatModel, McModel, ScatModel, XsModel, XshModel | XshModel.v and XshProps.v: two views on shared rows; the refutations are a pin of two regions with two fluxes. |
| C125 | The cross sections CMFD works with are those of its cells | proved | XshProps | MatModel, McModel, ScatModel, XsModel, XshModel | XshModel.v and XshProps.v: the copy is a homogenised mesh of single planes, so C86 applies. |
| C126 | Accepted user quadratures can be used by the sweepers | partial | AqProps | AngModel, AqModel, FpModel, MeshModel | inversion of every test of the constructor; special inputs for the refutations; the comparison with one is linked to the bit-level comparison |
| C127 | Quadratures survive writing to and reading from a file | partial | AqProps | AngModel, AqModel, FpModel, MeshModel | induction over the arrays; refutations by small files |
| C128 | Assigning a quadrature copies it or is refused | partial | AqProps | AngModel, AqModel, FpModel, MeshModel | case analysis; refutation by two user quadratures |
| C129 | The weight update after ray layout keeps every direction in its place | proved | AqwProps | AngModel, AqModel, MeshModel | induction over the azimuthal angles, through sort and unique; index arithmetic of products |
| C130 | Gauss-Legendre polar angles carry their own weights | proved | GaussProps | AngModel, AqModel, MeshModel | parity of the Legendre recursion as an invariant of the iteration; derivative by induction |
| C131 | CMFD leaves a balanced transport solution alone | proved | CmsProps | BcModel, CmfdModel, CmsModel, ExpModel, MeshModel, SnModel | invariant of the group loop and of the iteration; balance from the row equations of C42 and currents of C43 |
| C132 | CMFD results do not depend on the normalisation of the flux | partial | CmsProps | BcModel, CmfdModel, CmsModel, ExpModel, MeshModel, SnModel | simulation between the run and the scaled run; a two-cell run by hand for the refutation |
| C133 | CMFD options are checked | proved | CmsProps | BcModel, CmfdModel, CmsModel, ExpModel, MeshModel, SnModel | case analysis |
| C134 | A command-line amendment changes exactly the value it names | proved | InpProps | InpModel, StrModel | induction along the path; the reading functions are independent of the update functions |
| C135 | An amendment that could mean several values is refused | partial | InpProps | InpModel, StrModel | concrete document; counting the values a path fits by the shape of the document |
| C136 | The command line is accepted exactly when it has the documented form | proved | InpProps | InpModel, StrModel | grammar of the command line, two-step induction on the arguments |
| C137 | The case name is the input file's name without extension, or the name given | partial | InpProps | InpModel, StrModel | properties of the last occurrence of a character |
| C138 | What is written to a results file is read back | proved | H5Props | H5Model, StrModel | induction along the path through the tree of groups |
| C139 | Sizes are checked when reading into storage of the same rank | proved | H5Props | H5Model, StrModel | case analysis on ranks and extents |
| C140 | Reads and writes fail by the program's own exception | proved | H5Props | H5Model, StrModel | case analysis of every call |
| C141 | A timer reports the time it was running | proved | UtilProps | StrModel, UtilModel | induction on the starts and stops |
| C142 | Starting and stopping a timer do what their descriptions say | partial | UtilProps | StrModel, UtilModel | concrete timers |
| C143 | Each warning is shown once and counted | proved | UtilProps | StrModel, UtilModel | induction on the warnings, with the table and the messages displayed as invariant |
| C144 | The input options choose the solver and sweeper they name | proved | UtilProps | StrModel, UtilModel | case analysis against the documented table; the call depth of the two factories is bounded by the equation text |
| C145 | Sn options mean the same alone and within 2D3D | partial | UtilProps | StrModel, UtilModel | concrete options |
| C146 | Sizes that do not fit are always refused | partial | H5Props | H5Model, StrModel | concrete files and arrays |
| C147 | Missing files and groups are reported by the program's own exception | partial | H5Props | H5Model, StrModel | concrete files |
| C148 | An eigenvalue calculation keeps the multiplication factor and the flux physical and never stops with an exception | proved | EigProps, EigSnProps, MocEigProps | AngModel, BcModel, CoreModel, ExpModel, MatModel, McModel, MeshModel, MgModel ... | induction over groups within an iteration and over iterations, with an invariant on the flux, k and production |
| C149 | At a converged Sn solution k is production over absorption plus leakage | proved | EigSnProps | AngModel, BcModel, CoreModel, MatModel, McModel, MeshModel, MgModel, ScatModel ... | a trace of the group sweeps of an iteration, the cell balance of C108 summed over cells with shared faces cancelling, and the scattering balance of C40 |
| C150 | Built-in quadratures integrate the squares of the direction cosines evenly | proved | AqxProps | AngModel, AqModel, AqxModel, MeshModel, StrModel | exact rational sums over the tables, a reversal of the azimuthal sum, and sign cancellation over octants |
| C151 | Every accepted level-symmetric order treats the three axes alike | partial | AqxProps | AngModel, AqModel, AqxModel, MeshModel, StrModel | exact rational bounds for S12 and S14 |
| C152 | An angular quadrature tag is accepted exactly when documented and gives the documented number of angles | proved | AqxProps | AngModel, AqModel, AqxModel, MeshModel, StrModel | case analysis of the tag, with the outcome of every order of the level-symmetric generator |
| C153 | A MoC sweep stays between the bounds of its source and of what flows in | proved | MocMaxProps | AngModel, BcModel, CoreModel, ExpModel, McModel, MeshModel, MocModel, StdAlg ... | the payment of a region along a ray is bounded by its optical length, summed over rays, angles and planes by induction and compared with the volume; boundary bounds carried through the outgoing and reflected slots |
| C154 | Nonnegative sources and incoming fluxes always give a nonnegative MoC flux | partial | MocMaxProps | AngModel, BcModel, CoreModel, ExpModel, McModel, MeshModel, MocModel, StdAlg ... | a one-region counterexample through the exponential table |
| C155 | Neutron balance of the MoC sweep and of a MoC eigenvalue solution | proved | MocBalProps | AngModel, BcModel, CoreModel, ExpModel, MatModel, McModel, MeshModel, MgModel ... | the gain of the regions along a ray telescopes to its two ends; sums over rays become sums over boundary slots by the cover of the slots, and reflected slots cancel by a reindexing of the angles; groups are summed with the balance of the scattering matrix |
| C156 | A flat flux in an infinite medium is an exact solution | proved | InfProps, InfSnProps | AngModel, BcModel, CoreModel, CurModel, ExpModel, MatModel, McModel, MeshModel ... | MoC: the maximum principle of C153 with equal bounds pins flux and boundary values; Sn: the flat flux is the unique solution of each angle (C91), carried through angles and boundary updates; then induction over groups, inner and outer iterations |
| C157 | A Monte Carlo calculation records the k estimates of its cycles and their means | proved | McEigProps | AngModel, BcModel, GeomModel, HistModel, McEigModel, McModel, MeshModel, PartModel ... | an invariant over the cycles relates the tallies to the scores of the cycles so far; resets forget, commits append; means by the exact formulas of the tallies |
| C158 | The Monte Carlo fluxes and powers written are averages over the active cycles | proved | McEigProps | AngModel, BcModel, GeomModel, HistModel, McEigModel, McModel, MeshModel, PartModel ... | the same invariant for the spatial tallies, read through the output functions |
| C159 | The Monte Carlo results agree with each other | proved | McEigProps | AngModel, BcModel, GeomModel, HistModel, McEigModel, McModel, MeshModel, PartModel ... | scores come in groups made by one flight or one collision (induction over histories), hence sums over regions agree cycle by cycle and so in the averages |
| C160 | The first source of a Monte Carlo calculation fills the box asked for | proved | McEigProps | AngModel, BcModel, GeomModel, HistModel, McEigModel, McModel, MeshModel, PartModel ... | case analysis of the constructor; induction over the sites of the box |
| C161 | Bad Monte Carlo input is refused with the message for it | partial | McEigProps | AngModel, BcModel, GeomModel, HistModel, McEigModel, McModel, MeshModel, PartModel ... | case analysis of the constructor in the order of its member initialisers; concrete inputs |
| C162 | Each region of a Monte Carlo mesh is given its cross sections | proved | McEigProps | AngModel, BcModel, GeomModel, HistModel, McEigModel, McModel, MeshModel, PartModel ... | induction over the lists of regions |
| C163 | Laying out rays keeps the order of the angles | proved | OrdProps | AngModel, MatModel, RatModel, RayModel | mediants of the rational search are ordered (invariant of the search); monotonicity of rounding for the other method; a concrete pair of angles that coincide |
| C164 | The rays of a MoC calculation match its quadrature | proved | MocSetProps | AngModel, AqModel, BcModel, CoreModel, GeomModel, MatModel, MeshModel, MgModel ... | invariant of the loop over angles (modify_angle keeps the octants alike), then the weights by C130, then the repeated pushes |
| C165 | A MoC sweeper made from its input meets everything a sweep relies on | proved | MocBuildProps | AngModel, AqModel, BcModel, CoreModel, GeomModel, MatModel, McModel, MeshModel ... | induction over planes, angles and rays joining C26 (ray ends), C29 (volume correction), C164 and the boundary sizes; instance on a concrete core; C148 for the calculation |
| C166 | When the ray layout warns about regions without rays | proved | MocBuildProps | AngModel, AqModel, BcModel, CoreModel, GeomModel, MatModel, McModel, MeshModel ... | induction over the angles with the counts as invariant; two concrete planes |
| C167 | Which ray options are accepted | proved | MocOptProps | AqxModel, MatModel, McModel, MgModel, MocOptModel, MocSetModel, RatModel, SolModel ... | case analysis over tables of names |
| C168 | Which options of the MoC sweeper are accepted, and what zero inner iterations do | proved | MocOptProps | AqxModel, MatModel, McModel, MgModel, MocOptModel, MocSetModel, RatModel, SolModel ... | case analysis over tables of names; induction over the path to the root; invariant of the iteration for the idle sweep |
| C169 | Which macroplanes a MoC sweeper accepts | proved | MocOptProps | AqxModel, MatModel, McModel, MgModel, MocOptModel, MocSetModel, RatModel, SolModel ... | induction over macroplanes and assemblies |
| C170 | A MoC sweep is a superposition | proved | MocConvProps | AngModel, BcModel, CoreModel, ExpModel, MatModel, McModel, MeshModel, MgModel ... | induction over segments, rays, angles, threads and planes with a relation that says one run is a combination of two others; C153 bounds for the order |
| C171 | Inner iterations never amplify an error | proved | MocConvProps | AngModel, BcModel, CoreModel, ExpModel, MatModel, McModel, MeshModel, MgModel ... | difference of two runs is a run (C170), bounded by the maximum principle (C153) |
| C172 | Inner iterations converge to one answer at the rate of the scattering ratio | proved | MocConvProps | AngModel, BcModel, CoreModel, ExpModel, MatModel, McModel, MeshModel, MgModel ... | as C171 with the incoming flux the same in both runs; completeness of the reals for the limit |
| C173 | A coarse-mesh solve never makes negative fluxes while its nonlinear corrections stay within the diffusion coefficients | proved | CmPosProps | BcModel, CmfdModel, CmsModel, ExpModel, MeshModel, SnModel | summing the balance over the cells of negative flux: inner currents cancel and outer ones point inwards, so the sum would be negative; the loop by an invariant |
| C174 | Acceleration does not change the answer | proved | EigAccProps | CmfdModel, CmsModel, EigAccModel, ExpModel, MatModel, McModel, MeshModel, MgModel ... | loops in step (off); reading pin means and writing them back is the identity, and C131 for the solve between (on) |
| C175 | What an accelerated calculation calls the error of the eigenvalue | proved | EigAccProps | CmfdModel, CmsModel, EigAccModel, ExpModel, MatModel, McModel, MeshModel, MgModel ... | unfolding one iteration |
| C176 | An accelerated MoC eigenvalue calculation stays physical or says which iteration broke it | proved | EigAccProps | CmfdModel, CmsModel, EigAccModel, ExpModel, MatModel, McModel, MeshModel, MgModel ... | invariant of the loop over iterations, reusing the step lemma of C148; every factor written into a region is positive |
| C177 | The status, the messages and the results file of a run agree with what was done | proved | DrvProps | DrvModel, UtilModel | the run is shown equal to one sequence of texts with the log started and closed in between; status and results by cases on the stages |
| C178 | What is shown on the screen and what is kept in the log | proved | DrvProps | DrvModel, UtilModel | invariants of the two streams under any sequence of texts (file open, no file, failed), composed over one or two runs |
| C179 | What an interrupt from the keyboard leaves behind | proved | DrvProps | DrvModel, UtilModel | the pointers after any number of steps, from which of the steps write them |
| C180 | A fixed-source calculation converges to the one solution of its problem | proved | FixProps | AngModel, BcModel, CoreModel, ExpModel, FixModel, MatModel, McModel, MeshModel ... | weighted maximum norm: the sweep of a source difference is bounded (C170), group by group as in Gauss-Seidel; an abstract lemma on shrinking iterations gives limit, rate and uniqueness; weights for downscatter built group by group |
| C181 | When a fixed-source calculation stops, and how good its flux is then | proved | FixProps | AngModel, BcModel, CoreModel, ExpModel, FixModel, MatModel, McModel, MeshModel ... | the residual against the largest change, both ways; the loop against the sequence of iterates; the tail of the geometric series |
| C182 | Fixed-source calculations are linear | proved | FixProps | AngModel, BcModel, CoreModel, ExpModel, FixModel, MatModel, McModel, MeshModel ... | induction over inner iterations, groups and outer iterations on top of the superposition of sweeps (C170); the residual scales with the flux |
| C183 | Homogenized cross sections taken from files are the files', and what a mesh writes it reads back | proved | XsFileProps | H5Model, McModel, ScatModel, XsFileModel, XsModel | loops over groups, planes and pins as sets of places moved to their targets; bands depend only on which entries are positive, so compressing the dense form of a stored matrix gives it back |
| C184 | Which cross-section files are accepted, refused or undefined | proved | XsFileProps | H5Model, McModel, ScatModel, XsFileModel, XsModel | no step of the loops leaves its arrays under the stated conditions; concrete files for each condition left out |
| C185 | Inner iterations converge over reflecting boundaries | proved | MocReflProps | AngModel, BcModel, CoreModel, ExpModel, FixModel, MatModel, McModel, MeshModel ... | each ray lets through at most th < 1 of the difference of two incoming fluxes, so a sweep maps differences of boundary fluxes bounded by B and of sources bounded by Q to at most Q + th (B - Q); fluxes and scaled boundary fluxes as one array make one inner iteration a contraction, then the argument of C180 |
| C186 | Fixed-source MoC calculations converge and stop with reflecting boundaries | proved | MocReflProps | AngModel, BcModel, CoreModel, ExpModel, FixModel, MatModel, McModel, MeshModel ... | induction over the groups of an outer iteration: the group being swept shrinks, the boundary fluxes of other groups are not touched; then as C185 |
| C187 | A material library file in the documented format is read to exactly what it says | proved | LibFileProps | LibFileModel, MatModel, StrModel | a number reader shown to be complete and sound for the grammar of numbers (digits, point, exponent) by cases on its phases; induction over the numbers of a line and the lines of the file; the line reader by simulation with the list of cleaned lines (C56) |
| C188 | Which material library files are accepted | proved | LibFileProps | LibFileModel, MatModel, StrModel | the same lemmas in both directions: each reader succeeds exactly on the lines of its form; concrete files for what is accepted beyond the format |
| C189 | Reciprocity of MoC calculations | proved | MocRecipProps, MocTurnProps | AngModel, AqModel, BcModel, CoreModel, ExpModel, FixModel, GeomModel, MatModel ... | along a ray the sum of q2 times what source 1 deposits less q1 times what source 2 deposits in the reverse direction telescopes to the fluxes at its ends; summed over rays and angles only products of incoming and outgoing boundary fluxes remain, which cancel between an angle and the reverse of its reflection |
| C190 | The transposed problem is the adjoint problem | proved | MocRecipProps | AngModel, BcModel, CoreModel, ExpModel, FixModel, MatModel, McModel, MeshModel ... | a state left unchanged by an outer iteration is one left unchanged by each group's inner iterations, hence (contraction, C185) by one inner iteration; C189 group by group with the scattering sources, whose double sum over groups is symmetric under transposition; C186 for the limits |
| C191 | Currents that CMFD writes to the results file | proved | CmoProps | BcModel, CmfdModel, CmoModel, ExpModel, MeshModel, SnModel | the entry read for a cell and face by the coarse_surf formula of C04 and the projection of C43; the balance from the row identity of C42 |
| C192 | What fluxes and powers in the results file mean | proved | ResPowProps, ResProps | AngModel, BcModel, CoreModel, ExpModel, FixModel, MatModel, McModel, MeshModel ... | values of pin means by induction over pins and macroplanes, the deposit of means by counting the contributions to a cell (each plane is in exactly one macroplane); every stage commutes with multiplying the fluxes by a number and the normalisation cancels it; C182 for the fixed-source pair |
| C193 | Fixed-source MoC calculations keep order | proved | MocOrdProps | AngModel, BcModel, CoreModel, ExpModel, FixModel, MatModel, McModel, MeshModel ... | one inner iteration keeps order because the difference of two sweeps is a sweep of the difference (C171) and obeys the maximum principle; induction over inner iterations, groups and outer iterations; solutions by the limits of C186 |
| C194 | The multiplication factor does not depend on the starting point | proved | MocKeffProps | AngModel, BcModel, CoreModel, ExpModel, FixModel, MatModel, McModel, MeshModel ... | a converged eigenvalue state is a fixed-source solution whose source is its fission source over k; if t times one flux is below the other, C193 gives the same with t (k2/k1), so the power (k2/k1)^n stays bounded; less fission and mirrors by the same comparison, the latter with the flat state of C156 |
| C195 | One iteration brackets the multiplication factor | proved | MocBracketProps | AngModel, BcModel, CoreModel, ExpModel, FixModel, MatModel, McModel, MeshModel ... | an iteration that raises no flux makes its state an upper bound (C193) of the fixed-source solution for its own fission source over k; were a converged factor larger, the multiple of its flux below that state would grow without bound as in C194; the other side likewise; the converse by comparing the two sources and by scaling |
| C196 | The surfaces met at a point of the plane | proved | SurfPtProps | CoreModel, GeomModel, MeshModel, RayCmModel, SurfPtModel | line_index of C111 locates the point; the corner cases decided by which neighbours are in the mesh, each read of the surface table by the closed form of C07; ways back compared through injectivity of the face numbering |
| C197 | The drawing of the geometry shows the geometry | proved | DrawProps | AsmModel, CoreModel, DrawModel, GeomModel, MatModel, McModel, PmModel, RayTrModel | invariant of the drawing context over the commands of a line, a pin and a list of pins (translation restored, path empty after each stroke); ink as a set of points, the joining lines absorbed by the sector line opposite to angle pi of C96 |
| C198 | The file of rays lists every ray of the first plane | proved | RayPyProps | GeomModel, RayPyModel | the stream is its characters and a position; induction over rays and angles for the text, the overwritten characters by splitting the text at the remembered position; the reader of lists is compositional on each piece; spelling of values shown to be injective |
| C199 | The coarse mesh eigenvalue does not depend on the start | proved | CmKeffProps | BcModel, CmfdModel, CmsModel, ExpModel, MeshModel, SnModel | CmKeffProps.v on CmsModel.v: a flux of which no cell and group loses less than arrives is not negative, by summing over the cells and groups where it is negative (leakage out of that part is not positive, and what scatters out of a group is less than what is removed); hence order is kept, a multiple of one balanced flux below another stays below when multiplied by the ratio of the factors, and the powers of a ratio above one would grow past any bound. |
| C200 | Acceleration does not change the multiplication factor | proved | MocAccProps | AngModel, BcModel, CmsModel, CoreModel, EigAccModel, ExpModel, FixModel, MatModel ... | MocAccProps.v on EigAccModel.v: what an accelerated iteration does after CMFD is an iteration without acceleration from the factor and fluxes that CMFD put, so C195 and C194 apply to it; the other way by C174. |
| C201 | The results file is complete and no name is used twice | proved | LayProps | H5Model, LayModel, StrModel | LayModel.v lists the calls that the output functions make on the HDF5 wrapper of H5Model.v; LayProofs.v shows by induction on the calls that any sequence that makes groups first, repeats no path and writes below no link succeeds and leaves exactly its paths (an invariant of the file); LayPaths.v and LayShape.v show this of each output function, for any number of groups and angles: numbers in names are told apart by reading them back. |
| C202 | A library made from an open file agrees with one made from an input element | proved | LibStreamProps | LibFileModel, LibStreamModel, MatModel, StrModel | LibStreamModel.v models the second constructor on the extraction functions of LibFileModel.v, with the reading of a value never set as undefined behaviour; LibStreamProps.v reduces the file to its lines as C188 does and shows by induction on materials and rows what is read, then gets the agreement from C188's exact description of the files accepted; the undefined cases by induction on the materials and rows before the fault. |
| C203 | Which source a solver gets | proved | SrcFacProps | H5Model, SrcFacModel, StrModel, UtilModel | SrcFacModel.v models the factory, the overrides of create_source and the constructor of the solver on H5Model.v and StrModel.v; SrcFacProps.v describes when the sanitized treatment is P0, when a file supplies an external source, shows that reading it again into what was read changes nothing, and gets the exact conditions of each outcome by cases. |

## What is modelled

Source files cited by the definitions of each model file (lines are on the definitions themselves).

| model | source |
|---|---|
| AngModel | core/angular_quadrature.cpp, core/angular_quadrature.hpp, core/geometry/angle.cpp, core/geometry/angle.hpp, core/geometry/direction.hpp, core/level_symmetric.hpp, core/product_quadrature.hpp |
| AqModel | core/angular_quadrature.cpp, core/angular_quadrature.hpp, core/angular_quadrature_user.cpp, core/geometry/angle.cpp, core/geometry/angle.hpp, core/geometry/direction.hpp, core/product_quadrature.hpp, sweepers/moc/ray_data.cpp, util/fp_utils.hpp |
| AqxModel | core/angular_quadrature.cpp, core/level_symmetric.hpp, core/product_quadrature.hpp |
| AsmModel | core/assembly.cpp, core/assembly.hpp, core/core.cpp, core/core.hpp, core/core_mesh.cpp, core/core_mesh.hpp, core/mesh.hpp, core/plane.hpp, sweepers/moc/moc_sweeper.cpp, sweepers/moc/moc_sweeper.hpp |
| BcModel | core/boundary_condition.cpp, core/boundary_condition.hpp, core/constants.hpp |
| CmdoModel | core/cmfd.cpp, core/core_mesh.hpp, core/mesh.hpp, core/transport_sweeper.cpp, core/transport_sweeper.hpp, solvers/eigen_solver.cpp, solvers/fixed_source_solver.cpp, sweepers/cmdo/moc_sweeper_2d3d.cpp, sweepers/cmdo/plane_sweeper_2d3d.cpp, sweepers/cmdo/plane_sweeper_2d3d.hpp, sweepers/moc/moc_sweeper.cpp, sweepers/sn/sn_sweeper.hpp, sweepers/sn/sn_sweeper_variant.hpp |
| CmfdModel | core/cmfd.cpp, core/mesh.cpp, core/mesh.hpp |
| CmoModel | core/cmfd.cpp, core/constants.cpp |
| CmsModel | core/cmfd.cpp, core/cmfd.hpp, core/source.cpp, core/source.hpp |
| CoreModel | core/core.cpp, core/lattice.cpp, core/lattice.hpp, core/pin.cpp, core/pin.hpp, core/pin_mesh_base.hpp, core/plane.cpp, core/plane.hpp, util/fp_utils.hpp |
| CorrModel | core/mesh.hpp, sweepers/cmdo/correction_data.cpp, sweepers/cmdo/correction_data.hpp, util/h5file.hpp |
| CorwModel | sweepers/cmdo/correction_worker.cpp, sweepers/cmdo/correction_worker.hpp |
| CurModel | sweepers/moc/moc_current_worker.hpp, sweepers/moc/ray.cpp, sweepers/moc/ray.hpp |
| DrawModel | auxiliary/geometry_output.cpp, core/core_mesh.hpp, core/pin_mesh_cyl.cpp, core/pin_mesh_rect.cpp |
| DrvModel | driver.cpp, input_proc.cpp, mocc.cpp, util/error.cpp, util/error.hpp, util/files.cpp, util/tee_stream.hpp |
| EigAccModel | core/cmfd.cpp, core/coarse_data.hpp, core/transport_sweeper.cpp, core/transport_sweeper.hpp, solvers/eigen_solver.cpp, solvers/eigen_solver.hpp, sweepers/moc/moc_sweeper.cpp |
| ExpModel | core/exponential.hpp |
| FixModel | core/transport_sweeper.cpp, core/transport_sweeper.hpp, solvers/fixed_source_solver.cpp |
| FpModel | util/fp_utils.hpp |
| GeomModel | core/core_mesh.cpp, core/geometry/circle.hpp, core/geometry/geom.hpp, core/geometry/line.hpp, core/geometry/points.hpp, core/mesh.cpp, core/mesh.hpp |
| H5Model | util/h5file.cpp, util/h5file.hpp |
| HistModel | core/core_mesh.cpp, core/core_mesh.hpp, core/mesh.hpp, sweepers/mc/particle_pusher.cpp |
| InpModel | input_proc.cpp |
| LayModel | core/angular_quadrature.cpp, core/cmfd.cpp, core/constants.cpp, core/xs_mesh_homogenized.cpp, driver.cpp, solvers/eigen_solver.cpp, solvers/fixed_source_solver.cpp, solvers/monte_carlo_eigenvalue_solver.cpp, solvers/solver_factory.cpp, sweepers/cmdo/correction_data.cpp, sweepers/cmdo/moc_sweeper_2d3d.cpp, sweepers/cmdo/plane_sweeper_2d3d.cpp, sweepers/cmdo/sn_sweeper_cdd.hpp, sweepers/mc/particle_pusher.cpp, sweepers/moc/moc_sweeper.cpp, sweepers/sn/sn_sweeper.cpp, sweepers/transport_sweeper_factory.cpp, util/h5file.cpp, util/h5file.hpp |
| LibFileModel | core/material.cpp, core/material_lib.cpp, util/file_scrubber.cpp, util/string_utils.cpp |
| LibStreamModel | core/material_lib.cpp |
| MatModel | core/material.cpp, core/material.hpp, core/material_lib.cpp, core/material_lib.hpp |
| McEigModel | solvers/monte_carlo_eigenvalue_solver.cpp, solvers/monte_carlo_eigenvalue_solver.hpp, sweepers/mc/fission_bank.cpp, sweepers/mc/particle_pusher.cpp, sweepers/mc/particle_pusher.hpp, sweepers/mc/tally_scalar.hpp, util/rng_lcg.hpp |
| McModel | solvers/monte_carlo_eigenvalue_solver.cpp, sweepers/mc/fission_bank.cpp, sweepers/mc/particle.hpp, sweepers/mc/particle_pusher.cpp |
| MeshModel | core/coarse_data.cpp, core/coarse_data.hpp, core/constants.cpp, core/constants.hpp, core/mesh.cpp, core/mesh.hpp, core/position.hpp |
| MgModel | core/source_isotropic.hpp, sweepers/moc/moc_sweeper.cpp, sweepers/moc/moc_sweeper.hpp |
| MocModel | core/angular_quadrature.hpp, core/constants.hpp, sweepers/moc/moc_sweeper.hpp, sweepers/moc/ray.hpp |
| MocOptModel | core/assembly.hpp, core/transport_sweeper.cpp, sweepers/moc/moc_sweeper.cpp |
| MocSetModel | core/core_mesh.cpp, core/core_mesh.hpp, sweepers/moc/moc_sweeper.cpp, sweepers/moc/ray.cpp, sweepers/moc/ray.hpp, sweepers/moc/ray_data.cpp, sweepers/moc/ray_data.hpp |
| MsfModel | sweepers/moc/moc_current_worker.hpp |
| PartModel | core/geometry/circle.cpp, core/geometry/direction.hpp, core/geometry/geom_surface.hpp, core/geometry/line.cpp, core/pin_mesh_cyl.cpp, core/pin_mesh_rect.cpp, sweepers/mc/particle.hpp, sweepers/mc/particle_pusher.cpp, util/rng_lcg.hpp, util/sign.hpp |
| PflModel | core/mesh.hpp, core/pin.hpp, core/pin_mesh_base.hpp, core/plane.hpp, sweepers/moc/moc_sweeper.cpp, sweepers/moc/moc_sweeper.hpp |
| PmModel | core/geometry/box.cpp, core/geometry/points.hpp, core/pin_mesh_base.cpp, core/pin_mesh_cyl.cpp, core/pin_mesh_cyl.hpp, core/pin_mesh_rect.cpp, core/pin_mesh_rect.hpp |
| RatModel | sweepers/moc/ray_data.cpp, util/rational_approximation.hpp |
| RayCmModel | core/mesh.cpp, sweepers/moc/ray.cpp |
| RayModel | core/angular_quadrature.cpp, core/geometry/box.cpp, core/geometry/direction.hpp, core/geometry/points.hpp, sweepers/moc/ray.hpp, sweepers/moc/ray_data.cpp, util/rational_approximation.hpp |
| RayPyModel | core/geometry/geom.cpp, sweepers/moc/moc_sweeper.cpp, sweepers/moc/ray.cpp, sweepers/moc/ray.hpp, sweepers/moc/ray_data.cpp |
| RayTrModel | core/core_mesh.cpp, core/geometry/direction.hpp, core/mesh.cpp, core/pin_mesh.cpp, core/pin_mesh_cyl.cpp, core/pin_mesh_rect.cpp, sweepers/moc/ray.cpp |
| RegModel | core/core_mesh.hpp, core/geometry/direction.hpp, core/mesh.hpp, core/plane.cpp |
| ResModel | core/transport_sweeper.cpp, core/transport_sweeper.hpp, sweepers/moc/moc_sweeper.cpp, sweepers/sn/sn_sweeper.cpp, sweepers/sn/sn_sweeper.hpp |
| RngModel | sweepers/mc/particle_pusher.cpp, util/rng_lcg.hpp |
| ScatModel | core/scattering_matrix.cpp, core/scattering_matrix.hpp |
| SnGroupModel | core/coarse_data.cpp, core/coarse_data.hpp, core/source_isotropic.hpp, sweepers/sn/sn_sweeper.hpp, sweepers/sn/sn_sweeper_variant.hpp |
| SnIncModel | core/constants.hpp, core/transport_sweeper.cpp, sweepers/sn/sn_sweeper.cpp, sweepers/sn/sn_sweeper.hpp |
| SnModel | core/boundary_condition.hpp, core/exponential.hpp, core/mesh.hpp, sweepers/cmdo/sn_sweeper_cdd.hpp, sweepers/cmdo/sn_sweeper_cdd_mb.hpp, sweepers/sn/sn_current_worker.hpp, sweepers/sn/sn_sweeper.hpp, sweepers/sn/sn_sweeper_dd.hpp, sweepers/sn/sn_sweeper_variant.hpp |
| SnOutModel | sweepers/sn/sn_sweeper.cpp |
| SnPinModel | core/core_mesh.hpp, core/macroplane.hpp, sweepers/sn/sn_sweeper.hpp |
| SolModel | core/transport_sweeper.hpp, solvers/eigen_solver.cpp, solvers/eigen_solver.hpp, solvers/fixed_source_solver.cpp, util/utils.hpp |
| SrcFacModel | core/source.cpp, core/source.hpp, core/source_factory.cpp, core/transport_sweeper.hpp, solvers/fixed_source_solver.cpp, sweepers/cmdo/plane_sweeper_2d3d.hpp, sweepers/cmdo/source_2d3d.hpp, sweepers/moc/moc_sweeper.hpp |
| SrcModel | core/source.cpp, core/source.hpp, core/source_isotropic.cpp, core/transport_sweeper.cpp, sweepers/cmdo/plane_sweeper_2d3d.hpp, sweepers/cmdo/source_2d3d.hpp |
| StdAlg | core/core_mesh.cpp, util/rng_lcg.hpp |
| StrModel | util/file_scrubber.cpp, util/string_utils.cpp, util/string_utils.hpp |
| SurfPtModel | core/mesh.cpp |
| TallyModel | core/geometry/points.hpp, core/mesh.cpp, sweepers/mc/fission_bank.cpp, sweepers/mc/tally_scalar.hpp, sweepers/mc/tally_spatial.hpp |
| TlModel | core/core_mesh.cpp, core/plane.hpp, sweepers/cmdo/plane_sweeper_2d3d.cpp |
| UtilModel | core/parallel_environment.cpp, solvers/solver_factory.cpp, sweepers/cmdo/plane_sweeper_2d3d.cpp, sweepers/cmdo/sn_sweeper_factory_cdd.cpp, sweepers/sn_sweeper_factory.cpp, sweepers/transport_sweeper_factory.cpp, util/error.cpp, util/timers.cpp, util/timers.hpp, util/validate_input.cpp |
| VolModel | sweepers/moc/ray.hpp, sweepers/moc/ray_data.cpp |
| XsFileModel | core/scattering_matrix.cpp, core/xs_mesh.hpp, core/xs_mesh_homogenized.cpp, core/xs_mesh_region.hpp, util/h5file.cpp, util/h5file.hpp |
| XsModel | core/core_mesh.cpp, core/xs_mesh.cpp, core/xs_mesh.hpp, core/xs_mesh_homogenized.cpp, core/xs_mesh_region.cpp, core/xs_mesh_region.hpp |
| XshModel | core/cmfd.cpp, core/xs_mesh.hpp, core/xs_mesh_homogenized.cpp, core/xs_mesh_region.hpp |

## What is not modelled

* Floating-point rounding (apart from the conversions named above), denormals, NaN and infinities.  Where the code would
  produce one by dividing by zero the model says undefined.
* Input parsing by pugixml (a tag is the record of the attributes the code asks for) and the HDF5 library (a file is a tree
  of named arrays, on which the wrapper is modelled); logging, profilers and terminal output.
* Memory management, copy constructors and the OpenMP runtime: a parallel loop is any assignment of its iterations to
  threads and any order, with the shared updates the code makes.
* Eigen's linear solvers (an arbitrary function in the CMFD loop) and the third-party quadratures' numerical tables beyond
  the values the theorems need.
* The Python tools and the test programs.

## Findings

Each line is a property that is false of the modelled code as worded, with the theorem that shows it.

* **C03** (Uniform variates stay in [0,1) and bounded integers stay below the bound; `C03_random_range_refuted`): Refuted as stated. Holds exactly when the drawn integer is below 2^63-512; the unguarded statement is refuted: every stream contains a draw for which random() is 1.0 and random_int(n) is n.
* **C04** (Different particle histories use non-overlapping parts of the random stream; `C04_history_streams_refuted`): Disjointness holds for the first 429496 histories with 10000 draws; histories are separated by only 10000 draws, so a long history overlaps its successor (refuted as stated).
* **C13** (Ray tracing through the coarse mesh finds every pin boundary crossing; `C13_crossings_found_refuted`): Refuted as stated for domains taller than wide (vertical lines end at y = hx instead of hy); proved when hy <= hx, and soundness of every reported crossing is unconditional.
* **C15** (Reversing an angle returns the opposite direction; `C15_reverse_3d_refuted`): 2-D reverse proved. 3-D reverse refuted as stated: in octants 3, 4, 7, 8 the z cosine is not negated and the map is not an involution.
* **C16** (Level-symmetric generation assigns each ordinate the weight of its own order; `C16_weights_refuted`): Refuted as stated: S12 and S14 read another order's weight map and S16 (and orders below 2) read outside the tables. Proved for S2-S10; counts, distinctness and unit length proved for every order that returns.
* **C18** (A boundary update sets each incoming face according to its condition and nothing else; `C18_update_refuted`): Refuted as stated: a face without conditions makes the routine skip the remaining axes. Proved (one angle and a whole group) when no empty face precedes a non-empty one and mirrored angles have equal face sizes.
* **C19** (A scattering matrix round-trips through its compressed storage; `C19_round_trip_refuted`): Refuted as stated: negative off-diagonal entries outside the positive band are dropped. Proved for every matrix whose off-diagonal entries are non-negative (the diagonal may have any sign); element access, self-scatter, copies and the squareness check are proved for all matrices.
* **C22** (Resizing a fission bank yields exactly the requested number of sites drawn from the original; `C22_resize_refuted`): Refuted as stated: every stream reaches a state for which growing reads past the bank, and an empty bank is read out of range. Proved whenever the draws avoid the 512 values that random_int maps to its bound.
* **C23** (Tally results do not depend on scoring order and report mean and deviation correctly; `C23_relative_deviation_refuted`): Order independence and the exact statistics are proved; renormalisation invariance of the relative deviation is refuted for spatial tallies (it is scaled by sqrt(norm)).
* **C24** (Shannon entropy indexing is safe and its value is bounded; `C24_entropy_index_refuted`): Refuted as stated: the range check lets index n_pin through and the write is out of range. Bounds, order independence and correct location are proved.
* **C25** (The number of Monte Carlo cycles is what was requested; `C25_cycle_count_refuted`): Refuted as stated: one extra active cycle is always run.
* **C26** (Ray exits map one-to-one onto boundary slots; `C26_tolerance_refuted`): For every domain, counts and polar angle the rays of octants 1 and 2 connect entry slots to exit slots one-to-one and end exactly at the middle of their exit slot. Needs half ray spacings above the comparison tolerance; without it a slot is misassigned (C26_tolerance_refuted).
* **C29** (Volume correction makes ray segments reproduce exact region areas; `C29_zero_length_refuted`): For rays whose regions are all crossed and segment lengths positive: corrected segment lengths times spacing reproduce each region's area (flat, and per angle). A region crossed only by zero-length segments gets NaN (C29_zero_length_refuted).
* **C30** (Writing a pin flux and reading it back returns what was written; `C30_pin_subplanes_refuted`): Refuted for the PIN treatment when a macroplane spans several planes (C30_pin_subplanes_refuted: the write is outside the array contract). Proved for PIN_PLANE, and for PIN with one plane per macroplane; the write succeeds for positive data.
* **C31** (Transverse leakage is either added to the source or split, never lost; `C31_zero_flux_refuted`): Zero flux under a negative leaky source divides by zero (C31_zero_flux_refuted); the statement is about regions with positive flux.
* **C32** (Expanding macroplane currents writes exactly the surfaces of that macroplane; `C32_axial_refuted`): Refuted as stated (C32_axial_refuted): the inclusive range copies one element too many, so the first z-normal surface above each plane is overwritten. C32_expand gives the exact result for all groupings: in-plane currents right, all other z-normal currents untouched.
* **C33** (Coarse ray records reproduce every segment of the ray; `C33_overflow_refuted`): C33_records: for crossings of fewer than 256 segments the packed records give back each direction exactly and the counts sum to the segments of the ray. Refuted beyond that (C33_overflow_refuted): the 8-bit counts wrap.
* **C35** (Expanded cross sections always reflect the last requested expansion; `C35_stale_refuted`): Refuted as stated: expand(group) after expand(group, split) keeps the split cross sections (C35_stale_refuted). Proved for all histories without splitting, and right after any expansion with splitting.
* **C36** (Homogenisation preserves reaction rates; `C36_negative_scatter_refuted`): Refuted as stated for negative scattering (C36_negative_scatter_refuted). Proved: reaction rates of transport, nu-fission and fission; scattering when the pin's rate is not negative; production and emission per group; spectrum sums to one; bounds for the three reactions, for the spectrum over the producing regions and for scattering when the rate is not negative; total scattered out of each group; volume weighting equals flux weighting with flat flux when region areas add up to the pin area.
* **C37** (Cross-section region equality means equal data; `C37_spectrum_refuted`): Refuted as stated: fission spectrum and region list are not compared (C37_spectrum_refuted). Proved: equal regions agree in all compared data, and regions with the same data compare equal.
* **C38** (Material lookup by user identifier returns the material assigned to it; `C38_count_refuted`): Refuted as stated for the count: assigning an identifier twice is counted twice. Lookup, rejection, dense indices are proved for every assignment history, the count when no identifier is repeated.
* **C40** (The source for a group is external plus fission plus in-scattering, once each; `C40_external_refuted`): Refuted as stated for external sources: the accepted array is (group, region) but read as (region, group) (C40_external_refuted). Without one, the source is chi times fission source plus in-scattering from the other groups, whatever came before (C40_source, C40_commute, C40_balance, C40_auxiliary), also for the split 2D3D fission source (C40_2d3d).
* **C41** (The sweep source is consistent with the cross section used to attenuate; `C41_split_refuted`): Refuted as stated when splitting is active (C41_split_refuted: the source is divided by the unsplit cross section); holds without splitting (C41_unsplit_partial) and for the variant divided by 4 pi only (C41_plain).
* **C43** (CMFD reproduces the transport current it was given; `C43_put_back_refuted`, `C43_surface_flux_refuted`): Proved when the CMFD mesh has the planes of the transport mesh: C43_current, C43_surface_flux, C43_transport_balance, C43_defined. With fewer planes: the homogenised currents keep the balance (C43_homogenised, C43_macro_balance), but what is put back is refuted: C43_put_back_refuted (current through the top set to zero, surfaces inside a macroplane get the current of its bottom; C43_put_back says exactly what is stored) and C43_surface_flux_refuted (surface flux read from a plane of another macroplane).
* **C44** (The CMFD iteration limit is respected and the returned flux is non-negative; `C44_refuted`): Refuted as stated: C44_refuted (one pass more than the limit). C44_limit: never more than one extra pass and tolerances met otherwise; C44_terminates; C44_flux: non-negative. C44_exact_start: a start that solves the system exactly always runs past the limit.
* **C46** (Every Sn differencing scheme satisfies the cell balance equation; `C46_pmb_refuted`, `C46_pmb_plane_refuted`): Refuted as stated for the PMB variant (C46_pmb_refuted: not balanced unless the plane height is 1; C46_pmb_plane_refuted: it reads the height of the wrong plane). Every other scheme satisfies the balance exactly: C46_dd, C46_2d, C46_dd_sc, C46_cdd, C46_fixup; C46_defined: they are defined for positive data; C46_sc_exact, C46_uniform, C46_reduces.
* **C47** (The Sn pin-flux update reports its residual and installs the flux; `C47_residual_refuted`, `C47_plane_residual_refuted`): Refuted as stated: C47_residual_refuted (the residual uses region 1 for every region, can be too large or too small, and a one-region mesh is read outside the array), C47_plane_residual_refuted (always zero on the macroplane mesh). C47_installs, C47_defined, C47_plane_round_trip: the flux is installed and reads back on both meshes.
* **C48** (The eigenvalue iteration stops when documented and never exceeds its limit; `C48_min_refuted`): Refuted as stated for the minimum (C48_min_refuted: convergence exactly at min_iter is ignored and one more step is done). C48_limits_partial: never more than max_iter, never fewer than min_iter, stops exactly at the first converged step after min_iter; C48_parameters: exactly which input is accepted.
* **C49** (Requested iterations are dumped; `C49_blocked_refuted`): Refuted as stated for repeated, zero or negative requests, which block later ones (C49_blocked_refuted). For distinct positive requests exactly those performed are dumped once (C49_dumps_partial); the iterator never leaves the list (C49_defined).
* **C50** (A fixed-source solve needs a positive iteration limit; `C50_negative_refuted`): Refuted as stated: a missing or negative limit wraps to an unsigned value and is accepted (C50_negative_refuted). Positive limits are kept and respected, zero is rejected (C50_limit_partial).
* **C52** (Normalising makes positive entries average to one; `C52_idempotent_refuted`): Refuted as stated for a negative sum (C52_idempotent_refuted). C52_sum for every non-zero sum; C52_idempotent_partial for positive sums; C52_scale, C52_scaled.
* **C53** (Rational approximation returns a fraction with bounded denominator and terminates; `C53_unbounded_refuted`, `C53_closest_refuted`): Refuted as stated. Termination, lowest terms, bounded denominator, Dirichlet-quality error and one-sided optimality are proved; closest possible is refuted (1/5 with denominators up to 3 gives 0) and zero tolerance without a bound overflows int.
* **C54** (Brace-expanded plane lists assign every value as written; `C54_refuted`): Refuted as stated: C54_refuted (the character before an opening brace is dropped, so 12{3} loses a digit; the text }{1 passes the checks and the loop never ends; naked numbers, documented to throw, are accepted). C54_read, C54_accepted and C54_kept: on texts whose braces nest and open after a blank the result is exactly what the text says and every number is kept; C54_terminates; C54_dropped gives the lost character for every input.
* **C57** (Lattice layout indexing maps every pin position to the pin the user drew there; `C57_negative_dimensions_refuted`, `C57_left_edge_refuted`): Refuted as stated: a point on the left or bottom edge moving outwards is looked up in the last column or reads outside the tables, and negative dimensions whose product matches are accepted. Layout, acceptance, size rejection and lookup of every other point (inside, on a boundary entering, or within tolerance) are proved.
* **C58** (Plane pin index and core position are mutually inverse; `C58_position_refuted`): Refuted as stated: a plane whose lattices have equal sizes but different pin counts is accepted and two pins share a position. Proved for every accepted plane: position, pin and point lookup agree; bijection when pin counts conform.
* **C59** (Pin mesh areas add up to the pin cell; `C59_refuted`): Refuted as stated: C59_refuted (a sector count of zero or less is accepted and gives no regions; repeated and negative radii are accepted and give zero and negative areas; zero subdivisions divide by zero). C59_rect, C59_cyl and C59_fsrs prove the claim, the equal ring areas and the region counts for growing positive radii and 2, 4, 6 or 8 sectors.
* **C60** (Unknown materials in a pin are rejected; `C60_unknown_material_refuted`): Refuted as stated: unknown materials after the first fissile one are accepted. The fuel flag and rejection before the first fissile material are proved.
* **C61** (Macroplanes partition the axial planes and contain identical geometry; `C61_identical_geometry_refuted`): Refuted as stated: a core mesh accepts a macroplane whose planes have different pin meshes. Everything else is proved for all accepted cores with non-empty blocks, and identical geometry is proved for every core the MoC sweeper constructor accepts (it checks lattice ids).
* **C63** (The exponential table never reads outside its storage and has bounded error; `C63_upper_end_refuted`): Refuted as stated at the upper end of the range, where the interpolation reads one past the table. Below it the read is in range and the relative error bound is proved.
* **C65** (Correction factors written to file can be read back; `C65_round_trip_refuted`, `C65_uncovered_refuted`, `C65_default_top_refuted`): Refuted as stated. Proved: with one macroplane what output wrote is read back exactly; several files with explicit, disjoint plane ranges fill exactly the macroplanes they name; overlapping ranges are refused. Refuted: with two or more macroplanes the written file is never readable (read buffer of one plane against data sets of all planes); a top_plane left at its default is accepted by the checks, then refused; a macroplane named by no tag is accepted silently and keeps 0.5 and 1.
* **C67** (The Monte Carlo solver's own random stream is independent of the history streams; `C67_source_stream_refuted`): Refuted as stated: the theorem shows the source stream and history 0 coincide.
* **C74** (Comparing scattering matrices compares the matrices; `C74_equality_refuted`): Refuted as stated: two different non-negative 3-group matrices compare equal. The other direction is proved.
* **C75** (Library names identify materials; `C75_duplicate_names_refuted`): Refuted as stated: duplicate names are accepted and the first material becomes unreachable. Proved for names that occur once.
* **C77** (Assemblies stack their lattices bottom-up as drawn top-down; `C77_heights_refuted`): Refuted for heights: a non-positive uniform height is accepted and leaves no heights at all, and negative heights in a list are accepted. Order, blocks, common grid and acceptance are proved.
* **C78** (The core map places assemblies as drawn; `C78_negative_dimensions_refuted`): Refuted for two negative dimensions whose product matches the list. Proved for positive dimensions.
* **C81** (Modularised ray spacing respects the request and the angle stays close; `C81_shallow_refuted`, `C81_rational_slope_refuted`, `C81_rational_spacing_refuted`): Refuted as stated. TRIG is proved (counts even and positive, spacing never above the request, slope close). RATIONAL is proved for angles up to 45 degrees or domains at least as high as wide; otherwise spacing and slope are refuted, and shallow angles reach undefined behaviour.
* **C83** (Currents from a MoC sweep are consistent with each plane's own height; `C83_height_refuted`): Refuted as stated (C83_height_refuted): the worker uses the height of the plane whose number is the macroplane's index. C83_density gives the exact height used, and correctness when the heights agree.
* **C82** (The incoming flux of every boundary ray is updated from the surface it enters through; `C82_incoming_refuted`): Refuted as stated (C82_incoming_refuted): the coarse cell number is used as the surface number. Proved: each boundary slot is updated exactly once and stays non-negative.
* **C85** (Homogenised cross sections survive output and read-back; `C85_missing_refuted`, `C85_fissile_refuted`): Refuted as stated: uncovered macroplanes are accepted silently, and homogenised regions are never marked fissile. Proved: round trip of each data set, plane-wise files, no overlap accepted, no out-of-range access, values and removal after an update. HDF5 itself is not modelled (data sets are arrays).
* **C87** (Reaction and fission spectrum tables are distributions; `C87_reaction_refuted`): Refuted without the condition that scattering plus fission is at most the transport cross section (C87_reaction_refuted). Proved under it, and for the spectrum table.
* **C88** (Pin powers are the region powers summed per pin and normalised, and the residual sees every change; `C88_planes_refuted`): Refuted as stated with several planes (C88_planes_refuted: the array sums to the fuel pins of one plane). C88_pin_powers: region sums, placement, one common factor, total equal to the 2-D fuel count; C88_residual: zero exactly when unchanged, symmetric, non-negative.
* **C92** (The CMFD surface flux and partial currents are those of the diffusion current; `C92_refuted`): Refuted as stated: C92_refuted (west, south and bottom vacuum sides use the wrong weight, so a partial current enters). C92_interior, C92_high and the reflecting part of C92_low are proved; C92_low says what is stored otherwise.
* **C70** (The polar angle of a point; `C70_refuted`): Refuted as stated: C70_refuted (2 pi and 3 pi on the x axis). C70_alpha and C70_unique: right for every point off the x axis.
* **C93** (Ray segments inside a pin; `C93_horizontal_refuted`): Refuted as stated: C93_horizontal_refuted (horizontal chords are sorted wrongly). C93_rect, C93_rect_lengths, C93_cyl and C93_cyl_lengths prove lengths and regions for rising chords (cylindrical: 2, 4 or 6 sectors), with point comparison exact.
* **C94** (The region found contains the point; `C94_rect_refuted`, `C94_cyl_refuted`): Refuted as stated: C94_rect_refuted (points of the left or bottom edge) and C94_cyl_refuted (points of the x axis). C94_rect, C94_cyl and C94_cyl_total prove the claim for the other points.
* **C96** (Where a ray leaves a box; `C96_refuted`, `C96_eight_refuted`): Refuted as stated: C96_refuted (from a point inside, the point behind is returned; a ray to a corner gives none) and C96_eight_refuted (with eight sectors the diagonals are not drawn). C96_centre, C96_entering and C96_azimuthal prove it from the centre, from outside, and for 2, 4 and 6 sectors.
* **C97** (Sector areas outside the rings; `C97_six_refuted`): Refuted as stated: C97_six_refuted (six sectors get equal areas though their shapes differ). C97_outer proves it for 2, 4 and 8 sectors.
* **C76** (Comparing floating-point numbers; `C76_refuted`): Refuted as stated: C76_refuted (numbers of opposite sign compare equal in units of last place, negative zero overflows, not transitive). C76_ulp, C76_relative, C76_order, C76_equiv_sound, C76_equiv_reflexive and C76_equiv_symmetric prove it within one sign and for the combined comparison.
* **C95** (Distance along a flight to the next surface; `C95_refuted`): Refuted as stated: C95_refuted (a line ahead within the tolerance is not seen). C95_line, C95_circle, C95_rect, C95_rect_region, C95_cyl and C95_cyl_region prove it when the surfaces are clear of the tolerances.
* **C100** (Isotropic directions; `C100_refuted`): Refuted as stated: C100_refuted (the second number may be zero; the stored reciprocal of the sine is then a division by zero). C100_isotropic and C100_every_direction prove it for all other pairs.
* **C101** (What a collision does; `C101_refuted`): Refuted as stated: C101_refuted (the random number zero picks scattering in a material that does not scatter and divides by zero). C101_scatter, C101_fission, C101_capture and C101_yield prove it otherwise.
* **C102** (Distance to the side of a pin; `C102_refuted`): Refuted as stated: C102_refuted (on a face the particle is leaving through, that face is not seen). C102_exit proves it strictly inside.
* **C103** (Moving a particle; `C103_refuted`): Refuted as stated: C103_refuted (every move is nudged past its end). C103_move bounds the nudge and says which side it is on, C103_reflect follows a reflection.
* **C104** (The region ahead of a particle; `C104_rect_refuted`, `C104_cyl_refuted`): Refuted as stated: C104_cyl_refuted (angles are compared without regard to wrapping: on a line between sectors the sector behind may be given), C104_rect_refuted (read past the end of the edges for a point beyond the last one). C104_rect, C104_rect_leaves and C104_cyl prove it when edges are met exactly or clear of the tolerances and the angles differ by less than half a turn.
* **C106** (Particles at the boundary of the core; `C106_refuted`): Refuted as stated: C106_refuted (west-south edge, both reflecting: only the west face is seen, the particle ends outside heading out, and finding its pin reads out of range). C106_reported says exactly which faces are seen; C106_face, C106_returned and C106_inside prove it for one face.
* **C107** (Finding the pin a particle is in; `C107_plane_refuted`, `C107_location_refuted`): Refuted as stated: C107_location_refuted (on the boundary of two pins heading up: position and box of one, mesh and region of the other), C107_plane_refuted (error on an interface with no vertical motion; read past the end above the core). C107_location proves it for an accepted core whose lattices line up, everywhere but on the lower boundary of a pin heading up.
* **C109** (Boundary flux is updated from coarse partial currents; `C109_first_refuted`): Refuted as stated: without partial currents of the previous iteration the code takes the partial current leaving the domain, not the one entering (C109_first_refuted). C109_first_partial says what is taken. The matching of elements with surfaces, the scaling by ratios and the sign are proved.
* **C110** (Segments of a ray: the pins it crosses, their regions, the whole length; `C110_tall_refuted`): Refuted as stated for cores taller than wide: the lines between columns of pins are drawn only up to the height of the core's width, so a ray above that is not cut there (C110_tall_refuted). Proved for cores no taller than wide, rays whose crossings the point comparison tells apart and whose pieces do not run within the comparison tolerance of a pin boundary.
* **C111** (Rays leave their currents in the cells they cross; `C111_corner_refuted`): Refuted as stated for rays ending in a corner of the core: such a ray is recorded as leaving the core and then crossing a surface of a cell that does not exist (C111_corner_refuted). Proved for all other rays that are neither horizontal nor vertical, in cores no taller than wide (see C110), with between 1 and 255 segments per pin and cuts that the comparisons tell apart from the pin boundaries they are not on.
* **C80** (Region volumes add up to the core volume; `C80_unaligned_refuted`): Refuted as stated for cores whose lattices do not line up: such a core is accepted but its volumes read a plane height past the end (C80_unaligned_refuted). Proved for lined-up cores: one volume per region under every treatment, each the area of its region times the height, adding up to the volume of the core.
* **C79** (The region at a point; `C79_region_refuted`): Refuted as stated (C79_region_refuted): the region within the pin is looked up at the centre of the pin in core coordinates instead of at the point, so for every pin whose centre is farther than half a pitch from the core's origin the answer is one less than the first region of the pin. Proved: plane and pin are the right ones and the answer is exactly that (C79_pin_partial).
* **C113** (The cell balance an Sn sweep reports; `C113_subplane_refuted`): Refuted as stated when planes are grouped: the cross section is looked up by cell number, but homogenised regions hold several cells, so the lookup leaves the array (C113_subplane_refuted). Proved in three dimensions for cross-section regions numbered like the cells, for every balanced cell equation.
* **C115** (Projecting the Sn solution onto the MoC mesh keeps the two sweepers consistent; `C115_negative_refuted`): Refuted as stated for negative Sn pin fluxes: they are announced as corrected and set to zero, but the MoC sweeper refuses zeros, so such a sweep always throws (C115_negative_throws, C115_negative_refuted). Everything else is proved for every sweep that ends normally.
* **C116** (Projecting the MoC solution starts the Sn sweep from the MoC pin fluxes; `C116_subplanes_refuted`): Refuted as stated when a macroplane has several planes: the values of the macroplane mesh are written as if they were those of the full mesh (C116_subplanes_refuted). Proved with one plane per macroplane.
* **C118** (The convergence test sees the fission source of every region; `C118_2d3d_refuted`): Refuted as stated for the 2D3D sweeper: the sum stops at the number of regions of one sweeper although the source holds those of both, so a change among the last MoC regions gives an error of zero (C118_2d3d_refuted). Proved for the single-mesh sweepers.
* **C120** (Correction factors make the corrected Sn cell reproduce the MoC cell; `C120_oblong_refuted`): Refuted as stated for cells that are not square: the sums on x-normal faces are divided by the cell width in x and those on y-normal faces by the width in y, so a flat flux is not reproduced in a 1 by 2 cell (C120_oblong_refuted). Proved for square cells whose ray length times spacing gives the cell area.
* **C122** (Currents and surface fluxes do not depend on the worker; `C122_surface_flux_refuted`): Refuted as stated for surface fluxes: the correction worker subtracts the fluxes of the backward direction, so a flux of one in all directions gives a surface flux of zero (C122_surface_flux_refuted). Proved for the currents.
* **C123** (Surface fluxes of a MoC sweep; `C123_subplane_refuted`): Refuted as stated when a macroplane has several planes: only currents are spread over the planes, the surface fluxes of the upper planes stay zero (C123_subplane_refuted). Proved: the tally of rays, its sign, and the division by areas.
* **C124** (All users of the homogenised cross sections see one consistent set; `C124_shared_refuted`, `C124_stale_refuted`): Refuted as stated when both users update: scattering matrices and the state counter are not shared while the other cross sections are, so the one that did not update last has removal unequal to transport less self-scattering (C124_shared_refuted), and with one group its expanded cross sections stay old (C124_stale_refuted). Proved: the one that updated last, and any history in which only one updates.
* **C126** (Accepted user quadratures can be used by the sweepers; `C126_axis_refuted`, `C126_vertical_refuted`, `C126_negative_refuted`): Refuted as stated: angles in a coordinate plane, vertical angles (also by leaving out theta) and first-octant directions with a negative polar angle (negative reciprocal sine, and leaving the octant when rays are laid out) are accepted. Proved: weights, unit length, octant places, and full usability for angles off the axes with a positive polar angle.
* **C127** (Quadratures survive writing to and reading from a file; `C127_short_refuted`, `C127_layout_refuted`, `C127_negative_refuted`): Refuted as stated: the lengths of the theta and alpha arrays and the octant layout are not checked, and a negative polar angle comes back with another reciprocal sine. Proved: the round trip for everything the generators make, and what an accepted file gives.
* **C128** (Assigning a quadrature copies it or is refused; `C128_user_refuted`): Refuted as stated: quadratures without counts (user-specified, level-symmetric) pass the check whatever their sizes. Proved: when it is refused, exact copy, and that product quadratures never change size.
* **C132** (CMFD results do not depend on the normalisation of the flux; `C132_refuted`): Refuted as stated: the tolerance on the fission source is absolute, so the decision to stop depends on the normalisation. Proved: everything scales when that tolerance is scaled along, and the matrices are the same.
* **C135** (An amendment that could mean several values is refused; `C135_refuted`): Refuted as stated: of several elements of the same name the first is changed silently (C135_refuted). C135_one: an accepted amendment sets one of the values the path fits, and when there is only one, that one.
* **C137** (The case name is the input file's name without extension, or the name given; `C137_refuted`): Refuted as stated: the last dot is searched in the whole path, so ./in gives an empty name. Proved with an extension, or without one when no directory has a dot; C137_tag for the name given in the input.
* **C142** (Starting and stopping a timer do what their descriptions say; `C142_toc_refuted`, `C142_start_refuted`): Refuted as stated: stopping returns the accumulated total (C142_toc_refuted), and a timer asked for again under the same name is not started (C142_start_refuted). C142_first: both hold for the first run of a new name.
* **C145** (Sn options mean the same alone and within 2D3D; `C145_refuted`): Refuted as stated: CDD in capitals is accepted within 2D3D but refused alone, and with no equation given the two choose different ones. C145_same: equal when the equation is given as documented.
* **C146** (Sizes that do not fit are always refused; `C146_lower_rank_refuted`, `C146_higher_rank_refuted`, `C146_write_refuted`): Refuted as stated: a data set of lower rank fills part of the array silently, one of higher rank makes the check read past the extents, writes given dimensions with other numbers of values run past the end of memory. The accepted cases are C138 and C139.
* **C147** (Missing files and groups are reported by the program's own exception; `C147_refuted`): Refuted as stated: opening a missing file and entering a missing group raise the library exception, which nothing in the wrapper catches. The other calls are C140.
* **C151** (Every accepted level-symmetric order treats the three axes alike; `C151_refuted`): Refuted as stated: S12 and S14 read the weight maps of S14 and S16, so the z moment is above 0.34 and the x and y moments below 0.33. The orders up to 10 are C150.
* **C154** (Nonnegative sources and incoming fluxes always give a nonnegative MoC flux; `C154_refuted`): Refuted as stated: with rays that sweep more than the volume of a region (no volume correction) a positive source with nothing coming in gives a negative scalar flux. The condition under which it holds is C153.
* **C161** (Bad Monte Carlo input is refused with the message for it; `C161_messages_refuted`, `C161_inactive_refuted`, `C161_group_refuted`): Refuted as stated: C161_messages_refuted (the bank is made before the checks, so the messages for a negative number of particles and for an empty input never appear), C161_inactive_refuted (more inactive cycles than cycles is accepted and tallies nothing), C161_group_refuted (the random number 1 gives a group that does not exist). Proved: C161_refused, the messages that do appear.
* **C163** (Laying out rays keeps the order of the angles; `C163_strict_refuted`): Real arithmetic, angles in the open first quadrant. That different angles can coincide is C163_strict_refuted (the strict order is refuted).
* **C166** (When the ray layout warns about regions without rays; `C166_missed_refuted`, `C166_early_refuted`): C166_missed_refuted and C166_early_refuted refute the two readings a user might take from the message.
* **C173** (A coarse-mesh solve never makes negative fluxes while its nonlinear corrections stay within the diffusion coefficients; `C173_refuted`): Real arithmetic.  The linear solver (Eigen BiCGSTAB) is not modelled: C173_solve assumes that it solves its systems.  C173_refuted shows that the range of the corrections is needed.
* **C184** (Which cross-section files are accepted, refused or undefined; `C184_rank_refuted`, `C184_fewer_groups_refuted`, `C184_more_groups_refuted`, `C184_spill_refuted`): The statement lists what is not checked; each gap is proved with a concrete input (the _refuted theorems).
* **C188** (Which material library files are accepted; `C188_headings_refuted`, `C188_separation_refuted`): The statement lists what is not checked; the headings and the unseparated numbers are proved with a concrete file (the _refuted theorems). Bytes above 127 on a line of numbers are undefined behaviour (tolower) and count as not accepted.
* **C191** (Currents that CMFD writes to the results file; `C191_refuted`): Currents are given by an arbitrary array; the balance theorem fills it as C42 says. The misplacement with merged planes is proved in general (C191_merged) and with a concrete core (C191_refuted). The data in the HDF5 file are the subject of C138-C140.

## Axioms per theorem

As printed by `Print Assumptions`.  S = `ClassicalDedekindReals.sig_forall_dec`, N = `ClassicalDedekindReals.sig_not_dec`, F =
`FunctionalExtensionality.functional_extensionality_dep`, C = `Classical_Prop.classic`; "none" = closed under the global
context.  These are axioms of the standard library.

**S**: C19_square_input, C23_spatial_reset, C35_unsplit, C35_split, C43_put_back, C48_min_refuted, C49_blocked_refuted, C58_position_agrees, C58_position_bijection, C60_unknown_material_refuted, C65_round_trip_one_macroplane, C65_default_top_refuted, C78_core_map, C83_density, C85_round_trip, C85_missing_refuted, C113_subplane_refuted, C167_pins, C191_merged, C191_refuted, C198_listed, C198_read_back

**F S**: C11_area_agrees, C11_area_times_thickness, C11_volumes_sum, C13_crossings_found_partial, C13_found_are_crossings, C13_crossings_found_refuted, C14_reflections_commute, C16_ordinates, C16_weights_level_symmetric_partial, C16_weights_refuted, C18_update_angle_partial, C18_update_group_partial, C18_unsupported_throws, C19_round_trip_partial, C19_access, C19_self_scatter, C19_out_is_column_sum_partial, C19_copy, C19_round_trip_refuted, C20_cdf, C21_schedule_independent, C21_ids_distinct, C23_scalar_order_independent, C23_spatial_order_independent, C24_site_counted_in_its_cell, C26_tolerance_refuted, C29_flat, C29_angle, C29_zero_length_refuted, C31_leakage_kept, C31_succeeds, C31_plain, C31_zero_flux_refuted, C32_axial_refuted, C34_partition, C34_defined, C35_stale_refuted, C36_rates, C36_scatter_partial, C36_emission, C36_spectrum, C36_bounds, C36_spectrum_bounds, C36_scatter_bounds, C36_scatter_total, C36_volume, C36_negative_scatter_refuted, C37_equal_partial, C37_same, C37_spectrum_refuted, C39_spectrum_normalised, C39_spectrum_unfissile, C39_transport_is_total, C39_transport_is_stored_total, C39_construction, C40_source, C40_commute, C40_balance, C40_auxiliary, C40_external_refuted, C40_2d3d, C42_row, C42_cancel, C42_total, C43_homogenised, C43_macro_balance, C43_put_back_refuted, C43_current, C43_no_data, C43_defined, C43_transport_balance, C43_surface_flux, C44_flux, C45_unique, C46_dd, C46_2d, C46_fixup, C46_pmb_refuted, C46_pmb_partial, C48_parameters, C50_limit_partial, C50_negative_refuted, C51_total_fission, C51_fission_source, C51_integral, C52_sum, C52_idempotent_partial, C52_scale, C52_scaled, C52_idempotent_refuted, C53_rational_approximation, C53_nearest_on_its_side, C53_within_tolerance, C53_unbounded_refuted, C53_closest_refuted, C57_lattice_layout, C57_lattice_acceptance, C57_lattice_size_rejected, C57_negative_dimensions_refuted, C57_lattice_lookup, C57_lattice_lookup_near, C57_left_edge_refuted, C58_plane_lookup, C58_position_refuted, C59_rect, C61_macroplanes, C61_moc_geometry, C61_identical_geometry_refuted, C62_equivalent_planes, C62_unique_planes, C62_scan_defined, C64_leakage, C64_telescopes, C65_round_trip_refuted, C65_uncovered_refuted, C68_segment_intersection, C68_parallel_not_reported, C73_initialize_scalar, C74_equal_if_dense_equal, C74_equality_refuted, C77_assembly_order, C77_assembly_acceptance, C77_heights_refuted, C83_height_refuted, C84_cell_balance, C84_deposits, C82_incoming_refuted, C85_fissile_refuted, C85_update, C87_reaction, C87_spectrum, C87_reaction_refuted, C88_pin_powers, C88_planes_refuted, C92_refuted, C92_interior, C92_high, C92_low, C94_rect, C94_rect_refuted, C96_centre, C96_entering, C96_refuted, C76_relative, C76_order, C76_equiv_sound, C76_equiv_reflexive, C76_equiv_symmetric, C76_refuted, C95_line, C95_rect, C95_rect_region, C101_yield, C102_exit, C102_refuted, C103_move, C103_reflect, C104_rect, C104_rect_leaves, C104_rect_refuted, C106_reported, C107_plane, C107_plane_refuted, C107_location, C110_tall_refuted, C111_corner_refuted, C80_volumes, C80_each, C80_unaligned_refuted, C112_pin_powers, C119_defined, C122_currents, C123_ray, C123_positive, C123_after, C123_subplane_refuted, C124_last, C124_alone, C124_idle, C124_shared_refuted, C124_stale_refuted, C125_copy, C130_slope, C130_fixed, C130_weight, C131_eigenvalue, C132_coefficients, C133_options, C141_elapsed, C141_toc, C141_child, C142_toc_refuted, C142_start_refuted, C142_first, C153_corrected, C161_group_refuted, C167_rays, C167_refused, C173_positive, C173_strict, C173_monotone, C173_unique, C173_solver, C173_tame, C173_refuted, C183_planes, C183_bounds, C183_whole, C183_round_trip, C184_safe, C184_accepts, C184_rank_refuted, C184_fewer_groups_refuted, C184_more_groups_refuted, C184_spill_refuted, C184_empty_range, C187_reads, C187_makes, C188_accepts, C188_ends, C188_too_short, C188_unused, C188_headings_refuted, C188_separation_refuted, C191_balance, C192_sn, C192_moc_powers, C192_moc, C192_scale, C192_undefined, C196_inside, C196_elsewhere, C196_side, C196_corner, C196_west_east, C196_south_north, C196_plane, C196_back, C197_drawn, C197_accepted, C199_above, C199_below, C199_unique, C199_fissile, C202_reads, C202_same, C202_short, C202_missing

**none**: C01_jump_ahead_is_n_draws, C01_jump_ahead_state, C01_jump_ahead_additive, C02_draw_in_range, C02_draw_injective, C02_full_period, C02_every_value_visited, C03_random_below_one_iff, C03_random_int_below_bound_iff, C03_random_range_refuted, C04_history_windows_disjoint_partial, C04_history_streams_refuted, C05_sample_cdf_bin, C05_sample_cdf_in_range, C06_position_of_cell_index, C06_cell_index_of_position, C07_surface_in_range, C07_surface_used, C07_surface_shared_iff_same_face, C08_neigh_cells_of_face, C08_neigh_cells_sound, C09_surface_normal, C10_neighbor_is_adjacent, C10_step_and_back, C10_interface_of_neighbors, C10_interface_rejects_non_neighbors, C12_plane_cells, C12_plane_ranges_contiguous, C12_plane_surfaces, C14_reflect_surface, C17_slices_inside, C17_slices_disjoint, C17_slices_cover, C17_boundary_is_three_faces, C21_sorted_bank, C22_resize_partial, C22_resize_same, C22_resize_refuted, C25_cycle_count_refuted, C25_inactive_first, C32_expand, C33_records, C33_overflow_refuted, C38_lookup_by_id, C38_dense_index, C38_dense_injective, C38_count_partial, C38_count_refuted, C40_external_partial, C43_surface_flux_plane, C43_surface_flux_refuted, C45_order, C46_pmb_plane_refuted, C48_limits_partial, C49_dumps_partial, C49_defined, C54_read, C54_accepted, C54_kept, C54_terminates, C54_dropped, C54_refuted, C55_text, C55_injective, C55_runs, C56_line, C56_reads, C60_pin_fuel, C60_unknown_material_partial, C61_moc_plane_index, C65_several_files, C65_overlap_refused, C66_zero_radial, C67_source_stream_refuted, C75_unique_name, C75_duplicate_names_refuted, C78_negative_dimensions_refuted, C78_one_enabled_core, C82_each_slot_once, C85_multi, C85_multi_total, C86_partition, C76_ulp, C114_refused, C128_assign, C134_exact, C134_accepted, C134_order, C135_refuted, C135_one, C136_command_line, C136_unique, C137_extension, C137_no_extension, C137_refuted, C137_tag, C138_round_trip, C138_vector, C138_frame, C138_accepted, C138_paths, C138_groups, C138_group_accepted, C139_read_same_rank, C139_vector, C139_write_right, C140_read_only, C140_calls, C140_open, C143_counts, C143_attributes, C144_sn, C144_2d3d, C144_ends, C144_solver, C144_threads, C145_refuted, C145_same, C146_lower_rank_refuted, C146_higher_rank_refuted, C146_write_refuted, C147_refuted, C162_regions, C162_defined, C168_options, C168_quadrature, C169_macroplanes, C177_status, C177_zero, C177_one, C177_message, C177_results, C178_log, C178_unlogged, C178_again, C178_error, C179_first, C179_later, C179_thrown, C179_failure, C191_written, C191_shared, C198_silent, C198_first, C201_complete, C201_names, C201_values, C201_same, C203_source, C203_refused, C203_2d3d

**F N S**: C16_unit_vectors, C23_scalar_statistics, C23_spatial_statistics, C23_relative_deviation_refuted, C27_conservation, C27_angle_balance, C27_angle_weight, C28_schedule_independent, C30_round_trip, C30_write_succeeds, C30_pin_round_trip, C30_pin_subplanes_refuted, C41_unsplit_partial, C41_plain, C41_split_refuted, C44_limit, C44_terminates, C44_exact_start, C44_refuted, C45_solution, C45_defined, C45_sweep_defined, C46_dd_sc, C46_cdd, C46_sc_exact, C46_reduces, C47_installs, C47_defined, C47_residual_refuted, C47_plane_round_trip, C47_plane_residual_refuted, C51_moc_sweep, C51_moc_homogeneous, C51_moc_scale, C51_ratio, C51_scale, C59_fsrs, C59_refuted, C63_upper_end_refuted, C69_circle_intersection, C69_tangent_reported, C71_azimuthal_weights, C72_direction_unit, C81_trig_defined, C84_weights, C82_nonneg, C88_residual, C89_faces, C89_balance, C89_balance_2d, C90_schedule, C91_infinite_medium, C70_unique, C93_horizontal_refuted, C93_rect_lengths, C93_rect, C94_cyl_total, C96_azimuthal, C96_eight_refuted, C97_outer, C97_six_refuted, C98_sweep, C99_record, C99_zero, C99_converged, C95_circle, C95_cyl, C95_refuted, C103_refuted, C108_boundary_sweep, C108_sweep, C108_nonnegative, C108_boundary, C108_currents, C109_ratio, C109_first_partial, C109_nonneg, C111_ray, C113_balance, C114_schedule, C114_zero_modulo, C115_projection, C115_negative_throws, C115_negative_refuted, C116_handover, C116_subplanes_refuted, C117_cmfd_step, C118_single, C118_2d3d_refuted, C119_ray, C119_angle, C120_square, C121_residual, C121_zero, C123_weights, C131_unchanged, C131_stationary, C132_scaled, C132_refuted, C148_run, C148_sn, C149_step, C149_balance, C155_sweep, C155_inner, C156_sn, C163_strict_refuted, C168_idle, C170_superposition, C173_solve, C174_off, C174_moc, C174_iteration, C175_record, C175_taken, C175_blind, C176_flux, C176_eigenvalue, C180_downscatter, C189_sweep, C189_vacuum, C197_lined, C199_solver, C199_bracket, C200_kept

**C F N S**: C14_reflect_flips_one_cosine, C14_modify_angle_keeps_layout, C15_reverse_2d, C15_reverse_3d_partial, C15_reverse_3d_refuted, C18_update_refuted, C24_entropy_defined_partial, C24_entropy_bounds, C24_entropy_order_independent, C24_entropy_index_refuted, C26_ray_layout, C27_characteristics, C27_bounds, C27_infinite_medium, C46_defined, C46_uniform, C59_cyl, C63_error, C63_between_neighbours, C71_product_weights_sum, C71_update_weights, C72_direction_consistent, C72_direction_reflect, C81_trig, C81_pin_modular, C81_rational, C81_shallow_refuted, C81_rational_slope_refuted, C81_rational_spacing_refuted, C70_alpha, C70_refuted, C93_cyl, C93_cyl_lengths, C94_cyl, C94_cyl_refuted, C95_cyl_region, C100_isotropic, C100_every_direction, C100_refuted, C101_scatter, C101_capture, C101_fission, C101_refuted, C104_cyl, C104_cyl_refuted, C105_scores, C105_particle, C105_free_path, C105_track, C106_face, C106_inside, C106_returned, C106_refuted, C107_location_refuted, C109_first_refuted, C110_segments, C110_core, C79_pin_partial, C79_region_refuted, C120_oblong_refuted, C122_surface_flux_refuted, C126_accepted, C126_octants, C126_usable, C126_axis_refuted, C126_vertical_refuted, C126_negative_refuted, C127_round_trip, C127_made, C127_accepted, C127_short_refuted, C127_layout_refuted, C127_negative_refuted, C128_product, C128_user_refuted, C129_update, C129_collapsed, C129_others, C129_layout, C130_pairs, C148_moc, C150_level_symmetric, C150_s2, C150_octants, C150_product, C151_refuted, C152_outcome, C152_made, C153_bounds, C154_refuted, C155_balance, C155_closed, C155_open, C156_moc, C157_histories, C157_means, C158_fluxes, C158_powers, C159_agree, C160_accepted, C160_source, C161_messages_refuted, C161_inactive_refuted, C161_refused, C163_rational, C163_trig, C164_matched, C165_made, C165_problem, C165_eigenvalue, C166_warned, C166_missed_refuted, C166_early_refuted, C170_monotone, C171_stable, C172_contraction, C172_converge, C176_run, C180_contraction, C180_converge, C181_stops, C181_error, C182_superposition, C182_scale, C185_converge, C186_converge, C186_stops, C189_source, C189_built, C190_adjoint, C190_limit, C192_fixed, C193_monotone, C193_nonnegative, C193_one_sided, C193_solutions, C194_largest, C194_unique, C194_fissile, C194_medium, C195_above, C195_below, C195_shows, C200_bracket, C200_same

