{"id": "C01", "title": "Jumping the random stream ahead equals drawing one at a time", "statement": "For every generator state and every 64-bit count n, every draw made after jump_ahead(n) equals the draw made after n consecutive draws, and for n > 0 (or a seed below 2^63) the stored state is identical too; jumping a then b equals jumping a+b.", "quantifier": "all generator states, all n in [0,2^64)", "why_tests_cant": "n ranges over 2^64 values and the states over 2^63; tests compare a handful of jumps.", "anchors": ["src/util/rng_lcg.hpp: RNG_LCG::jump_ahead, RNG_LCG::operator()"]}
{"id": "C02", "title": "The random stream has full period and never leaves its range", "statement": "From any seed, every state after the first draw lies in [0,2^63), distinct states have distinct successors, and the sequence of states returns to its start after exactly 2^63 draws and not before, visiting every value.", "quantifier": "all seeds, all stream positions", "why_tests_cant": "A period of 2^63 cannot be observed by running the generator.", "anchors": ["src/util/rng_lcg.hpp: RNG_LCG::increment, RNG_LCG::m, RNG_LCG::operator()"]}
{"id": "C03", "title": "Uniform variates stay in [0,1) and bounded integers stay below the bound", "statement": "random() returns a value in [0,1) for every state, and random_int(n) returns a value in [0,n) for every state and positive n.", "quantifier": "all generator states, all positive bounds", "why_tests_cant": "The states for which the conversion to double rounds to 1.0 are about one in 2^54; a test never meets one.", "anchors": ["src/util/rng_lcg.hpp: RNG_LCG::random, RNG_LCG::random_int", "src/sweepers/mc/fission_bank.cpp: FissionBank::resize"]}
{"id": "C04", "title": "Different particle histories use non-overlapping parts of the random stream", "statement": "For any two distinct histories of a run, the 10000-draw windows of the random stream that start at the positions the pusher assigns to them do not overlap, whatever the id offset.", "quantifier": "all pairs of history numbers and id offsets in a run", "why_tests_cant": "Requires reasoning over hundreds of thousands of histories and over the period of the generator.", "anchors": ["src/sweepers/mc/particle_pusher.cpp: ParticlePusher::simulate", "src/util/rng_lcg.hpp: RNG_LCG::jump_ahead"]}
{"id": "C05", "title": "Sampling a cumulative distribution returns the bin containing the variate", "statement": "For a non-decreasing table whose last entry is at least the sampled variate, sample_cdf returns an in-range index i with table[i-1] < v <= table[i]; if the variate is above the last entry the returned index is one past the end.", "quantifier": "all tables, all variates", "why_tests_cant": "Covers every table shape (flat bins, zero-width bins) and the boundary variates a random test never draws.", "anchors": ["src/util/rng_lcg.hpp: RNG_LCG::sample_cdf"]}
{"id": "C06", "title": "Coarse cell index and (x,y,z) position are mutually inverse", "statement": "For every mesh size, the index-of-position and position-of-index maps are inverse bijections between the nx*ny*nz positions and the indices [0,n).", "quantifier": "all nx, ny, nz >= 1, all cells", "why_tests_cant": "Unbounded family of mesh sizes.", "anchors": ["src/core/mesh.hpp: Mesh::coarse_cell, Mesh::coarse_position"]}
{"id": "C07", "title": "Every coarse surface number is used, in range, and shared only by adjacent cells", "statement": "For every mesh size: each of the six surfaces of each cell has an index in [0,n_surf); every index in that range belongs to some cell; two different cell faces have the same index exactly when the cells are neighbours across that face and the faces are opposite.", "quantifier": "all nx, ny, nz >= 1, all pairs of cell faces", "why_tests_cant": "The numbering is built by interleaved loops per plane; tests check fixed small grids only.", "anchors": ["src/core/mesh.cpp: Mesh::prepare_surfaces", "src/core/mesh.hpp: Mesh::coarse_surf, Mesh::n_surf"]}
{"id": "C08", "title": "Looking up the cells on either side of a surface inverts the surface numbering", "statement": "For every surface number, coarse_neigh_cells returns (a,b) such that a non-negative member has that surface as its east/north/top (first) or west/south/bottom (second) face, and a negative member appears exactly when the surface is on the corresponding domain boundary.", "quantifier": "all nx, ny, nz >= 1, all surfaces", "why_tests_cant": "Closed-form index arithmetic that must agree with a table built elsewhere, for every size.", "anchors": ["src/core/mesh.hpp: Mesh::coarse_neigh_cells", "src/core/mesh.cpp: Mesh::prepare_surfaces"]}
{"id": "C09", "title": "The reported normal of a surface is the axis it faces", "statement": "surface_normal applied to the number of a cell face returns X for east/west, Y for north/south and Z for top/bottom faces.", "quantifier": "all nx, ny, nz >= 1, all cell faces", "why_tests_cant": "Three interleaved index ranges per plane whose boundaries depend on the mesh size.", "anchors": ["src/core/mesh.hpp: Mesh::surface_normal", "src/core/mesh.cpp: Mesh::prepare_surfaces"]}
{"id": "C10", "title": "Stepping to a neighbour and back returns to the start; leaving the domain is reported", "statement": "coarse_neighbor(cell, face) is -1 exactly when that face is on the domain boundary; otherwise stepping back through the opposite face returns the original cell, and coarse_interface of the two cells is the shared surface.", "quantifier": "all nx, ny, nz >= 1, all cells and faces", "why_tests_cant": "Unbounded family of mesh sizes; off-by-one errors only show at particular edges.", "anchors": ["src/core/mesh.hpp: Mesh::coarse_neighbor, Mesh::coarse_interface"]}
{"id": "C11", "title": "Coarse areas and volumes are consistent", "statement": "The area of a surface computed from its number equals the area of the same surface computed from either adjoining cell; area times thickness equals cell volume for each axis, and cell volumes sum to (sum dx)(sum dy)(sum dz).", "quantifier": "all mesh sizes and all pitch vectors", "why_tests_cant": "Unbounded sizes and real-valued pitches.", "anchors": ["src/core/mesh.hpp: Mesh::coarse_area, Mesh::cell_thickness, Mesh::coarse_volume"]}
{"id": "C12", "title": "Per-plane index ranges partition cells and surfaces", "statement": "The cell ranges [plane_cell_begin, plane_cell_end) of successive planes partition all cells; the surface ranges of successive planes are disjoint, contiguous, and with the final top-face block cover all surfaces; the in-plane part contains exactly the x- and y-normal surfaces of the plane.", "quantifier": "all mesh sizes, all planes", "why_tests_cant": "Unbounded family of mesh sizes.", "anchors": ["src/core/mesh.hpp: Mesh::plane_cell_begin, plane_cell_end, plane_surf_begin, plane_surf_xy_begin, plane_surf_end"]}
{"id": "C13", "title": "Ray tracing through the coarse mesh finds every pin boundary crossing", "statement": "Every mesh line handed to the tracer spans the whole domain, so every point where a ray crosses a pin boundary is found.", "quantifier": "all domain sizes hx, hy and all pin pitches", "why_tests_cant": "The defect only appears for domains taller than wide and rays crossing the upper part.", "anchors": ["src/core/mesh.cpp: Mesh::Mesh, Mesh::trace", "src/core/core_mesh.cpp: CoreMesh::CoreMesh"]}
{"id": "C14", "title": "Reflecting an angle flips exactly one direction cosine", "statement": "For every quadrature laid out by octant, reflecting angle i off a surface with normal n returns an angle whose cosine along n is negated and whose other cosines are unchanged; reflecting twice returns i; reflections about different axes commute.", "quantifier": "all numbers of angles per octant, all angles, all normals", "why_tests_cant": "The reflection is an integer table times the octant size, valid for every quadrature order.", "anchors": ["src/core/angular_quadrature.hpp: AngularQuadrature::reflect", "src/core/angular_quadrature.cpp: reflection_"]}
{"id": "C15", "title": "Reversing an angle returns the opposite direction", "statement": "reverse(i,2) returns the angle with the x and y cosines negated, and reverse(i,3) returns the angle with all three cosines negated; both are involutions.", "quantifier": "all numbers of angles per octant, all angles", "why_tests_cant": "Must hold for each octant and each quadrature size; tests exercise the 2-D default.", "anchors": ["src/core/angular_quadrature.hpp: AngularQuadrature::reverse"]}
{"id": "C16", "title": "Level-symmetric generation assigns each ordinate the weight of its own order", "statement": "For every supported order the generated octant has N(N+2)/8 ordinates, the weight index used for each ordinate is defined, and it belongs to the weight map of that order.", "quantifier": "all even orders accepted by the generator", "why_tests_cant": "Reading beyond or from a neighbouring table gives plausible numbers that a sum test at low order does not notice.", "anchors": ["src/core/level_symmetric.hpp: GenSn"]}
{"id": "C17", "title": "Boundary-condition storage gives every group, angle and face its own slice", "statement": "For any per-angle face sizes, the slices returned for distinct (group, angle, face) triples are disjoint, lie inside the storage, and together cover it.", "quantifier": "all group counts, angle counts, per-angle face size triples", "why_tests_cant": "Unbounded layouts; overlap would silently mix angular fluxes.", "anchors": ["src/core/boundary_condition.cpp: BoundaryCondition::BoundaryCondition", "src/core/boundary_condition.hpp: get_face, get_boundary"]}
{"id": "C18", "title": "A boundary update sets each incoming face according to its condition and nothing else", "statement": "After updating angle a of group g from the outgoing flux: for each axis, the incoming face of the reflected angle receives the outgoing values when the condition is reflective, becomes zero when it is vacuum, is unchanged when prescribed, and every other slice of the storage is unchanged.", "quantifier": "all layouts, conditions, angles, groups and flux contents", "why_tests_cant": "A frame condition over arbitrary sizes plus an early exit that depends on a face being empty.", "anchors": ["src/core/boundary_condition.cpp: BoundaryCondition::update"]}
{"id": "C19", "title": "A scattering matrix round-trips through its compressed storage", "statement": "Building the compressed scattering matrix from a dense one and expanding it again returns the same dense matrix; element access agrees, and the out-scattering of a group equals the sum of its column.", "quantifier": "all group counts and all dense matrices", "why_tests_cant": "Every sparsity pattern, including empty rows and entries below the band threshold.", "anchors": ["src/core/scattering_matrix.hpp: ScatteringMatrix::ScatteringMatrix, as_vector, out, to", "src/core/scattering_matrix.cpp"]}
{"id": "C20", "title": "Outgoing-group distributions are proper cumulative distributions", "statement": "For a non-negative matrix and a group with positive out-scattering, the outgoing cumulative distribution is non-decreasing, lies in [0,1] and ends at exactly 1 (over the reals).", "quantifier": "all non-negative matrices", "why_tests_cant": "Every pattern of zeros.", "anchors": ["src/core/scattering_matrix.hpp: ScatteringMatrix::out_cdf", "src/core/scattering_matrix.cpp"]}
{"id": "C21", "title": "Monte Carlo results do not depend on thread scheduling", "statement": "For every interleaving of the worker threads' insertions into the fission bank, the bank handed to the next cycle (after sorting by parent and renumbering) is the same list of sites.", "quantifier": "all interleavings of all per-history site lists", "why_tests_cant": "Schedules cannot be enumerated by running.", "anchors": ["src/solvers/monte_carlo_eigenvalue_solver.cpp: MonteCarloEigenvalueSolver::step", "src/sweepers/mc/particle_pusher.cpp: ParticlePusher::simulate", "src/sweepers/mc/fission_bank.hpp: push_back"]}
{"id": "C22", "title": "Resizing a fission bank yields exactly the requested number of sites drawn from the original", "statement": "After resize(n) of a non-empty bank the bank has n sites; each is a site of the original; shrinking keeps a sub-multiset and growing keeps all originals; resizing to the current size changes nothing; every index it reads is inside the bank.", "quantifier": "all banks, all target sizes, all generator states", "why_tests_cant": "Depends on unbounded random choices.", "anchors": ["src/sweepers/mc/fission_bank.cpp: FissionBank::resize"]}
{"id": "C23", "title": "Tally results do not depend on scoring order and report mean and deviation correctly", "statement": "The value and deviation reported by a tally after any sequence of scores depend only on the multiset of scores; the mean is the scaled average, and the relative deviation does not change when all values are renormalised.", "quantifier": "all sequences of scores, all weights and permutations", "why_tests_cant": "All score orders and all normalisations.", "anchors": ["src/sweepers/mc/tally_scalar.hpp: TallyScalar", "src/sweepers/mc/tally_spatial.hpp: TallySpatial::get"]}
{"id": "C24", "title": "Shannon entropy indexing is safe and its value is bounded", "statement": "Every site whose cell index passes the range check is counted inside the population array, and the entropy lies between 0 and log2 of the number of pins.", "quantifier": "all banks and meshes", "why_tests_cant": "The failing index is exactly one past the end.", "anchors": ["src/sweepers/mc/fission_bank.cpp: FissionBank::shannon_entropy"]}
{"id": "C25", "title": "The number of Monte Carlo cycles is what was requested", "statement": "A run with n_cycles cycles of which n_inactive are inactive performs n_cycles steps, tallying in n_cycles - n_inactive of them.", "quantifier": "all cycle counts", "why_tests_cant": "Counts are usually large and an extra cycle is invisible in statistics.", "anchors": ["src/solvers/monte_carlo_eigenvalue_solver.cpp: MonteCarloEigenvalueSolver::solve"]}
{"id": "C26", "title": "Ray exits map one-to-one onto boundary slots", "statement": "For a modular angle with Nx and Ny rays on each side, assigning every ray its entry and exit boundary index is one-to-one: no two rays write the same outgoing slot and every slot of the incoming face is written by exactly one ray.", "quantifier": "all Nx, Ny >= 1, both direction quadrants", "why_tests_cant": "Holds for every pair of ray counts; a collision would be a silent data race or a stale slot.", "anchors": ["src/sweepers/moc/ray_data.cpp: RayData::RayData", "src/sweepers/moc/ray.cpp"]}
{"id": "C27", "title": "Sweeping a ray conserves particles and preserves positivity", "statement": "Along any ray the sum over segments of the flux changes equals incoming minus outgoing flux in both directions; with non-negative source and incoming flux and attenuation factors in [0,1] every segment flux is non-negative; a uniform infinite-medium flux is reproduced unchanged.", "quantifier": "all rays, segment lengths, cross sections, sources and incoming fluxes", "why_tests_cant": "Unbounded segment counts and real data.", "anchors": ["src/sweepers/moc/moc_sweeper_kernel.inc.hpp: MoCSweeper::sweep1g"]}
{"id": "C28", "title": "The swept scalar flux does not depend on the order in which rays are processed", "statement": "Accumulating the contributions of all rays of an angle into the scalar flux gives the same result for every processing order and every division among threads (over the reals).", "quantifier": "all permutations and partitions of the rays", "why_tests_cant": "All schedules.", "anchors": ["src/sweepers/moc/moc_sweeper_kernel.inc.hpp: MoCSweeper::sweep1g"]}
{"id": "C29", "title": "Volume correction makes ray segments reproduce exact region areas", "statement": "After the flat correction, for every angle and region crossed by at least one ray, segment lengths times ray spacing sum to the exact region area; segments of regions crossed by no ray are untouched.", "quantifier": "all ray sets, spacings and areas", "why_tests_cant": "Arbitrary numbers of rays and segments.", "anchors": ["src/sweepers/moc/ray_data.cpp: RayData::correct_volume"]}
{"id": "C30", "title": "Writing a pin flux and reading it back returns what was written", "statement": "For MoC, after set_pin_flux_1g succeeds, get_pin_flux_1g with the same treatment returns the values written, and the shape of the flux inside each pin is unchanged.", "quantifier": "all meshes, fluxes and treatments", "why_tests_cant": "Depends on volumes and on the grouping of planes into macroplanes.", "anchors": ["src/sweepers/moc/moc_sweeper.cpp: MoCSweeper::set_pin_flux_1g, get_pin_flux_1g"]}
{"id": "C31", "title": "Transverse leakage is either added to the source or split, never lost", "statement": "After applying a transverse leakage, source minus splitting cross section times flux equals the original source plus the leakage in every region with positive flux; with splitting allowed the source is never made negative by the leakage.", "quantifier": "all sources, leakages and fluxes", "why_tests_cant": "All sign combinations of real data.", "anchors": ["src/sweepers/moc/moc_sweeper.cpp: MoCSweeper::apply_transverse_leakage"]}
{"id": "C32", "title": "Expanding macroplane currents writes exactly the surfaces of that macroplane", "statement": "After a MoC sweep, in-plane currents of every fine plane equal those of its macroplane, and no current on an axial (z-normal) surface is modified.", "quantifier": "all macroplane groupings and mesh sizes", "why_tests_cant": "Requires several planes and non-zero axial currents that most tests leave at zero.", "anchors": ["src/sweepers/moc/moc_current_worker.hpp: Current::post_sweep"]}
{"id": "C33", "title": "Coarse ray records reproduce every segment of the ray", "statement": "For every ray the per-cell segment counts stored for the forward and backward directions add up to the number of segments of the ray and each is exact.", "quantifier": "all rays", "why_tests_cant": "The counters are eight bits wide; only very finely meshed pins overflow them.", "anchors": ["src/sweepers/moc/ray.hpp: RayCoarseData", "src/sweepers/moc/ray.cpp: Ray::Ray"]}
{"id": "C34", "title": "Material regions of the cross-section mesh partition the flat source regions", "statement": "Every flat source region appears in exactly one cross-section region, whose material is the one assigned to it, and the total is the number of regions of the mesh.", "quantifier": "all core layouts", "why_tests_cant": "Arbitrary nesting of planes, lattices, pins.", "anchors": ["src/core/xs_mesh.cpp: XSMesh::XSMesh"]}
{"id": "C35", "title": "Expanded cross sections always reflect the last requested expansion", "statement": "After any sequence of expansions (with and without splitting) and cross-section updates, the expanded array equals the cross sections of the requested group plus the requested splitting.", "quantifier": "all histories of expand calls and updates", "why_tests_cant": "A stale cache only shows for particular call orders.", "anchors": ["src/core/xs_mesh.hpp: ExpandedXS::expand, ExpandedXS::update"]}
{"id": "C36", "title": "Homogenisation preserves reaction rates", "statement": "Flux-weighted pin cross sections times pin-integrated flux equal the sum of region reaction rates; homogenised values lie between the extremes of the constituents; a fission spectrum that sums to one in every fissile constituent sums to one in the pin.", "quantifier": "all pins, fluxes, materials", "why_tests_cant": "All real-valued data and region counts.", "anchors": ["src/core/xs_mesh_homogenized.cpp: homogenize_region, homogenize_region_flux"]}
{"id": "C37", "title": "Cross-section region equality means equal data", "statement": "Two cross-section regions compare equal exactly when they describe the same regions and the same cross sections for every reaction.", "quantifier": "all pairs of regions", "why_tests_cant": "The difference has to be in exactly the field that is not compared.", "anchors": ["src/core/xs_mesh_region.hpp: XSMeshRegion::operator=="]}
{"id": "C38", "title": "Material lookup by user identifier returns the material assigned to it", "statement": "After any sequence of assignments of identifiers to library names, looking up an identifier returns the most recently assigned material, the count of materials equals the number of distinct identifiers, and an unassigned identifier is rejected.", "quantifier": "all assignment histories", "why_tests_cant": "Histories with repeated identifiers.", "anchors": ["src/core/material_lib.cpp: MaterialLib::assignID", "src/core/material_lib.hpp: get_material_by_id, n_materials"]}
{"id": "C39", "title": "Material spectra are normalised and totals are consistent", "statement": "For every material with a positive fission spectrum entry and non-zero sum the stored spectrum sums to one, and the stored transport cross section of each group is absorption plus total out-scattering.", "quantifier": "all material data", "why_tests_cant": "All group counts and values.", "anchors": ["src/core/material.cpp: Material::Material"]}
{"id": "C40", "title": "The source for a group is external plus fission plus in-scattering, once each", "statement": "Starting from initialize_group, adding fission and in-scattering yields for each region the external source plus chi times fission source plus the sum over other groups of scattering times flux, independent of previous groups; an external source supplied by the user is used with the group and region it was given for.", "quantifier": "all histories of group initialisations and additions, all fluxes", "why_tests_cant": "State carried from one group to the next; any history.", "anchors": ["src/core/source.cpp: Source::initialize_group, fission, in_scatter, add_external"]}
{"id": "C41", "title": "The sweep source is consistent with the cross section used to attenuate", "statement": "The transport source handed to the sweeper is (source + self-scatter*flux)/(4 pi xs) with the same cross section xs the sweeper uses to attenuate.", "quantifier": "all cross sections and splittings", "why_tests_cant": "Only differs when splitting is active.", "anchors": ["src/core/source_isotropic.cpp: SourceIsotropic::self_scatter"]}
{"id": "C42", "title": "CMFD conserves particles: the linear system is the cell balance of its own currents", "statement": "For any coupling coefficients and flux, row i of the CMFD matrix applied to the flux equals removal in cell i plus the net current the code would store through its faces; internal currents cancel in the sum over cells.", "quantifier": "all meshes, coefficients and fluxes", "why_tests_cant": "All sizes and real coefficients.", "anchors": ["src/core/cmfd.cpp: CMFD::setup_solve, CMFD::store_currents"]}
{"id": "C43", "title": "CMFD reproduces the transport current it was given", "statement": "When the coarse flux is unchanged, the current stored after the CMFD solve on each interior surface equals the transport current used to form the correction coefficient whenever the two adjoining fluxes do not sum to zero.", "quantifier": "all currents, fluxes, diffusion coefficients", "why_tests_cant": "All real data.", "anchors": ["src/core/cmfd.cpp: CMFD::setup_solve, CMFD::store_currents"]}
{"id": "C44", "title": "The CMFD iteration limit is respected and the returned flux is non-negative", "statement": "The CMFD solve performs at most the configured maximum number of iterations and returns a non-negative coarse flux.", "quantifier": "all configured limits and convergence histories", "why_tests_cant": "Depends on every possible convergence history.", "anchors": ["src/core/cmfd.cpp: CMFD::solve"]}
{"id": "C45", "title": "A transport sweep visits each cell once, upwind neighbours first", "statement": "For every octant the Sn sweep order visits each cell exactly once and every upwind neighbour of a cell (in x, y and z) is visited before it.", "quantifier": "all mesh sizes, all octants", "why_tests_cant": "Unbounded mesh sizes.", "anchors": ["src/sweepers/sn/sn_sweeper_variant.hpp: SnSweeperVariant::sweep_1g"]}
{"id": "C46", "title": "Every Sn differencing scheme satisfies the cell balance equation", "statement": "For each available cell equation (diamond difference, step characteristic, corrected variants, with and without fix-up), net outflow plus collision equals source, for all inputs for which the divisions are defined.", "quantifier": "all optical properties, incoming fluxes, correction factors", "why_tests_cant": "Real-valued data; one sign error in one variant.", "anchors": ["src/sweepers/sn/sn_sweeper_dd.hpp: evaluate", "src/sweepers/cmdo/sn_sweeper_cdd.hpp: evaluate"]}
{"id": "C47", "title": "The Sn pin-flux update reports its residual and installs the flux", "statement": "set_pin_flux_1g on the Sn sweeper installs the given pin flux so that it reads back unchanged, and returns the root-mean-square difference between old and new flux.", "quantifier": "all meshes and fluxes", "why_tests_cant": "The residual is only used for reporting, so a wrong index goes unnoticed.", "anchors": ["src/sweepers/sn/sn_sweeper.hpp: SnSweeper::set_pin_flux_1g, get_pin_flux_1g"]}
{"id": "C48", "title": "The eigenvalue iteration stops when documented and never exceeds its limit", "statement": "The outer iteration performs at most max_iter steps, at least min_iter steps, and stops at the first step at or after min_iter at which both convergence criteria hold.", "quantifier": "all limits and convergence histories", "why_tests_cant": "All convergence histories.", "anchors": ["src/solvers/eigen_solver.cpp: EigenSolver::solve"]}
{"id": "C49", "title": "Requested iterations are dumped", "statement": "For every list of requested dump iterations, a dump is written after exactly those iterations that were requested and performed.", "quantifier": "all request lists", "why_tests_cant": "Lists with duplicates or unreachable entries block later ones.", "anchors": ["src/solvers/eigen_solver.cpp: EigenSolver::solve, EigenSolver::EigenSolver"]}
{"id": "C50", "title": "A fixed-source solve needs a positive iteration limit", "statement": "Construction rejects a missing or non-positive iteration limit; an accepted solver stops after at most the requested number of iterations.", "quantifier": "all attribute values", "why_tests_cant": "Conversion of a negative integer to an unsigned type.", "anchors": ["src/solvers/fixed_source_solver.cpp: FixedSourceSolver::FixedSourceSolver, solve"]}
{"id": "C51", "title": "Power iteration: the eigenvalue is the ratio of fission productions and ignores flux scaling", "statement": "After n outer iterations k equals the initial k times the product of successive fission-production ratios, and multiplying the initial flux by any positive constant does not change any k.", "quantifier": "all iteration counts and flux histories", "why_tests_cant": "All histories.", "anchors": ["src/solvers/eigen_solver.cpp: EigenSolver::step", "src/core/transport_sweeper.cpp: total_fission, calc_fission_source"]}
{"id": "C52", "title": "Normalising makes positive entries average to one", "statement": "After Normalize, the entries sum to the number of positive entries, relative sizes are unchanged, and a second normalisation changes nothing.", "quantifier": "all ranges of values", "why_tests_cant": "All lengths and data.", "anchors": ["src/util/utils.hpp: Normalize"]}
{"id": "C53", "title": "Rational approximation returns a fraction with bounded denominator and terminates", "statement": "For every target in [0,1], tolerance and positive bound, the search terminates, returns a fraction in lowest terms within [0,1] with denominator at most the bound, either within tolerance or at least as close as every fraction of the bounded denominator.", "quantifier": "all targets, tolerances and bounds", "why_tests_cant": "All real targets and bounds.", "anchors": ["src/util/rational_approximation.hpp: rational_approximation"]}
{"id": "C54", "title": "Brace-expanded plane lists assign every value as written", "statement": "explode_braces keeps every number of the input: brace groups become lists with the same numbers in order, naked numbers are handled as documented, and it terminates on every input.", "quantifier": "all strings", "why_tests_cant": "All strings, including malformed ones.", "anchors": ["src/util/string_utils.cpp: explode_braces"]}
{"id": "C55", "title": "Printed ranges decode to the original flags", "statement": "print_range of a vector of flags describes exactly the set of true positions.", "quantifier": "all flag vectors", "why_tests_cant": "All vectors, including runs at the ends.", "anchors": ["src/util/string_utils.cpp: print_range"]}
{"id": "C56", "title": "Reading a scrubbed file yields exactly the non-empty uncommented lines", "statement": "Successive reads return the trimmed, comment-free, non-empty lines in order and then empty strings.", "quantifier": "all file contents", "why_tests_cant": "All texts.", "anchors": ["src/util/file_scrubber.cpp: FileScrubber::getline", "src/util/string_utils.hpp: trim"]}
{"id": "C57", "title": "Lattice layout indexing maps every pin position to the pin the user drew there", "statement": "For every lattice, at(x,y) is the pin drawn x from the left and y from the bottom; flat region offsets of pins are prefix sums of region counts; locating a point returns the pin whose cell contains it.", "quantifier": "all lattice sizes, all pin sizes, all points in the lattice", "why_tests_cant": "All sizes and points on pin edges.", "anchors": ["src/core/lattice.cpp: Lattice::Lattice, Lattice::get_pinmesh"]}
{"id": "C58", "title": "Plane pin index and core position are mutually inverse", "statement": "For every arrangement of lattices, pin_position of successive pin indices enumerates every (x,y) of the plane exactly once and agrees with the lattice containing it.", "quantifier": "all plane layouts", "why_tests_cant": "All lattice sizes.", "anchors": ["src/core/plane.cpp: Plane::pin_position"]}
{"id": "C59", "title": "Pin mesh areas add up to the pin cell", "statement": "For every accepted pin mesh (rectangular or cylindrical) region areas are positive and sum to the pin pitch squared; cylindrical sub-rings have equal area.", "quantifier": "all radii, divisions, pitches", "why_tests_cant": "All real radii and counts.", "anchors": ["src/core/pin_mesh_cyl.cpp: PinMesh_Cyl::PinMesh_Cyl", "src/core/pin_mesh_rect.cpp: PinMesh_Rect::PinMesh_Rect"]}
{"id": "C60", "title": "Unknown materials in a pin are rejected", "statement": "A pin whose material list contains an identifier not in the library is rejected at construction, and a pin is fissile exactly when one of its materials is.", "quantifier": "all material lists", "why_tests_cant": "Only some orders of fissile and unknown materials escape the check.", "anchors": ["src/core/pin.cpp: Pin::Pin"]}
{"id": "C61", "title": "Macroplanes partition the axial planes and contain identical geometry", "statement": "For every core, macroplanes are contiguous, cover all planes exactly once in order, each groups planes of the same geometry within an assembly sub-plane specification, heights add up to the core height, and looking up the macroplane of a plane returns the one containing it.", "quantifier": "all plane sequences and groupings", "why_tests_cant": "All sequences.", "anchors": ["src/core/core_mesh.cpp: CoreMesh::CoreMesh", "src/sweepers/moc/moc_sweeper.hpp: moc_plane_index"]}
{"id": "C62", "title": "Planes with the same geometry share one unique plane", "statement": "The unique-plane table maps every axial plane to a unique plane with the same lattices, the number of unique planes is minimal, and first-region offsets are the running sums of region counts.", "quantifier": "all cores", "why_tests_cant": "All cores.", "anchors": ["src/core/core_mesh.cpp: CoreMesh::CoreMesh"]}
{"id": "C63", "title": "The exponential table never reads outside its storage and has bounded error", "statement": "For every argument inside the tabulated range the interpolation reads entries inside the table and lies between the neighbouring tabulated values.", "quantifier": "all arguments", "why_tests_cant": "The failing argument is a single endpoint value.", "anchors": ["src/core/exponential.hpp: Exponential::exp"]}
{"id": "C64", "title": "Transverse leakage is the axial current difference and telescopes", "statement": "With no relaxation, macroplane height times leakage equals bottom minus top current for each pin, so summed over a column it equals current at the bottom of the core minus that at the top.", "quantifier": "all macroplane structures, currents", "why_tests_cant": "All axial structures.", "anchors": ["src/sweepers/cmdo/plane_sweeper_2d3d.cpp: PlaneSweeper_2D3D::add_tl"]}
{"id": "C65", "title": "Correction factors written to file can be read back", "statement": "Correction data written by output and read by from_data restores the same factors for every macroplane; plane ranges left at their default are accepted and every plane must be covered.", "quantifier": "all macroplane counts and plane-range specifications", "why_tests_cant": "Needs several macroplanes.", "anchors": ["src/sweepers/cmdo/correction_data.cpp: from_data, read_data_single, read_data_multi, output"]}
{"id": "C66", "title": "Zeroing radial coarse data clears exactly the in-plane surfaces of one group", "statement": "zero_data_radial(g) sets current, surface flux and partial currents of group g to zero on every x- or y-normal surface and leaves every other entry unchanged.", "quantifier": "all mesh sizes, groups", "why_tests_cant": "Frame condition over all sizes.", "anchors": ["src/core/coarse_data.cpp: CoarseData::zero_data_radial"]}
{"id": "C67", "title": "The Monte Carlo solver's own random stream is independent of the history streams", "statement": "The stream used by the eigenvalue solver to sample the starting source and resize the fission bank does not coincide with the stream given to any particle history.", "quantifier": "all seeds, all stream positions", "why_tests_cant": "Overlap of two pseudo-random streams is invisible in any finite tally comparison.", "anchors": ["src/solvers/monte_carlo_eigenvalue_solver.cpp: MonteCarloEigenvalueSolver constructor", "src/sweepers/mc/particle_pusher.cpp: ParticlePusher::simulate"]}
{"id": "C68", "title": "Segment intersection finds the crossing point exactly when there is one", "statement": "For two segments that are not parallel, the intersection routine reports a point exactly when that point lies on both segments; parallel segments report nothing.", "quantifier": "all pairs of segments (real coordinates)", "why_tests_cant": "Tests check a handful of segments; missed or spurious crossings depend on arbitrary real coordinates.", "anchors": ["src/core/geometry/geom.hpp: Intersect(Line, Line, Point2&)"]}
{"id": "C69", "title": "Ray/circle intersection returns exactly the points on both", "statement": "For a segment that starts and ends outside a circle, the routine reports either nothing, when the segment does not meet the circle, or exactly the two points (in order along the segment) where it does.", "quantifier": "all segments and circles (real coordinates)", "why_tests_cant": "Tests check a handful of chords.", "anchors": ["src/core/geometry/geom.hpp: Intersect(Line, Circle, Point2&, Point2&)"]}
{"id": "C71", "title": "Product quadrature weights integrate the unit sphere", "statement": "For any azimuthal and polar rules the product quadrature's weights sum to 1 per octant and 8 overall; after modularisation the recomputed azimuthal weights belong to the modified angles in order, are positive, and again sum to 1 per octant.", "quantifier": "all azimuthal and polar lists; all increasing sets of modified azimuthal angles in the first quadrant", "why_tests_cant": "Tests look at one or two quadratures; the sum must survive any modularisation of the angles.", "anchors": ["src/core/product_quadrature.hpp: GenProduct", "src/core/angular_quadrature.cpp: AngularQuadrature::update_chebyshev_weights"]}
{"id": "C72", "title": "The stored azimuthal and polar angles of a direction agree with its cosines", "statement": "Constructing a direction from any unit vector not along z stores angles whose sines and cosines reproduce the three cosines, with azimuth in [0, 2 pi); constructing from angles gives a unit vector; reflecting off a face negates exactly the normal component and is an involution.", "quantifier": "all unit vectors, all angles, all faces", "why_tests_cant": "A test checks one direction per quadrant at most.", "anchors": ["src/core/geometry/direction.hpp: Direction, reflect"]}
{"id": "C73", "title": "Uniform initialisation respects the boundary condition of every face", "statement": "After initialising a boundary condition with a scalar, every stored value equals zero on vacuum faces, the prescribed constant on prescribed faces and the scalar on reflective, periodic or parallel faces, where the face of a slot is the one through which its angle enters the domain.", "quantifier": "all layouts, quadratures, group counts, boundary types and scalars", "why_tests_cant": "Every stored value of an unbounded layout has to be related to the angle and axis that owns it.", "anchors": ["src/core/boundary_condition.cpp: BoundaryCondition::initialize_scalar"]}
{"id": "C74", "title": "Comparing scattering matrices compares the matrices", "statement": "Two scattering matrices built from dense matrices with the same number of groups compare equal exactly when the dense matrices are equal.", "quantifier": "all group counts and pairs of non-negative dense matrices", "why_tests_cant": "Collisions between different sparsity patterns with equal packed values are not found by comparing a few samples.", "anchors": ["src/core/scattering_matrix.hpp: ScatteringMatrix::operator=="]}
{"id": "C75", "title": "Library names identify materials", "statement": "A material name of the cross-section library denotes exactly the material stored under it; a library that uses the same name twice is rejected.", "quantifier": "all library contents", "why_tests_cant": "Ranges over all libraries; the error path for duplicates is never exercised by tests because it is unreachable.", "anchors": ["src/core/material_lib.cpp: MaterialLib::MaterialLib, assignID"]}
{"id": "C77", "title": "Assemblies stack their lattices bottom-up as drawn top-down", "statement": "An accepted assembly holds, from the bottom, the lattices the input lists from the top; braces in the list become consecutive macroplane sizes adding up to the number of planes; plane heights are given bottom-up and are positive; all its lattices share one pin grid; a list with unknown lattices, a wrong count or incompatible lattices is rejected.", "quantifier": "all lattice libraries, plane counts, height specifications and brace groupings", "why_tests_cant": "Ranges over all stackings and groupings; the rejected inputs form an unbounded family.", "anchors": ["src/core/assembly.cpp: Assembly::Assembly, ParseAssemblies", "src/core/assembly.hpp: Assembly"]}
{"id": "C78", "title": "The core map places assemblies as drawn", "statement": "An accepted core holds at column x, row y counted from the bottom the assembly drawn there in the input; pin counts are sums over the bottom row and left column; all assemblies have the same axial structure; any other input is rejected, and exactly one enabled core may be present.", "quantifier": "all core maps, boundary conditions and assembly libraries", "why_tests_cant": "Ranges over all maps and dimensions, including ones whose product happens to match.", "anchors": ["src/core/core.cpp: Core::Core, ParseCore", "src/core/core.hpp: Core"]}
{"id": "C81", "title": "Modularised ray spacing respects the request and the angle stays close", "statement": "For every requested spacing and azimuthal angle, adjusting the angle so that rays tile the domain yields at least one ray on each side, a spacing between rays no larger than requested, and an angle close to the original; repeating pin rays across the core changes neither.", "quantifier": "all angles, domain sizes, spacings and both modularisation methods", "why_tests_cant": "Real-valued inputs; the failing cases need non-square domains or shallow angles.", "anchors": ["src/sweepers/moc/ray_data.cpp: RayData::modularize_angle, RayData::RayData"]}
{"id": "C83", "title": "Currents from a MoC sweep are consistent with each plane's own height", "statement": "After a MoC sweep with sub-planes, the in-plane current of every fine plane divided by that plane's face area is the current density of its macroplane, whatever the plane heights.", "quantifier": "all macroplane groupings, plane heights and currents", "why_tests_cant": "A mesh with non-uniform plane heights and grouped planes is needed; test inputs use uniform heights.", "anchors": ["src/sweepers/moc/moc_current_worker.hpp: Current::set_angle, Current::post_sweep", "src/sweepers/moc/moc_kernel.hpp"]}
{"id": "C84", "title": "Coarse currents balance what the sweep deposits in each coarse cell", "statement": "For every ray and every coarse cell, the currents tallied by a MoC sweep change the cell's net outflow by exactly the ray's weight times the change of the angular flux between the ray's entry into and exit from that cell, in both directions of flight; the change equals minus what the ray deposited in the regions of the cell.", "quantifier": "all rays, paths through the coarse mesh (corner crossings included), fluxes and cells", "why_tests_cant": "Equality for every cell and path over real data; a unit test fixes one ray.", "anchors": ["src/sweepers/moc/moc_current_worker.hpp: Current::post_ray, set_angle", "src/core/mesh.hpp: coarse_surf, coarse_neighbor"]}
{"id": "C82", "title": "The incoming flux of every boundary ray is updated from the surface it enters through", "statement": "When incoming angular fluxes are updated from CMFD partial currents, the boundary value of each ray is updated exactly once, using the partial currents of the coarse surface through which that ray enters its plane, and stays non-negative for non-negative partial currents.", "quantifier": "all ray sets, partial currents and planes", "why_tests_cant": "Depends on the numbering of cells and surfaces agreeing for every ray and plane.", "anchors": ["src/sweepers/moc/moc_sweeper.hpp: update_incoming_generic", "src/sweepers/moc/moc_sweeper.cpp: update_incoming_flux"]}
{"id": "C85", "title": "Homogenised cross sections survive output and read-back", "statement": "Writing homogenised cross sections to a file and reading them into a mesh with the same layout gives every region its own values, each stored at the position of its pin; several plane-wise files give each covered macroplane the values of its file, no macroplane is accepted twice, and one that is not covered is reported; a region with fission cross sections is marked fissile.", "quantifier": "all core layouts, macroplane stacks, data specifications", "why_tests_cant": "Needs every pin ordering and every combination of plane ranges.", "anchors": ["src/core/xs_mesh_homogenized.cpp: output, read_data_single, read_data_multi, XSMeshHomogenized::XSMeshHomogenized", "src/core/xs_mesh_region.hpp: XSMeshRegion::update"]}
{"id": "C86", "title": "Homogenised regions partition the pin cells", "statement": "Every pin cell of the core belongs to exactly one homogenised region: that of its pin in the macroplane containing its plane.", "quantifier": "all plane sizes, pin orders and macroplane stacks", "why_tests_cant": "Arbitrary sizes and plane groupings.", "anchors": ["src/core/xs_mesh_homogenized.cpp: XSMeshHomogenized::XSMeshHomogenized"]}
{"id": "C87", "title": "Reaction and fission spectrum tables are distributions", "statement": "The reaction table used to sample collisions increases from zero to one and gives each reaction a share equal to its cross section over the transport cross section; the fission spectrum table increases to one.", "quantifier": "all cross sections and groups", "why_tests_cant": "All real-valued cross sections.", "anchors": ["src/core/xs_mesh_region.hpp: reaction_cdf, chi_cdf"]}
{"id": "C88", "title": "Pin powers are the region powers summed per pin and normalised, and the residual sees every change", "statement": "Pin powers are, for every plane and pin, the sum of flux times fission cross section times volume over exactly the regions of that pin, all scaled by one factor, placed at the pin's position; they average to one over the fuel pins of the problem. The flux residual is zero exactly when the flux equals the stored old flux.", "quantifier": "all cores, materials, fluxes and volumes", "why_tests_cant": "Regions must be attributed to pins for every geometry; a normalisation error shows only with several planes.", "anchors": ["src/core/transport_sweeper.cpp: TransportSweeper::pin_powers, flux_residual", "src/core/core_mesh.hpp: n_fuel_2d"]}
{"id": "C89", "title": "The Sn coarse currents balance every cell", "statement": "After a one-group Sn sweep with current collection, the net current out of every cell through its faces, times the face areas, plus the total collisions in the cell equals the angular sources of the cell summed with the quadrature weights times the cell volume, in two and three dimensions.", "quantifier": "all meshes, quadratures without directions parallel to a face, boundary conditions, numbers of threads, orders in which threads take the angles, Gauss-Seidel or Jacobi boundary updates, and cell equations that balance", "why_tests_cant": "Needs the sum over all angles and all loop orders; a test would compare a few numbers on one mesh", "anchors": ["src/sweepers/sn/sn_sweeper_variant.hpp: SnSweeperVariant::sweep_1g, sweep_1g_2d", "src/sweepers/sn/sn_current_worker.hpp: Current::upwind_work, current_work"]}
{"id": "C90", "title": "An Sn sweep with Jacobi boundaries does not depend on the threads", "statement": "With Jacobi boundary updates the flux, currents and surface fluxes left by a one-group Sn sweep do not depend on the number of threads or on the order in which the threads take the angles.", "quantifier": "all meshes, quadratures, boundary data, numbers of threads and schedules of the angles", "why_tests_cant": "Schedules of a parallel loop cannot be enumerated by running it", "anchors": ["src/sweepers/sn/sn_sweeper_variant.hpp: SnSweeperVariant::sweep_1g"]}
{"id": "C91", "title": "The Sn sweep keeps a uniform field uniform", "statement": "If the incoming angular flux of an angle is the same everywhere and the cell equation maps that value to itself, every cell and every outgoing face of the sweep has that value.", "quantifier": "all meshes, directions, cell equations and values", "why_tests_cant": "Universally quantified over meshes and schemes", "anchors": ["src/sweepers/sn/sn_sweeper_variant.hpp: SnSweeperVariant::sweep_1g"]}
{"id": "C92", "title": "The CMFD surface flux and partial currents are those of the diffusion current", "statement": "Without transport data the surface flux that CMFD stores is the one at which the half-cell diffusion currents on both sides equal the stored current; at a vacuum boundary on any side of the core no partial current enters, and at a reflecting boundary the current is zero.", "quantifier": "all meshes, cross sections, thicknesses, fluxes and sides", "why_tests_cant": "The six sides and all real data; only a lower-index vacuum side shows the defect.", "anchors": ["src/core/cmfd.cpp: CMFD::setup_solve, CMFD::store_currents"]}
{"id": "C70", "title": "The polar angle of a point", "statement": "For every point other than the origin the angle reported lies in [0, 2 pi), and the point is its distance from the origin times the cosine and sine of that angle.", "quantifier": "all points", "why_tests_cant": "The angle is computed by cases on the signs of the coordinates; the claim is over all real points, including the axes.", "anchors": ["src/core/geometry/points.hpp: Point2::alpha"]}
{"id": "C93", "title": "Ray segments inside a pin", "statement": "For every chord of a pin cell, tracing it gives segments whose lengths are positive and add up to the chord's length, and every point strictly inside a segment lies in the region the segment is given.", "quantifier": "all pin meshes of both kinds and all chords that enter and leave the cell", "why_tests_cant": "Depends on where every ring, division and sector line crosses the chord; a test looks at a few chords only.", "anchors": ["src/core/pin_mesh_rect.cpp: PinMesh_Rect::trace", "src/core/pin_mesh_cyl.cpp: PinMesh_Cyl::trace", "src/core/geometry/geom.hpp: Intersect"]}
{"id": "C94", "title": "The region found contains the point", "statement": "For every point of the pin cell the region index returned is the region that holds the point, and for points outside the cell the answer says so.", "quantifier": "all pin meshes and points, including those on edges and axes", "why_tests_cant": "Points on a division, an axis or an edge take different branches from the generic ones.", "anchors": ["src/core/pin_mesh_rect.cpp: PinMesh_Rect::find_reg", "src/core/pin_mesh_cyl.cpp: PinMesh_Cyl::find_reg"]}
{"id": "C96", "title": "Where a ray leaves a box", "statement": "Following a direction from a point of a box gives the point of the boundary the ray reaches, so the lines that bound the sectors of a pin run from the centre to the edge in each sector's direction.", "quantifier": "all boxes, points and angles, all sector counts", "why_tests_cant": "The tangent, the quadrant and the corner cases all matter and involve real trigonometry.", "anchors": ["src/core/geometry/box.hpp: Box::intersect", "src/core/pin_mesh_cyl.cpp: PinMesh_Cyl::PinMesh_Cyl"]}
{"id": "C97", "title": "Sector areas outside the rings", "statement": "The area given to a sector of a cylindrical pin outside its rings is the area of that part of the square cell.", "quantifier": "all accepted pins, sectors and pitches", "why_tests_cant": "A sum over sectors is right even when the split is wrong, so only a per-sector comparison over all sector counts settles it.", "anchors": ["src/core/pin_mesh_cyl.cpp: PinMesh_Cyl::PinMesh_Cyl"]}
{"id": "C98", "title": "Inner iterations of a group sweep", "statement": "Sweeping a group performs exactly the requested number of inner iterations; each forms its source from the flux the one before left, starts from the boundary flux it left, and changes only that group's flux.", "quantifier": "all problems, groups, sources, numbers of inner iterations", "why_tests_cant": "A claim about every iteration count and all data.", "anchors": ["src/sweepers/moc/moc_sweeper.cpp: MoCSweeper::sweep", "src/core/source_isotropic.cpp: SourceIsotropic::self_scatter"]}
{"id": "C99", "title": "What the convergence record says", "statement": "Every iteration of the eigenvalue solver records the eigenvalue, its change, and the root mean square difference of the normalised fission sources over the fissile regions; a run that ends before its limit has both errors below tolerance.", "quantifier": "all sweepers, cross sections, tolerances and runs of any length", "why_tests_cant": "Covers runs of any length with any sweeper.", "anchors": ["src/solvers/eigen_solver.cpp: EigenSolver::solve", "src/solvers/eigen_solver.cpp: EigenSolver::step"]}
{"id": "C76", "title": "Comparing floating-point numbers", "statement": "Two numbers compare equal exactly when they are within the documented distance of each other: an absolute tolerance, or a fixed number of representable steps; numbers of opposite sign are never equal beyond the absolute tolerance, and the answer does not depend on argument order.", "quantifier": "all finite double bit patterns", "why_tests_cant": "There are 2^128 pairs of bit patterns; the failures sit near sign changes and negative zero.", "anchors": ["src/util/fp_utils.hpp: fp_equiv_ulp", "src/util/fp_utils.hpp: fp_equiv"]}
{"id": "C95", "title": "Distance along a flight to the next surface", "statement": "In a rectangular or cylindrical pin the distance given is the least positive path at which the flight meets one of the pin's internal surfaces or its boundary; the surface met is the one named, and up to there the region does not change.", "quantifier": "every pin mesh, point, direction and surface the particle is known to be on", "why_tests_cant": "the set of points and directions is continuous", "anchors": ["src/core/geometry/line.cpp Line::distance_to_surface", "src/core/geometry/circle.cpp Circle::distance_to_surface", "src/core/pin_mesh_rect.cpp PinMesh_Rect::distance_to_surface", "src/core/pin_mesh_cyl.cpp PinMesh_Cyl::distance_to_surface"]}
{"id": "C100", "title": "Isotropic directions", "statement": "Two random numbers give a direction of unit length whose cosine to the axis is uniform in one and whose azimuth is uniform in the other; every direction comes from exactly one pair.", "quantifier": "every pair of random numbers", "why_tests_cant": "a statement about all pairs; a test samples some", "anchors": ["src/core/geometry/direction.hpp Direction::Isotropic"]}
{"id": "C101", "title": "What a collision does", "statement": "A particle scatters, fissions or is captured in the proportions of the cross sections. Scattering keeps place, weight and identity and draws the new group from the scattering out of the old one; fission ends the particle and leaves on average weight times yield sites of unit weight at its place with groups drawn from the spectrum; capture ends it. The collision estimates score the weight over the total cross section.", "quantifier": "every material, particle and sequence of random numbers", "why_tests_cant": "random outcomes; the proportions hold over all random numbers", "anchors": ["src/sweepers/mc/particle_pusher.cpp ParticlePusher::collide", "src/util/rng_lcg.hpp sample_cdf"]}
{"id": "C102", "title": "Distance to the side of a pin", "statement": "The distance to the boundary of the pin's box is that at which the flight first touches one of the six faces.", "quantifier": "every box, point of it and direction", "why_tests_cant": "continuous set of flights", "anchors": ["src/sweepers/mc/particle_pusher.cpp distance_to_pin"]}
{"id": "C103", "title": "Moving a particle", "statement": "Moving a particle by a distance takes it to the point of its flight at that distance, in pin and core coordinates alike, and changes nothing else; having reached a reflecting face and turned back it is inside again.", "quantifier": "every particle and distance", "why_tests_cant": "rounding and nudges make single examples inconclusive", "anchors": ["src/sweepers/mc/particle.hpp Particle::move", "src/sweepers/mc/particle_pusher.cpp ParticlePusher::simulate"]}
{"id": "C104", "title": "The region ahead of a particle", "statement": "A particle on a surface is given the region it is about to enter, and one inside a region that region; one leaving the pin is given none.", "quantifier": "every pin mesh, point and direction", "why_tests_cant": "continuous set of points and directions, with the interesting ones on surfaces", "anchors": ["src/core/pin_mesh_rect.cpp PinMesh_Rect::find_reg", "src/core/pin_mesh_cyl.cpp PinMesh_Cyl::find_reg"]}
{"id": "C105", "title": "Scores of a particle history are consistent", "statement": "In every history, at every step: in each group the coarse-mesh and fine-region flux tallies receive the same total; the track-length estimate of k equals the production the fine fluxes make in the regions' materials and the pin powers the fission they make; the collision estimate of k equals the production of the collision flux. Each step scores the weight times the length flown, in the region the particle is in, the length being the least of the distances to a collision, to a surface of the pin and to the pin's box. The particle's weight and number never change, and it banks fission sites, of unit weight and its own number, only when it ends.", "quantifier": "every mesh, set of materials, starting particle, sequence of random numbers and number of steps", "why_tests_cant": "histories have unbounded length and branch on every random number", "anchors": ["src/sweepers/mc/particle_pusher.cpp ParticlePusher::simulate"]}
{"id": "C106", "title": "Particles at the boundary of the core", "statement": "A particle leaving through a reflecting face has the cosine along that face's normal reversed and no other, and is back inside the core; through a vacuum face it ends where it is; any other condition raises an error; and a particle leaving through an edge or corner is treated at each of the faces it leaves through.", "quantifier": "every core size, position, direction and boundary conditions", "why_tests_cant": "the edges and corners are a null set that random histories rarely meet", "anchors": ["src/core/mesh.hpp Mesh::boundary_surface", "src/sweepers/mc/particle_pusher.cpp ParticlePusher::simulate"]}
{"id": "C107", "title": "Finding the pin a particle is in", "statement": "For every point and direction in an accepted core, the location returned names the pin the particle is in or about to enter: its position in the core, the number of its first region, its mesh, the point relative to its centre, and the box around it.", "quantifier": "every accepted core, point and direction", "why_tests_cant": "points on boundaries, and cores of any shape", "anchors": ["src/core/core_mesh.cpp CoreMesh::get_location_info", "src/core/mesh.hpp Mesh::plane_index"]}
{"id": "C108", "title": "A group sweep of the Sn sweeper: passes, boundary, currents and clean-up", "statement": "Sweeping a group performs the configured number of passes, each with the within-group scattering of the flux before it; only the last one records coarse currents, replacing those of the group alone. Afterwards the group's flux is the last swept flux with negative values replaced by zero, other groups are untouched, every incoming boundary value is what its boundary condition dictates given the outgoing values (Gauss-Seidel or Jacobi), and the recorded currents balance collisions and source in every cell.", "quantifier": "all meshes, groups, numbers of inner iterations, schedules, boundary conditions, cross sections and differencing equations", "why_tests_cant": "tests run a few fixed geometries; the claim is about every mesh, schedule and iteration count", "anchors": ["src/sweepers/sn/sn_sweeper_variant.hpp:sweep", "src/sweepers/sn/sn_sweeper_variant.hpp:sweep_1g", "src/core/boundary_condition.cpp:update", "src/core/coarse_data.cpp:zero_data"]}
{"id": "C109", "title": "Boundary flux is updated from coarse partial currents", "statement": "When the boundary flux of the Sn sweeper is updated from coarse-mesh data, every boundary value of every group and angle is updated exactly once, from the partial currents of the coarse surface through which that angle enters the domain. With partial currents of the previous iteration the value is scaled by the ratio of total partial currents, otherwise it becomes the isotropic flux carrying the partial current that enters there. Non-negative data stay non-negative.", "quantifier": "all mesh shapes, group counts, angles, partial currents and boundary fluxes", "why_tests_cant": "A test looks at one mesh and direction; whether each element of the packed boundary array is matched with the right surface for every octant needs an argument over all shapes.", "anchors": ["src/sweepers/sn/sn_sweeper.hpp: SnSweeper::update_incoming_generic", "src/sweepers/sn/sn_sweeper.cpp: SnSweeper::update_incoming_flux", "src/core/cmfd.cpp: CMFD::store_currents"]}
{"id": "C110", "title": "Segments of a ray: the pins it crosses, their regions, the whole length", "statement": "A ray drawn between two points of the outline of a plane is cut where it crosses pin boundaries. Each piece is handed to the pin in which it lies; within the pin it is cut into segments whose lengths add up to the piece and each of which lies in the flat-source region it names, counted from the first region of that pin in the plane. All region numbers are within the plane, and the lengths of all segments add up to the distance between the two end points.", "quantifier": "every core and plane of lattices that line up, every arrangement of square rectangular and cylindrical pins of two, four or six sectors, every rising ray between two points of the outline", "why_tests_cant": "the number of crossings and of segments is unbounded and the statement relates every point of a ray to the region reported for it; tests look at a few rays", "anchors": ["src/sweepers/moc/ray.cpp:52-87", "src/core/mesh.cpp:315-341 Mesh::trace", "src/core/core_mesh.cpp:213-227 CoreMesh::get_pinmesh", "src/core/pin_mesh_rect.cpp:105-137", "src/core/pin_mesh_cyl.cpp:177-219"]}
{"id": "C111", "title": "Rays leave their currents in the cells they cross", "statement": "For every ray traced through the core, the coarse-mesh data recorded with it makes the current calculation visit exactly the pin cells the ray passes through, in order, forwards and backwards, each with the ray segments that lie in it: whatever the flux along the ray, the currents tallied add to the net outflow of every cell just what the ray's flux gains inside that cell, and to no other cell.", "quantifier": "all rectangular pin grids, all rays between border points (neither horizontal nor vertical), all segment counts per pin, all angular fluxes and prior currents", "why_tests_cant": "The records depend on where grid lines, grid points and borders are hit, in four octants and two directions; tests can only try a few rays and a wrong neighbour shows up as a small current imbalance", "anchors": ["src/core/mesh.cpp:coarse_norm_point", "src/core/mesh.cpp:coarse_boundary_cell", "src/sweepers/moc/ray.cpp:Ray::Ray", "src/sweepers/moc/moc_current_worker.hpp:post_ray"]}
{"id": "C80", "title": "Region volumes add up to the core volume", "statement": "For an accepted core and every way of treating its planes, the core reports one volume for each region it counts, every volume is the area of its region times the height of the plane (or macroplane) it lies in, in the order in which the regions are numbered, and together the volumes make up the volume of the core.", "quantifier": "all accepted cores, all subplane groupings, all pin meshes whose region areas fill the pin, all treatments of planes", "why_tests_cant": "The volumes come from four different loops over planes, macroplanes and pins; a mis-ordered volume keeps the total and a mis-sized one shows only as a small imbalance in reaction rates", "anchors": ["src/core/core_mesh.hpp:volumes", "src/core/core_mesh.cpp:volumes", "src/core/core_mesh.hpp:n_reg"]}
{"id": "C79", "title": "The region at a point", "statement": "Asked for the region at a point of the core, the core mesh answers with the region that contains the point: the first region of the pin the point is in plus the pin mesh's own region at the point.", "quantifier": "all accepted cores, all points not on a plane interface, all pin meshes", "why_tests_cant": "One would have to try points in every pin; the answer in the pin at the origin is plausible even when others are wrong", "anchors": ["src/core/core_mesh.hpp:region_at_point", "src/core/plane.cpp:get_pinmesh", "src/core/pin_mesh_rect.cpp:find_reg"]}
{"id": "C112", "title": "Pin powers of the Sn sweeper", "statement": "The pin powers the Sn sweeper reports are the fission powers of the cells times one common factor, which makes them add up to the number of cells with positive power; the two-dimensional pin powers are the powers of the columns of cells, likewise normalised.", "quantifier": "all meshes, cross-section regions, fluxes and volumes with a total power that is not zero", "why_tests_cant": "A value placed in a neighbouring pin or counted in the wrong group keeps the normalisation a test would check", "anchors": ["src/sweepers/sn/sn_sweeper.cpp:pin_powers", "src/sweepers/sn/sn_sweeper.cpp:pin_powers_2d"]}
{"id": "C113", "title": "The cell balance an Sn sweep reports", "statement": "After a group sweep with coarse data, the balance reported for each cell is zero exactly to the extent the sweep has converged: it is the change of the within-group scattering source since the last pass began, less the removal of whatever was added in raising negative fluxes to zero.", "quantifier": "all three-dimensional meshes, balanced cell equations, quadratures with full weight, cross sections, sources, fluxes, boundary conditions and schedules", "why_tests_cant": "A sign or an area wrong on one of six sides is only seen as a small residue, which an unconverged sweep has as well", "anchors": ["src/sweepers/sn/sn_sweeper.cpp:check_balance", "src/sweepers/sn/sn_sweeper_variant.hpp:sweep"]}
{"id": "C114", "title": "A 2D3D calculation runs the MoC sweeper in exactly the scheduled outer iterations", "statement": "In a 2D3D calculation with CMFD, over any number of outer iterations the planar MoC sweeper is swept, for every group in order, in exactly those iterations that come after the inactive ones and fall on the requested modulo, and in no other; without CMFD every sweep is refused.", "quantifier": "all options with a non-zero modulo, all numbers of groups and outer iterations, any behaviour of the two sweepers and anything done between sweeps", "why_tests_cant": "Number of iterations and interleaved work are unbounded.", "anchors": ["src/sweepers/cmdo/plane_sweeper_2d3d.cpp: PlaneSweeper_2D3D::sweep, do_MoC"]}
{"id": "C115", "title": "Projecting the Sn solution onto the MoC mesh keeps the two sweepers consistent", "statement": "With sn_project, after a 2D3D sweep of a group the MoC and Sn sweepers report the same pin fluxes, all positive, the MoC flux keeps its shape within each pin, other groups are unaffected, and the recorded residual is the distance of the earlier MoC pin fluxes from the Sn ones; negative Sn pin fluxes are corrected and the calculation goes on.", "quantifier": "all meshes with consistent pins, all sweep results, all groups and earlier states", "why_tests_cant": "Values are continuous and the sweepers' results arbitrary.", "anchors": ["src/sweepers/cmdo/plane_sweeper_2d3d.cpp: PlaneSweeper_2D3D::sweep", "src/sweepers/moc/moc_sweeper.cpp: MoCSweeper::set_pin_flux_1g"]}
{"id": "C116", "title": "Projecting the MoC solution starts the Sn sweep from the MoC pin fluxes", "statement": "With moc_project, after the MoC part of a 2D3D sweep the pin fluxes of the Sn sweeper are those of the MoC sweeper, whose own flux is unchanged, for every arrangement of planes into macroplanes.", "quantifier": "all meshes, groups and fluxes", "why_tests_cant": "Values and meshes are unbounded.", "anchors": ["src/sweepers/cmdo/plane_sweeper_2d3d.cpp: PlaneSweeper_2D3D::sweep", "src/sweepers/sn/sn_sweeper.cpp: SnSweeper::set_pin_flux_1g"]}
{"id": "C117", "title": "A CMFD step leaves both 2D3D sweepers with the CMFD solution", "statement": "After a CMFD step of a 2D3D calculation that ends normally the eigenvalue is the one CMFD found from the exposed pin fluxes, and in every group the MoC and the Sn sweeper both report the absolute values of the CMFD flux as their pin fluxes, none of them zero, the MoC flux keeping its shape within each pin.", "quantifier": "all meshes, numbers of groups, states and CMFD results", "why_tests_cant": "Values are continuous; groups, pins and planes unbounded.", "anchors": ["src/solvers/eigen_solver.cpp: EigenSolver::do_cmfd", "src/sweepers/cmdo/plane_sweeper_2d3d.hpp: PlaneSweeper_2D3D::set_pin_flux_1g", "src/core/transport_sweeper.hpp: TransportSweeper::set_pin_flux"]}
{"id": "C118", "title": "The convergence test sees the fission source of every region", "statement": "The reported error of the fission source is never negative, and it is zero exactly when the source of one iteration is a multiple of the one before in every region, for the single-mesh sweepers and for the 2D3D sweeper, whose fission source holds the Sn and the MoC regions.", "quantifier": "all fission sources with a positive entry, all numbers of regions", "why_tests_cant": "Values are continuous and the number of regions unbounded.", "anchors": ["src/solvers/eigen_solver.cpp: EigenSolver::solve", "src/sweepers/cmdo/plane_sweeper_2d3d.hpp: PlaneSweeper_2D3D::n_reg, n_reg_fission, calc_fission_source"]}
{"id": "C119", "title": "Correction-factor sums of a cell balance", "statement": "For every coarse cell, the attenuation that the 2D3D correction worker sums up along all rays of an angle plus the net outflow of the face fluxes it sums up equals the source the rays met in the cell (in both directions of flight), the length summed up is the rays' length in the cell, and the worker touches no memory outside its buffers.", "quantifier": "all meshes, rays, paths through the coarse mesh, fluxes, sources, cross sections and cells", "why_tests_cant": "Equality for all paths and real data; a unit test fixes one ray.", "anchors": ["src/sweepers/cmdo/correction_worker.hpp: CurrentCorrections::post_ray, set_angle", "src/sweepers/moc/moc_kernel.hpp"]}
{"id": "C120", "title": "Correction factors make the corrected Sn cell reproduce the MoC cell", "statement": "With the correction factors computed from a MoC sweep of an angle, the corrected diamond difference equation of a coarse cell, given the MoC cell's average incoming face fluxes and average source, returns the MoC cell's average flux and average outgoing face fluxes.", "quantifier": "all cells, angles, rays, face fluxes, sources and cross sections", "why_tests_cant": "An identity between two discretisations over all real data.", "anchors": ["src/sweepers/cmdo/correction_worker.hpp: CurrentCorrections::post_angle", "src/sweepers/cmdo/correction_worker.cpp: calculate_corrections", "src/sweepers/cmdo/sn_sweeper_cdd.hpp: SnSweeper_CDD_DD"]}
{"id": "C121", "title": "The correction residual measures every change of a factor", "statement": "After a group, each of the three residuals of the correction factors is the root of the sum of the squared changes of that kind of factor over all angles, both directions and all cells; it is zero exactly when no factor changed; factors outside the angles and planes swept stay as they were.", "quantifier": "all sets of angles and planes, factors and cells", "why_tests_cant": "Sums over unbounded sets of real numbers.", "anchors": ["src/sweepers/cmdo/correction_worker.hpp: CurrentCorrections::residual, post_angle", "src/sweepers/cmdo/correction_worker.cpp: calculate_corrections"]}
{"id": "C122", "title": "Currents and surface fluxes do not depend on the worker", "statement": "A MoC sweep that also computes correction factors leaves the same coarse currents and the same surface fluxes behind as one that only computes currents.", "quantifier": "all meshes, planes, rays and fluxes", "why_tests_cant": "Two implementations must agree on all inputs; a unit test compares one.", "anchors": ["src/sweepers/cmdo/correction_worker.hpp: CurrentCorrections::post_ray", "src/sweepers/moc/moc_current_worker.hpp: Current::post_ray"]}
{"id": "C123", "title": "Surface fluxes of a MoC sweep", "statement": "Every ray adds to each coarse surface the fluxes with which it crosses it, both ways, times the weight for the surface's normal, so surface fluxes of non-negative angular fluxes are non-negative; after the sweep the currents and surface fluxes of every plane are those of its macroplane over the surface's area.", "quantifier": "all meshes, macroplane groupings, rays and fluxes", "why_tests_cant": "Needs several planes per macroplane, and holds over continuous data.", "anchors": ["src/sweepers/moc/moc_current_worker.hpp: Current::post_ray, post_sweep, set_angle"]}
{"id": "C124", "title": "All users of the homogenised cross sections see one consistent set", "statement": "Whatever sequence of updates the sweeper and CMFD make on the homogenised cross sections they share, for each of them removal equals transport less self-scattering in every region and group, the data are those of one homogenisation with the flux at the time of the latest update, and expanding them picks up the latest update.", "quantifier": "all histories of updates by either user, all pins, fluxes and numbers of groups", "why_tests_cant": "Depends on the interleaving of updates by two objects that share part of their data.", "anchors": ["src/core/xs_mesh_homogenized.cpp: XSMeshHomogenized copy constructor with regions, update", "src/core/xs_mesh_region.hpp: XSMeshRegion::update", "src/core/cmfd.cpp: CMFD::CMFD, solve", "src/core/xs_mesh.hpp: ExpandedXS::expand"]}
{"id": "C125", "title": "The cross sections CMFD works with are those of its cells", "statement": "The copy of the homogenised cross-section mesh made for CMFD has each cell of the macroplane mesh exactly once, and cell by cell it has the data the original has for that pin and macroplane.", "quantifier": "all core layouts and numbers of macroplanes", "why_tests_cant": "Layouts and numbers of planes are unbounded.", "anchors": ["src/core/xs_mesh_homogenized.cpp: XSMeshHomogenized copy constructor with regions", "src/core/cmfd.cpp: CMFD::CMFD"]}
{"id": "C126", "title": "Accepted user quadratures can be used by the sweepers", "statement": "A quadrature written down angle by angle in the input is either rejected, or has positive weights that sum to one in the first octant and unit directions strictly inside the first octant and not vertical, so that the reciprocal sine used by the sweeps is finite and positive, and expanding it gives eight different directions per angle, each in the octant of its place.", "quantifier": "all lists of angle tags, with directions given as cosines or as angles, any attributes left out", "why_tests_cant": "The failing inputs are special values (a zero cosine, a zero or negative polar angle), and acceptance is a conjunction of tests over arbitrary numbers.", "anchors": ["src/core/geometry/angle.cpp: Angle::Angle", "src/core/angular_quadrature_user.cpp: GenUserQuadrature", "src/core/angular_quadrature.cpp: AngularQuadrature"]}
{"id": "C127", "title": "Quadratures survive writing to and reading from a file", "statement": "Writing an angular quadrature and reading it back gives the same angles, weights, octants and counts, and it compares equal to the original; a file whose arrays do not fit together is rejected.", "quantifier": "all quadratures and all file contents", "why_tests_cant": "Tests compare one quadrature written by the same program; the property covers every size and every inconsistent file.", "anchors": ["src/core/angular_quadrature.cpp: AngularQuadrature(H5Node), output", "src/core/angular_quadrature.hpp: operator=="]}
{"id": "C128", "title": "Assigning a quadrature copies it or is refused", "statement": "Assigning one quadrature to another is refused when they are incompatible, that is when the number of angles would change, and otherwise makes the target an exact copy.", "quantifier": "all pairs of quadratures of all kinds", "why_tests_cant": "The check goes through counts that only some kinds of quadrature carry; every pair of kinds and sizes has to be considered.", "anchors": ["src/core/angular_quadrature.cpp: operator="]}
{"id": "C129", "title": "The weight update after ray layout keeps every direction in its place", "statement": "After the azimuthal angles of a product quadrature are replaced by nearby ones for ray tracing, updating the weights leaves every direction of every octant in its place, gives each azimuthal angle the fraction of the quarter circle half way to its neighbours times the polar weight, and the weights of an octant are positive and sum to one; when two azimuthal angles have become equal it stops instead.", "quantifier": "all numbers of azimuthal and polar angles, all replacements that keep the angles rising, all weights before the update", "why_tests_cant": "Place by place equality matters because ray data is indexed by angle; it depends on sorting and de-duplicating for all sizes.", "anchors": ["src/core/angular_quadrature.cpp: update_weights, update_chebyshev_weights, modify_angle", "src/sweepers/moc/ray_data.cpp: RayData"]}
{"id": "C130", "title": "Gauss-Legendre polar angles carry their own weights", "statement": "For every number of polar angles and of passes of the root search, each polar angle returned comes with the weight computed at its own point; the correction used is the derivative of the Legendre polynomial up to a constant factor, the points that stay in place are exactly its roots, and at a root the weight is half the Gauss-Legendre weight and positive.", "quantifier": "all numbers of polar angles, all numbers of passes", "why_tests_cant": "The pairing relies on a symmetry of the whole iteration, which holds for every size and pass.", "anchors": ["src/core/product_quadrature.hpp: GenGauss"]}
{"id": "C131", "title": "CMFD leaves a balanced transport solution alone", "statement": "When the coarse fluxes, net currents and eigenvalue handed to CMFD satisfy the neutron balance of every cell and group, a CMFD solve returns the same fluxes, eigenvalue and currents, for any tolerances and iteration limit; conversely fluxes and an eigenvalue that a CMFD iteration does not change satisfy the balance with the currents CMFD stores, and then the eigenvalue is production over losses of the whole mesh.", "quantifier": "all coarse meshes, group counts, homogenised cross sections, positive fluxes, currents, tolerances and iteration limits; any linear solver that returns an exact guess unchanged, or that solves its systems", "why_tests_cant": "A test compares one accelerated run with one unaccelerated run to a tolerance; that acceleration never moves the answer is a statement about every converged solution.", "anchors": ["src/core/cmfd.cpp: CMFD::solve, CMFD::solve_1g, CMFD::fission_source, CMFD::total_fission, CMFD::residual, CMFD::setup_solve, CMFD::store_currents", "src/core/source.cpp: Source::in_scatter, Source::fission"]}
{"id": "C132", "title": "CMFD results do not depend on the normalisation of the flux", "statement": "If all coarse fluxes, currents and surface fluxes are multiplied by one positive number, a CMFD solve makes the same number of iterations, returns the same eigenvalue, and its fluxes are multiplied by that number.", "quantifier": "all coarse meshes, group counts, cross sections, starting fluxes, scale factors, tolerances and iteration limits", "why_tests_cant": "Tests run one normalisation; the claim compares two runs for every factor.", "anchors": ["src/core/cmfd.cpp: CMFD::solve, CMFD::setup_solve, CMFD::residual"]}
{"id": "C133", "title": "CMFD options are checked", "statement": "A CMFD solver is created only with positive tolerances and a non-negative iteration limit; options left out take the documented defaults, options given are used as given, and anything else is refused.", "quantifier": "all combinations of present and absent options and all their values", "why_tests_cant": "Tests try a few values of single options.", "anchors": ["src/core/cmfd.cpp: CMFD::CMFD"]}
{"id": "C134", "title": "A command-line amendment changes exactly the value it names", "statement": "An amendment of the form path/to/name=value is accepted exactly when the path leads through existing elements to either an attribute (and no element) or an element with text (and no attribute) of that name. When it is accepted, that attribute or text has the given value afterwards, every other attribute and text reads as before, exactly one value of the document differs, and no element or attribute is added or removed. Amendments are applied in the order given, so the last one for a path decides.", "quantifier": "all documents, paths, values and lists of amendments", "why_tests_cant": "Documents and paths are unbounded; a test sees one document and not what else might have changed.", "anchors": ["src/input_proc.cpp: apply_amendment", "src/input_proc.cpp: InputProcessor"]}
{"id": "C135", "title": "An amendment that could mean several values is refused", "statement": "If the path of an amendment fits more than one attribute or text of the document, the amendment is refused as ambiguous.", "quantifier": "all documents, paths and values", "why_tests_cant": "Depends on how often names repeat anywhere along the path.", "anchors": ["src/input_proc.cpp: apply_amendment"]}
{"id": "C136", "title": "The command line is accepted exactly when it has the documented form", "statement": "The program runs exactly when its arguments are one input file with any number of -a amendments before and after it, each followed by an argument that does not start with a dash; the amendments are kept in the order given. Otherwise the usage is printed and the program exits. A command line has at most one reading.", "quantifier": "all lists of arguments of any length", "why_tests_cant": "Lists of arguments are unbounded and the states of the scan interact.", "anchors": ["src/input_proc.cpp: InputProcessor"]}
{"id": "C137", "title": "The case name is the input file's name without extension, or the name given", "statement": "Unless the input gives a case name, the case name is the name of the input file with its extension, if it has one, removed. A case name given in the input (as amended) is used instead and must not be empty.", "quantifier": "all file names and input documents", "why_tests_cant": "File names and directories are arbitrary strings.", "anchors": ["src/input_proc.cpp: strip_extension", "src/input_proc.cpp: InputProcessor"]}
{"id": "C138", "title": "What is written to a results file is read back", "statement": "Arrays and vectors written to an HDF5 file under a free name in an existing group are accepted, can then be read back under that path, relative or absolute, with the same dimensions and values; a write adds exactly one data set and leaves every other one as it was.", "quantifier": "All files, nodes, paths, and arrays of any rank, extents and values.", "why_tests_cant": "Tests write a few arrays; the round trip and the frame must hold for every shape and every content of the file.", "anchors": ["src/util/h5file.hpp: H5Node::write, H5Node::read", "src/util/h5file.cpp: H5Node::write, H5Node::create_group, H5Node::dimensions"]}
{"id": "C139", "title": "Sizes are checked when reading into storage of the same rank", "statement": "Reading a data set into an array of the same rank (or a vector) that already has storage succeeds exactly when the dimensions agree, gives the data set's values, and never reads or writes past the array; writes given as many values as their dimensions ask for store those values in those dimensions.", "quantifier": "All files, data sets, arrays with storage and dimensions.", "why_tests_cant": "The sizes that are wrong are not those a test tries.", "anchors": ["src/util/h5file.hpp: H5Node::read, H5Node::write", "src/util/h5file.cpp: H5Node::read, H5Node::write"]}
{"id": "C140", "title": "Reads and writes fail by the program's own exception", "statement": "A read, a write, creating a group or asking for dimensions through a node gives a result or raises the program's own exception; no library exception escapes from them. A file opened to write is empty; one opened to read or append is as it was.", "quantifier": "All files, nodes, paths and buffers.", "why_tests_cant": "Tests cannot make every call fail in every way.", "anchors": ["src/util/h5file.hpp: H5Node", "src/util/h5file.cpp: H5Node"]}
{"id": "C141", "title": "A timer reports the time it was running", "statement": "After any number of starts and stops a timer reports the sum of the intervals it ran, plus the time since the last start if it is running; making a child timer under a new name starts that one at zero and leaves its parent and the other children alone.", "quantifier": "All sequences of starts and stops at any clock readings, built with or without assertions.", "why_tests_cant": "Depends on a clock; tests cannot run every sequence.", "anchors": ["src/util/timers.cpp: Timer::tic, Timer::toc, Timer::time", "src/util/timers.hpp: Timer::new_timer"]}
{"id": "C142", "title": "Starting and stopping a timer do what their descriptions say", "statement": "Stopping a timer returns the time since it was started, and a timer asked for with the start flag is running.", "quantifier": "All timers and names.", "why_tests_cant": "Found only when a timer is run twice or a name is used twice.", "anchors": ["src/util/timers.hpp: Timer::toc, Timer::new_timer", "src/util/timers.cpp: Timer::toc"]}
{"id": "C143", "title": "Each warning is shown once and counted", "statement": "After any sequence of warnings each distinct message has been displayed exactly once, in order of first occurrence, and its count is the number of times it was raised. Checking an element's attributes succeeds exactly when all are recognised and warns about exactly those that are not.", "quantifier": "All sequences of messages, all elements and lists of recognised names.", "why_tests_cant": "Any sequence of messages, of any length.", "anchors": ["src/util/error.cpp: Warn", "src/util/validate_input.cpp: validate_input"]}
{"id": "C144", "title": "The input options choose the solver and sweeper they name", "statement": "Each documented solver type, sweeper type, Sn equation and axial treatment selects its own solver or sweeper, and every other text is refused; the choice always comes to an end although the two Sn factories call each other. A thread count is accepted exactly when it is at least one, with a warning exactly when there are fewer processors.", "quantifier": "All texts or absence of each option.", "why_tests_cant": "Infinitely many texts; termination of mutually recursive factories is not a test's business.", "anchors": ["src/solvers/solver_factory.cpp: SolverFactory", "src/sweepers/transport_sweeper_factory.cpp: TransportSweeperFactory", "src/sweepers/sn_sweeper_factory.cpp: SnSweeperFactory", "src/sweepers/cmdo/sn_sweeper_factory_cdd.cpp: SnSweeperFactory_CDD", "src/core/parallel_environment.cpp: ParallelEnvironment"]}
{"id": "C145", "title": "Sn options mean the same alone and within 2D3D", "statement": "The options of an Sn sweeper choose the same sweeper, or are refused alike, whether it is used by itself or within the 2D3D method.", "quantifier": "All texts or absence of the options.", "why_tests_cant": "Needs the two factories compared on every text.", "anchors": ["src/sweepers/sn_sweeper_factory.cpp: SnSweeperFactory", "src/sweepers/cmdo/sn_sweeper_factory_cdd.cpp: SnSweeperFactory_CDD"]}
{"id": "C146", "title": "Sizes that do not fit are always refused", "statement": "Reading a data set whose dimensions differ from those of the array, or writing a number of values that differs from the dimensions given, is refused, and never goes past the end of memory.", "quantifier": "All files, data sets, arrays of any rank, and dimensions.", "why_tests_cant": "Reading past the end is often invisible to a test.", "anchors": ["src/util/h5file.hpp: H5Node::read, H5Node::write", "src/util/h5file.cpp: H5Node::read, H5Node::write"]}
{"id": "C147", "title": "Missing files and groups are reported by the program's own exception", "statement": "Opening a file that does not exist and entering a group that does not exist raise the program's own exception with its message.", "quantifier": "All files and paths.", "why_tests_cant": "Tests do not open missing files.", "anchors": ["src/util/h5file.cpp: H5Node::H5Node, H5Node::operator[]", "src/util/h5file.hpp: H5Node::operator[]"]}
{"id": "C148", "title": "An eigenvalue calculation keeps the multiplication factor and the flux physical and never stops with an exception", "statement": "For non-negative cross sections and scattering, positive volumes, an initial flux that is non-negative and makes some fission, and any sweeper that leaves other groups alone and returns a non-negative flux: an eigenvalue calculation with any iteration limit either ends with a positive k, a non-negative flux with positive fission production, and k equal to the ratio of final to initial production, or divides zero by zero, and then only because at some iteration the sweeps of all groups extinguished the fission production altogether. It never throws. The Sn sweeper, for every mesh, quadrature, differencing scheme, boundary conditions, thread schedule and number of inner iterations, is such a sweeper.", "quantifier": "All sweepers meeting the contract, numbers of groups and regions, cross sections, volumes, iteration limits, dump lists and initial fluxes; all Sn problems.", "why_tests_cant": "Whole calculations of unbounded length over all cross sections; a test runs one problem to convergence and sees one k.", "anchors": ["src/solvers/eigen_solver.cpp: EigenSolver::solve, EigenSolver::step", "src/solvers/fixed_source_solver.cpp: FixedSourceSolver::step", "src/sweepers/sn/sn_sweeper_variant.hpp: SnSweeperVariant::sweep", "src/core/source.cpp: Source"]}
{"id": "C149", "title": "At a converged Sn solution k is production over absorption plus leakage", "statement": "In every eigenvalue iteration with the three-dimensional Sn sweeper and a cell equation that conserves neutrons, and in every group, the net flow recorded in the coarse currents on the six sides of the core plus the collisions of the new flux equals the fission neutrons born from the old flux over k, plus in-scattering (from the new flux of the groups already swept and the old flux of the others), plus scattering within the group. When one inner iteration is made and the iteration leaves a positive flux as it was, k does not change and k times (absorption plus the leakage of all groups) is the production.", "quantifier": "All meshes with any cell sizes, quadratures whose weights integrate to 4 pi, boundary conditions, schedules, numbers of groups and cross sections whose fission spectrum sums to one; all states of the calculation.", "why_tests_cant": "A relation among production, absorption and currents on all faces of all cells at a fixed point; a test compares k with a reference to a tolerance.", "anchors": ["src/solvers/eigen_solver.cpp: EigenSolver::step", "src/sweepers/sn/sn_sweeper_variant.hpp: SnSweeperVariant::sweep, sweep_1g", "src/sweepers/sn/sn_current_worker.hpp: Current", "src/core/source.cpp: Source::fission, Source::in_scatter"]}
{"id": "C150", "title": "Built-in quadratures integrate the squares of the direction cosines evenly", "statement": "The weights of a level-symmetric set are positive and sum to one per octant; for S4 to S10 each of the squared direction cosines integrates to exactly one third, and for S2 the three agree. For Chebyshev products with any polar angles the x and y squares integrate alike and the three together to one. Over all eight octants the net current of an isotropic flux and every mixed second moment vanish.", "quantifier": "all accepted orders, all numbers of azimuthal angles, all polar rules and all sets of first-octant angles", "why_tests_cant": "Moments are sums over every angle of every set; a test compares a few orders to a tolerance that hides a misplaced table entry.", "anchors": ["src/core/level_symmetric.hpp: GenSn", "src/core/product_quadrature.hpp: GenProduct, GenChebyshev", "src/core/angular_quadrature.cpp: AngularQuadrature::AngularQuadrature"]}
{"id": "C151", "title": "Every accepted level-symmetric order treats the three axes alike", "statement": "For every level-symmetric order the code accepts, the squared cosines along x, y and z integrate to the same number.", "quantifier": "all orders accepted by the level-symmetric generator", "why_tests_cant": "The table offset error appears only in the two highest orders that run, and the total weight is still right.", "anchors": ["src/core/level_symmetric.hpp: GenSn, w_map_offset"]}
{"id": "C152", "title": "An angular quadrature tag is accepted exactly when documented and gives the documented number of angles", "statement": "Reading the tag yields a quadrature exactly when the tag is present, its type is one of the known names up to case and blanks, and its numbers suit: an even order from 2 to 14, at least one azimuthal and polar angle, exactly three polar angles for Yamamoto, or acceptable user angles. Out-of-table reads happen for exactly the even orders up to zero and 16; everything else is an exception. The result has eight octants of the expected size, with weights summing to one per octant.", "quantifier": "all quadrature tags with plain-text types", "why_tests_cant": "The accepted set is infinite in the numbers and strings; tests sample a few tags.", "anchors": ["src/core/angular_quadrature.cpp: AngularQuadrature::AngularQuadrature", "src/core/level_symmetric.hpp: GenSn", "src/core/product_quadrature.hpp: GenYamamoto, GenGauss, GenProduct"]}
{"id": "C153", "title": "A MoC sweep stays between the bounds of its source and of what flows in", "statement": "When the characteristic rays sweep no more of a region than it holds, a one-group MoC sweep runs to completion and, in every region, the scalar flux over 4 pi lies between any two numbers that bound the source of every region, the angular flux coming in along every ray and, where a side is vacuum, zero; so nonnegative sources and incoming fluxes give nonnegative fluxes. The angular flux left on the boundary obeys the same bounds and the boundary values of other groups are not changed. The plain volume correction makes every plane meet the condition.", "quantifier": "every quadrature with nonnegative weights, boundary with supported conditions, number of regions, rays, planes and threads, source, bounds and exponential-table outcome, Jacobi or Gauss-Seidel boundary update", "why_tests_cant": "a test sweeps one geometry with one source and compares a few fluxes; the bound is about every geometry, source and incoming flux, and rests on a property of the volumes rather than of any one result", "anchors": ["src/sweepers/moc/moc_sweeper_kernel.inc.hpp:sweep1g", "src/sweepers/moc/ray_data.cpp:RayData::correct_volume", "src/util/exponential.hpp:Exponential::exp"]}
{"id": "C154", "title": "Nonnegative sources and incoming fluxes always give a nonnegative MoC flux", "statement": "Whatever the region volumes and the ray spacing, a one-group MoC sweep with nonnegative sources, cross sections and incoming angular fluxes gives a nonnegative scalar flux in every region.", "quantifier": "every quadrature, geometry, ray spacing, region volume, nonnegative source and incoming flux", "why_tests_cant": "negative fluxes appear only for some combinations of ray lengths and volumes, which sampled geometries need not contain", "anchors": ["src/sweepers/moc/moc_sweeper_kernel.inc.hpp:sweep1g", "src/sweepers/moc/ray_data.cpp:RayData::RayData"]}
{"id": "C155", "title": "Neutron balance of the MoC sweep and of a MoC eigenvalue solution", "statement": "In every one-group MoC sweep the collisions in all regions are the sources plus what comes in along the rays less what leaves along them, whatever the update scheme of the boundary. When an eigenvalue iteration leaves the flux and the incoming boundary values as they are, the fission production is k times the absorption plus what leaks out through the sides that do not reflect. With mirrors all round production is k times absorption; without prescribed fluxes it is at least that.", "quantifier": "every geometry, ray layout, quadrature with symmetric weights, number of groups and planes, supported boundary condition, update scheme and thread count", "why_tests_cant": "a test compares the eigenvalue of one core with a reference; the balance has to hold for every geometry, ray spacing and order of the boundary updates", "anchors": ["src/sweepers/moc/moc_sweeper_kernel.inc.hpp:sweep1g", "src/sweepers/moc/moc_sweeper.cpp:MoCSweeper::sweep", "src/core/boundary_condition.cpp:BoundaryCondition::update", "src/solvers/eigen_solver.cpp:EigenSolver::step"]}
{"id": "C156", "title": "A flat flux in an infinite medium is an exact solution", "statement": "In a core without vacuum sides whose materials all balance the same group spectrum with the same multiplication factor, an eigenvalue calculation that starts from the flat flux of that spectrum, matching boundary values and that factor keeps all of them in every iteration, and records an eigenvalue error and a fission source error of zero.", "quantifier": "every geometry, ray layout or Sn mesh, quadrature, number of regions, materials, groups, inner iterations and outer iterations", "why_tests_cant": "infinite-medium tests check one homogeneous pin cell to a tolerance; the claim is exact and covers all geometries, spacings and materials with a common spectrum", "anchors": ["src/sweepers/moc/moc_sweeper_kernel.inc.hpp:sweep1g", "src/sweepers/sn/sn_sweeper_variant.hpp:sweep", "src/solvers/eigen_solver.cpp:EigenSolver::step", "src/solvers/fixed_source_solver.cpp:FixedSourceSolver::step", "src/core/source_isotropic.cpp:SourceIsotropic::self_scatter"]}
{"id": "C157", "title": "A Monte Carlo calculation records the k estimates of its cycles and their means", "statement": "After a Monte Carlo eigenvalue calculation the history of each estimate of k (track length, collision, analog) holds one value per cycle, inactive ones included: the scores of that cycle over the weight started in it, or the sites banked over the particles started; the entropy history holds that of each source. The mean after the j-th active cycle is the average of the estimates of the first j active cycles only, with the relative standard deviation of that mean from the second on.", "quantifier": "every number of inactive and active cycles, every set of histories in each cycle, every mesh", "why_tests_cant": "tests of a stochastic code compare one seed to a tolerance; that no score of an inactive cycle leaks into the means, and that every score of every cycle is in the history, is a claim on all runs", "anchors": ["src/solvers/monte_carlo_eigenvalue_solver.cpp:MonteCarloEigenvalueSolver::solve", "src/solvers/monte_carlo_eigenvalue_solver.cpp:MonteCarloEigenvalueSolver::step", "src/sweepers/mc/particle_pusher.cpp:ParticlePusher::simulate", "src/sweepers/mc/tally_scalar.hpp:TallyScalar"]}
{"id": "C158", "title": "The Monte Carlo fluxes and powers written are averages over the active cycles", "statement": "The fluxes and standard deviations a Monte Carlo calculation writes, coarse and fine, by track length and by collision, are for each group and cell the average over the active cycles of the score per weight of the cycle over the volume of the cell, and its spread; the pin powers are in the proportions of the averages of the power scores and sum to the number of pins with positive average.", "quantifier": "every number of cycles, groups, cells and histories", "why_tests_cant": "an exact accounting statement on every run; a missing reset or commit is invisible in one test within its statistical tolerance", "anchors": ["src/sweepers/mc/particle_pusher.cpp:ParticlePusher::output", "src/sweepers/mc/tally_spatial.hpp:TallySpatial", "src/sweepers/mc/particle_pusher.cpp:ParticlePusher::commit_tallies", "src/solvers/monte_carlo_eigenvalue_solver.cpp:MonteCarloEigenvalueSolver::solve"]}
{"id": "C159", "title": "The Monte Carlo results agree with each other", "statement": "In the output of a Monte Carlo calculation the coarse flux of a pin times its volume is the sum over its regions of fine flux times volume; the mean track-length estimate of k is the sum over regions and groups of fine flux times volume times production cross section; the mean collision estimate is the same sum with the collision flux; and the power of a pin is that sum with the fission cross section over the regions of the pin.", "quantifier": "every world of regions and cross sections, every set of histories and threads, every number of cycles", "why_tests_cant": "holds exactly for all random histories and schedules; tests can only compare statistically", "anchors": ["src/sweepers/mc/particle_pusher.cpp:ParticlePusher::simulate", "src/sweepers/mc/particle_pusher.cpp:ParticlePusher::collide", "src/sweepers/mc/particle_pusher.cpp:ParticlePusher::output"]}
{"id": "C160", "title": "The first source of a Monte Carlo calculation fills the box asked for", "statement": "A Monte Carlo calculation is set up just when the input gives a source box with all six bounds in increasing pairs, an odd seed and counts of cycles, inactive cycles and particles that are not negative; its first source then has exactly the particles asked for, numbered from 0, of unit weight, inside the box, with directions of unit length and groups that exist; a warning is given just for the counts that are zero.", "quantifier": "every input, number of groups and stream of random numbers", "why_tests_cant": "the sites are random: a test sees one stream", "anchors": ["src/solvers/monte_carlo_eigenvalue_solver.cpp:MonteCarloEigenvalueSolver::MonteCarloEigenvalueSolver", "src/sweepers/mc/fission_bank.cpp:FissionBank::FissionBank"]}
{"id": "C161", "title": "Bad Monte Carlo input is refused with the message for it", "statement": "An input without a solver, with a negative number of particles, or with more inactive cycles than cycles is refused with the message written for it, and a random number never gives a group that does not exist.", "quantifier": "every input and random number", "why_tests_cant": "error paths of a constructor whose checks run after the work they guard; tests do not reach them", "anchors": ["src/solvers/monte_carlo_eigenvalue_solver.cpp:MonteCarloEigenvalueSolver::MonteCarloEigenvalueSolver", "src/sweepers/mc/fission_bank.cpp:FissionBank::FissionBank"]}
{"id": "C162", "title": "Each region of a Monte Carlo mesh is given its cross sections", "statement": "When a Monte Carlo transport is set up each region of the mesh is given the cross-section region that lists it (the last if several do); a region listed nowhere is given none; the setup is defined just when every listed region exists.", "quantifier": "every number of regions and every set of lists", "why_tests_cant": "an index table over all layouts; tests hold one", "anchors": ["src/sweepers/mc/particle_pusher.cpp:ParticlePusher::ParticlePusher"]}
{"id": "C163", "title": "Laying out rays keeps the order of the angles", "statement": "If one azimuthal angle of the quadrature is less than another, the angle the ray layout replaces it with is not more than the other's replacement, for both ways of choosing the numbers of rays. Different angles can be replaced by the same one.", "quantifier": "every two angles in the first quadrant, core size and ray spacing", "why_tests_cant": "a relation between two runs of a rounding search over all angles", "anchors": ["src/sweepers/moc/ray_data.cpp:RayData::modularize_angle", "src/util/rational_approximation.hpp:rational_approximation"]}
{"id": "C164", "title": "The rays of a MoC calculation match its quadrature", "statement": "After the ray data are made, each angle of the updated quadrature is exactly the one whose rays connect the boundary points of the numbers of rays stored for it, the numbers repeat from octant to octant, every angle has rays on both kinds of face, the polar angles are those asked for, and the weights are positive and sum to one.", "quantifier": "every quadrature, core size, spacing, modularity and method for which the layout is defined", "why_tests_cant": "agreement of several arrays filled by different loops, for all quadratures", "anchors": ["src/sweepers/moc/ray_data.cpp:RayData::RayData", "src/core/angular_quadrature.cpp:AngularQuadrature::modify_angle"]}
{"id": "C165", "title": "A MoC sweeper made from its input meets everything a sweep relies on", "statement": "For a valid ray tag, with volume correction, the constructor succeeds, and the boundary conditions, ray ends, segments, volumes, spacings and weights it makes fit together: every ray end has its own boundary slot of the right angle, the rays of opposite directions match, every segment has a positive length in an existing region, and the segments of each region add up to its volume. So a whole eigenvalue calculation with it gives a positive eigenvalue and a nonnegative flux, unless fission dies out.", "quantifier": "every core size, quadrature, ray tag with flat or angle correction, set of unique planes and macroplanes, and schedule of rays on threads", "why_tests_cant": "it joins a dozen modules for all inputs; a test holds one input and cannot see an index that happens to agree", "anchors": ["src/sweepers/moc/moc_sweeper.cpp:MoCSweeper::MoCSweeper", "src/sweepers/moc/ray_data.cpp:RayData::RayData", "src/sweepers/moc/ray_data.cpp:RayData::correct_volume"]}
{"id": "C166", "title": "When the ray layout warns about regions without rays", "statement": "While laying the rays of a plane a warning is given after an angle exactly if some region has been crossed by no ray of that angle or of any angle before it. So an angle may miss a region without a warning, and a warning may be given although later angles cross the region.", "quantifier": "every plane, set of angles and tracing result", "why_tests_cant": "a property of counts carried from angle to angle, over all geometries", "anchors": ["src/sweepers/moc/ray_data.cpp:RayData::RayData"]}
{"id": "C167", "title": "Which ray options are accepted", "statement": "The options of a <rays> tag are accepted, and are those asked for, exactly if there is a tag, it has a positive spacing, and its volume correction, modularity and method are absent or known names, in any case and with blanks around; pin modularity needs all pins to have the same size. Anything else is refused with an exception.", "quantifier": "every ray tag of 7-bit text and every core", "why_tests_cant": "all combinations of optional texts", "anchors": ["src/sweepers/moc/ray_data.cpp:RayData::RayData", "src/core/core_mesh.hpp:CoreMesh::is_pin_modular"]}
{"id": "C168", "title": "Which options of the MoC sweeper are accepted, and what zero inner iterations do", "statement": "The options of a MoC sweeper are accepted exactly if a nonnegative number of inner iterations is given and the boundary update is absent, gs, jacobi or j; the quadrature is that of the nearest enclosing tag with one. Zero inner iterations are accepted: then a sweep changes nothing and every eigenvalue calculation reports convergence, as soon as its least number of iterations allows, to an eigenvalue of one and the initial flux, whatever the core.", "quantifier": "every tag, document, core and initial flux", "why_tests_cant": "the last part holds of all cores; a test of one core with this option would be taken for a bad input", "anchors": ["src/sweepers/moc/moc_sweeper.cpp:MoCSweeper::MoCSweeper", "src/core/transport_sweeper.cpp:find_angquad", "src/solvers/eigen_solver.cpp:EigenSolver::solve"]}
{"id": "C169", "title": "Which macroplanes a MoC sweeper accepts", "statement": "For macroplanes that make up the height of the core a MoC sweeper is made exactly if in every assembly all planes of a macroplane have the same lattice; otherwise there is an exception.", "quantifier": "every core and division into macroplanes", "why_tests_cant": "all divisions of all cores", "anchors": ["src/sweepers/moc/moc_sweeper.cpp:MoCSweeper::MoCSweeper"]}
{"id": "C170", "title": "A MoC sweep is a superposition", "statement": "The scalar flux and outgoing boundary flux of a group sweep with source q1 + c q2 and incoming flux b1 + c b2 are those with q1 and b1 plus c times those with q2 and b2, whatever the boundary conditions, threads and update of the boundary; and more source and more incoming flux nowhere give less flux.", "quantifier": "every geometry, source, incoming boundary flux, factor, thread count and boundary update", "why_tests_cant": "all pairs of sources and boundary fluxes", "anchors": ["src/sweepers/moc/moc_sweeper.hpp:MoCSweeper::sweep1g", "src/core/boundary_condition.cpp:BoundaryCondition::update"]}
{"id": "C171", "title": "Inner iterations never amplify an error", "statement": "If within-group scattering nowhere exceeds the cross section then any number of MoC inner iterations started from two fluxes and boundary fluxes that differ by at most M end with fluxes and boundary fluxes that differ by at most M, for all boundary conditions.", "quantifier": "every problem, source, pair of starting points, bound and number of inner iterations", "why_tests_cant": "all starting points and all numbers of iterations", "anchors": ["src/sweepers/moc/moc_sweeper.cpp:MoCSweeper::sweep", "src/core/source_isotropic.cpp:SourceIsotropic::self_scatter"]}
{"id": "C172", "title": "Inner iterations converge to one answer at the rate of the scattering ratio", "statement": "Without boundaries that send flux back and with a scattering ratio of at most c, every MoC inner iteration shrinks the difference of two runs by c. For c below 1 the flux converges, the error after n iterations is at most c^n times a constant and at most c/(1-c) times the last change, and the limit is the only flux an inner iteration leaves alone.", "quantifier": "every such problem, source, starting point and number of inner iterations", "why_tests_cant": "all starting points and the limit of infinitely many iterations", "anchors": ["src/sweepers/moc/moc_sweeper.cpp:MoCSweeper::sweep", "src/sweepers/moc/moc_sweeper.hpp:MoCSweeper::sweep1g"]}
{"id": "C173", "title": "A coarse-mesh solve never makes negative fluxes while its nonlinear corrections stay within the diffusion coefficients", "statement": "With positive removal in every cell and correction coefficients no larger than the diffusion ones, a nonnegative source has nonnegative CMFD fluxes only, a larger source a larger flux, and the solution of each group's linear system is unique.  A whole CMFD eigenvalue solve from nonnegative fluxes then ends with nonnegative fluxes, needs no clean-up of negative values, and its eigenvalue is positive unless no fission is left.  The corrections stay within that range exactly when the current through a surface is at most twice what diffusion alone lets out of either side; outside of it a positive source can have a negative flux.", "quantifier": "all coarse meshes, cell sizes, cross sections, currents, fluxes and sources; all tolerances and iteration limits", "why_tests_cant": "a statement about every matrix the solver can assemble; a test sees single solutions of single problems, and the sign of a solution is lost only for rare currents", "anchors": ["src/core/cmfd.cpp:CMFD::setup_solve", "src/core/cmfd.cpp:CMFD::solve", "src/core/cmfd.cpp:CMFD::solve_1g", "src/core/cmfd.cpp:CMFD::fission_source"]}
{"id": "C174", "title": "Acceleration does not change the answer", "statement": "With CMFD absent or disabled an eigenvalue calculation is the plain one.  When it is enabled, a MoC flux whose pins are in balance with the currents and eigenvalue of the transport sweeps passes the CMFD step unchanged, region by region and whatever the CMFD tolerances, so the iteration is the unaccelerated one.", "quantifier": "all sweepers and problems (off); all pin geometries, axial planes, groups, fluxes, eigenvalues and CMFD options (on)", "why_tests_cant": "the fixed point of an iteration that mixes two discretisations cannot be observed in a finite run, and a test would accept any small drift", "anchors": ["src/solvers/eigen_solver.cpp:EigenSolver::step", "src/solvers/eigen_solver.cpp:EigenSolver::do_cmfd", "src/core/transport_sweeper.cpp:TransportSweeper::get_pin_flux", "src/sweepers/moc/moc_sweeper.cpp:MoCSweeper::set_pin_flux_1g"]}
{"id": "C175", "title": "What an accelerated calculation calls the error of the eigenvalue", "statement": "The error that an accelerated iteration records for the eigenvalue, and tests for convergence, is its distance from the eigenvalue that CMFD returned in the same iteration, not from the one recorded before: it is that eigenvalue times the relative change of fission production over the sweeps.  If the sweeps keep the production the recorded error is zero, however far CMFD moved the eigenvalue.", "quantifier": "all sweepers, problems, states and CMFD results", "why_tests_cant": "the recorded numbers look like a convergence history; only the definition for all results shows which two eigenvalues are compared", "anchors": ["src/solvers/eigen_solver.cpp:EigenSolver::solve", "src/solvers/eigen_solver.cpp:EigenSolver::step", "src/solvers/eigen_solver.cpp:EigenSolver::do_cmfd"]}
{"id": "C176", "title": "An accelerated MoC eigenvalue calculation stays physical or says which iteration broke it", "statement": "From a nonnegative flux with some fission every accelerated MoC calculation ends with a positive eigenvalue, a nonnegative flux and some fission, unless in some iteration that started that way CMFD threw (some coarse flux was not positive), CMFD was undefined, CMFD returned an eigenvalue that is not positive, or the sweeps left no fission.  A CMFD step keeps which regions have flux in which groups.  Its eigenvalue is positive whenever its corrections stay within the diffusion coefficients and some cell fissions.", "quantifier": "all MoC problems, pin geometries, CMFD solvers, iteration limits and starting fluxes", "why_tests_cant": "the number of iterations is unbounded and the CMFD results are arbitrary", "anchors": ["src/solvers/eigen_solver.cpp:EigenSolver::solve", "src/solvers/eigen_solver.cpp:EigenSolver::do_cmfd", "src/sweepers/moc/moc_sweeper.cpp:MoCSweeper::set_pin_flux_1g", "src/core/cmfd.cpp:CMFD::solve"]}
{"id": "C177", "title": "The status, the messages and the results file of a run agree with what was done", "statement": "main returns 0 exactly when the input was read and processed, the problem solved, and the results, the input and the version written; the file <case>.h5 is then there with the solver's results in it. It returns 1 exactly when one of the program's own exceptions was the first thing to stop it, and standard error then ends with \"Error:\" and the exception's message. No results file is written when a stage before the output does not come to its end. A wrong command line exits with status 1, another kind of exception terminates the process.", "quantifier": "every behaviour of the stages of a run (text, normal end, own exception, foreign exception, exit, undefined behaviour) and every state of the process", "why_tests_cant": "A test starts the program on a few inputs; the claim is about every way in which any of the stages can end.", "anchors": ["src/driver.cpp:run", "src/driver.cpp:generate_output", "src/mocc.cpp:main", "src/input_proc.cpp:InputProcessor"]}
{"id": "C178", "title": "What is shown on the screen and what is kept in the log", "statement": "In a process's first run whose log file can be made, standard output has, in order, everything meant for it, and <case>.log everything that was said from then on, including the message of an error; other files are not touched. If the log cannot be made, of everything meant for both exactly one character is shown and nothing else of it ever, and the status is not affected. In a second run of the same process after a success, the log lacks all text meant for both and the screen shows one character of it. After a run that ended in an error, the second run's text goes into the first run's log and its own log is not made.", "quantifier": "all texts printed by all stages, all case names, all outcomes of the stages, all pairs of runs", "why_tests_cant": "Whether two streams agree depends on the whole history of opens, failures and closes; tests read neither stream.", "anchors": ["src/util/files.cpp:StartLogFile", "src/util/files.cpp:StopLogFile", "src/util/tee_stream.hpp:basic_teebuf", "src/driver.cpp:run"]}
{"id": "C179", "title": "What an interrupt from the keyboard leaves behind", "statement": "In a process's first run an interrupt before the solver has been taken from the input has undefined behaviour (null pointers are dereferenced). From then on it ends the process with status 1 after writing the solver's present results to <case>.h5. In a later run of the same process an interrupt between the reading of the input and the taking of the solver writes the earlier case's results to the new case's file. If writing those results throws, the exception leaves the handler, the behaviour is undefined and the file holds none of them. An interrupted process never ends with status 0.", "quantifier": "all runs, all points of a run between steps at which the interrupt may come, all results", "why_tests_cant": "Signals arrive at arbitrary times; tests do not send any.", "anchors": ["src/driver.cpp:int_handler", "src/driver.cpp:generate_output", "src/driver.cpp:run"]}
{"id": "C180", "title": "A fixed-source calculation converges to the one solution of its problem", "statement": "With boundaries that do not reflect, and scattering that, weighted by group, stays below c < 1 times the transport cross section in every material, each outer iteration shrinks the weighted difference between any two runs by the factor c, and every fixed-source calculation with the MoC sweeper tends at that rate to a flux that another iteration leaves as it is, of which there is exactly one for the incoming fluxes given. Suitable weights exist whenever nothing scatters up in energy and scattering within each group is below the cross section, however strong the scattering down. No iteration throws or reads outside an array if the external source has a value for each region and group.", "quantifier": "all problems, external sources, starting fluxes, numbers of groups, inner iterations and outer iterations", "why_tests_cant": "a test runs finitely many iterations of a few problems and cannot tell slow convergence from none, nor exclude a second solution", "anchors": ["src/solvers/fixed_source_solver.cpp: step, solve", "src/core/source.cpp: initialize_group, in_scatter", "src/sweepers/moc/moc_sweeper.cpp: sweep"]}
{"id": "C181", "title": "When a fixed-source calculation stops, and how good its flux is then", "statement": "Under the same conditions a fixed-source calculation whose iteration limit is large enough always ends because the flux residual fell below the tolerance, and the flux it then reports differs from the solution by at most c/(1-c) times the tolerance in every region and group, up to the ratio of the group weights.", "quantifier": "all problems, tolerances, limits and starting points", "why_tests_cant": "a test sees the residual, not the distance to the solution, and only for the problems tried", "anchors": ["src/solvers/fixed_source_solver.cpp: solve", "src/core/transport_sweeper.cpp: flux_residual"]}
{"id": "C182", "title": "Fixed-source calculations are linear", "statement": "With any boundary conditions, after any number of outer iterations the flux for the sum of two external sources, started from the sum of two states, is the sum of the two fluxes, the second times any number; and with source, start and tolerance all multiplied by the same positive number, the calculation takes as many iterations and ends with the flux multiplied by that number.", "quantifier": "all problems, sources, states, factors, numbers of iterations and tolerances", "why_tests_cant": "tests check a few factors on a few problems", "anchors": ["src/solvers/fixed_source_solver.cpp: step, solve", "src/sweepers/moc/moc_sweeper.cpp: sweep"]}
{"id": "C183", "title": "Homogenized cross sections taken from files are the files', and what a mesh writes it reads back", "statement": "A homogenized cross-section mesh made from HDF5 files holds, region by region, exactly what the files say. What such a mesh writes (transport, nu-fission, spectrum and fission cross sections in plotting order, scattering matrices densely), a mesh of the same shape given that one file reads back: every cross section and every scattering matrix exactly, whatever the signs of the entries, and the removal cross section transport minus self-scattering, whatever the mesh held before and with or without the whole core's plane bounds. With plane-wise files, accepted tags each name one plane's data and a range of macroplanes, no macroplane is in two ranges; a macroplane in a range has its file's cross sections at the positions of its pins, and one in no range keeps those homogenized from its materials. The energy bounds become those of the last plane-wise file; a whole-core file leaves them.", "quantifier": "all meshes (pins, macroplanes, groups, numbering of pins), all contents of mesh and files, any number of tags, with and without assertions", "why_tests_cant": "A test reads a few files; the claim is about every numbering of pins, every list of overlapping or partial ranges and every matrix.", "anchors": ["src/core/xs_mesh_homogenized.cpp: XSMeshHomogenized (HDF5 constructor), read_data_single, read_data_multi, output", "src/core/xs_mesh_region.hpp: update_removal", "src/core/scattering_matrix.hpp: as_vector", "src/util/h5file.hpp: read"]}
{"id": "C184", "title": "Which cross-section files are accepted, refused or undefined", "statement": "Making a homogenized mesh from files ends in a mesh or an exception, never in undefined behaviour, provided the first transport data set of every file has at least three dimensions, the scattering data are for the groups of the mesh, and for at least the pins of one plane. A whole-core file is accepted exactly if its tag leaves the plane bounds out or gives the mesh's own, every reaction is there for every group with one value per region, and there is a scattering matrix per region. The three conditions are themselves not checked: a data set of two dimensions and scattering data with more groups are undefined, with fewer groups the mesh is made with matrices of fewer groups, and for a single macroplane scattering data with more groups change the removal cross sections of a pin of the next. A tag whose top macroplane is below its bottom one is accepted and does nothing.", "quantifier": "all meshes, all file contents, any list of tags, with and without assertions", "why_tests_cant": "Which malformed input slips through is a statement about every file; tests try a few.", "anchors": ["src/core/xs_mesh_homogenized.cpp: XSMeshHomogenized (HDF5 constructor), read_data_single, read_data_multi", "src/core/scattering_matrix.cpp: ScatteringMatrix", "src/util/h5file.cpp: dimensions", "src/util/h5file.hpp: read"]}
{"id": "C185", "title": "Inner iterations converge over reflecting boundaries", "statement": "For a MoC problem in which every ray crosses at least one region, whatever the boundary conditions (vacuum, reflecting or prescribed, in any mixture), and in which scattering from a group into itself is at most c < 1 times the total cross section in every region, repeating the sweep of that group converges: there is a rate k < 1, the same for all sources and all starting points, such that scalar fluxes and incoming boundary fluxes approach those of a state that a further sweep leaves as it is. That state depends only on the source and the prescribed incoming fluxes, not on the starting flux or the starting boundary fluxes.", "quantifier": "all MoC problems with any boundary conditions, all sources, all starting states, all numbers of inner iterations", "why_tests_cant": "a test sees a few sweeps of one problem; the error of the fluxes entering through reflecting sides persists from sweep to sweep and tests cannot show that it always dies out, at what rate, or that the limit is the same for all starting points", "anchors": ["src/sweepers/moc/moc_sweeper.cpp: MoCSweeper::sweep", "src/sweepers/moc/moc_sweeper_impl.hpp: sweep1g", "src/core/boundary_condition.cpp: BoundaryCondition::update"]}
{"id": "C186", "title": "Fixed-source MoC calculations converge and stop with reflecting boundaries", "statement": "For the same kind of problem, with any number of groups and inner iterations (at least one), if some positive group weights v satisfy sum over h of scattering(h to g)*v(h) <= c*total(g)*v(g) with c < 1 in every region, then a fixed-source calculation with no fission and any external source converges from any start at a rate k < 1 that depends on the problem only, to the only state with its prescribed incoming fluxes that an outer iteration leaves unchanged; and with enough iterations allowed it always ends because the flux residual is below the tolerance.", "quantifier": "all MoC problems with any boundary conditions, all external sources, starting states, tolerances above zero and iteration limits", "why_tests_cant": "the number of iterations is not bounded and grows as leakage and absorption vanish; tests cannot rule out a problem, start or source for which the iteration stagnates or ends elsewhere", "anchors": ["src/solvers/fixed_source_solver.cpp: FixedSourceSolver::solve, FixedSourceSolver::step", "src/sweepers/moc/moc_sweeper.cpp: MoCSweeper::sweep", "src/core/boundary_condition.cpp: BoundaryCondition::update"]}
{"id": "C187", "title": "A material library file in the documented format is read to exactly what it says", "statement": "Reading a material library file whose contents are a title line, a line with the numbers of groups and of materials, a line with the group bounds, and for each material a heading (XSMACRO, name, number), one line of four numbers per group and one line of as many numbers as groups per row of the scattering matrix, gives exactly the groups, bounds, names and numbers written in it: however the numbers are written (sign, point, digits on either side of it, exponent with e or E and its own sign), however they are spaced, with comments after exclamation marks and empty lines anywhere, and whatever follows the last material. The materials are those the numbers describe, in the order of the file, and can all be made if no spectrum entry is negative.", "quantifier": "all texts and their division into lines, all ways of writing numbers that do not overflow, any numbers of groups and materials below 2^32, all assignments of identifiers", "why_tests_cant": "The format allows infinitely many spellings of the same library; tests read two files.", "anchors": ["src/core/material_lib.cpp:MaterialLib::MaterialLib", "src/util/string_utils.cpp:explode_string", "src/util/file_scrubber.cpp:FileScrubber::getline"]}
{"id": "C188", "title": "Which material library files are accepted", "statement": "Reading a material library ends, and succeeds exactly when: the second line of the contents starts with two unsigned integers below 2^32 (a minus sign is accepted and wraps), the third starts with as many numbers as there are groups, for each announced material the line in the heading's place is followed by one line of exactly four numbers per group and one line of exactly as many numbers as groups per row of the scattering matrix, the material can be made, and every identifier is assigned to a name that was read. A library with fewer materials than announced is therefore refused. Not looked at are the title, the rest of the second and third lines, all lines after the last announced material, and whether the heading is one: a material whose heading has a mistake is stored without a name. Nor need the numbers be separated: 1.5.25+1e0 is three numbers.", "quantifier": "all texts, all assignments of identifiers", "why_tests_cant": "Acceptance is a statement about all files, including malformed ones no test contains.", "anchors": ["src/core/material_lib.cpp:MaterialLib::MaterialLib", "src/util/string_utils.cpp:explode_string", "src/util/file_scrubber.cpp:FileScrubber::getline"]}
{"id": "C189", "title": "Reciprocity of MoC calculations", "statement": "Take a MoC calculation of one group over a core whose sides reflect or are open. Let source 1 give the flux phi1 and source 2 the flux phi2, each converged (an inner iteration leaves the flux and the incoming boundary fluxes as they are), with any self-scattering. Then the integral of source 2 times phi1 over the core equals the integral of source 1 times phi2: a detector at B sees from a source at A exactly what a detector at A sees from the same source at B, on any coarse or fine ray layout. The same holds for one sweep with given transport sources, and for a core open on all sides with nothing coming in no convergence of boundary fluxes needs to be assumed. What this needs of the rays, quadrature weights and boundary arrays holds for every sweeper set up from a ray tag with volume correction on.", "quantifier": "all geometries, ray layouts, cross sections, numbers of planes, angles and threads, both orders of boundary updates, all pairs of sources, any mixture of reflecting and open sides", "why_tests_cant": "a test compares two fluxes of one geometry to a tolerance; that the two directions along every ray, the exponential table, the renumbering at mirrors and the volume correction combine to an exactly symmetric response is a statement about all of them at once", "anchors": ["src/sweepers/moc/moc_sweeper.hpp: MoCSweeper::sweep1g", "src/sweepers/moc/moc_sweeper.cpp: MoCSweeper::sweep", "src/core/boundary_condition.cpp: BoundaryCondition::update", "src/core/angular_quadrature.hpp: AngularQuadrature::reverse, AngularQuadrature::reflect", "src/sweepers/moc/ray_data.cpp: RayData::RayData"]}
{"id": "C190", "title": "The transposed problem is the adjoint problem", "statement": "Solve a fixed-source MoC problem with source 1, and the same core with every scattering matrix transposed with source 2, both to the solutions they converge to. The integral over regions and groups of source 2 times the first flux is that of source 1 times the second: the transposed calculation computes importances. For runs of p and q outer iterations from any starts the two integrals differ by at most (k^p + k^q) D with some k < 1.", "quantifier": "all multigroup problems without fission whose scattering is dominated by the total cross section with some weights, transposed and not, all pairs of external sources, starting states, numbers of inner and outer iterations, sides that reflect or are open", "why_tests_cant": "importances come from a different calculation whose iteration passes through other intermediate states (groups in the same order although scattering goes the other way); agreement for all sources cannot be tested", "anchors": ["src/solvers/fixed_source_solver.cpp: FixedSourceSolver::step", "src/core/source.cpp: Source::in_scatter", "src/core/source_isotropic.cpp: SourceIsotropic::self_scatter", "src/sweepers/moc/moc_sweeper.cpp: MoCSweeper::sweep", "src/core/scattering_matrix.hpp: ScatteringMatrix"]}
{"id": "C191", "title": "Currents that CMFD writes to the results file", "statement": "Without dump_current, CMFD writes no currents. With it, the results file gets one data set per group and cell face (north, south, east, west, top, bottom), with the planes, rows and columns of the CMFD mesh as dimensions and numbered by group from one; nothing is read outside the arrays. Neighbouring cells have the same number for their common face. If no planes are merged, removal plus the written currents out of a cell's faces equals what the group's linear system makes of the flux, hence the source when it is solved: the file obeys the neutron balance cell by cell. If planes are merged into macroplanes this is lost: the numbers written for macroplane m are the currents of the macroplane to which the m-th TRANSPORT plane belongs, and for the top those at the bottom of the macroplane of transport plane m+1.", "quantifier": "all transport and CMFD meshes that macroplanes relate, numbers of groups, currents and solutions of the linear systems", "why_tests_cant": "what is written depends on the whole current array and on how planes are merged; files compared in tests come from cases without merged planes", "anchors": ["src/core/cmfd.cpp: CMFD::output, CMFD::store_currents", "src/core/mesh.hpp: Mesh::coarse_surf", "src/core/constants.cpp: operator<<"]}
{"id": "C192", "title": "What fluxes and powers in the results file mean", "statement": "In the results of a MoC calculation, the data set of each group has at each pin's cell in each plane the volume-weighted mean flux of the pin in the macroplane that contains the plane, times one factor common to all pins, planes and groups; with positive fluxes the factor is positive and the written fluxes average to one. The fluxes of the regions themselves are written if asked for and not otherwise. Multiplying all fluxes by a positive number changes neither the written pin fluxes nor the powers, for MoC and Sn: so a fixed-source MoC calculation with a source k times as strong writes the same pin fluxes and powers, and the magnitude of the flux is only in the regions' fluxes. The powers written are those of the pins (MoC, by macroplane, adding up to the number of fuel pins), and of the cells and of the columns of cells (Sn, each averaging to one over the positive ones). If no material has a fission cross section, the MoC sweeper's powers are zero over zero.", "quantifier": "all meshes, macroplanes, volumes, cross sections, fluxes, numbers of groups and positive factors; for the last but one, all fixed-source problems and numbers of iterations", "why_tests_cant": "relations between the files of all pairs of calculations and a characterisation of every entry; tests compare a few files with references", "anchors": ["src/sweepers/moc/moc_sweeper.cpp: MoCSweeper::output", "src/sweepers/sn/sn_sweeper.cpp: SnSweeper::output", "src/core/transport_sweeper.cpp: TransportSweeper::pin_powers", "src/util/utils.hpp: Normalize", "src/solvers/fixed_source_solver.cpp: FixedSourceSolver::output"]}
{"id": "C193", "title": "Fixed-source MoC calculations keep order", "statement": "Of two fixed-source MoC calculations of a core, the one with nowhere more external source and nowhere more flux at the start has nowhere more flux after any number of iterations, with any boundary conditions.  So with nonnegative sources and starting fluxes no iteration gives a negative flux.  If the first iteration lowers no flux then none does, and the fluxes stay below those of any solution that they started below; the other way round if the first iteration raises none.  Of the solutions, too, the one with more source has nowhere less flux.", "quantifier": "all cores, materials, boundary conditions, numbers of groups, regions, inner and outer iterations, external sources and starting fluxes of matching sizes", "why_tests_cant": "a test compares a few fluxes of one problem; that no flux of any problem ever turns negative or reacts to more source by falling is a statement about all of them", "anchors": ["src/solvers/fixed_source_solver.cpp:FixedSourceSolver::step", "src/solvers/fixed_source_solver.cpp:FixedSourceSolver::solve", "src/sweepers/moc/moc_sweeper.cpp:MoCSweeper::sweep", "src/sweepers/moc/moc_sweeper.hpp:sweep1g", "src/core/source.cpp:Source::in_scatter", "src/core/boundary_condition.cpp:BoundaryCondition::update"]}
{"id": "C194", "title": "The multiplication factor does not depend on the starting point", "statement": "Two MoC eigenvalue calculations of a core that have converged, so that an iteration leaves their fluxes as they are, and whose fluxes are positive, have the same multiplication factor, whatever they were started from; no converged calculation, of any flux at all, has a larger one.  Taking fission away from materials never raises the factor.  Behind mirrors on all sides, for materials that share a spectrum and an infinite-medium factor, every converged calculation with a positive flux has found that factor exactly.", "quantifier": "all cores with open or reflecting sides, materials, numbers of groups, regions and inner iterations, and all converged states", "why_tests_cant": "a test sees one calculation from one starting flux; that there is no second positive solution with another factor cannot be seen from any number of runs", "anchors": ["src/solvers/eigen_solver.cpp:EigenSolver::solve", "src/solvers/eigen_solver.cpp:EigenSolver::step", "src/solvers/fixed_source_solver.cpp:FixedSourceSolver::step", "src/sweepers/moc/moc_sweeper.cpp:MoCSweeper::sweep", "src/core/source.cpp:Source::fission", "src/core/transport_sweeper.cpp:TransportSweeper::calc_fission_source"]}
{"id": "C195", "title": "One iteration brackets the multiplication factor", "statement": "If one iteration of a MoC eigenvalue calculation from positive fluxes leaves no region or boundary flux higher than it was, the multiplication factor it was made with is at least that of every converged calculation of the core; if it leaves none lower, and some flux is positive, the factor is at most that of every converged calculation with positive fluxes. From the fluxes of a converged calculation an iteration made with a larger factor raises no flux and one with a smaller factor lowers none, so that the two bounds are attained.", "quantifier": "all cores with open or reflecting sides, materials, numbers of groups, regions and inner iterations, all fluxes, incoming fluxes and factors the iteration is made from", "why_tests_cant": "a test can compare a stopped calculation with a reference value; that what a single iteration does bounds the answer that no run has reached is a statement about all converged states", "anchors": ["src/solvers/eigen_solver.cpp:EigenSolver::step", "src/solvers/eigen_solver.cpp:EigenSolver::solve", "src/solvers/fixed_source_solver.cpp:FixedSourceSolver::step", "src/sweepers/moc/moc_sweeper.cpp:MoCSweeper::sweep"]}
{"id": "C196", "title": "The surfaces met at a point of the plane", "statement": "Asked which coarse surfaces a point of a core plane lies on, the mesh answers: none for a point strictly inside a cell; for a point inside a side of a cell, the surface of that side in the bottom plane, whichever cell was named; at a corner inside the domain, the two surfaces crossed on the way from the named cell into its neighbour in x and from there into the diagonal neighbour; at a corner on a side of the domain, the surfaces crossed on the way out of the domain, through one and the same cell for both cells that have the corner, the outer surface first. At corners the surfaces are in the plane of the named cell, not the bottom plane as the declaration says; the way back from the diagonal neighbour shares no surface with the way there; and at the two lower corners of the domain the table of surfaces is read outside its bounds.", "quantifier": "all mesh sizes, positions of the grid lines, points told apart from the lines, cells and planes", "why_tests_cant": "a test looks at a few points of one mesh; the answers follow the same rule at every one of the corners and sides of every mesh, and the reads out of bounds need not be noticed when they happen", "anchors": ["src/core/mesh.cpp:Mesh::coarse_surf_point", "src/core/mesh.hpp:Mesh::coarse_surf", "src/core/mesh.hpp:Mesh::coarse_neighbor", "src/core/mesh.hpp:Mesh::coarse_surf_point"]}
{"id": "C197", "title": "The drawing of the geometry shows the geometry", "statement": "The script written on request for a plane of the core, executed by the drawing library, draws the lines of the mesh and, centred in each pin cell of that plane, the lines and circles of the pin that is there, each at the coordinates the core has to within the printing of numbers, and nothing else: the lines with which the library joins the circles of a pin to its centre lie on one of its sector lines. Without a plane given it is the bottom one; a plane the core does not have is refused before anything is written.", "quantifier": "all core meshes, planes, rectangular pins, cylindrical pins with two to eight sectors, and every monotonic way of printing numbers", "why_tests_cant": "a test can compare the text of one script; that what it draws is the geometry depends on what the library does with every path, and on translations cancelling for any number of pins", "anchors": ["src/auxiliary/geometry_output.cpp:output_geometry", "src/core/pin_mesh_cyl.cpp:PinMesh_Cyl::draw", "src/core/pin_mesh_rect.cpp:PinMesh_Rect::draw", "src/core/core_mesh.cpp:CoreMesh::pin_origin"]}
{"id": "C198", "title": "The file of rays lists every ray of the first plane", "statement": "With dump_rays the file rays.py is the fixed drawing function followed by an assignment to rays of a Python list: one entry for each angle, in it one entry for each ray of the first plane in order, each a pair of end points.  Brackets and commas balance although the writer goes back to overwrite the last comma of each list, and the comments end where they should, whatever the numbers of angles and rays.  As far as printed numbers tell coordinates apart, the ends of all rays can be read back.  Without dump_rays nothing is written.", "quantifier": "all numbers of planes, angles and rays, all end points and boundary indices, all ways of printing a number as one word", "why_tests_cant": "a test can run one script; that going back and overwriting leaves a well-formed list for every number of angles and rays is a statement about all of them", "anchors": ["src/sweepers/moc/ray_data.cpp:operator<<", "src/sweepers/moc/ray.cpp:operator<<", "src/core/geometry/geom.cpp:operator<<", "src/sweepers/moc/moc_sweeper.cpp:MoCSweeper::MoCSweeper"]}
{"id": "C199", "title": "The coarse mesh eigenvalue does not depend on the start", "statement": "If all groups of a CMFD system are on one mesh, no data are negative, in every cell and group less is scattered to the other groups than is removed, and no current correction exceeds the diffusion coefficient, then balanced positive fluxes have one multiplication factor: two solves that have come to rest agree on it, whatever fluxes, eigenvalues and tolerances they had. No balanced flux that is not zero has a larger one, and more fission nowhere gives a smaller one. Fluxes of which no cell gains more than it loses give an upper bound, fluxes of which no cell loses more than it gains a lower one; without upscattering the smallest and largest ratio of new to old fluxes of one pass, times the eigenvalue of the pass, bracket the multiplication factor.", "quantifier": "All meshes, numbers of groups, cross sections, coefficients and fluxes that meet the conditions, any solver of the linear systems.", "why_tests_cant": "A test compares runs from a few starting points on a few problems; that no other start can end elsewhere is a statement about all fluxes.", "anchors": ["src/core/cmfd.cpp: CMFD::solve, CMFD::setup_solve", "src/core/cmfd.hpp: CMFD"]}
{"id": "C200", "title": "Acceleration does not change the multiplication factor", "statement": "In a MoC eigenvalue calculation with CMFD, whatever factor and pin fluxes CMFD returns, if the sweeps that follow leave the fluxes as CMFD put them (positive), then CMFD's factor and the factor of the iteration are the one that the calculation without CMFD converges to with positive fluxes. Before that, the sweeps bracket it: if they raise no flux that CMFD put, CMFD's factor is not below the answer without acceleration; if they lower none, it is not above. The other way round, a calculation converged without CMFD stays converged when CMFD is turned on and finds its pins in balance.", "quantifier": "all cores with open or reflecting sides, materials, numbers of groups, regions and inner iterations, all results that a CMFD solve may return, and all converged states", "why_tests_cant": "tests compare accelerated and unaccelerated runs of a few cores to some digits; that there is no core or CMFD result for which acceleration converges to another factor is a statement about all of them", "anchors": ["src/solvers/eigen_solver.cpp:EigenSolver::step", "src/solvers/eigen_solver.cpp:EigenSolver::do_cmfd", "src/solvers/cmfd.cpp:CMFD::solve", "src/sweepers/moc/moc_sweeper.cpp:MoCSweeper::sweep"]}
{"id": "C201", "title": "The results file is complete and no name is used twice", "statement": "At the end of a run every combination of solver and sweeper (eigenvalue or fixed source with MoC, Sn, corrected Sn, 2D3D MoC and the 2D3D plane sweeper, with or without CMFD currents, region fluxes and dumped correction factors; Monte Carlo) writes its results file to the end: no name is used twice, no group is missing, no array is refused. The file has exactly the listed names, and under each the quantity it belongs to with its dimensions: fluxes by group counted from one with three or more digits, cross sections by group counted from nought, correction factors by group and angle, currents by group and surface, histories of the eigenvalue, the input file and the revision. The 2D3D sweeper's cross sections and quadrature are found at the top of the file as well as with its Sn sweeper, and are the same. Debug and release builds write the same file.", "quantifier": "all solvers, sweepers and options, all numbers of groups and angles, all values whose numbers agree with their dimensions", "why_tests_cant": "tests run a few inputs with few groups; that names made from numbers never collide with each other or with fixed names, for any number of groups and in any combination of options, is a statement about all of them", "anchors": ["src/driver.cpp: generate_output", "src/solvers/eigen_solver.cpp: output", "src/solvers/fixed_source_solver.cpp: output", "src/solvers/monte_carlo_eigenvalue_solver.cpp: output", "src/sweepers/cmdo/plane_sweeper_2d3d.cpp: output", "src/sweepers/cmdo/moc_sweeper_2d3d.cpp: output", "src/sweepers/cmdo/correction_data.cpp: output", "src/sweepers/mc/particle_pusher.cpp: output", "src/core/xs_mesh_homogenized.cpp: output", "src/util/h5file.hpp: H5Node"]}
{"id": "C202", "title": "A library made from an open file agrees with one made from an input element", "statement": "A material library can also be made from a file that is already open. Every file from which the constructor taking an input element makes a library gives the same number of groups, the same bounds and the same library this way. More files are accepted: each line need only start with the numbers wanted, and whatever follows them is not looked at; such a file is read to exactly the groups, bounds and materials that its lines start with. In exchange, faults which the other constructor refuses have undefined behaviour here, since a number is used that never got a value: this happens whenever the first fault of the file is a row of the scattering matrix with too few numbers, or the end of the file before the last line of cross sections of a material it announces. A last entry of such a row that is not a number is read as zero.", "quantifier": "all texts, numbers of groups and materials, spacings and comments", "why_tests_cant": "The two constructors are separate code; that they agree, and where they cannot, is a statement about all files. A test that reads a value never set may pass by chance.", "anchors": ["src/core/material_lib.cpp:MaterialLib::MaterialLib", "src/util/file_scrubber.cpp:FileScrubber::getline"]}
{"id": "C203", "title": "Which source a solver gets", "statement": "A fixed source solver, whether asked for or inside an eigenvalue solver, has a source exactly when its source element asks for P0 scattering (in either case, blanks around) and the file it names, if any, opens and holds a data set of one row per group and one column per region; that data set is then the external source, in an eigenvalue calculation too, and reading it twice changes nothing. A file that does not open ends the program with an exception that nothing catches; a scattering treatment with bytes outside ASCII is undefined; everything else is refused with a message. With a 2D3D sweeper the scattering treatment is not looked at; inside an eigenvalue solver the element plays no part at all, so that no external source is applied and no fault noticed; a fixed source calculation applies the external source to the MoC part alone and never to the Sn part.", "quantifier": "all source elements, file systems, sweepers, numbers of groups and regions", "why_tests_cant": "Which inputs give which source is a statement about all inputs and files; silently ignoring an element cannot be seen from a run that succeeds.", "anchors": ["src/core/source_factory.cpp:SourceFactory", "src/core/source.cpp:Source::add_external", "src/solvers/fixed_source_solver.cpp:FixedSourceSolver::FixedSourceSolver", "src/sweepers/cmdo/plane_sweeper_2d3d.hpp:PlaneSweeper_2D3D::create_source"]}
