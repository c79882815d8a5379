{"id": "C01", "title": "2D geometry packing round trip", "statement": "Packing a triangle or quadrilateral together with a rank and local id into a byte buffer and unpacking that buffer on any rank yields the same rank, local id, global id, shape, edges (ids, coordinate dimension, first two vertices with ids and coordinates) and edge/face curve data, and unpacking consumes exactly the bytes that packing produced.", "quantifier": "all 2D geometries (any ids, any vertex/curve contents, any number of curve points), all ranks and local ids", "why_tests_cant": "A codec test samples a few geometries; the claim is about every content and every curve length.", "anchors": ["include/nektar_interface/geometry_transport/packed_geom_2d.hpp: PackedGeom2D::pack_general, unpack_general, unpack"]}
{"id": "C02", "title": "2D geometry collection packing round trip", "statement": "Packing any list of 2D geometries into one message (count then concatenated geometries) and unpacking it yields the same geometries in the same order, and nothing is left over.", "quantifier": "all lists of geometries of any length", "why_tests_cant": "Unbounded number and size of elements in a message.", "anchors": ["include/nektar_interface/geometry_transport/packed_geoms_2d.hpp: PackedGeoms2D ctor, unpack"]}
{"id": "C03", "title": "2D unpacking never reads outside the received buffer", "statement": "Given a received buffer and its length, unpacking a collection of 2D geometries either succeeds or fails an assertion, but never reads a byte at or beyond the end of the buffer, also when the buffer is truncated.", "quantifier": "all byte buffers and lengths, including truncated and corrupt ones", "why_tests_cant": "Needs all malformed inputs.", "anchors": ["include/nektar_interface/geometry_transport/packed_geom_2d.hpp: pop", "include/nektar_interface/geometry_transport/packed_geoms_2d.hpp: unpack"]}
{"id": "C04", "title": "Remote geometry serialisation size and round trip", "statement": "For any remote segment, 2D face or 3D polyhedron with straight edges, the advertised number of bytes equals the number of bytes written by serialise, and deserialise of those bytes reproduces rank, local id, shape and the complete vertex/edge/face tree; a curved geometry is rejected rather than silently straightened.", "quantifier": "all geometry trees of all seven shapes, all ranks and ids", "why_tests_cant": "Every id/coordinate content of every shape.", "anchors": ["include/nektar_interface/geometry_transport/remote_geom.hpp: RemoteGeom::get_num_bytes, serialise, deserialise"]}
{"id": "C05", "title": "3D element stream reconstruction", "statement": "Deconstructing a set of 3D elements into an integer stream and reconstructing it against a map holding all their faces yields the same elements (rank, global id, shape, ordered face ids) in order; reconstruction fails an assertion when a needed face is missing, and never yields an element with a wrong face.", "quantifier": "all sets of hexahedra, prisms, pyramids and tetrahedra, all face maps", "why_tests_cant": "Unbounded sets and ids.", "anchors": ["src/nektar_interface/geometry_transport/geometry_transport_3d.cpp: deconstruct_geoms_base_3d, deconstruct_geoms_3d, reconstruct_geom_3d, reconstruct_geoms_3d"]}
{"id": "C06", "title": "Faces sent with 3D elements suffice", "statement": "For every destination rank the set of face ids sent along with its elements is exactly the set of ids of faces of those elements, with no duplicates, so that reconstruction on the receiver never misses a face.", "quantifier": "all assignments of elements to destination ranks", "why_tests_cant": "All meshes and partitions.", "anchors": ["src/nektar_interface/geometry_transport/geometry_transport_3d.cpp: deconstuct_per_rank_geoms_3d"]}
{"id": "C07", "title": "Ring exchange delivers every remote geometry exactly once", "statement": "After the all-to-all ring gather of 2D geometries every rank holds each other rank's geometries exactly once and none of its own, the receive at each step is matched by the neighbour's send with the same tag, and no rank waits for a message that is not sent.", "quantifier": "all communicator sizes and all per-rank geometry sets", "why_tests_cant": "Every number of ranks.", "anchors": ["include/nektar_interface/geometry_transport/geometry_transport_2d.hpp: get_all_remote_geoms_2d"]}
{"id": "C08", "title": "3D point-to-point exchange delivers the addressed data", "statement": "In the exchange of 3D elements each rank receives, from each source, exactly the integers that source addressed to it, packed without overlap or gap in its receive buffer.", "quantifier": "all communication graphs, all message sizes including zero", "why_tests_cant": "All graphs and sizes.", "anchors": ["src/nektar_interface/geometry_transport/geometry_transport_3d.cpp: sendrecv_geoms_3d"]}
{"id": "C09", "title": "Name=value parsing", "statement": "Parsing a line 'name = value' returns the trimmed name and value; a line without '=', with an empty name, or with more than one '=' is rejected, and accepted lines contain exactly one '='.", "quantifier": "all strings", "why_tests_cant": "All strings of all lengths.", "anchors": ["src/nektar_interface/solver_base/particle_reader.cpp: parse_equals (ParseEquals)"]}
{"id": "C10", "title": "Session info lookup is consistent with its existence test", "statement": "If the particle reader says an info property is defined then fetching it with the same name succeeds and returns the value read from the session, irrespective of letter case.", "quantifier": "all property names and all stored property sets", "why_tests_cant": "All names and cases.", "anchors": ["src/nektar_interface/solver_base/particle_reader.cpp: defines_info, get_info, read_info"]}
{"id": "C11", "title": "Particle parameter lookup is case-insensitive and total on defined names", "statement": "A parameter read from the session can be tested and fetched under any capitalisation of its name, the last definition of a name wins, and an undefined name is rejected or yields the caller's default in the defaulting load variants.", "quantifier": "all parameter lists and names", "why_tests_cant": "All lists/names.", "anchors": ["src/nektar_interface/solver_base/particle_reader.cpp: read_parameters, defines_parameter, get_parameter, load_parameter"]}
{"id": "C12", "title": "A boundary specification without species applies to all species", "statement": "A boundary REGION whose entries do not name a species applies the condition to all species of the session (as the code's dedicated branch intends).", "quantifier": "all boundary sections", "why_tests_cant": "All inputs of the section.", "anchors": ["src/nektar_interface/solver_base/particle_reader.cpp: read_boundary"]}
{"id": "C13", "title": "Parameter store behaves as a typed finite map", "statement": "After any sequence of sets, get of a key returns the last value set when its type is the one asked for, throws when its type differs, and with a default returns the default exactly when the key was never set.", "quantifier": "all histories of set operations, all keys and types", "why_tests_cant": "All histories.", "anchors": ["include/nektar_interface/parameter_store.hpp: ParameterStore"]}
{"id": "C14", "title": "Solver callbacks run exactly once per event in registration order", "statement": "On each pre- or post-integration event every callback registered for that event before the event is invoked exactly once, in registration order, and callbacks for the other event are not invoked.", "quantifier": "all interleavings of registrations and events", "why_tests_cant": "All histories.", "anchors": ["include/solvers/solver_callback_handler.hpp: SolverCallbackHandler"]}
{"id": "C15", "title": "Cell id translation is a bijection between particle cells and mesh elements", "statement": "On every rank that owns at least one element, the particle cells enumerate exactly the local mesh elements (with their shape types), the map from cells to geometry ids and the translation of geometry ids to cells are mutually inverse, ids of elements that are not local are never translated to a cell, and executing the translation replaces each particle's geometry id by the matching cell. (A rank that owns no elements must not invoke undefined behaviour.)", "quantifier": "all sets of local geometry ids (distinct)", "why_tests_cant": "All meshes.", "anchors": ["include/nektar_interface/cell_id_translation.hpp: CellIDTranslation"]}
{"id": "C16", "title": "Device iteration sizes cover the work", "statement": "The global work size is the least multiple of the local size that is at least N, and the padded vector length is the least multiple of the vector length that is at least N.", "quantifier": "all N and all positive local sizes", "why_tests_cant": "All sizes.", "anchors": ["include/nektar_interface/utility_sycl.hpp: get_global_size, pad_to_vector_length"]}
{"id": "C17", "title": "Field name to index map", "statement": "For a list of field names the map answers every listed name with an index at which that name occurs (the last, if repeated), and -1 exactly for unlisted names.", "quantifier": "all lists of names", "why_tests_cant": "All lists.", "anchors": ["include/nektar_interface/utilities.hpp: NektarFieldIndexMap"]}
{"id": "C18", "title": "Cartesian mesh cell lookup", "statement": "For every point inside the mesh's box, the cell computed per dimension is in range and the cell's interval contains the point; points just outside (within the accepted tolerance) are assigned to the nearest boundary cell and points further away are refused; linear indices are a bijection between cell tuples and 0..ncells-1.", "quantifier": "all points, origins, extents and cell counts, any dimension", "why_tests_cant": "All reals and dimensions.", "anchors": ["include/nektar_interface/utility_mesh_cartesian.hpp: DeviceCartesianMesh"]}
{"id": "C19", "title": "Cartesian periodic boundary wraps every particle into the domain", "statement": "After applying the periodic boundary condition, each coordinate lies in [origin, origin+extent) and differs from the original by a whole number of extents; particles inside are left unchanged.", "quantifier": "all positions, all mesh origins and extents", "why_tests_cant": "All reals and all domains.", "anchors": ["src/nektar_interface/particle_boundary_conditions.cpp: NektarCartesianPeriodic"]}
{"id": "C20", "title": "Periodic boundary domain is the mesh bounding box", "statement": "The domain used by the Cartesian periodic boundary condition (origin and extent) equals the bounding box of the mesh vertices over all ranks.", "quantifier": "all meshes (any vertex coordinates) and any partition over ranks", "why_tests_cant": "All coordinate signs.", "anchors": ["src/nektar_interface/particle_boundary_conditions.cpp: NektarCartesianPeriodic ctor"]}
{"id": "C21", "title": "Bounding box algebra", "statement": "Box overlap volume is positive exactly when the interiors meet, expansion yields the smallest box containing both, and the hierarchy intersection test is true exactly when at least one held box intersects the queried box.", "quantifier": "all boxes and all lists of held boxes", "why_tests_cant": "All reals and lists.", "anchors": ["include/nektar_interface/bounding_box_intersection.hpp"]}
{"id": "C22", "title": "Coarse lookup offers the containing element", "statement": "For every point inside an element's bounding box the coarse lookup map lists that element among the candidates of the point's coarse cell.", "quantifier": "all elements, all points of their boxes, all grids", "why_tests_cant": "All points, incl. those on grid lines.", "anchors": ["include/nektar_interface/particle_cell_mapping/coarse_lookup_map.hpp: CoarseLookupMap"]}
{"id": "C23", "title": "Clamping local coordinates", "statement": "Clamping returns coordinates within [-1,1] in every component, leaves in-range components unchanged, and reports whether any component changed.", "quantifier": "all coordinates", "why_tests_cant": "All reals, all components at once.", "anchors": ["include/nektar_interface/coordinate_mapping.hpp: clamp_loc_coord, clamp_loc_coords"]}
{"id": "C24", "title": "Collapsed coordinate round trip", "statement": "Mapping local to collapsed coordinates and back is the identity on every point of each reference element (triangle, quadrilateral, tetrahedron, pyramid, prism, hexahedron) away from the collapsed set, never divides by zero anywhere, maps the element into [-1,1]^d, and the generic dispatch equals the per-shape functions.", "quantifier": "all points of all reference elements", "why_tests_cant": "All reals.", "anchors": ["include/nektar_interface/coordinate_mapping.hpp"]}
{"id": "C25", "title": "Owning element search returns a containing element when there is one", "statement": "When the search for the element owning a point reports success, the returned element contains the point, and it reports success whenever a candidate contains it.", "quantifier": "all candidate lists, all points, all containment outcomes", "why_tests_cant": "All candidate orders.", "anchors": ["include/nektar_interface/utilities.hpp: find_owning_geom"]}
{"id": "C26", "title": "Element-uniform sampling stays in the element", "statement": "Every position produced by sampling uniformly within elements is inside the element it is attributed to, exactly the requested number of points is produced per element, for any random stream that eventually hits the element.", "quantifier": "all random streams, all elements, all counts", "why_tests_cant": "All RNG histories.", "anchors": ["src/nektar_interface/utilities.cpp: uniform_within_elements", "include/nektar_interface/utilities.hpp"]}
{"id": "C27", "title": "Quasi-random sequence stays in the domain", "statement": "Every sample of the additive-recurrence (R-sequence) generator lies in [0,extent) in each dimension.", "quantifier": "all sample indices, dimensions, extents and seeds", "why_tests_cant": "Unbounded sequence.", "anchors": ["include/particle_utility/position_distribution.hpp: rsequence_within_extents"]}
{"id": "C28", "title": "Each initial sample point is kept by exactly one rank", "statement": "Of the points along a line or in a uniform sample, every point inside the mesh is kept by exactly one rank, and the local points partition the global sample.", "quantifier": "all numbers of ranks, all sample sizes, all claims", "why_tests_cant": "All partitions and ties.", "anchors": ["include/particle_utility/particle_initialisation_line.hpp"]}
{"id": "C29", "title": "Bounding box to mesh-hierarchy cell weights", "statement": "The claim weights an element makes on mesh hierarchy cells are exactly the overlap volumes of its bounding box with those cells, every cell with positive overlap is claimed, no other cell is, and weights sum to the box volume when the box is inside the mesh.", "quantifier": "all boxes, grids and dimensions", "why_tests_cant": "All reals.", "anchors": ["include/nektar_interface/particle_mesh_interface.hpp: overlap_1d, bounding_box_map, bounding_box_claim, LocalClaim"]}
{"id": "C30", "title": "Claims keep the largest weight, order independent", "statement": "After any sequence of claims the claimed cells are those ever claimed with a positive weight, each with the largest weight claimed for it (with the reference value of the first such claim); cells and weights do not depend on the order. For a rank, the claimed cells are exactly those overlapped by an element box and the elements registered with a cell are exactly those overlapping it.", "quantifier": "all claim sequences", "why_tests_cant": "All sequences and interleavings.", "anchors": ["include/nektar_interface/particle_mesh_interface.hpp: LocalClaim::claim"]}
{"id": "C31", "title": "Mesh hierarchy covers the mesh", "statement": "The Cartesian mesh hierarchy created for a mesh covers the bounding box of all elements over all ranks in every dimension, with at least one coarse cell per dimension. It is created for every non-degenerate non-empty mesh, also when some ranks hold no elements. The coarse cells have the size of the smallest extent when the extents differ by a factor 2 or more, else of the largest.", "quantifier": "all bounding boxes, dimensions and subdivision orders", "why_tests_cant": "All reals.", "anchors": ["include/nektar_interface/particle_mesh_interface.hpp: create_mesh_hierarchy, compute_bounding_box"]}
{"id": "C32", "title": "Halo cells are exactly the neighbourhood minus owned cells", "statement": "Extending halos by width w considers exactly the mesh hierarchy cells within Chebyshev distance w (periodic or not) of a cell the rank claimed (owned by it or not) that the rank does not own; widths larger than the smallest grid extent are refused.", "quantifier": "all grids, claimed cell sets, widths and both periodicity options", "why_tests_cant": "All grids and widths.", "anchors": ["src/nektar_interface/geometry_transport/halo_extension.cpp: halo_get_mesh_hierarchy_cells"]}
{"id": "C33", "title": "Halo requests reach the owner", "statement": "Each halo cell with an owner is requested from exactly its owning rank, owners learn exactly who requested which cell, the collective call completes for every message order, and afterwards a rank knows every element of the mesh overlapping an owned cell of its halo.", "quantifier": "all ownership maps, all ranks, all request patterns", "why_tests_cant": "All distributed configurations.", "anchors": ["src/nektar_interface/geometry_transport/halo_extension.cpp: halo_get_map_rank_to_cells, halo_get_send_cells, extend_halos_fixed_offset"]}
{"id": "C34", "title": "Halo extension never duplicates a remote element", "statement": "After halo extension each remote element is held at most once, elements held before are kept, and each received element is held.", "quantifier": "all sequences of extensions", "why_tests_cant": "All histories.", "anchors": ["include/nektar_interface/geometry_transport/halo_extension.hpp"]}
{"id": "C35", "title": "Initial halo exchange is symmetric and complete", "statement": "When the mesh interface is created, rank a sends elements to rank b exactly when b is another rank owning a mesh hierarchy cell that a claimed; under every interleaving the number of senders a rank counts is the true one and no rank gets stuck; whatever the order in which messages arrive, rank b ends up with copies of exactly those elements of other ranks whose bounding box overlaps a cell that b owns, each once; the neighbour ranks are the owners of those copies.", "quantifier": "all meshes, claims, ownership maps, rank counts, interleavings of the counting rounds, arrival and completion orders", "why_tests_cant": "All distributed configurations.", "anchors": ["include/nektar_interface/particle_mesh_interface.hpp: exchange_get_send_ranks, get_unowned_cells, exchange_init_send_counts, exchange_finalise_send_counts, exchange_get_recv_ranks, exchange_packed_2d, collect_neighbour_ranks"]}
{"id": "C36", "title": "Line-plane intersection", "statement": "The test of a trajectory segment against a plane reports true exactly when the (non parallel) segment meets the plane, and then the returned point lies on both.", "quantifier": "all planes and segments", "why_tests_cant": "All reals.", "anchors": ["include/nektar_interface/composite_interaction/line_plane_intersection.hpp: LinePlaneIntersection"]}
{"id": "C37", "title": "Near-to-element filter is conservative", "statement": "Every point of a planar boundary element (any convex combination of its vertices) passes the sphere proximity filter, so filtering never discards a true hit.", "quantifier": "all elements and all convex combinations", "why_tests_cant": "All reals.", "anchors": ["include/nektar_interface/composite_interaction/line_plane_intersection.hpp: point_near_to_geom"]}
{"id": "C38", "title": "Boundary element normals", "statement": "The computed normal of a boundary element is a unit vector orthogonal to the element's edges.", "quantifier": "all non-degenerate elements", "why_tests_cant": "All reals.", "anchors": ["src/nektar_interface/composite_interaction/composite_utility.cpp: get_normal_vector"]}
{"id": "C39", "title": "Trajectory cells are collected before intersection", "statement": "For every trajectory whose bounding box meets the boundary mesh hierarchy grid, every cell scanned by the intersection kernel has been collected beforehand, and the kernel never addresses a cell outside the grid.", "quantifier": "all trajectories and grids", "why_tests_cant": "All reals.", "anchors": ["src/nektar_interface/composite_interaction/composite_intersection.cpp: find_cells, find_intersections_2d, find_intersections_3d"]}
{"id": "C40", "title": "Nearest boundary hit is reported", "statement": "For each particle the reported intersection is a true hit at minimum distance from the previous position over all boundary elements in the scanned cells, across all element kinds, and the flag is set exactly when there is a hit.", "quantifier": "all element lists, cell lists, trajectories", "why_tests_cant": "All lists/orders and ties.", "anchors": ["src/nektar_interface/composite_interaction/composite_intersection.cpp: find_intersections_2d, find_intersections_3d"]}
{"id": "C41", "title": "Boundary groups partition the hits", "statement": "A composite belongs to at most one boundary group, and each particle with a hit appears in exactly the sub-group of its hit composite's group.", "quantifier": "all group configurations and particles", "why_tests_cant": "All configurations.", "anchors": ["src/nektar_interface/composite_interaction/composite_collections.cpp ctor", "src/nektar_interface/composite_interaction/composite_intersection.cpp: get_intersections"]}
{"id": "C42", "title": "Collecting boundary geometry is idempotent and complete", "statement": "After collecting a set of cells, every requested cell is held with all its boundary elements, previously held cells are unchanged and collecting held cells again transfers nothing.", "quantifier": "all histories of collection requests", "why_tests_cant": "All histories.", "anchors": ["src/nektar_interface/composite_interaction/composite_transport.cpp", "src/nektar_interface/composite_interaction/composite_collections.cpp: collect_cell"]}
{"id": "C43", "title": "Barycentric weights", "statement": "Evaluating at a node picks that node's value exactly; elsewhere the weights sum to one; and the interpolant reproduces every polynomial of degree below the number of points.", "quantifier": "all node sets (distinct), all evaluation points, all polynomials", "why_tests_cant": "All reals and sizes.", "anchors": ["include/nektar_interface/bary_interpolation/bary_evaluation.hpp: preprocess_weights"]}
{"id": "C44", "title": "Barycentric evaluation variants agree", "statement": "The scalar, interlaced and blocked barycentric evaluation variants in 2D and 3D all return, for every function, the tensor-product sum of weights and values.", "quantifier": "all sizes, all functions, all block lengths", "why_tests_cant": "All sizes.", "anchors": ["include/nektar_interface/bary_interpolation/bary_evaluation.hpp"]}
{"id": "C45", "title": "Linear element Newton kernels are exact", "statement": "For linear quads, hexes, prisms, pyramids and tets the residual equals X(xi)-p where X maps reference vertices to element vertices, and the step is xi - J^{-1}F with J the exact Jacobian, whenever det J is non-zero.", "quantifier": "all vertex coordinates and all xi", "why_tests_cant": "All reals.", "anchors": ["include/nektar_interface/particle_cell_mapping/generated_linear/*.hpp"]}
{"id": "C46", "title": "Newton inversion reports success only with a small residual", "statement": "The inverse map reports success only if the residual at the returned coordinates is within tolerance and the coordinates are within the element tolerance; it terminates within the iteration limit.", "quantifier": "all residual functions, start points, tolerances", "why_tests_cant": "All functions.", "anchors": ["include/nektar_interface/particle_cell_mapping/x_map_newton_kernel.hpp", "include/nektar_interface/particle_cell_mapping/x_map_newton.hpp"]}
{"id": "C47", "title": "Particle mapping binds the first containing candidate", "statement": "A particle is bound to the first candidate in lookup order whose inverse map accepts it; particles already bound are untouched; unmatched particles remain unbound; a map call on one cell fails its assertion exactly when an unbound particle remains (in 2D in that cell, in 3D in the group), and a call on all cells reports nothing.", "quantifier": "all candidate lists and particles", "why_tests_cant": "All orders.", "anchors": ["include/nektar_interface/particle_cell_mapping/map_particles_newton.hpp", "src/nektar_interface/particle_cell_mapping/map_particles_host.cpp", "src/nektar_interface/particle_cell_mapping/map_particles_2d_regular.cpp", "src/nektar_interface/particle_cell_mapping/map_particles_3d_regular.cpp"]}
{"id": "C48", "title": "Regular element inverse maps are exact", "statement": "For affine triangles, parallelogram quads and affine tets the closed form reference coordinates reproduce the physical point under the affine map.", "quantifier": "all non-degenerate elements and points", "why_tests_cant": "All reals.", "anchors": ["src/nektar_interface/particle_cell_mapping/map_particles_2d_regular.cpp", "src/nektar_interface/particle_cell_mapping/map_particles_3d_regular.cpp", "include/nektar_interface/particle_cell_mapping/particle_cell_mapping_common.hpp"]}
{"id": "C49", "title": "Newton configuration keys are honoured", "statement": "Each configuration key of the Newton mapper controls the quantity it names.", "quantifier": "all configurations", "why_tests_cant": "All configurations.", "anchors": ["include/nektar_interface/particle_cell_mapping/map_particles_newton.hpp: ctor"]}
{"id": "C50", "title": "Boris push preserves speed in a magnetic field", "statement": "With zero electric field the Boris push changes neither the speed nor the velocity component along B, for every time step; with zero B it is the plain electric kick; position advances by dt times the new velocity.", "quantifier": "all velocities, fields, charges, masses and time steps", "why_tests_cant": "All reals.", "anchors": ["solvers/Electrostatic2D3V/ParticleSystems/IntegratorBorisUniformB.hpp: boris_2"]}
{"id": "C51", "title": "Device basis kernels equal the reference basis", "statement": "For every number of modes and every coordinate, the modal basis values produced by the device kernels equal the reference implementation's, in the same order.", "quantifier": "all numbers of modes and all coordinates including collapsed vertices", "why_tests_cant": "All P, all reals.", "anchors": ["include/nektar_interface/basis_evaluation.hpp: mod_A, mod_B, mod_C, mod_PyrC", "src/nektar_interface/basis_reference.cpp"]}
{"id": "C52", "title": "Jacobi polynomial coefficients", "statement": "Evaluating with the precomputed recursion coefficients equals the Jacobi polynomial P_n^{(alpha,1)} for all n, alpha within the advertised limits, and all indices used by the kernels are within the tables.", "quantifier": "all n, alpha, z", "why_tests_cant": "Unbounded orders.", "anchors": ["src/nektar_interface/expansion_looping/jacobi_coeff_mod_basis.cpp", "include/nektar_interface/special_functions.hpp"]}
{"id": "C53", "title": "Number of modes", "statement": "The advertised total number of modes of each basis and shape equals the number of values the kernels produce and the number of dofs the loops consume.", "quantifier": "all P", "why_tests_cant": "Unbounded P.", "anchors": ["src/nektar_interface/basis_reference.cpp: get_total_num_modes", "include/nektar_interface/expansion_looping/*.hpp"]}
{"id": "C54", "title": "Field evaluation is the modal sum and projection its adjoint", "statement": "Evaluating a field at a particle equals the sum over modes of dof times basis value; projecting particle quantities adds quantity times basis value to each dof; hence the projection and evaluation are adjoint, and the projection result does not depend on the order of particles.", "quantifier": "all modes, dofs, particles, orders", "why_tests_cant": "All sizes and particle orders.", "anchors": ["include/nektar_interface/expansion_looping/*.hpp", "include/nektar_interface/function_basis_projection.hpp"]}
{"id": "C55", "title": "Reactions refer only to declared species", "statement": "If loading the REACTIONS section of a particle session succeeds, every species number in every stored reaction is the ID of a species declared in the SPECIES section; a session with a reaction naming an undeclared species is rejected.", "quantifier": "every session document (parameters, species, boundary regions, reactions) and every behaviour of the expression evaluator and the number parsers", "why_tests_cant": "Ranges over all sessions; a test checks a handful of XML files.", "anchors": ["src/nektar_interface/solver_base/particle_reader.cpp: ParticleReader::read_reactions"]}
{"id": "C56", "title": "The coarse lookup grid is always constructed", "statement": "For every non-empty set of elements with non-degenerate bounding boxes, constructing the coarse lookup map succeeds: no assertion fires (in particular the sized-up grid reaches the target number of cells 4^ndim per element), no division by zero occurs and no candidate list overflows its slot.", "quantifier": "all element sets and all dimensions", "why_tests_cant": "All meshes.", "anchors": ["include/nektar_interface/particle_cell_mapping/coarse_lookup_map.hpp: CoarseLookupMap constructor"]}
{"id": "C57", "title": "Every local mesh element is offered to the particles", "statement": "Mapping particles to cells offers every element of the mesh known to the rank (owned or halo) to the particles through exactly one of the device mappers, for every mesh and configuration; an unbound particle lying in the box of an element that accepts it is bound after the call, and the call for a given cell fails its assertion exactly if an unbound particle remains.", "quantifier": "all meshes (any mix of shapes, regular or deformed, linear or curved), configurations, particle groups and cells", "why_tests_cant": "Ranges over all meshes and particle positions.", "anchors": ["src/nektar_interface/particle_cell_mapping/map_particles_2d.cpp: MapParticles2D", "src/nektar_interface/particle_cell_mapping/map_particles_3d.cpp: MapParticles3D", "include/nektar_interface/geometry_transport/geometry_container_3d.hpp: GeometryContainer3D", "include/nektar_interface/particle_cell_mapping/map_particles_2d_regular.hpp"]}
{"id": "C58", "title": "Velocity Verlet time step", "statement": "One time step with integrator type 0 is the velocity Verlet rule for the potential gradient after the solve, whatever the gradient: P' = P + dt V + dt^2/2 a(P) with boundary conditions applied, V' = V + dt/2 (a(P)+a(P')), V_z unchanged; it is time reversible on a periodic domain. Every other type runs the Boris push.", "quantifier": "all particles, masses, charges, gradients, time steps", "why_tests_cant": "All reals and all gradients.", "anchors": ["solvers/Electrostatic2D3V/ParticleSystems/ChargedParticles.hpp: velocity_verlet_1, velocity_verlet_2", "solvers/Electrostatic2D3V/ElectrostaticTwoStream2D3V.hpp: run, integrator_1, integrator_2"]}
{"id": "C59", "title": "Charge normalisation", "statement": "Whichever of number density, charge density, charge and particle count parameters a session gives, the weighted computational particles represent number_density*volume physical particles and carry a total charge of charge_density*volume; the charge density is always set.", "quantifier": "all sessions' parameter values", "why_tests_cant": "All parameter combinations and reals.", "anchors": ["solvers/Electrostatic2D3V/ParticleSystems/ChargedParticles.hpp: constructor"]}
{"id": "C60", "title": "Neutral Poisson right hand side", "statement": "Computing the field leaves a right hand side with integral zero, equal to minus the particle weight times the projected charge less its mean, and the neutrality assertion never fails; after the call the forcing's coefficients and quadrature values describe the same function.", "quantifier": "all projected charges, meshes and weights", "why_tests_cant": "All fields.", "anchors": ["solvers/Electrostatic2D3V/ParticleSystems/PoissonParticleCoupling.hpp: add_neutralising_field, solve_equation_system, compute_field", "solvers/Electrostatic2D3V/EquationSystems/PoissonPIC.cpp: v_DoSolve"]}
{"id": "C61", "title": "Energy diagnostics", "statement": "The kinetic energy diagnostic is the sum of m V^2/2 over all particles of all ranks; field and potential energy do not depend on the undetermined additive constant of the potential, and the field energy is non-negative.", "quantifier": "all particle systems and fields", "why_tests_cant": "All systems.", "anchors": ["solvers/Electrostatic2D3V/Diagnostics/KineticEnergy.hpp", "solvers/Electrostatic2D3V/Diagnostics/FieldEnergy.hpp", "solvers/Electrostatic2D3V/Diagnostics/PotentialEnergy.hpp", "solvers/Electrostatic2D3V/Diagnostics/FieldMean.hpp"]}
{"id": "C62", "title": "Integrator selection", "statement": "The two-stream solver uses the requested integrator type, else Boris if a magnetic field component is configured, else velocity Verlet, and rejects types other than 0 and 1.", "quantifier": "all sessions", "why_tests_cant": "All parameter combinations.", "anchors": ["solvers/Electrostatic2D3V/ElectrostaticTwoStream2D3V.hpp: constructor"]}
{"id": "C63", "title": "Field projection is the L2 projection and conserves", "statement": "FieldProject::project sets each field to the L2 projection of the chosen component of the chosen particle property: tested against any function of the field's space its integral equals the sum over particles of quantity times the function at the particle (as FieldEvaluate returns it), in particular the integral of the field equals the sum of the quantity over the particles; the result does not depend on the order of the atomic adds and project_host gives the same; wrong numbers of properties/components or components out of range are rejected.", "quantifier": "all meshes, particle groups, fields, orders of atomic adds and arguments", "why_tests_cant": "All particle positions, quantities, expansions and interleavings of atomic adds.", "anchors": ["include/nektar_interface/function_projection.hpp: FieldProject::project, project_host", "include/nektar_interface/function_basis_projection.hpp", "include/nektar_interface/function_evaluation.hpp: FieldEvaluate::evaluate"]}
{"id": "C64", "title": "Parameters of species and reactions keep their scope", "statement": "After a session loads, a parameter of a species (reaction) fetched by id and name is the last definition of that name, in any capitalisation, inside the last S (R) element with that id, evaluated in the environment all previous definitions of the session left; definitions of other elements or of the general PARAMETERS are never returned; an undeclared id or name is an assertion, never undefined behaviour; integer loads return the rounded value exactly when it fits an int. A session loads exactly when all its sections are well formed.", "quantifier": "every session document, evaluator, id and name", "why_tests_cant": "Interaction of the shared expression interpreter, case folding, duplicate ids and the per element maps over all documents; tests read a few files.", "anchors": ["src/nektar_interface/solver_base/particle_reader.cpp: ParticleReader::read_particles, read_species, read_reactions, load_species_parameter, load_reaction_parameter"]}
{"id": "C65", "title": "Functions of a species are defined once per variable and domain", "statement": "A species' FUNCTION sections are accepted exactly when each has a name, every entry is an expression (E with VALUE) or a file (F with FILE, optionally file:var,.. with as many variables as the VAR list and not for '*'), and no variable and domain is defined twice in one function; after loading, the definition held for a function name (any capitalisation), variable and domain is that of the unique entry naming them in the last FUNCTION with that name, with the corresponding file variable.", "quantifier": "every list of FUNCTION elements, and every behaviour of the variable list, domain and boolean parsers", "why_tests_cant": "All combinations of VAR lists, domains and file variable maps; a test reads a few files.", "anchors": ["src/nektar_interface/solver_base/particle_reader.cpp: ParticleReader::read_species_functions"]}
{"id": "C66", "title": "Fine cells of the mesh hierarchy match the number of elements", "statement": "The subdivision order chosen for the mesh hierarchy gives a number of fine cells of the same order as the number of mesh elements over all ranks (before the user's offset), and is the least such order.", "quantifier": "all global bounding boxes, element counts and offsets", "why_tests_cant": "An asymptotic claim over all meshes; tests use a few small meshes.", "anchors": ["include/nektar_interface/particle_mesh_interface.hpp: ParticleMeshInterface::create_mesh_hierarchy"]}
{"id": "C67", "title": "Particle substeps exactly cover the fluid step", "statement": "The particle integrator called with an end time and a step makes substeps of at most that step which are positive and add up exactly to the interval, runs them in order and then sets the particle time to the end time; an end time before the current time is an assertion, the current time changes nothing, and a non-positive step never returns normally.", "quantifier": "all current times, end times and steps, fields, particle sets", "why_tests_cant": "A loop over real numbers with an unbounded number of iterations; tests use one step size.", "anchors": ["solvers/SimpleSOL/ParticleSystems/NeutralParticleSystem.hpp: NeutralParticleSystem::integrate"]}
{"id": "C68", "title": "Ionisation conserves weight, momentum along the field and energy per particle", "statement": "Ionising a neutral for dt reduces its weight w to max(0, w(1 - rate dt n)), records a density source that times dt and the density unit is exactly the weight lost, a momentum source along the magnetic field direction with the particle's parallel speed and half the square of that speed as energy; the particle is flagged for removal exactly when its weight becomes zero and nothing else of it changes; the rate (Barry's approximation of the exponential integral) is defined and positive for every positive temperature.", "quantifier": "all particles, positive temperatures, non-negative densities, steps and unit factors", "why_tests_cant": "A claim about every temperature and density: the approximation contains logarithms and quotients whose sign can change.", "anchors": ["solvers/SimpleSOL/ParticleSystems/NeutralParticleSystem.hpp: NeutralParticleSystem::ionise", "solvers/DriftReduced/ParticleSystems/NeutralParticleSystem.hpp: NeutralParticleSystem::ionise", "solvers/common/solver_utils.hpp: expint_barry_approx"]}
{"id": "C69", "title": "The mass the neutrals lose is the mass the fluid gains", "statement": "Over each fluid step the total neutral weight plus the weight of the particles added equals the weight remaining, plus the weight that left through the walls, plus timestep times the density source projected on the fluid (in SI units); hence in a periodic domain the recorded relative mass error is zero after any number of steps.", "quantifier": "all particle sets, fluid fields with positive temperature, sources, numbers of steps", "why_tests_cant": "Requires an invariant over unbounded histories of adding, moving, removing and ionising particles.", "anchors": ["solvers/SimpleSOL/ParticleSystems/NeutralParticleSystem.hpp: integrate, project_source_terms", "solvers/SimpleSOL/EquationSystems/SOLWithParticlesSystem.cpp: v_PreIntegrate", "solvers/SimpleSOL/Diagnostics/MassRecording.hpp: MassRecording"]}
{"id": "C70", "title": "Walls remove exactly the particles that left the domain", "statement": "When the density field is not fully periodic, applying the boundary conditions removes exactly the particles outside the (possibly rotated) domain along the flow, and every other particle stays.", "quantifier": "all particle positions and domain rotations", "why_tests_cant": "Every position and rotation angle; the test suite only uses the unrotated domain.", "anchors": ["solvers/SimpleSOL/ParticleSystems/NeutralParticleSystem.hpp: wall_boundary_conditions, boundary_conditions"]}
{"id": "C71", "title": "The particle source adds the configured number of identifiable particles", "statement": "A whole fluid step adds the configured total number of particles, each with a weight such that the configured number represents the configured density in the source volume and with an identifier of its own, on lines placed symmetrically about the centre of each of the one or two source regions; unit conversion factors are positive.", "quantifier": "all configured numbers, proportions, line counts, widths, densities, rotations", "why_tests_cant": "All combinations of configuration values; rounding per line depends on divisibility.", "anchors": ["solvers/SimpleSOL/ParticleSystems/NeutralParticleSystem.hpp: add_particles, set_up_particles"]}
{"id": "C72", "title": "E x B drift velocity", "statement": "For a field-aligned magnetic field the drift velocity used to advect density and vorticity is (E x B)/B^2 with E = -grad phi: (-dphi/dy, dphi/dx, 0)/B; a general E, B pair gives the cross product over |B|^2. 2D meshes and B = 0 are also handled.", "quantifier": "all potentials, magnetic field strengths, meshes, quadrature points", "why_tests_cant": "All real fields and all sessions; the out-of-bounds access in 2D is silent in release builds.", "anchors": ["solvers/DriftReduced/EquationSystems/DriftReducedSystem.cpp: calc_E_and_adv_vels, load_params"]}
{"id": "C73", "title": "Hasegawa-Wakatani right-hand sides", "statement": "For every state the time integrator passes, the 2D and 3D Hasegawa-Wakatani systems compute dn/dt = -[phi,n] + coupling - kappa dphi/dy (+ particle source) and dw/dt = -[phi,w] + coupling, with alpha(phi-n) or alpha d2/dz2(n-phi) coupling, whatever the order of the session's variables.", "quantifier": "all states, parameters, session variable orders, meshes", "why_tests_cant": "All fields and all sessions; a wrong variable index only shows with an unusual ordering.", "anchors": ["solvers/DriftReduced/EquationSystems/HW2DSystem.cpp: explicit_time_int", "solvers/DriftReduced/EquationSystems/HW3DSystem.cpp: explicit_time_int, calc_par_dyn_term", "solvers/DriftReduced/EquationSystems/HWSystem.cpp", "include/nektar_interface/solver_base/time_evolved_eqnsys_base.hpp"]}
{"id": "C74", "title": "Growth rate diagnostics are the rates of the recorded quantities", "statement": "The recorded energy and enstrophy growth rates equal the time derivatives of the recorded energy and enstrophy along the right-hand side the solver integrates.", "quantifier": "all states and parameters, all discrete calculi that integrate by parts", "why_tests_cant": "Relation between two independent computations on arbitrary fields.", "anchors": ["solvers/DriftReduced/Diagnostics/GrowthRatesRecorder.hpp: compute_energy, compute_enstrophy, compute_Gamma_a, compute_Gamma_n"]}
{"id": "C75", "title": "LAPD right-hand side", "statement": "The LAPD system computes continuity, electron and ion parallel momentum and vorticity equations; electron-ion friction conserves total parallel momentum; the density floor keeps the collision frequency finite; particle sources are added.", "quantifier": "all states, parameters and sessions", "why_tests_cant": "All real states including densities below the floor.", "anchors": ["solvers/DriftReduced/EquationSystems/LAPDSystem.cpp: explicit_time_int, add_collision_terms, add_E_par_terms, calc_collision_freqs, get_phi_solve_rhs"]}
{"id": "C76", "title": "Rogers-Ricci 2D right-hand side", "statement": "The Rogers-Ricci 2D system computes dn/dt, dT/dt, dw/dt with the sheath loss terms and the density source; a session that enables particles is rejected.", "quantifier": "all states, parameters and sessions", "why_tests_cant": "All real states and all session contents.", "anchors": ["solvers/DriftReduced/EquationSystems/RogersRicci2DSystem.cpp: explicit_time_int, v_InitObject"]}
{"id": "C77", "title": "Drift-plane (Blob2D) right-hand side", "statement": "For every state, the Blob2D system computes the drift-plane equations: density and vorticity advected by the E x B drift with upwind numerical fluxes, the diamagnetic term -(eps/B) dn/dy with eps = e T_e/R^2, and the sheath closure n phi/L; the session must list ne, w, phi in that order; the numerical flux is consistent and conservative; the parameters and their defaults are those documented.", "quantifier": "all states, potentials, face normals, parameters and sessions", "why_tests_cant": "All real fields on all meshes; sign errors only show for particular field shapes.", "anchors": ["solvers/DriftPlane/EquationSystems/DriftPlaneSystem.cpp", "solvers/DriftPlane/EquationSystems/Blob2DSystem.cpp", "solvers/DriftPlane/RiemannSolvers/DriftUpwindSolver.hpp"]}
{"id": "C78", "title": "SimpleSOL fluid right-hand side and sources", "statement": "The SimpleSOL system computes the compressible Euler flux divergence plus the Gaussian sources of the README along the (rotated) field line, plus the particle source fields exactly once, whatever the variable order; the flux is frame independent; the sources are symmetric about the middle of the line.", "quantifier": "all states, equations of state, rotation angles, source widths and sessions", "why_tests_cant": "All real states and rotations; double counting depends on the session file.", "anchors": ["solvers/SimpleSOL/EquationSystems/SOLSystem.cpp", "solvers/SimpleSOL/Forcing/SourceTerms.cpp"]}
{"id": "C79", "title": "Anisotropic diffusion solver", "statement": "For every session, the diffusion solver's tensor has the parallel conductivity along the magnetic field line and the perpendicular one across it; each time step is a backward Euler step of the heat equation with that tensor: it never increases the L2 norm of the temperature and conserves heat with insulated walls; a coupled sender/receiver pair solves with the tensor the sender computed.", "quantifier": "all parameters, angles, fields, step lengths, collection types and sequences of steps", "why_tests_cant": "Real-valued parameters, fields and unbounded numbers of steps.", "anchors": ["solvers/Diffusion/EquationSystems/DiffusionSystem.cpp", "solvers/Diffusion/EquationSystems/CwipiDiffTensorSender.cpp", "solvers/Diffusion/EquationSystems/CwipiReceiveDiffTensorAndDiffuse.cpp"]}
{"id": "C80", "title": "Particle system parameters and output schedule", "statement": "For every session, the total number of particles is the configured total, or else the number per cell times the number of elements on all ranks; the trajectory file holds exactly the steps divisible by the output frequency, in order, each once; particles are enabled exactly when a PARTICLES element names a registered system.", "quantifier": "all parameter values, numbers of ranks and elements, step counts and session files", "why_tests_cant": "Unbounded step counts, all combinations of parameters.", "anchors": ["src/nektar_interface/solver_base/partsys_base.cpp", "include/nektar_interface/solver_base/partsys_base.hpp", "include/nektar_interface/solver_base/eqnsys_base.hpp"]}
{"id": "C81", "title": "DriftReduced neutral particles: population and mass", "statement": "For every number of ranks and every sequence of steps, neutral particles are added once, with identifiers 0..N-1 each used once, carrying density times volume in total; with particle substeps the mass lost by particles equals the mass given to the fluid, so the recorded mass error is zero; the source region is centred in the domain; ranks draw from different generators.", "quantifier": "all ranks, decompositions, draws, density fields, step lengths, substep counts and histories", "why_tests_cant": "Histories and rank counts are unbounded; mass errors appear only with several substeps.", "anchors": ["solvers/DriftReduced/ParticleSystems/NeutralParticleSystem.hpp", "solvers/DriftReduced/EquationSystems/DriftReducedSystem.cpp", "solvers/DriftReduced/Diagnostics/MassRecorder.hpp"]}
{"id": "C82", "title": "Barycentric evaluation of fields and derivatives at particles", "statement": "For every field, cell numbering, set of output columns and set of particles, the barycentric evaluation writes into each requested component of each particle the value of the requested function in the particle's own element at its reference position (exactly the polynomial, when the function is one), leaves every other particle datum unchanged, gives the same result on the particle-by-particle and the blocked CPU path for any block size and memory contents, and refuses calls whose arrays do not match.", "quantifier": "all fields, elements, shapes, numbers of points, particles, outputs, block sizes, strides, memory contents", "why_tests_cant": "The set of fields, particles, block sizes and stale memory contents is unbounded; stale lanes show only for particular remainders.", "anchors": ["include/nektar_interface/function_bary_evaluation.hpp", "include/nektar_interface/function_evaluation.hpp", "include/nektar_interface/expansion_looping/geom_to_expansion_builder.hpp"]}
{"id": "C83", "title": "Implicit stage of the time integration", "statement": "For every right hand side, number of ranks, fields and points, each implicit stage hands the Newton solver the residual u - lambda f(u,t) - u_in, so that a converged solve leaves in every output field the backward-Euler stage value u = u_in + lambda f(u,t), independent of uninitialised memory and without touching anything else; and the matrix-free Jacobian-vector product is (1 - lambda f') v, exactly for a linear right hand side and in the limit of a vanishing perturbation otherwise.", "quantifier": "all right hand sides, ranks, fields, points, directions, perturbation sizes, memory contents", "why_tests_cant": "Right hand sides, directions and rank decompositions are unbounded, and the approximation statement is a limit.", "anchors": ["include/solvers/helpers/implicit_helper.hpp", "solvers/DriftReduced/EquationSystems/RogersRicci2DSystem.cpp"]}
{"id": "C84", "title": "Meaning of the DriftReduced session parameters", "statement": "For every session, each DriftReduced solver uses for every coefficient the session's value or the documented default, derives the 3D Hasegawa-Wakatani coefficients by the documented rules with the documented priority, refuses the session exactly when a coefficient is neither given nor derivable, makes the stated number of particle steps fill a fluid step, and is not affected by any other parameter.", "quantifier": "all sessions (arbitrary sets of parameters and values)", "why_tests_cant": "The set of combinations of defined and undefined parameters and of their real values is unbounded.", "anchors": ["solvers/DriftReduced/EquationSystems/DriftReducedSystem.cpp", "solvers/DriftReduced/EquationSystems/HW2DSystem.cpp", "solvers/DriftReduced/EquationSystems/HW3DSystem.cpp", "solvers/DriftReduced/EquationSystems/LAPDSystem.cpp", "solvers/DriftReduced/EquationSystems/RogersRicci2DSystem.cpp", "examples/DriftReduced/README.md"]}
{"id": "C85", "title": "Inversion of curved 3D elements", "statement": "For every curved 3D element, reference point, target and previous content of the scratch memory, the position evaluated is the tensor product Lagrange interpolant of the element's nodal values, the iteration is Newton's method on it (never influenced by the scratch memory, which is only written inside the requested size), an accepted particle has reference coordinates within the containment tolerance whose image is within tolerance of it, and maps that are polynomial in collapsed coordinates are evaluated exactly, affine ones inverted in one step.", "quantifier": "all shapes, numbers of points per direction, nodal values, targets, start points, tolerances and scratch memory contents", "why_tests_cant": "Ranges over all polynomial orders, all real nodal values and targets, and over every content of uninitialised device memory.", "anchors": ["include/nektar_interface/particle_cell_mapping/newton_generic_3d.hpp", "include/nektar_interface/particle_cell_mapping/x_map_newton_kernel.hpp", "include/nektar_interface/particle_cell_mapping/map_particles_newton.hpp"]}
{"id": "C86", "title": "Bounding boxes of 3D elements", "statement": "The box computed for a 3D element is, for every schedule of the device kernel and every content of its scratch memory, the exact range of the coordinates over a grid on the six faces of the collapsed cube, extended by the requested padding; for a linear element it is exactly the box of its vertices (plus padding) and contains every point of the element; for a curved one it contains every boundary point once the padding is at least the variation over half a grid cell.", "quantifier": "all shapes, vertices and nodal values, grid sizes, work group sizes, schedules, paddings and scratch memory contents", "why_tests_cant": "Ranges over all real vertices and interior points, all polynomial orders, all interleavings of the atomic min/max updates.", "anchors": ["include/nektar_interface/particle_cell_mapping/x_map_newton.hpp", "src/nektar_interface/particle_cell_mapping/x_map_bounding_box.cpp", "include/nektar_interface/particle_cell_mapping/newton_generic_3d.hpp"]}
{"id": "C87", "title": "3D halo exchange delivers the faces of the halo elements", "statement": "When the mesh interface of a 3D mesh is created, every rank receives, whatever the order in which messages arrive and complete, copies of exactly those elements of other ranks whose bounding box overlaps a mesh hierarchy cell it owns, with every face the element refers to, each face and element once; preparing the elements to send succeeds whenever every face an element names is held by the rank, and fails with an assertion otherwise; the neighbour ranks are the owners of the copies.", "quantifier": "all 3D meshes, claims, ownership maps, rank counts, arrival and completion orders", "why_tests_cant": "All distributed configurations and message orders.", "anchors": ["include/nektar_interface/particle_mesh_interface.hpp", "src/nektar_interface/geometry_transport/geometry_transport_3d.cpp", "src/nektar_interface/geometry_transport/halo_extension.cpp"]}
{"id": "C88", "title": "Consecutive exchanges on one tag do not mix", "statement": "The mesh interface runs several exchanges one after the other on one communicator, receiving sizes from any source with one tag. Under every interleaving of the ranks a receive of one exchange is never matched by a message of another one; a rank that passed the wait of an exchange has received from exactly the ranks that send to it in that exchange, each once; no state is stuck, also when sends are not buffered; no execution is infinite within finitely many exchanges.", "quantifier": "all rank counts, send lists of every exchange, numbers of exchanges in a row, interleavings, message matchings", "why_tests_cant": "Only a few interleavings are ever seen on a test machine.", "anchors": ["include/nektar_interface/particle_mesh_interface.hpp: exchange_init_send_counts, exchange_finalise_send_counts, exchange_get_recv_ranks"]}
{"id": "C89", "title": "HDF5 diagnostics writer stores what it is given", "statement": "After any interleaving of global writes with complete step blocks, the file holds under every step number exactly the values written in that block, in order, and the first value written under every global key; steps given without a number are numbered from the last one on; HDF5 errors never stop the program although every status is passed to a check; values written between two steps or under a key already used are lost without notice; writing a step value before any step is started is undefined behaviour.", "quantifier": "all histories of calls, keys, values, step numbers", "why_tests_cant": "The histories are unbounded and failures of the library cannot be provoked in a unit test.", "anchors": ["include/io/generic_hdf5_writer.hpp"]}
{"id": "C90", "title": "Electrostatic2D3V main loop writes every output at its steps", "statement": "A run of N steps advances the state exactly N times; energies, particle frames, fields, line evaluations and console lines appear exactly at the steps that are multiples of their frequencies, taken from the state after that step; the energies file of rank 0 is closed and holds the global values; every callback is called once per step with the state after it; calls that need every rank are made by all ranks in the same order; missing required parameters throw; the evaluation points are the cell centres of an nx by ny grid. Console lines between energy steps print the energies of an earlier step.", "quantifier": "all numbers of steps, frequencies, ranks, numbers of callbacks, parameter sets, states and evolution functions", "why_tests_cant": "Every combination of output frequencies and step counts, and every rank count.", "anchors": ["solvers/Electrostatic2D3V/ElectrostaticTwoStream2D3V.hpp", "solvers/Electrostatic2D3V/ElectrostaticElectronBernsteinWaves2D3V.hpp", "solvers/Electrostatic2D3V/Diagnostics/LineFieldEvaluations.hpp"]}
{"id": "C91", "title": "Halo extension on 3D meshes", "statement": "extend_halos_fixed_offset on a 3D mesh, called collectively on a consistent distributed mesh, completes under every message order without deadlock, truncation, failed look-up or overflow; every rank then holds exactly the 3D elements it held before plus those known to the owner of one of its halo cells and overlapping that cell, each once and rebuilt with the shape and the faces of the original, together with exactly the faces of these elements it did not hold; if cell owners know all elements overlapping their cells, as the constructor establishes, the halo is complete; repeated extensions never duplicate or drop a copy. The map of all 3D elements of a graph merges the four shape maps.", "quantifier": "all meshes, numbers of ranks, cell owners, widths, periodicity flags, message arrival and completion orders, sequences of calls", "why_tests_cant": "Meshes, rank counts and message interleavings are unbounded.", "anchors": ["src/nektar_interface/geometry_transport/halo_extension.cpp", "include/nektar_interface/geometry_transport/halo_extension.hpp", "src/nektar_interface/geometry_transport/geometry_transport_3d.cpp:get_all_elements_3d"]}
{"id": "C92", "title": "Curved hexahedron from coordinate maps", "statement": "make_hex_geom(num_modes, X, Y, Z) builds a hexahedron whose eight vertices are the images of the corners of the reference cube, whose twelve edges join the right vertices and carry the images of evenly spaced points of the reference edge (first and last control point coincide with the vertices), whose faces are bounded by the four edges that lie in the reference face, consecutive ones sharing a vertex, and whose face control points are the images of an evenly spaced grid of the reference face that contains the control points of the four edges; all points and curves are numbered without a gap or repetition. Refuted for the front and left face: their vertex tables are wrong and control points are images of points outside the face (up to (3,-1,1)); and the control points of a face are listed with its first direction slowest, not fastest as the comment says.", "quantifier": "all coordinate maps, all numbers of modes from 2", "why_tests_cant": "Maps and numbers of modes are unbounded.", "anchors": ["include/nektar_interface/utility_mesh.hpp:make_hex_geom"]}
{"id": "C93", "title": "VTK files of the mesh", "statement": "VTKGeometryWriter writes, for every sequence of pushed elements, a well formed legacy VTK file in which a reader finds every edge of the elements exactly once with its end points at the right place, every element of a plane mesh in the order of pushing with its shape and its corners, no other point, the rank of the writer on every cell, and, in a file with plane elements only, the property of the latest push of each element; writing fails exactly if an edge does not have two ends or a plane element has no known shape. Files of different ranks or names are different files, and the plotting tool never writes one file twice. Refuted: the owner of a 3D halo element is not in the file, and with plane and solid elements in one file a plane element can show the property of another element.", "quantifier": "all elements, sequences of pushes, properties, ranks and file names", "why_tests_cant": "Sequences of pushes and meshes are unbounded.", "anchors": ["include/nektar_interface/utility_mesh_plotting.hpp:VTKGeometryWriter, write_vtk_cells_owned, write_vtk_cells_halo", "tools/MeshPlotting/MeshPlotting.cpp", "tools/MeshPlotting/MeshPlottingInner.cpp"]}
{"id": "C94", "title": "Field helpers: interpolation, evaluation, cells to expansions, errors", "statement": "interpolate_onto_nektar_field stores the transformed samples of the function as coefficients and the values they represent as point values, whatever the field held before, and changes nothing else; interpolating a function that agrees with the field leaves the field as it is. Evaluation and derivatives at a point use the values of the element the search finds (or of the given element) and no others, so for a function the discretisation represents the helpers return the function and its derivative at every point of the mesh, by search, by element or by reference coordinates. NESOCellsToNektarExp maps every cell to the last expansion on its geometry, fails exactly if a cell has none, and together with the cell id translation gives a particle the expansion of the element it is in. minimum_absrel_error is the absolute error divided by max(1, |correct|). Refuted: for a point outside the mesh the search reports -1 and the helpers read outside their arrays.", "quantifier": "all functions, fields, points, elements, meshes, numbers", "why_tests_cant": "Functions, fields and points are unbounded.", "anchors": ["include/nektar_interface/utilities.hpp:interpolate_onto_nektar_field_2d, interpolate_onto_nektar_field_3d, evaluate_scalar_2d, evaluate_scalar_3d, evaluate_scalar_derivative_2d, evaluate_scalar_derivative_3d, evaluate_scalar_derivative_local_3d, NESOCellsToNektarExp", "include/nektar_interface/special_functions.hpp:relative_error, absolute_error, minimum_absrel_error"]}
{"id": "C95", "title": "Boundary data given to particles", "statement": "pre_integration records, for exactly the particles it is called for, their current position; at any later time the previous position of a particle is its position at the latest call that covered it. get_intersections returns one group per label with exactly the particles of the iteration set whose trajectory has a hit of that group; each carries its own intersection point, the label, the global id of the element hit and a unit normal of that element, for every order in which the device processes particles and whatever the recycled buffers contained; without a call of pre_integration it stops. The options of the intersection are the values set or the documented defaults. Refuted: NektarCompositeTruncatedReflection ignores the intersection options in its configuration, and num_modes_factor cannot be given as an integer.", "quantifier": "all histories of calls and moves, particles, iteration sets, device orders, buffer contents, collected meshes, options", "why_tests_cant": "Histories, device orders and stale buffer contents are unbounded.", "anchors": ["src/nektar_interface/composite_interaction/composite_intersection.cpp:pre_integration, get_intersections, find_intersections_2d, find_intersections_3d", "src/nektar_interface/composite_interaction/composite_collections.cpp:collect_cell, get_device_normal_mapper", "include/nektar_interface/composite_interaction/composite_collections.hpp:NormalMapper", "src/nektar_interface/particle_boundary_conditions.cpp:NektarCompositeTruncatedReflection"]}
{"id": "C96", "title": "A point of the local sub-domain", "statement": "get_point_in_subdomain writes the coordinates of a point of an element owned by this rank. On straight-sided elements of any of the six shapes, convex or not, it is the average of the vertices, which is always interior, so the fall back to a vertex is never needed; on curved elements the fall back cannot fail. The call stops exactly when the mesh is not 2D or 3D or the rank owns no element of that dimension. Refuted for a surface mesh in 3D space, where the third coordinate is dropped.", "quantifier": "all local meshes, element shapes, vertex positions and element maps", "why_tests_cant": "Element geometries are unbounded reals.", "anchors": ["include/nektar_interface/particle_mesh_interface.hpp:get_point_in_subdomain", "src/nektar_interface/geometry_transport/geometry_transport_2d.cpp:get_element_2d", "src/nektar_interface/geometry_transport/geometry_transport_3d.cpp:get_element_3d", "src/nektar_interface/composite_interaction/composite_utility.cpp:get_vertex_average"]}
{"id": "C97", "title": "Device launches of field evaluation and projection", "statement": "When fields are evaluated at, or projected from, particles on the device: every particle of every cell is handled by exactly one work item, for every local size; all work-group local memory accesses are in bounds; and at every moment of every concurrent execution of a work-group, whatever the local memory held before, an item that has prepared its bases obtains the value (or the additions) of its own particle: items cannot disturb each other. Refuted for one mode per direction: the kernel writes two values in a space for one, past the end of the local memory.", "quantifier": "all meshes, expansions, particle counts, local sizes, interleavings of work items, initial memory", "why_tests_cant": "Interleavings of concurrent work items cannot be enumerated by tests.", "anchors": ["include/nektar_interface/function_basis_evaluation.hpp:evaluate_inner", "include/nektar_interface/function_basis_projection.hpp:project_inner", "include/nektar_interface/expansion_looping/basis_evaluate_base.hpp:get_loop_data, sum_max_modes, prepare_per_dim_basis", "include/nektar_interface/utility_sycl.hpp:get_particle_loop_global_size"]}
{"id": "C98", "title": "No particle in the mesh is lost", "statement": "On every distributed mesh and for every order in which the messages of the halo exchange arrive: a particle strictly inside an affine element, wherever that element lives, lies in a mesh hierarchy cell, every such cell has an owning rank, and on that rank the particle to cell mapping (2D and 3D) gives the particle an element of the mesh that accepts its position, the rank owning that element and the accepted reference coordinates; on that rank translating the element id gives a valid local cell, the cell of that element. More generally, after the construction of the mesh interface a mapping call leaves every particle that has a rank alone, gives any other particle only elements of the mesh that accept it, and gives one to every particle in the box of an element (of any rank) whose first inversion attempt accepts it, in a hierarchy cell of this rank; in 2D deformed triangles are excepted, which no mapper covers (C57).", "quantifier": "all distributed meshes, message orders, particle groups, positions, tolerances", "why_tests_cant": "The chain crosses claims, exchange, mapping and translation on all ranks; tests exercise fixed meshes and few particles.", "anchors": ["src/nektar_interface/particle_cell_mapping/nektar_graph_local_mapper.cpp:NektarGraphLocalMapper::map, particle_group_callback", "src/nektar_interface/particle_cell_mapping/map_particles_3d.cpp", "src/nektar_interface/particle_cell_mapping/map_particles_2d.cpp", "include/nektar_interface/cell_id_translation.hpp:CellIDTranslation", "src/nektar_interface/particle_mesh_interface.cpp:ParticleMeshInterface"]}
{"id": "C99", "title": "A field evaluated at a mapped particle has the field's value at the particle's position", "statement": "Building an evaluator for a field (one expansion per element of the rank, element ids equal to positions, equal numbers of modes in all directions) succeeds, gives every local cell the expansion of its own element and its number of modes, and refuses fields that violate the last two conditions. evaluate, on a particle group or a sub group, in every order in which work items or particles are processed, writes to the given component of each particle of the call the value of the field at the particle's reference position and changes nothing else. For particles placed by the particle to cell mapping, that value is f(position) exactly if the field represents the function f and the elements are inverted in closed form, and otherwise within the Newton tolerance (per direction, unscaled) times f's rate of change; particles at a collapsed vertex, edge or pyramid apex are excepted. Two-mode fields with the values of an affine function at the vertices represent that function. The evaluator does not notice an element without expansion, nor an output component out of range.", "quantifier": "all fields, meshes, groups, sub groups, processing orders, local sizes, positions and component numbers", "why_tests_cant": "The statement composes geometry inversion, translation of cell ids, expansion lookup and evaluation kernels over all meshes and fields; tests check a few fields at random points to a tolerance.", "anchors": ["include/nektar_interface/expansion_looping/basis_evaluate_base.hpp:BasisEvaluateBase", "include/nektar_interface/expansion_looping/geom_to_expansion_builder.hpp:build_geom_to_expansion_map", "include/nektar_interface/function_basis_evaluation.hpp:FunctionEvaluateBasis::evaluate", "include/nektar_interface/function_evaluation.hpp:FieldEvaluate::evaluate"]}
{"id": "C100", "title": "Curved elements can be mapped by many work items at once: local memory is never shared or overrun", "statement": "The mapper of curved 3D elements can be built for every mesh of well formed elements: the data of an element is found at the index the coarse lookup gives it, and the local memory block of a work item has exactly the size of the largest request of any element, local or remote. In every interleaving of the accesses of the work items of a group to their local memory, whatever that memory held before, every item that finishes has the same result as the pass (first guess, or grid of starts) run on its particle alone: the particle is bound to the first candidate whose map accepts it, at reference coordinates that map back to its position within the scaled tolerance, or is left unbound if none accepts. No memory beyond the blocks of the group is written, the group cannot run for ever and can always be run to its end.", "quantifier": "all meshes of curved elements with any numbers of points, all configurations, group sizes, particle positions, initial memory contents and interleavings", "why_tests_cant": "A race in local memory shows only in particular interleavings and for particular mixtures of element orders; tests run one schedule of one device.", "anchors": ["include/nektar_interface/particle_cell_mapping/map_particles_newton.hpp:MapParticlesNewton", "include/nektar_interface/particle_cell_mapping/newton_generic_3d.hpp:MappingGeneric3D", "include/nektar_interface/particle_cell_mapping/x_map_newton_kernel.hpp:XMapNewtonKernel::x_inverse"]}
{"id": "C101", "title": "Projecting particle data deposits each particle once, at its own position", "statement": "FieldProject can be made with any non empty vector of fields that agree in sizes, elements, numbers of modes and basis types, and refuses others; fields that agree store their coefficients the same way. Projecting a particle group or sub group, whatever the order of the atomic adds, gives each field the L2 projection of the quantity: the integral of the field times any function of its space is the sum over exactly the particles of the call of quantity times the function at the particle. For particles placed by the mapper of a distributed mesh, and functions of the space that are a function f of the position, the value is f at the particle's own position -- exactly where all elements have closed form inverses, within Newton tolerance times rate of change otherwise; affine functions are in the space at every order, so totals and first moments are conserved. (A group with fewer components than the one the object was made with is read out of bounds.)", "quantifier": "all fields, meshes, distributions of particles, sub groups, schedules of the atomic adds, numbers of modes and functions", "why_tests_cant": "Correct deposits of a few particles on a few meshes say nothing about other schedules, element mixtures, sub groups or orders, and a missed or doubled particle changes totals by little.", "anchors": ["include/nektar_interface/function_projection.hpp:FieldProject::FieldProject", "include/nektar_interface/function_projection.hpp:FieldProject::project", "include/nektar_interface/function_basis_projection.hpp:FunctionProjectBasis::project_inner"]}
{"id": "C102", "title": "Periodic boundaries in double precision", "statement": "For a domain and positions that are doubles of reasonable magnitude (and either a domain at least one unit long or a particle at most two lengths below it), NektarPeriodicBoundary::execute in IEEE double arithmetic, with or without fused multiply-add, leaves every coordinate in the closed domain, a whole number of periods from where it was up to a stated number of roundings, and a particle that is not within rounding of a face stays where it was up to rounding. Exactness fails in the ways rounding permits: a wrapped coordinate can be the upper end itself, an interior coordinate can move by a rounding, and for domains much shorter than one unit a far particle is left outside.", "quantifier": "all domains, positions, dimensions in the stated magnitudes, and both compilations of a*b+c", "why_tests_cant": "Rounding failures sit on a few floating point values that random positions never hit.", "anchors": ["src/nektar_interface/particle_boundary_conditions.cpp:NektarPeriodicBoundary::execute"]}
{"id": "C103", "title": "R-sequence samples in double precision", "statement": "rsequence_within_extents in IEEE double arithmetic (with or without fused multiply-add) gives, for up to 2^31 samples in up to ten dimensions, any non negative seed and any extents that are doubles not below 2^-1021, samples that are doubles in the half open interval [0, extent) and that differ from the additive recurrence modulo one by at most 8 roundings of its arguments. (For a subnormal extent a sample can equal the extent.)", "quantifier": "all sample counts up to 2^31, dimensions, seeds, extents and both compilations of a*b+c", "why_tests_cant": "The half open bound is violated, if at all, for isolated values of the sequence.", "anchors": ["include/particle_utility/position_distribution.hpp:rsequence_within_extents", "include/particle_utility/position_distribution.hpp:rsequence"]}
{"id": "C104", "title": "Atomic deposits in double precision", "statement": "The coefficients accumulated by the atomic adds of a projection kernel, in whatever order they happen, differ from the exact sums of the contributions by at most ((1+2^-53)^n - 1) times the sum of their magnitudes, n the number of contributions to the coefficient; hence two runs differ by at most twice that, the error is at most 2n roundings, and contributions that are whole multiples of a common power of two are summed exactly in every order. Without such a condition the result does depend on the order.", "quantifier": "all lists of contributions, numbers of coefficients and orders of the atomic operations without overflow", "why_tests_cant": "Non associativity shows up for particular values and schedules only, and schedules cannot be controlled on a GPU.", "anchors": ["include/nektar_interface/function_basis_projection.hpp:FunctionProjectBasis::project_inner"]}
{"id": "C105", "title": "Coarse lookup in double precision", "statement": "For a mesh whose coordinates are at most 2^24 in magnitude with cells at least 2^10 roundings wide, host and kernel compute the same overlay cell for every double in the mesh's bounding box (in range, and containing the point up to 16 roundings), the construction of the lookup succeeds for every element, the cell of a particle in an element's closed bounding box is one of the cells visited for that element, and a particle at least 16 roundings from the faces of the element's bounding box finds the element in the candidate list of its cell. With coordinates of order 10^8 the absolute tolerance of the construction's assertion can fail for the mesh's own upper end, and a particle 2^31 cells away makes the conversion to int undefined.", "quantifier": "all bounding boxes, numbers of cells, elements, particles in one to three dimensions and both compilations of a*b+c", "why_tests_cant": "A candidate lost by rounding concerns particles within rounding of cell faces of particular meshes.", "anchors": ["include/nektar_interface/utility_mesh_cartesian.hpp:DeviceCartesianMesh::get_cell_in_dimension", "include/nektar_interface/utility_mesh_cartesian.hpp:DeviceCartesianMesh::get_bounding_box", "include/nektar_interface/particle_cell_mapping/coarse_lookup_map.hpp:CoarseLookupMap::add_geom_to_map", "include/nektar_interface/particle_cell_mapping/map_particles_newton.hpp:MapParticlesNewton"]}
{"id": "C106", "title": "Initial particles of the Electrostatic2D3V solver", "statement": "Constructing ChargedParticles creates the requested number of particles (num_particles_total, or elements times particles per cell), whatever the number of ranks: identifiers 0..N-1 each once, cell ids valid on the creating rank, zero field, and masses, charges and velocities as the chosen distribution prescribes. For distributions 2 to 5 every particle starts in the half open domain; distribution 1 makes two opposite beams around one and three quarters of the height (inside the domain when it is at least 1/50 high); distribution 0 fills the lower left quarter of a domain with its corner at the origin. With the Sobol positions and a seed in the session the particle with a given identifier starts at the same place for every number of ranks (distribution 1: same x). These fail where the code does not provide them: distribution 0 on a domain away from the origin and distribution 1 on a flat one start outside the domain, distribution 4 ignores the Sobol points so that positions depend on the number of ranks, and without a session seed particles of different ranks can coincide. The non thermal part of distribution 4 has speed 4 v^2, not 4 v.", "quantifier": "all session parameters, domains, numbers of ranks, decompositions and generator outputs", "why_tests_cant": "Runs use a few rank counts and domains with the corner at the origin; duplicates or missing particles among many are invisible in averages.", "anchors": ["solvers/Electrostatic2D3V/ParticleSystems/ChargedParticles.hpp:ChargedParticles::add_particles", "solvers/Electrostatic2D3V/ParticleSystems/ChargedParticles.hpp:ChargedParticles::ChargedParticles", "include/particle_utility/position_distribution.hpp:sobol_within_extents"]}
{"id": "C107", "title": "Particle sub-stepping in double precision", "statement": "With num_particle_steps_per_fluid_step = k, every fluid step of SimpleSOL and DriftReduced integrates the particles to exactly the fluid's new time (no call asks them to go back) in substeps of at most timestep/k, and as long as the substep is long compared with the rounding of the time (8 k^2 roundings of the time at most one step) the number of substeps is k or k+1, all but the last two of length timestep/k, an extra one being no longer than 4k roundings of the time; together they last one fluid step up to 6k roundings, and the run's time stays within one rounding per step of t0 + n timestep. For k = 1 there is exactly one substep, for any time at least one step (or zero). The extra substep occurs (t = 1, timestep 1, k = 3: a fourth substep of length 2^-52, in which sources with a rate per call act once more), and with a particle step below the rounding of the time the loop never ends.", "quantifier": "all times, step lengths, numbers of substeps and numbers of fluid steps in double precision", "why_tests_cant": "The extra substep needs a particular pattern of roundings and is invisible in the positions; the stall needs long times.", "anchors": ["solvers/SimpleSOL/ParticleSystems/NeutralParticleSystem.hpp:NeutralParticleSystem::integrate", "solvers/DriftReduced/ParticleSystems/NeutralParticleSystem.hpp:NeutralParticleSystem::integrate", "solvers/SimpleSOL/EquationSystems/SOLWithParticlesSystem.cpp:SOLWithParticlesSystem::v_PreIntegrate", "solvers/DriftReduced/EquationSystems/DriftReducedSystem.cpp:DriftReducedSystem::v_PreIntegrate"]}
{"id": "C108", "title": "Newton residuals in double precision", "statement": "For linear quadrilaterals, tetrahedra, prisms and hexahedra (and quadrilaterals and triangles embedded in space) with vertices and a point that are doubles of magnitude at most M, and reference coordinates at most 1/128 outside the reference cube, the residual vector the kernels compute in IEEE double arithmetic, however the compiler contracts products into fused multiply-adds, differs from X(xi) - p by at most 36, 42, 58, 102 (42, 31) times 2^-53 M in every component. Hence a particle accepted with tolerance tol really lies within tol of X(xi) in the scaled measure up to rounding, and one whose exact scaled residual is below tol by more than rounding is accepted. The residual is not exact: it can be non zero where X(xi) = p.", "quantifier": "all vertices, points, reference coordinates, scalings, tolerances and contraction choices of the compiler", "why_tests_cant": "Rounding errors depend on the values and on the compiler; a test sees a few of either.", "anchors": ["include/nektar_interface/particle_cell_mapping/generated_linear/hexahedron.hpp:newton_f_linear_3d", "include/nektar_interface/particle_cell_mapping/generated_linear/quadrilateral.hpp:newton_f_linear_2d", "include/nektar_interface/particle_cell_mapping/newton_relative_exit_tolerances.hpp:get_relative_error_3d", "include/nektar_interface/particle_cell_mapping/newton_triangle_embed_3d.hpp:newton_residual_v"]}
{"id": "C109", "title": "Boris push in double precision", "statement": "In IEEE double arithmetic, however the compiler contracts products into fused multiply-adds, one push of a particle whose inputs are ordinary (zero or between 2^-200 and 2^200) and whose rotation vector has components at most 1 does not overflow, and gives the velocity that solves the time-centred Lorentz force equation up to 1300 * 2^-53 of the largest of the velocity components and half-step electric kicks, and the position P + dt V' up to 1400 * 2^-53 (|P| + |dt| scale). Without electric field the square of the speed changes by at most 4600 * 2^-53 relative per push and at most 9200 n * 2^-53 over n pushes (n up to about 10^11), whatever the boundary conditions do to the position. It is not exactly conserved.", "quantifier": "all particles, fields, steps, contraction choices of the compiler, numbers of pushes", "why_tests_cant": "Rounding errors depend on the values and the compiler and accumulate over the run; tests look at a few steps with a tolerance.", "anchors": ["solvers/Electrostatic2D3V/ParticleSystems/IntegratorBorisUniformB.hpp:boris_2"]}
{"id": "C110", "title": "Ionisation in double precision", "statement": "In IEEE double arithmetic, however the compiler contracts the last product of the weight loss into the two additions that use it, ionising a particle of non-negative weight with non-negative rate, density and step never makes the weight negative or larger, sets it to exactly zero whenever the particle is marked for removal, leaves an unmarked particle a positive weight if both additions are compiled alike, and leaves a non-negative density source which stands for the weight lost up to 8 * 2^-53 of the weight (plus 2^-900) per call; over any number of calls the deposited source plus the remaining weight equals the initial weight up to that error per call. Nothing overflows for inputs up to 2^200. Exact conservation fails: a weight of 1 that should lose 2^-60 per call stays 1 for ever while each call deposits a source; and if only the test is contracted an unmarked particle can be left with weight zero.", "quantifier": "all weights, rates, densities, steps, density units between 2^-70 and 2^70, contraction choices, numbers of calls", "why_tests_cant": "Depends on rounding of each value and on the compiler's contraction; drift over a long run is invisible in a short test.", "anchors": ["solvers/SimpleSOL/ParticleSystems/NeutralParticleSystem.hpp:ionise", "solvers/DriftReduced/ParticleSystems/NeutralParticleSystem.hpp:ionise"]}
{"id": "C111", "title": "Energy and mass diagnostics in double precision", "statement": "In IEEE double arithmetic, for every order and grouping in which the ranks and their threads add the particles' contributions (every binary tree of additions of height h up to 2^50; adding one by one on each rank and then rank by rank has height at most the largest number of particles of a rank plus the number of ranks): a sum does not overflow when the magnitudes add up to at most 2^1000 and is exact up to ((1+2^-53)^h - 1) times the sum of the magnitudes, so two runs with different schedules agree up to 2 (h + h') 2^-53 of it; the reported kinetic energy is never negative, is zero exactly when all particles are at rest, and is the sum of m v^2 / 2 up to a relative error of h + 6 roundings; the reported potential energy is right up to h + 3 roundings of the sum of the magnitudes; the reported mass error differs from the true relative imbalance by at most 8 (h + 4) 2^-53 (1 + mass/expected), so a perfectly balanced run reports at most 16 (h + 4) 2^-53. The results do depend on the order, and a perfectly balanced run need not report zero.", "quantifier": "all particle velocities, charges, potentials, weights, numbers of particles and ranks, addition orders, contraction choices", "why_tests_cant": "The order of atomic additions and of the MPI reduction changes from run to run and with the number of ranks; a test sees one order and compares with a tolerance.", "anchors": ["solvers/Electrostatic2D3V/Diagnostics/KineticEnergy.hpp:compute", "solvers/Electrostatic2D3V/Diagnostics/PotentialEnergy.hpp:compute", "solvers/SimpleSOL/Diagnostics/MassRecording.hpp:compute", "solvers/DriftReduced/Diagnostics/MassRecorder.hpp:compute"]}
{"id": "C112", "title": "Collapsed coordinates in double precision", "statement": "In IEEE double arithmetic, for every reference coordinate that is a double inside its reference element: mapping to collapsed coordinates never overflows or divides by zero and lands exactly inside the cube [-1,1]^d; mapping back returns the start within 64 roundings, or within the guard tolerance 2e-12 next to a collapsed edge or vertex; this for the two 2D and four 3D shapes, whether or not the compiler fuses multiply-adds. The dispatch by shape number that the kernels use is always defined, agrees with the per-shape mapping in 2D and within 10 roundings in 3D, lands in the cube when not fused and at most one machine epsilon above it when fused; so the clamp with its default tolerance never moves the coordinate of a particle inside its element. The clamp's result is within the tolerance, is left alone by a second clamp, and differs from its argument only when that lies outside the tolerance. With fused multiply-adds the dispatch does leave the cube: a prism point is given whose first collapsed coordinate is 1 + 2^-52.", "quantifier": "all shapes, all doubles of the reference elements including the collapsed edges, all contraction choices, all tolerances from epsilon to 1", "why_tests_cant": "Points that round across the boundary are one in 10^16; the claim is about every double, including those next to the singular vertex.", "anchors": ["include/nektar_interface/coordinate_mapping.hpp:loc_coord_to_loc_collapsed", "include/nektar_interface/coordinate_mapping.hpp:loc_collapsed_to_loc_coord", "include/nektar_interface/coordinate_mapping.hpp:loc_coord_to_loc_collapsed_3d", "include/nektar_interface/coordinate_mapping.hpp:loc_coord_to_loc_collapsed_2d", "include/nektar_interface/coordinate_mapping.hpp:clamp_loc_coord"]}
{"id": "C113", "title": "Barycentric interpolation in double precision", "statement": "In IEEE double arithmetic: for every evaluation point in the reference cell that is on a node or at least 2^-100 away from every node (which every double is, unless both it and the node are below 2^-40 in size), the interpolation weights are computed without overflow, exactly (0 and 1) on a node, and otherwise with relative error at most 2(8n+24)L 2^-53 where L is the sum of the absolute values of the exact weights; every lane of the vectorised version computes the same. The computed weights sum to one within that bound times L. The value of the field at a point, for a segment, a quadrilateral or triangle (scalar and interlaced) and the 3D shapes (scalar, interlaced and one lane of the block version), fused or not, is computed without overflow and differs from the exact interpolant by at most twice the error times the sum of |weight||nodal value|; so a constant field is reproduced within that, and at a node the value returned is exactly the nodal value. Not so next to a node that is exactly 0: for a point 2^-1030 away from it every weight is NaN.", "quantifier": "all numbers of quadrature points whose error bound is below one half, all nodes, weights, points, nodal values within the double range stated, all fusing choices", "why_tests_cant": "The worst case is the point closest to a node, where the ratio of nearly cancelling terms is largest; testing cannot enumerate doubles.", "anchors": ["include/nektar_interface/bary_interpolation/bary_evaluation.hpp:preprocess_weights", "include/nektar_interface/bary_interpolation/bary_evaluation.hpp:preprocess_weights_block", "include/nektar_interface/bary_interpolation/bary_evaluation.hpp:compute_dir_0", "include/nektar_interface/bary_interpolation/bary_evaluation.hpp:compute_dir_10", "include/nektar_interface/bary_interpolation/bary_evaluation.hpp:compute_dir_10_interlaced", "include/nektar_interface/bary_interpolation/bary_evaluation.hpp:compute_dir_210", "include/nektar_interface/bary_interpolation/bary_evaluation.hpp:compute_dir_210_interlaced", "include/nektar_interface/bary_interpolation/bary_evaluation.hpp:compute_dir_210_interlaced_block", "include/nektar_interface/bary_interpolation/function_bary_evaluation.hpp:BaryEvaluateBase"]}
{"id": "C114", "title": "Modal basis in double precision", "statement": "In IEEE double arithmetic, for every coordinate double in [-1,1], any contraction of products and sums, and up to 64 modes with a table large enough: the Jacobi polynomial of every order and weight, evaluated with the precomputed recurrence coefficients, is computed without overflow and differs from the exact polynomial by at most 28 n 2^-53 times its size, where the size (the recurrence at the end point with positive coefficients) bounds the polynomial and lies between 1 and (2 alpha + 4)^n. The modes of the one-dimensional (mod_A) kernel on the whole interval, and of the collapsed triangle and tetrahedron kernels (mod_B, mod_C) on every double below 1 however close, are all computed without overflow, in the order of the exact modes, each within (28P+64) 2^-53 times its size. So are those of the pyramid kernel (mod_PyrC) with 2 to 32 modes and a table up to the weight 4P-7, each within (56P+64) 2^-53 times its size. At -1 and 1 the one-dimensional kernel gives exactly 1 for that end's mode and exactly 0 for every other. Not so at the collapsed end itself: at exactly 1 the first mode of the second row of mod_B is not finite, although its exact value is 0.", "quantifier": "all coordinates that are doubles in [-1,1], all orders up to 64 modes, all weights up to 510, all table sizes, all fusing choices", "why_tests_cant": "The recurrence amplifies rounding with the order, and the worst coordinates are next to the collapsed end; tests cannot enumerate doubles.", "anchors": ["include/nektar_interface/basis_evaluation.hpp:mod_A", "include/nektar_interface/basis_evaluation.hpp:mod_B", "include/nektar_interface/basis_evaluation.hpp:mod_C", "include/nektar_interface/basis_evaluation.hpp:mod_PyrC", "src/nektar_interface/expansion_looping/jacobi_coeff_mod_basis.cpp:JacobiCoeffModBasis", "src/nektar_interface/expansion_looping/jacobi_coeff_mod_basis.cpp:host_evaluate"]}
{"id": "C115", "title": "Value of a continuous field at a particle in double precision", "statement": "In IEEE double arithmetic, for 2 to 32 modes in each direction, every collapsed coordinate that is a double in [-1,1] (and below 1 in the collapsed directions, however close), every array of coefficients each 0 or of magnitude 2^-200 to 2^200, and any contraction of products and sums: evaluating the field at the particle over the modes of a quadrilateral, triangle, hexahedron, prism or tetrahedron finishes without overflow, and the result differs from the exact sum of coefficient times exact mode by at most (168P + 8n + 400) 2^-53 times the sum over the n modes of |coefficient| times the size of the mode (a fixed table that depends only on the mode). The bound holds for the local modes computed by the basis kernels and also for any others that are as close. In a quadrilateral, triangle or hexahedron a local mode of the last direction (in a quadrilateral or hexahedron, of any direction) that is not finite is never hidden: the value is then not finite. At the collapsed end itself, therefore, a triangle has no value, whatever the coefficients.", "quantifier": "all coordinates, all coefficients, all orders 2 to 32, all table sizes large enough, all fusing choices, five element shapes", "why_tests_cant": "The error accumulates over up to 32768 terms whose factors have rounding errors of their own; tests compare with a tolerance at a few points.", "anchors": ["include/nektar_interface/expansion_looping/quadrilateral.hpp:loop_evaluate_v", "include/nektar_interface/expansion_looping/triangle.hpp:loop_evaluate_v", "include/nektar_interface/expansion_looping/hexahedron.hpp:loop_evaluate_v", "include/nektar_interface/expansion_looping/prism.hpp:loop_evaluate_v", "include/nektar_interface/expansion_looping/tetrahedron.hpp:loop_evaluate_v", "include/nektar_interface/function_basis_evaluation.hpp:evaluate_inner"]}
{"id": "C116", "title": "Deposition onto a continuous field in double precision", "statement": "In IEEE double arithmetic, for 2 to 32 modes in each direction, every collapsed coordinate that is a double in [-1,1] (and below 1 in the collapsed directions, however close) and every particle value that is 0 or of magnitude 2^-200 to 2^200: depositing a particle in a quadrilateral, triangle, hexahedron, prism or tetrahedron makes exactly one atomic addition for each mode of the element, in order, none overflows, and each differs from value times exact mode by at most (168P + 400) 2^-53 times |value| times the size of the mode; the size is at least 1, bounds the mode everywhere in the element and is at most 2^550. After the additions of up to 100000 particles to a coefficient, in whatever order they happen, the coefficient is finite and differs from the exact sum of value times mode by at most (336P + 4N + 800) 2^-53 times the sum of |value| times size over the N particles. The order does change the result: three particles at the same corner of a quadrilateral give two different coefficients.", "quantifier": "all coordinates, all values, all orders 2 to 32, all table sizes large enough, all numbers of particles up to 100000, all orders of the atomic additions, five element shapes", "why_tests_cant": "Atomic additions happen in an order that differs between runs, and the result depends on it; a test compares one order with a tolerance.", "anchors": ["include/nektar_interface/expansion_looping/quadrilateral.hpp:loop_project_v", "include/nektar_interface/expansion_looping/triangle.hpp:loop_project_v", "include/nektar_interface/expansion_looping/hexahedron.hpp:loop_project_v", "include/nektar_interface/expansion_looping/prism.hpp:loop_project_v", "include/nektar_interface/expansion_looping/tetrahedron.hpp:loop_project_v", "include/nektar_interface/function_basis_projection.hpp:project"]}
