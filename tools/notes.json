{
 "C03": {
  "note": "Proved for a single geometry. The collection claim and the RemoteGeom claim are false of the code and refuted with witnesses: PackedGeoms2D::unpack passes the whole input_length to a reader starting inside the buffer; RemoteGeom::deserialise does not check bounds before its final assertion."
 },
 "C04": {
  "note": "Nektar++ GetGeomFactors/Setup after construction are not modelled; dynamic cast to the template type T is assumed to match."
 },
 "C10": {
  "note": "get_info looks up the caller's spelling while the map is keyed by upper case (particle_reader.cpp): proved for upper-case names, refuted in general with a witness."
 },
 "C11": {
  "note": "Lookup, existence and defaults proved for every evaluator. The size_t loader is refuted: values are squeezed through int (3e9 refused, -1 accepted as a huge value). Integer loads are characterised exactly."
 },
 "C12": {
  "note": "std::stoi is applied to the SPECIES attribute before the emptiness test, so the documented 'all species' form never loads: refuted for every input; the explicit-species form is proved. Acceptance is characterised exactly (C12_boundary_accepted); a periodic VALUE without its opening bracket, such as \"5]\", is accepted."
 },
 "C15": {
  "note": "Proved for ranks owning at least one element with ids in [0, INT_MAX). An empty rank is refuted: id_max - id_min overflows int (undefined behaviour)."
 },
 "C19": {
  "note": "Proved for extents >= 1 or positions no more than two extents below the origin; refuted in general (the offset is trunc(|pos|+2) extents instead of trunc(|pos|/extent+2))."
 },
 "C20": {
  "note": "Proved when the largest vertex coordinate is at least DBL_MIN; refuted for every mesh whose coordinates are all <= 0 (numeric_limits<double>::min() is used as the initial maximum)."
 },
 "C22": {
  "note": "Candidate set characterised exactly for every point; elements are offered on their half-open box (closed at the grid's outer faces). Refuted on shared upper faces that lie on a grid line, where only the neighbour is offered. MPI/int overflow of the cell count not modelled."
 },
 "C56": {
  "note": "Exact real arithmetic; int overflow of the cell counts is not modelled."
 },
 "C23": {
  "note": "Single coordinate proved. clamp_loc_coords uses || and stops at the first clamped component (coordinate_mapping.hpp 713, 730): exact behaviour proved, the claim that every component is clamped refuted."
 },
 "C25": {
  "note": "Soundness, owner and count proved; completeness refuted: geom_found is overwritten by every later candidate (utilities.hpp 397)."
 },
 "C27": {
  "note": "Proved for seed >= 0; refuted for negative seeds (fmod keeps the sign)."
 },
 "C28": {
  "note": "The decomposition of indices (get_decomp_1d) and particle migration are NESO-Particles code and enter as hypotheses; all code of the class around them is modelled."
 },
 "C35": {
  "note": "MPI's own guarantees (barriers, atomic accumulate, reliable messages) are assumptions of the model; the 3D path uses the same send/count functions and C05-C08. Refuted part: the receive buffer size max_recv_size*num_recv_ranks overflows int although every message fits."
 },
 "C40": {
  "note": "Nearest over the scanned cells for any tree, plus end to end: no hit in reach is missed and every reported hit is an element of some rank. Oracles: Newton acceptance (3D), segment intersection (2D, NESO-Particles), cart index map (cart_ok). DBL_MAX: hits at squared distance >= DBL_MAX are not reported by the code."
 },
 "C45": {
  "note": "Proved for quads, tets, prisms, hexes, pyramids (and the 3D-embedded quads and triangles): residual = X - p, X maps reference vertices to vertices, step = Newton update with the true Jacobian (stated with derivable_pt_lim), singular J gives no finite step, affine elements inverted in one step. The model is transcribed from the generated headers by tools/gen_newton.py. Refuted at one point: the code's X at the pyramid's apex reference vertex divides by zero unless the apex is within 1e-12 of the origin."
 },
 "C46": {
  "note": "Proved: exact characterisation of success for every residual/step function; for the linear elements acceptance implies the scaled distance is within tolerance and coordinates within the tolerance-enlarged element; completeness on affine elements. Refuted: with a negative mean Jacobian the exit scalings are negative and every point has residual <= 0, so success then says nothing."
 },
 "C49": {
  "note": "Refuted for grid_size_max: the constructor reads key MapParticlesNewton/grid_size_min for the maximum too; all other keys proved."
 },
 "C57": {
  "note": "3D proved. 2D refuted for deformed triangles: no mapper covers them and 2D has no host fallback, so a particle there is never bound. All other 2D elements proved."
 },
 "C48": {
  "note": "Exact reals. For 3D degenerate elements (zero determinant) the code's NaN comparisons give distance 0 and could accept; the model rejects there; C48_degenerate_rejected is therefore claimed for 2D only."
 },
 "C50": {
  "note": "Exact reals. Stronger than claimed: the new velocity is the unique solution of the time-centred Lorentz equation; work-energy and reversibility."
 },
 "C58": {
  "note": "The gradient after the solve is an arbitrary function of position; transfer_particles is modelled by its boundary-condition map."
 },
 "C59": {
  "note": "Refuted in one point: a session giving neither particle_charge_density nor particle_charge is not rejected (TODO in the code) and leaves charge_density uninitialised."
 },
 "C60": {
  "note": "Neutral RHS proved (transforms and HelmSolve are oracles; hypothesis: the transform keeps the integral of the constant). Refuted: solve_equation_system line 111 assigns the scaling factor to every forcing coefficient instead of multiplying."
 },
 "C61": {
  "note": "Refuted for the distribution with two masses: the solver passes mass 1.0 for all particles. Rest proved."
 },
 "C62": {
  "note": "Refuted: the check uses || so no type is rejected; other types run as Boris."
 },
 "C51": {
  "note": "Kernels equal the reference for every number of modes >= 2 and every coordinate except z = 1. Refuted at z = 1 for the collapsed bases (1.0/b0 makes the rows p >= 1 NaN; the reference is finite) and for one mode (mod_A writes two values)."
 },
 "C52": {
  "note": "Proved against the explicit sum form of the Jacobi polynomial."
 },
 "C53": {
  "note": "Proved. GetTotNumModes of Nektar++ is an input of the constructor's model."
 },
 "C54": {
  "note": "Proved for particles away from collapsed vertices/edges (exact reals; the atomic adds in any order). Refuted at a collapsed vertex: the evaluated field is NaN."
 },
 "C63": {
  "note": "Proved over exact reals, with Nektar++'s inverse mass matrix assumed to solve the variational problem and particles away from collapsed vertices. Refuted part: the component range check uses the group the object was built with, a different group passed to project is read out of bounds (C63_other_group_refuted)."
 },
 "C64": {
  "note": "The interpreter is shared by the whole session, so a species parameter is visible in the expressions of later species and reactions; repeated ids silently replace the earlier element (Examples)."
 },
 "C65": {
  "note": "ParseUtils and lexical_cast are oracles."
 },
 "C66": {
  "note": "Refuted: create_mesh_hierarchy uses std::log (natural) where the number of fine cells is 2^(ndim order), so the number of elements per fine cell is unbounded. What the chosen order is, is proved exactly (C66_subdivision_order_partial)."
 },
 "C67": {
  "note": "SimpleSOL integrate; exact reals (accumulated rounding of time_tmp not modelled)."
 },
 "C68": {
  "note": "Proved for positive temperature and non-negative density in both solvers, including positivity of the Barry approximation. Refuted for a non-positive fluid temperature: the weight and the sources become NaN and the particle is not flagged. The rate is stated in numbers, and the exponential integral approximation is proved to have the asymptotics of E1 at both ends (to third order at infinity)."
 },
 "C69": {
  "note": "Proved for one particle substep per fluid step (the default), for every history. Refuted for two substeps: sources are overwritten by the next substep, so a particle that ionises completely in the first substep contributes nothing. The fluid's own update is represented by the exact time integral of the density source over the step."
 },
 "C70": {
  "note": "What is removed is characterised exactly (x outside [0, x_max]); the rotated domain claim is refuted: at theta = pi/2 the whole interior is removed."
 },
 "C71": {
  "note": "Number added is within one per line below the configured total; exact only if the number of lines divides it (refuted otherwise); no lines is undefined behaviour; identifiers (rank, index) repeat between lines and calls (refuted). Weights, units and line placement proved (erf_inv an odd oracle)."
 },
 "C72": {
  "note": "Proved for 3D meshes and B<>0 (drift, cross product). Refuted for 2D: load_params writes Bvec[2] of a 2-vector for every 2D mesh, including shipped examples; refuted for B = 0 (not a number)."
 },
 "C73": {
  "note": "Right-hand sides proved for sessions whose variables start ne, w with phi after (C73_inputs shows which arrays arrive). Any other order is silently wrong or undefined (refuted); HW2D coupling uses m_fields density rather than the stage density (refuted for multi-stage integrators). Nektar operators are oracles."
 },
 "C74": {
  "note": "Proved for both systems under a calculus record (integration by parts, commuting derivatives); refuted when the diagnostics include (dphi/dz)^2 while the potential solve drops d22 (the 2Din3DHW examples)."
 },
 "C75": {
  "note": "Right-hand side and momentum exchange proved on finite states; refuted: density at or below zero gives NaN in spite of the floor; particle sources are never added."
 },
 "C76": {
  "note": "Right-hand side proved in 3D with B along z; sessions with particles always throw."
 },
 "C77": {
  "note": "Right-hand sides, equations for continuous fields, flux consistency/antisymmetry and budgets proved. Refuted: on faces with zero normal velocity the diamagnetic part is one-sided; 1D/3D meshes are accepted (out of bounds / garbage third component); README signs and default Lpar differ from the code. Nektar operators are oracles."
 },
 "C78": {
  "note": "Right-hand sides in 1D and 2D, rotation covariance of the flux, source shape and width scaling proved. Refuted: particle sources are dropped without a forcing and doubled with two; variable order is not checked. The advection (Riemann) operator and equation of state are oracles."
 },
 "C79": {
  "note": "Tensor, dissipation, backward Euler, stability, conservation, set-up and coupling proved. Refuted: the parallel direction is at -theta (README: +theta); a sender with MatrixFree collections reads/writes out of bounds; a receiver ignores its spectral viscosity; zero step, epsilon or density is not rejected. The Helmholtz solve is an oracle with the stated Galerkin contract."
 },
 "C80": {
  "note": "Proved. Refuted: with neither parameter set the total number is read uninitialised although the message says particles are disabled."
 },
 "C81": {
  "note": "Identifiers, single addition, weight, and (one substep) mass balance and zero recorded error proved. Refuted: with two substeps per fluid step the source is overwritten and mass is lost; the source centre is off by 3/2 of the z origin. get_decomp_1d and the random draws are oracles with the stated contracts."
 },
 "C82": {
  "note": "Construction, evaluation on all paths, polynomial exactness, path agreement, derivative evaluation and refusals proved. Refuted: a component outside the output range is written out of bounds, not refused; a cell whose geometry is missing silently uses element 0. PhysDeriv, GetBW and the transposition of NESO-Particles are oracles/contracts."
 },
 "C83": {
  "note": "Sizes, residual, stage, reference norm over ranks, perturbation size, Jacobian product (exact for linear, error term for quadratic, limit in general), homogeneity and preconditioner proved. The Newton solver, projection and right hand side are oracles. Refuted: the product with the zero vector is not finite."
 },
 "C84": {
  "note": "Values, defaults, derivation rules, refusals and frame proved for all five systems. Refuted: in two space dimensions the field vector is written out of bounds; the length the README calls the ion gyro-radius is sqrt(B) times it; a session using the README label lambda_q is refused; the default source width is twice the README value; parameters that make alpha non-finite are accepted."
 },
 "C85": {
  "note": "Exact reals. BwdTrans, PhysDeriv, points and weights of Nektar++ are inputs of the model; convergence of Newton on non-affine maps is not claimed."
 },
 "C86": {
  "note": "Exact reals. Refuted parts: with no parameter store a curved element gets no padding and can stick out of its box; the box of a curved element depends on the device work group size; a negative grid factor wraps to a huge grid instead of being rejected. Containment of the interior of a curved element is reduced to its faces. Everything the statement says is proved; the _refuted theorems are about claims one might add.",
  "status": "proved"
 },
 "C87": {
  "note": "Messages below 2^31 bytes in total; that the size messages arrive in some order of the true senders is C88."
 },
 "C88": {
  "note": "Sequentially consistent model of the one-sided count and the size messages; MPI guarantees used: barriers, atomic accumulate, every message is delivered once. The packed data messages, received by rank, are in C35 and C87."
 },
 "C89": {
  "note": "HDF5 itself by its documented behaviour (duplicate names and closed identifiers fail with a negative status). Refuted parts: ghw_H5CHK converts the status to bool, so no error is noticed; lost writes. Everything the statement says is proved; its last sentences name the cases in which the code fails, and the _refuted theorems prove them.",
  "status": "proved"
 },
 "C90": {
  "note": "The steps of the simulation are arbitrary functions on an arbitrary state (modelled in C58-C62). Refuted parts: stale energies printed, nx*ny overflow, required B of the Bernstein solver, B_x and B_y missing in the two stream file."
 },
 "C91": {
  "note": "Bounding boxes of elements are an arbitrary function. Hypotheses: the mesh is consistent (element faces among the faces of the rank, ids increasing) and messages times number of ranks fit an int."
 },
 "C92": {
  "note": "Refuted for the front and left faces (wrong vertex tables) and for the listing order of face control points; the _partial theorems cover the other four faces. What Nektar++ does with the control points is not modelled."
 },
 "C93": {
  "note": "The file is modelled as its list of words with exact numbers (the code prints six digits). Refuted for 3D halos and for mixed files. Everything the statement says is proved; its last sentences name the cases in which the code fails, and the _refuted theorems prove them.",
  "status": "proved"
 },
 "C94": {
  "note": "What Nektar++ does (transforms, search, interpolation of point values) is a parameter; exactness of the discretisation on the function is a hypothesis. Refuted for points outside the mesh (index -1 used unchecked). Everything the statement says is proved; its last sentences name the cases in which the code fails, and the _refuted theorems prove them.",
  "status": "proved"
 },
 "C95": {
  "note": "Hits themselves are those of C40; normals assume that a global id names one element. Particles being added, removed or moved between ranks are not in the histories. Refuted for the options of the reflection and an integer num_modes_factor. Everything the statement says is proved; its last sentences name the cases in which the code fails, and the _refuted theorems prove them.",
  "status": "proved"
 },
 "C96": {
  "note": "Geometry::ContainsPoint is an argument; assumed to accept every point of an element (and, for the membership theorem, only those). Exact real arithmetic. Refuted for surface meshes (coordim 3, mesh dimension 2). Everything the statement says is proved; its last sentences name the cases in which the code fails, and the _refuted theorems prove them.",
  "status": "proved"
 },
 "C97": {
  "note": "Sequentially consistent interleavings of local memory writes; the local size is an argument; GetTotNumModes of Nektar++ assumed equal to the number of values of the basis. The sub-group variant (NESO-Particles LocalMemoryBlock) is not modelled. Refuted for one mode per direction. Everything the statement says is proved; its last sentences name the cases in which the code fails, and the _refuted theorems prove them.",
  "status": "proved"
 },
 "C98": {
  "note": "Composition of C15, C29-C31, C35, C48, C57 and C87 on the distributed mesh. Boxes handed to the mappers are those claims were made with; host fallback mapper an arbitrary function that binds unbound particles only. Points on element boundaries and the transfer of particles by NESO-Particles are not covered."
 },
 "C99": {
  "note": "Composition of C46, C48, C53, C54, C97 and C98. That a field represents f on an element is a hypothesis, discharged for affine f with two modes (C99_affine_fields, C99_affine_represents) for all six shapes. C99_missing_expansion_refuted and C99_component_unchecked_refuted: the two unchecked cases. Everything the statement says is proved; its last sentences name the cases in which the code fails, and the _refuted theorems prove them.",
  "status": "proved"
 },
 "C100": {
  "note": "Small-step semantics of a work-group over one shared memory; refinement to the memory-free kernels of C47 by an ownership invariant per block. One call of the residual or the step is one atomic access (each touches only the block of its item). LocalMemoryBlock itself is NESO-Particles: modelled as block k of the group memory for item k."
 },
 "C101": {
  "note": "Composes the setup and launches of C97/C99, the kernels of C51-C54, the solves of C63 and the landing of C98. Nektar++'s mass solve is the hypothesis solves_mass. The out of bounds read is C101_other_group_refuted; the statement names it.",
  "status": "proved"
 },
 "C102": {
  "note": "IEEE binary64 by Flocq's rounding on the reals; overflow is a distinct outcome. The ways in which exactness fails are the _refuted theorems, and the statement names them.",
  "status": "proved"
 },
 "C103": {
  "note": "The subnormal case is C103_tiny_extent_refuted; the statement excludes and names it.",
  "status": "proved"
 },
 "C104": {
  "note": "The contributions themselves are arbitrary doubles; their computation is in C51-C54 over the reals. The dependence on the order is C104_order_refuted; the statement names it.",
  "status": "proved"
 },
 "C105": {
  "note": "The numbers of cells per dimension (exp and log) are an argument. Large coordinates and far particles are the _refuted theorems; the statement names them.",
  "status": "proved"
 },
 "C106": {
  "note": "Generators are oracles with their ranges as hypotheses; one number of the Sobol engine per sample. Exact reals. The transport to the owning ranks after creation is C98.",
  "status": "proved"
 },
 "C107": {
  "note": "Times only; binary64 with round to nearest even through Flocq; overflow is a distinct outcome.",
  "status": "proved"
 },
 "C108": {
  "note": "The expressions are transcribed from the generated headers by tools/gen_newton.py /repo expr; any product may be left unrounded (contraction), temporaries are expanded at each use. Reassociation (fast-math) and the pyramid, which divides, are not covered.",
  "status": "proved"
 },
 "C109": {
  "note": "The exact push is C50's. Every statement of the kernel is rounded as written; each product that is added may be contracted. The quantities that are factors of products (t, s, QoM dt/2) are rounded always. Reassociation (fast-math) is not covered.",
  "status": "proved"
 },
 "C110": {
  "note": "The exact version is C68's; the rate is an arbitrary non-negative double here. C110_conserved_refuted and C110_unmarked_refuted give concrete witnesses for what fails."
 },
 "C111": {
  "note": "NP::GlobalArray (dependency) is modelled as an arbitrary tree of rounded additions. The fluid integral and the field mean are inputs (any double). C111_order_refuted and C111_exact_balance_refuted give witnesses for what fails."
 },
 "C112": {
  "note": "C112_dispatch_refuted: the fused form multiplies by a rounded 2/(1-xi2), so its result can exceed 1 by epsilon; clamp_loc_coord tolerates exactly that. clamp_d covers finite arguments; the NaN case is C23."
 },
 "C113": {
  "note": "C113_near_node_refuted: a point 2^-1030 from a node that is exactly 0 divides to infinity, and infinity over infinity is NaN; the on-node test is exact equality, so nothing catches it."
 },
 "C114": {
  "note": "C114_collapsed_end_refuted: at z = 1 the row factor 1 / b0 is 1 / 0. C114_mod_PyrC: at most 32 modes, table up to the weight 4 P - 7."
 },
 "C115": {
  "note": "C115_collapsed_end_refuted: at the collapsed end of a triangle the double value is not finite though the exact one is. The evaluation at a pyramid point is not modelled in double precision (its kernel mod_PyrC is: C114_mod_PyrC)."
 },
 "C116": {
  "note": "C116_order_refuted: bitwise reproducibility does not hold. The pyramid is not modelled in double precision."
 }
}