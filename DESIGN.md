# Formal model of NESO in Rocq (Coq 8.16.1)

## Layout

`rocq/theories/`, one group of files per theme:

* `M_*.v`  – the model: total Gallina functions, each definition cites the file/lines of `/repo` it models.
* `S_*.v`  – a small separate specification where the English claim needs vocabulary of its own (written without the model's helpers).
* `L_*.v`  – lemmas and proofs.
* `P_*.v`  – the property theorems only: `Theorem … exact lemma`, an `Example` that shows the hypotheses are met by a concrete non trivial case, and `Print Assumptions`.

## Modelling conventions

* Device/host `double` arithmetic is modelled by exact real arithmetic (Coq `R`). Rounding, overflow to
  infinity and NaN are **not** modelled except where a division by zero can be reached: there the model returns
  a distinct outcome (`None`). Conversion of a double to an integer is `Ztrunc`/`Zfloor` (Flocq), as the C++ cast does.
* `int`, `std::size_t` are `Z`/`nat` unless the property is about wrap-around; byte codecs use explicit
  little-endian two's complement 32/64 bit encodings, so range hypotheses are explicit.
* A failed `NESOASSERT`/`NESOThrow`/exception is a distinct outcome (`None`, or an `Err` constructor); out-of-bounds
  reads are a third distinct outcome (`UB`) where the property is about them.
* Containers: `std::map`/`std::set` are association lists / sorted lists or functions, stated at each use;
  an unordered iteration is modelled by an arbitrary list and theorems quantify over every order.
* MPI: an exchange is a function from the vector of all ranks' local states to the vector of all ranks' new
  states; per-rank program text is modelled as is, delivery by MPI's specification (matching by source and tag,
  reliable, non overtaking) is part of the trusted base.
* Oracles (Nektar++ `ContainsPoint`, residual evaluators, RNG streams, `NESO-Particles` helpers)
  are universally quantified arguments; what is assumed of them is a visible hypothesis of the theorem.

## Plan per property

| id | model | proof |
|----|-------|-------|
| C01-C03 | byte-level pack/unpack of 2D geometries with bounds-checked cursor, UB outcome | structural induction over edges/points; `_refuted` witness for the lax bound |
| C04 | tree codec of RemoteGeom with size function | induction on lists, round trip modulo tail |
| C05,C06,C08 | integer streams, face maps, prefix sums | induction |
| C07 | ring schedule over ranks `mod size` | modular arithmetic, invariant over steps |
| C09-C12 | strings, key maps of the particle reader | induction on strings; `_refuted` where the code is wrong |
| C13,C14,C17 | finite maps, histories as op lists | refinement to "last write" spec |
| C15,C16 | id maps; ceil division | induction, `lia`/`nia` |
| C18-C22 | cartesian grid over R with Zfloor/Ztrunc; boxes | real arithmetic; `_refuted` for periodic/coverage defects |
| C23,C24 | piecewise rational coordinate maps over R | `field`, `lra`, `nra` |
| C25,C26,C28 | searches/samplers over oracles | induction over candidate lists/streams |
| C27 | fmod sequence | `Zfloor`/`Ztrunc` bounds |
| C29-C35 | claims, halo neighbourhoods, exchanges | list induction, permutations, sets |
| C36-C42 | composite interaction kernels | real arithmetic + folds |
| C43,C44 | barycentric weights/evaluation | sums over lists, Lagrange uniqueness |
| C45 | generated Newton kernels transcribed | `field`/`nsatz`-style ring identities |
| C46,C47,C49 | Newton loop, candidate loops | fuel = iteration limit, induction |
| C48 | regular inverse maps | `field` |
| C50 | Boris push | `field`, `nra` |
| C51-C54 | basis kernels as imperative array writes vs reference lists | loop invariants by induction on mode number |

## Trusted base

1. Coq 8.16.1's kernel (`coqc`; no `vos`/`vok` shortcut, no switched-off check, no plugin of our own). `vm_compute` is used in a few
   `Example`s over closed discrete data, so Coq's bytecode machine is trusted there.
2. Axioms: only those of Coq's standard library (`ClassicalDedekindReals.sig_forall_dec`, `ClassicalDedekindReals.sig_not_dec`,
   `FunctionalExtensionality.functional_extensionality_dep`, `Classical_Prop.classic`), all of them through `Reals`, Flocq's
   `Raux` and function equality of fields. The list per theorem is in the last section. There is no axiom of our own, no
   `Admitted`, no functor or module type.
3. Libraries: Coq's standard library; Flocq's `Core.Raux` (`Rle_bool`, `Zfloor`, `Zceil`, `Ztrunc` and their lemmas).
4. The transcription itself: that each `M_*.v` definition is a faithful reading of the cited lines. `M_NewtonGen.v` is produced by
   `tools/gen_newton.py` from the generated C++ headers; the rest is by hand. `seeded/LOG.jsonl` records the attempts to break it.
5. What the code calls and we do not model enters as explicit function arguments ("oracles"); what is assumed of them is a visible
   hypothesis of each theorem: Nektar++ (geometry maps, `ContainsPoint`, transforms, derivatives, quadrature, Helmholtz and mass
   solves, expression evaluator, XML), NESO-Particles (decomposition, particle transport, segment intersection, cartesian
   communicator), SYCL (atomic additions commute), MPI (reliable matched delivery, barriers, atomic accumulates), the C++ random engines.

## Known abstractions

* Doubles are exact reals except where NaN/inf is reachable by a zero division or a log/sqrt of a bad argument (explicit outcome).
  No theorem bounds rounding errors.
* `int`/`long` overflow is modelled where the property depends on it (C11, C15, C35 counts, C71, C80, byte codecs) and ignored elsewhere (stated at the definition).
* Device kernels are sequential maps over particles; parallel reductions are lists in any order (theorems quantify over the order).
* Unordered containers are arbitrary lists.

## Defects of the code found by the model

Each is a theorem `…_refuted` with a concrete witness (the note in `MANIFEST.json` gives the claim that is false):
C03 (collection reader runs past the buffer), C10 (`get_info` case), C11 (size_t through int), C12 (`all species` never loads), C15 (empty rank),
C19/C20 (periodic wrap and bounding box), C22 (shared faces), C23 (`clamp_loc_coords` stops early), C25 (owner search overwritten),
C27 (negative seed), C45/C46 (pyramid apex; negative Jacobian tolerance), C49 (`grid_size_max` key), C51/C54 (collapsed vertices NaN),
C57 (deformed triangles never mapped), C59-C62 (charge parameters, forcing assignment, masses, integrator check), C63 (other group),
C66 (ln vs log2), C68-C71 (cold fluid, substeps lose mass, rotated walls, truncated counts, repeated ids), C72-C78 (see notes),
C79 (angle sign, MatrixFree sender, receiver viscosity), C80 (uninitialised total), C81 (substeps, centre),
C82 (component range unchecked; an element with no expansion silently reads expansion 0), C83 (zero direction not finite),
C84 (2D reads a three-component field out of bounds; README widths and labels differ from the code; non-finite angles accepted),
C86 (without a parameter store a curved element gets no padding and can stick out of its box; negative grid factor wraps),
C35 (receive count product overflows `int`), C89 (HDF5 errors never noticed: lost writes), C90 (stale energies printed; parameters required
despite defaults; line evaluations form a full grid), C92 (two face tables of `make_hex_geom` place control points outside the reference face),
C93 (3D halo files lose the owner; mixed files misalign; MeshPlotting exits 0 after a caught error), C94 (index -1 used unchecked for points
outside the mesh), C95 (truncated reflection ignores its own configuration; an integer `num_modes_factor` throws), C96 (surface meshes in 3D lose
the third coordinate), C97 (one mode per direction writes past the scratch space).

## Properties: what is proved and what is missing

| id | title | where | remarks |
|---|---|---|---|
| C01 | 2D geometry packing round trip | P_Codecs.v | Proved in full for the model. |
| C02 | 2D geometry collection packing round trip | P_Codecs.v | Proved in full for the model. |
| C03 | 2D unpacking never reads outside the received buffer | P_Codecs.v | Proved for a single geometry. The collection claim and the RemoteGeom claim are false of the code and refuted with witnesses: PackedGeoms2D::unpack passes the whole input_length to a reader starting inside the buffer; RemoteGeom::deserialise does not check bounds before its final assertion. |
| C04 | Remote geometry serialisation size and round trip | P_Codecs.v | Nektar++ GetGeomFactors/Setup after construction are not modelled; dynamic cast to the template type T is assumed to match. |
| C05 | 3D element stream reconstruction | P_Transport.v | Proved in full for the model. |
| C06 | Faces sent with 3D elements suffice | P_Transport.v | Proved in full for the model. |
| C07 | Ring exchange delivers every remote geometry exactly once | P_Transport.v | Proved in full for the model. |
| C08 | 3D point-to-point exchange delivers the addressed data | P_Transport.v | Proved in full for the model. |
| C09 | Name=value parsing | P_Reader.v | Proved in full for the model. |
| C10 | Session info lookup is consistent with its existence test | P_Reader.v | get_info looks up the caller's spelling while the map is keyed by upper case (particle_reader.cpp): proved for upper-case names, refuted in general with a witness. |
| C11 | Particle parameter lookup is case-insensitive and total on defined names | P_Reader.v | Lookup, existence and defaults proved for every evaluator. The size_t loader is refuted: values are squeezed through int (3e9 refused, -1 accepted as a huge value). Integer loads are characterised exactly. |
| C12 | A boundary specification without species applies to all species | P_Reader.v | std::stoi is applied to the SPECIES attribute before the emptiness test, so the documented 'all species' form never loads: refuted for every input; the explicit-species form is proved. Acceptance is characterised exactly (C12_boundary_accepted); a periodic VALUE without its opening bracket, such as "5]", is accepted. |
| C13 | Parameter store behaves as a typed finite map | P_Util.v | Proved in full for the model. |
| C14 | Solver callbacks run exactly once per event in registration order | P_Util.v | Proved in full for the model. |
| C15 | Cell id translation is a bijection between particle cells and mesh elements | P_Util.v | Proved for ranks owning at least one element with ids in [0, INT_MAX). An empty rank is refuted: id_max - id_min overflows int (undefined behaviour). |
| C16 | Device iteration sizes cover the work | P_Util.v | Proved in full for the model. |
| C17 | Field name to index map | P_Util.v | Proved in full for the model. |
| C18 | Cartesian mesh cell lookup | P_Grid.v | Proved in full for the model. |
| C19 | Cartesian periodic boundary wraps every particle into the domain | P_Grid.v | Proved for extents >= 1 or positions no more than two extents below the origin; refuted in general (the offset is trunc(\|pos\|+2) extents instead of trunc(\|pos\|/extent+2)). |
| C20 | Periodic boundary domain is the mesh bounding box | P_Grid.v | Proved when the largest vertex coordinate is at least DBL_MIN; refuted for every mesh whose coordinates are all <= 0 (numeric_limits<double>::min() is used as the initial maximum). |
| C21 | Bounding box algebra | P_Grid.v | Proved in full for the model. |
| C22 | Coarse lookup offers the containing element | P_Grid.v | Candidate set characterised exactly for every point; elements are offered on their half-open box (closed at the grid's outer faces). Refuted on shared upper faces that lie on a grid line, where only the neighbour is offered. MPI/int overflow of the cell count not modelled. |
| C23 | Clamping local coordinates | P_Coord.v | Single coordinate proved. clamp_loc_coords uses \|\| and stops at the first clamped component (coordinate_mapping.hpp 713, 730): exact behaviour proved, the claim that every component is clamped refuted. |
| C24 | Collapsed coordinate round trip | P_Coord.v | Proved in full for the model. |
| C25 | Owning element search returns a containing element when there is one | P_Sample.v | Soundness, owner and count proved; completeness refuted: geom_found is overwritten by every later candidate (utilities.hpp 397). |
| C26 | Element-uniform sampling stays in the element | P_Sample.v | Proved in full for the model. |
| C27 | Quasi-random sequence stays in the domain | P_Sample.v | Proved for seed >= 0; refuted for negative seeds (fmod keeps the sign). |
| C28 | Each initial sample point is kept by exactly one rank | P_Sample.v | The decomposition of indices (get_decomp_1d) and particle migration are NESO-Particles code and enter as hypotheses; all code of the class around them is modelled. |
| C29 | Bounding box to mesh-hierarchy cell weights | P_MeshIf.v | Proved in full for the model. |
| C30 | Claims keep the largest weight, order independent | P_MeshIf.v | Proved in full for the model. |
| C31 | Mesh hierarchy covers the mesh | P_MeshIf.v | Proved in full for the model. |
| C32 | Halo cells are exactly the neighbourhood minus owned cells | P_Halo.v | Proved in full for the model. |
| C33 | Halo requests reach the owner | P_Halo.v | Proved in full for the model. |
| C34 | Halo extension never duplicates a remote element | P_Halo.v | Proved in full for the model. |
| C35 | Initial halo exchange is symmetric and complete | P_Exchange.v | MPI's own guarantees (barriers, atomic accumulate, reliable messages) are assumptions of the model; the 3D path uses the same send/count functions and C05-C08. Refuted part: the receive buffer size max_recv_size*num_recv_ranks overflows int although every message fits. |
| C36 | Line-plane intersection | P_LinePlane.v | Proved in full for the model. |
| C37 | Near-to-element filter is conservative | P_LinePlane.v | Proved in full for the model. |
| C38 | Boundary element normals | P_LinePlane.v | Proved in full for the model. |
| C39 | Trajectory cells are collected before intersection | P_Composite.v | Proved in full for the model. |
| C40 | Nearest boundary hit is reported | P_Composite.v | Nearest over the scanned cells for any tree, plus end to end: no hit in reach is missed and every reported hit is an element of some rank. Oracles: Newton acceptance (3D), segment intersection (2D, NESO-Particles), cart index map (cart_ok). DBL_MAX: hits at squared distance >= DBL_MAX are not reported by the code. |
| C41 | Boundary groups partition the hits | P_Composite.v | Proved in full for the model. |
| C42 | Collecting boundary geometry is idempotent and complete | P_Composite.v | Proved in full for the model. |
| C43 | Barycentric weights | P_Bary.v | Proved in full for the model. |
| C44 | Barycentric evaluation variants agree | P_Bary.v | Proved in full for the model. |
| C45 | Linear element Newton kernels are exact | P_Newton.v | Proved for quads, tets, prisms, hexes, pyramids (and the 3D-embedded quads and triangles): residual = X - p, X maps reference vertices to vertices, step = Newton update with the true Jacobian (stated with derivable_pt_lim), singular J gives no finite step, affine elements inverted in one step. The model is transcribed from the generated headers by tools/gen_newton.py. Refuted at one point: the code's X at the pyramid's apex reference vertex divides by zero unless the apex is within 1e-12 of the origin. |
| C46 | Newton inversion reports success only with a small residual | P_NewtonBind.v | Proved: exact characterisation of success for every residual/step function; for the linear elements acceptance implies the scaled distance is within tolerance and coordinates within the tolerance-enlarged element; completeness on affine elements. Refuted: with a negative mean Jacobian the exit scalings are negative and every point has residual <= 0, so success then says nothing. |
| C47 | Particle mapping binds the first containing candidate | P_NewtonBind.v | Proved in full for the model. |
| C48 | Regular element inverse maps are exact | P_Regular.v | Exact reals. For 3D degenerate elements (zero determinant) the code's NaN comparisons give distance 0 and could accept; the model rejects there; C48_degenerate_rejected is therefore claimed for 2D only. |
| C49 | Newton configuration keys are honoured | P_NewtonBind.v | Refuted for grid_size_max: the constructor reads key MapParticlesNewton/grid_size_min for the maximum too; all other keys proved. |
| C50 | Boris push preserves speed in a magnetic field | P_Pic.v | Exact reals. Stronger than claimed: the new velocity is the unique solution of the time-centred Lorentz equation; work-energy and reversibility. |
| C51 | Device basis kernels equal the reference basis | P_Basis.v | Kernels equal the reference for every number of modes >= 2 and every coordinate except z = 1. Refuted at z = 1 for the collapsed bases (1.0/b0 makes the rows p >= 1 NaN; the reference is finite) and for one mode (mod_A writes two values). |
| C52 | Jacobi polynomial coefficients | P_Basis.v | Proved against the explicit sum form of the Jacobi polynomial. |
| C53 | Number of modes | P_Basis.v | Proved. GetTotNumModes of Nektar++ is an input of the constructor's model. |
| C54 | Field evaluation is the modal sum and projection its adjoint | P_Basis.v | Proved for particles away from collapsed vertices/edges (exact reals; the atomic adds in any order). Refuted at a collapsed vertex: the evaluated field is NaN. |
| C55 | Reactions refer only to declared species | P_Reader2.v | Proved in full for the model. |
| C56 | The coarse lookup grid is always constructed | P_Grid.v | Exact real arithmetic; int overflow of the cell counts is not modelled. |
| C57 | Every local mesh element is offered to the particles | P_Regular.v | 3D proved. 2D refuted for deformed triangles: no mapper covers them and 2D has no host fallback, so a particle there is never bound. All other 2D elements proved. |
| C58 | Velocity Verlet time step | P_Pic.v | The gradient after the solve is an arbitrary function of position; transfer_particles is modelled by its boundary-condition map. |
| C59 | Charge normalisation | P_Pic.v | Refuted in one point: a session giving neither particle_charge_density nor particle_charge is not rejected (TODO in the code) and leaves charge_density uninitialised. |
| C60 | Neutral Poisson right hand side | P_Pic.v | Neutral RHS proved (transforms and HelmSolve are oracles; hypothesis: the transform keeps the integral of the constant). Refuted: solve_equation_system line 111 assigns the scaling factor to every forcing coefficient instead of multiplying. |
| C61 | Energy diagnostics | P_Pic.v | Refuted for the distribution with two masses: the solver passes mass 1.0 for all particles. Rest proved. |
| C62 | Integrator selection | P_Pic.v | Refuted: the check uses \|\| so no type is rejected; other types run as Boris. |
| C63 | Field projection is the L2 projection and conserves | P_FieldProject.v | Proved over exact reals, with Nektar++'s inverse mass matrix assumed to solve the variational problem and particles away from collapsed vertices. Refuted part: the component range check uses the group the object was built with, a different group passed to project is read out of bounds (C63_other_group_refuted). |
| C64 | Parameters of species and reactions keep their scope | P_Reader2.v | The interpreter is shared by the whole session, so a species parameter is visible in the expressions of later species and reactions; repeated ids silently replace the earlier element (Examples). |
| C65 | Functions of a species are defined once per variable and domain | P_Reader2.v | ParseUtils and lexical_cast are oracles. |
| C66 | Fine cells of the mesh hierarchy match the number of elements | P_MeshIf.v | Refuted: create_mesh_hierarchy uses std::log (natural) where the number of fine cells is 2^(ndim order), so the number of elements per fine cell is unbounded. What the chosen order is, is proved exactly (C66_subdivision_order_partial). |
| C67 | Particle substeps exactly cover the fluid step | P_Sol.v | SimpleSOL integrate; exact reals (accumulated rounding of time_tmp not modelled). |
| C68 | Ionisation conserves weight, momentum along the field and energy per particle | P_Sol.v | Proved for positive temperature and non-negative density in both solvers, including positivity of the Barry approximation. Refuted for a non-positive fluid temperature: the weight and the sources become NaN and the particle is not flagged. The rate is stated in numbers, and the exponential integral approximation is proved to have the asymptotics of E1 at both ends (to third order at infinity). |
| C69 | The mass the neutrals lose is the mass the fluid gains | P_Sol.v | Proved for one particle substep per fluid step (the default), for every history. Refuted for two substeps: sources are overwritten by the next substep, so a particle that ionises completely in the first substep contributes nothing. The fluid's own update is represented by the exact time integral of the density source over the step. |
| C70 | Walls remove exactly the particles that left the domain | P_Sol.v | What is removed is characterised exactly (x outside [0, x_max]); the rotated domain claim is refuted: at theta = pi/2 the whole interior is removed. |
| C71 | The particle source adds the configured number of identifiable particles | P_Sol.v | Number added is within one per line below the configured total; exact only if the number of lines divides it (refuted otherwise); no lines is undefined behaviour; identifiers (rank, index) repeat between lines and calls (refuted). Weights, units and line placement proved (erf_inv an odd oracle). |
| C72 | E x B drift velocity | P_Fluid.v | Proved for 3D meshes and B<>0 (drift, cross product). Refuted for 2D: load_params writes Bvec[2] of a 2-vector for every 2D mesh, including shipped examples; refuted for B = 0 (not a number). |
| C73 | Hasegawa-Wakatani right-hand sides | P_Fluid.v | Right-hand sides proved for sessions whose variables start ne, w with phi after (C73_inputs shows which arrays arrive). Any other order is silently wrong or undefined (refuted); HW2D coupling uses m_fields density rather than the stage density (refuted for multi-stage integrators). Nektar operators are oracles. |
| C74 | Growth rate diagnostics are the rates of the recorded quantities | P_Fluid.v | Proved for both systems under a calculus record (integration by parts, commuting derivatives); refuted when the diagnostics include (dphi/dz)^2 while the potential solve drops d22 (the 2Din3DHW examples). |
| C75 | LAPD right-hand side | P_Fluid.v | Right-hand side and momentum exchange proved on finite states; refuted: density at or below zero gives NaN in spite of the floor; particle sources are never added. |
| C76 | Rogers-Ricci 2D right-hand side | P_Fluid.v | Right-hand side proved in 3D with B along z; sessions with particles always throw. |
| C77 | Drift-plane (Blob2D) right-hand side | P_Plane.v | Right-hand sides, equations for continuous fields, flux consistency/antisymmetry and budgets proved. Refuted: on faces with zero normal velocity the diamagnetic part is one-sided; 1D/3D meshes are accepted (out of bounds / garbage third component); README signs and default Lpar differ from the code. Nektar operators are oracles. |
| C78 | SimpleSOL fluid right-hand side and sources | P_Euler.v | Right-hand sides in 1D and 2D, rotation covariance of the flux, source shape and width scaling proved. Refuted: particle sources are dropped without a forcing and doubled with two; variable order is not checked. The advection (Riemann) operator and equation of state are oracles. |
| C79 | Anisotropic diffusion solver | P_Diffusion.v | Tensor, dissipation, backward Euler, stability, conservation, set-up and coupling proved. Refuted: the parallel direction is at -theta (README: +theta); a sender with MatrixFree collections reads/writes out of bounds; a receiver ignores its spectral viscosity; zero step, epsilon or density is not rejected. The Helmholtz solve is an oracle with the stated Galerkin contract. |
| C80 | Particle system parameters and output schedule | P_PartSys.v | Proved. Refuted: with neither parameter set the total number is read uninitialised although the message says particles are disabled. |
| C81 | DriftReduced neutral particles: population and mass | P_Neutral.v | Identifiers, single addition, weight, and (one substep) mass balance and zero recorded error proved. Refuted: with two substeps per fluid step the source is overwritten and mass is lost; the source centre is off by 3/2 of the z origin. get_decomp_1d and the random draws are oracles with the stated contracts. |
| C82 | Barycentric evaluation of fields and derivatives at particles | P_BaryField.v | Construction, evaluation on all paths, polynomial exactness, path agreement, derivative evaluation and refusals proved. Refuted: a component outside the output range is written out of bounds, not refused; a cell whose geometry is missing silently uses element 0. PhysDeriv, GetBW and the transposition of NESO-Particles are oracles/contracts. |
| C83 | Implicit stage of the time integration | P_Implicit.v | Sizes, residual, stage, reference norm over ranks, perturbation size, Jacobian product (exact for linear, error term for quadratic, limit in general), homogeneity and preconditioner proved. The Newton solver, projection and right hand side are oracles. Refuted: the product with the zero vector is not finite. |
| C84 | Meaning of the DriftReduced session parameters | P_Params.v | Values, defaults, derivation rules, refusals and frame proved for all five systems. Refuted: in two space dimensions the field vector is written out of bounds; the length the README calls the ion gyro-radius is sqrt(B) times it; a session using the README label lambda_q is refused; the default source width is twice the README value; parameters that make alpha non-finite are accepted. |
| C85 | Inversion of curved 3D elements | P_Generic3D.v | Exact reals. BwdTrans, PhysDeriv, points and weights of Nektar++ are inputs of the model; convergence of Newton on non-affine maps is not claimed. |
| C86 | Bounding boxes of 3D elements | P_BBox.v | Exact reals. Refuted parts: with no parameter store a curved element gets no padding and can stick out of its box; the box of a curved element depends on the device work group size; a negative grid factor wraps to a huge grid instead of being rejected. Containment of the interior of a curved element is reduced to its faces. Everything the statement says is proved; the _refuted theorems are about claims one might add. |
| C87 | 3D halo exchange delivers the faces of the halo elements | P_Halo3D.v | Messages below 2^31 bytes in total; that the size messages arrive in some order of the true senders is C88. |
| C88 | Consecutive exchanges on one tag do not mix | P_Rounds.v | Sequentially consistent model of the one-sided count and the size messages; MPI guarantees used: barriers, atomic accumulate, every message is delivered once. The packed data messages, received by rank, are in C35 and C87. |
| C89 | HDF5 diagnostics writer stores what it is given | P_Writer.v | HDF5 itself by its documented behaviour (duplicate names and closed identifiers fail with a negative status). Refuted parts: ghw_H5CHK converts the status to bool, so no error is noticed; lost writes. Everything the statement says is proved; its last sentences name the cases in which the code fails, and the _refuted theorems prove them. |
| C90 | Electrostatic2D3V main loop writes every output at its steps | P_Driver.v | The steps of the simulation are arbitrary functions on an arbitrary state (modelled in C58-C62). Refuted parts: stale energies printed, nx*ny overflow, required B of the Bernstein solver, B_x and B_y missing in the two stream file. |
| C91 | Halo extension on 3D meshes | P_HaloExt3.v | Bounding boxes of elements are an arbitrary function. Hypotheses: the mesh is consistent (element faces among the faces of the rank, ids increasing) and messages times number of ranks fit an int. |
| C92 | Curved hexahedron from coordinate maps | P_HexGeom.v | Refuted for the front and left faces (wrong vertex tables) and for the listing order of face control points; the _partial theorems cover the other four faces. What Nektar++ does with the control points is not modelled. |
| C93 | VTK files of the mesh | P_Vtk.v | The file is modelled as its list of words with exact numbers (the code prints six digits). Refuted for 3D halos and for mixed files. Everything the statement says is proved; its last sentences name the cases in which the code fails, and the _refuted theorems prove them. |
| C94 | Field helpers: interpolation, evaluation, cells to expansions, errors | P_FieldHelp.v | What Nektar++ does (transforms, search, interpolation of point values) is a parameter; exactness of the discretisation on the function is a hypothesis. Refuted for points outside the mesh (index -1 used unchecked). Everything the statement says is proved; its last sentences name the cases in which the code fails, and the _refuted theorems prove them. |
| C95 | Boundary data given to particles | P_BoundaryData.v | Hits themselves are those of C40; normals assume that a global id names one element. Particles being added, removed or moved between ranks are not in the histories. Refuted for the options of the reflection and an integer num_modes_factor. Everything the statement says is proved; its last sentences name the cases in which the code fails, and the _refuted theorems prove them. |
| C96 | A point of the local sub-domain | P_Subdomain.v | Geometry::ContainsPoint is an argument; assumed to accept every point of an element (and, for the membership theorem, only those). Exact real arithmetic. Refuted for surface meshes (coordim 3, mesh dimension 2). Everything the statement says is proved; its last sentences name the cases in which the code fails, and the _refuted theorems prove them. |
| C97 | Device launches of field evaluation and projection | P_Launch.v | Sequentially consistent interleavings of local memory writes; the local size is an argument; GetTotNumModes of Nektar++ assumed equal to the number of values of the basis. The sub-group variant (NESO-Particles LocalMemoryBlock) is not modelled. Refuted for one mode per direction. Everything the statement says is proved; its last sentences name the cases in which the code fails, and the _refuted theorems prove them. |
| C98 | No particle in the mesh is lost | P_Journey.v | Composition of C15, C29-C31, C35, C48, C57 and C87 on the distributed mesh. Boxes handed to the mappers are those claims were made with; host fallback mapper an arbitrary function that binds unbound particles only. Points on element boundaries and the transfer of particles by NESO-Particles are not covered. |
| C99 | A field evaluated at a mapped particle has the field's value at the particle's position | P_FieldEval.v | Composition of C46, C48, C53, C54, C97 and C98. That a field represents f on an element is a hypothesis, discharged for affine f with two modes (C99_affine_fields, C99_affine_represents) for all six shapes. C99_missing_expansion_refuted and C99_component_unchecked_refuted: the two unchecked cases. Everything the statement says is proved; its last sentences name the cases in which the code fails, and the _refuted theorems prove them. |
| C100 | Curved elements can be mapped by many work items at once: local memory is never shared or overrun | P_CurvedMap.v | Small-step semantics of a work-group over one shared memory; refinement to the memory-free kernels of C47 by an ownership invariant per block. One call of the residual or the step is one atomic access (each touches only the block of its item). LocalMemoryBlock itself is NESO-Particles: modelled as block k of the group memory for item k. |
| C101 | Projecting particle data deposits each particle once, at its own position | P_FieldDeposit.v | Composes the setup and launches of C97/C99, the kernels of C51-C54, the solves of C63 and the landing of C98. Nektar++'s mass solve is the hypothesis solves_mass. The out of bounds read is C101_other_group_refuted; the statement names it. |
| C102 | Periodic boundaries in double precision | P_Double.v | IEEE binary64 by Flocq's rounding on the reals; overflow is a distinct outcome. The ways in which exactness fails are the _refuted theorems, and the statement names them. |
| C103 | R-sequence samples in double precision | P_Double2.v | The subnormal case is C103_tiny_extent_refuted; the statement excludes and names it. |
| C104 | Atomic deposits in double precision | P_Double3.v | The contributions themselves are arbitrary doubles; their computation is in C51-C54 over the reals. The dependence on the order is C104_order_refuted; the statement names it. |
| C105 | Coarse lookup in double precision | P_DoubleGrid.v | The numbers of cells per dimension (exp and log) are an argument. Large coordinates and far particles are the _refuted theorems; the statement names them. |
| C106 | Initial particles of the Electrostatic2D3V solver | P_ChargedInit.v | Generators are oracles with their ranges as hypotheses; one number of the Sobol engine per sample. Exact reals. The transport to the owning ranks after creation is C98. |
| C107 | Particle sub-stepping in double precision | P_DoubleTime.v | Times only; binary64 with round to nearest even through Flocq; overflow is a distinct outcome. |
| C108 | Newton residuals in double precision | P_NewtonD.v | The expressions are transcribed from the generated headers by tools/gen_newton.py /repo expr; any product may be left unrounded (contraction), temporaries are expanded at each use. Reassociation (fast-math) and the pyramid, which divides, are not covered. |
| C109 | Boris push in double precision | P_BorisD.v | The exact push is C50's. Every statement of the kernel is rounded as written; each product that is added may be contracted. The quantities that are factors of products (t, s, QoM dt/2) are rounded always. Reassociation (fast-math) is not covered. |
| C110 | Ionisation in double precision | P_IoniseD.v | The exact version is C68's; the rate is an arbitrary non-negative double here. C110_conserved_refuted and C110_unmarked_refuted give concrete witnesses for what fails. |
| C111 | Energy and mass diagnostics in double precision | P_SumD.v | NP::GlobalArray (dependency) is modelled as an arbitrary tree of rounded additions. The fluid integral and the field mean are inputs (any double). C111_order_refuted and C111_exact_balance_refuted give witnesses for what fails. |
| C112 | Collapsed coordinates in double precision | P_CoordD.v | C112_dispatch_refuted: the fused form multiplies by a rounded 2/(1-xi2), so its result can exceed 1 by epsilon; clamp_loc_coord tolerates exactly that. clamp_d covers finite arguments; the NaN case is C23. |
| C113 | Barycentric interpolation in double precision | P_BaryD.v | C113_near_node_refuted: a point 2^-1030 from a node that is exactly 0 divides to infinity, and infinity over infinity is NaN; the on-node test is exact equality, so nothing catches it. |
| C114 | Modal basis in double precision | P_BasisD.v | C114_collapsed_end_refuted: at z = 1 the row factor 1 / b0 is 1 / 0. C114_mod_PyrC: at most 32 modes, table up to the weight 4 P - 7. |
| C115 | Value of a continuous field at a particle in double precision | P_EvalD.v | C115_collapsed_end_refuted: at the collapsed end of a triangle the double value is not finite though the exact one is. The evaluation at a pyramid point is not modelled in double precision (its kernel mod_PyrC is: C114_mod_PyrC). |
| C116 | Deposition onto a continuous field in double precision | P_ProjectD.v | C116_order_refuted: bitwise reproducibility does not hold. The pyramid is not modelled in double precision. |

## Parts of the code that are modelled

* `M_BBox.v` – Bounding boxes of elements: XMapNewton::get_bounding_box (include/nektar_interface/particle_cell_mapping/x_map_newton.hpp 294-432) on MappingGeneric3D, and BoundingBox::get_bounding_box (src/nektar_interface/particle_cell_mapping/ x_map_bounding_box.cpp 7-56). [double] is R. Cites: `include/nektar_interface/particle_cell_mapping/x_map_newton.hpp`, `x_map_bounding_box.cpp`.
* `M_Bary.v` – include/nektar_interface/bary_interpolation/bary_evaluation.hpp. Exact reals; [None]: the denominator of an evaluation point off the nodes is zero (the code then produces infinities). Cites: `include/nektar_interface/bary_interpolation/bary_evaluation.hpp`.
* `M_BaryD.v` – Double precision version of include/nektar_interface/bary_interpolation/bary_evaluation.hpp (exact version, with the addressing of the buffers: M_Bary). Arrays are indexed by their logical index; an entry that is not finite is [None]. Every operation is rounded as written; the product that is added to an accumulator may be contracted with the addition (the flags [f], one for each iteration). Cites: `include/nektar_interface/bary_interpolation/bary_evaluation.hpp`.
* `M_BaryField.v` – Model of BaryEvaluateBase (include/nektar_interface/function_bary_evaluation.hpp), of the map from geometries to expansions (expansion_looping/geom_to_expansion_builder.hpp) and of the derivative evaluation of FieldEvaluate (function_evaluation.hpp). Exact reals; the kernels are those of M_Bary, the collapsed coordinates those of M_Coord. Cites: `expansion_looping/geom_to_expansion_builder.hpp`, `function_evaluation.hpp`, `include/nektar_interface/function_bary_evaluation.hpp`.
* `M_Basis.v` – Model of the modal basis code: include/nektar_interface/basis_evaluation.hpp (device kernels), src/nektar_interface/basis_reference.cpp (host reference), include/nektar_interface/expansion_looping/*.hpp (loops over modes), basis_evaluate_base.hpp (table sizes), function_basis_projection.hpp and function_basis_evaluation.hpp (drivers). Exact reals; [fl] is a double, None = inf or NaN. The outer [option] of a kernel is None when the program reads uninitialised memory or out of bounds. Cites: `basis_evaluate_base.hpp`, `basis_evaluation.hpp`, `basis_reference.cpp`, `coordinate_mapping.hpp`, `function_basis_evaluation.hpp`, `function_basis_projection.hpp`, `hexahedron.hpp`, `include/nektar_interface/basis_evaluation.hpp`, `prism.hpp`, `pyramid.hpp`, `quadrilateral.hpp`, `src/nektar_interface/basis_reference.cpp`, `tetrahedron.hpp`, `triangle.hpp`.
* `M_BasisD.v` – Double precision version of the modal basis kernels: src/nektar_interface/expansion_looping/jacobi_coeff_mod_basis.cpp (the table of recurrence coefficients and host_evaluate) and include/nektar_interface/basis_evaluation.hpp (mod_A, mod_B, mod_C; mod_PyrC is in M_PyrD). The exact version is M_Jacobi and M_Basis, and has the addressing of the tables. Every operation is rounded as written. [None] is a value that is not finite or not set. A product that is added to another may be contracted with the addition: the flags [F]. Cites: `basis_evaluation.hpp`, `include/nektar_interface/basis_evaluation.hpp`, `jacobi_coeff_mod_basis.cpp`, `src/nektar_interface/expansion_looping/jacobi_coeff_mod_basis.cpp`.
* `M_BorisD.v` – Double precision version of the Boris push (solvers/Electrostatic2D3V/ParticleSystems/IntegratorBorisUniformB.hpp 71-139; exact version: boris_kernel in M_Pic). Operations are rounded as in M_Double; a product may be contracted with the addition that uses it. Cites: `solvers/Electrostatic2D3V/ParticleSystems/IntegratorBorisUniformB.hpp`.
* `M_BoundaryData.v` – The boundary data given to particles: CompositeIntersection::pre_integration and get_intersections (src/nektar_interface/composite_interaction/composite_intersection.cpp), the normals (composite_collections.cpp, composite_collections.hpp) and the options (composite_intersection.cpp, src/nektar_interface/particle_boundary_conditions.cpp). The device buffers are explicit and hold arbitrary values when they are taken from the pool. Cites: `composite_collections.cpp`, `composite_collections.hpp`, `composite_intersection.cpp`, `composite_utility.cpp`, `particle_boundary_conditions.cpp`, `src/nektar_interface/composite_interaction/composite_intersection.cpp`, `src/nektar_interface/particle_boundary_conditions.cpp`.
* `M_Bytes.v` – Byte level memory, outcomes and bounds-checked cursors shared by the geometry codecs. [byte]s are [Z] in [0,256). C++ [int] is a 32 bit two's complement little-endian integer, [double] an opaque 64 bit pattern (the codecs only [memcpy] them, so nothing else about them matters). Cites: `geometry_packing_utility.hpp`, `include/nektar_interface/geometry_transport/geometry_packing_utility.hpp`.
* `M_ChargedInit.v` – Creation of the initial particles of the Electrostatic2D3V solver: ChargedParticles::add_particles (solvers/Electrostatic2D3V/ParticleSystems/ChargedParticles.hpp 75-347), the number of particles (417-435) and sobol_within_extents (include/particle_utility/position_distribution.hpp 27-50). Over the reals. Not modelled: the transport of the new particles to their owners (326-346: parallel_advection_* of NESO-Particles followed by transfer_particles, C13 and C98). Cites: `ChargedParticles.hpp`, `include/particle_utility/position_distribution.hpp`, `position_distribution.hpp`, `solvers/Electrostatic2D3V/ParticleSystems/ChargedParticles.hpp`.
* `M_Composite.v` – Boundary interaction: src/nektar_interface/composite_interaction/composite_intersection.cpp, composite_collections.cpp and composite_transport.cpp. Cites: `composite_collections.cpp`, `composite_intersection.cpp`, `composite_transport.cpp`, `src/nektar_interface/composite_interaction/composite_intersection.cpp`.
* `M_Coord.v` – Model of include/nektar_interface/coordinate_mapping.hpp over exact reals. Cites: `BasicConst/NektarUnivConsts.hpp`, `include/nektar_interface/coordinate_mapping.hpp`.
* `M_CoordD.v` – Double precision version of include/nektar_interface/coordinate_mapping.hpp (exact version: M_Coord). Every operation is rounded as written; a product followed by an addition or subtraction may be contracted (the flags [f]). An infinite result or a division by zero is [None]. In loc_collapsed_to_loc_coord the product contracted is the one with 0.5. Cites: `include/nektar_interface/coordinate_mapping.hpp`.
* `M_CurvedMap.v` – MapParticlesNewton<MappingGeneric3D> with its per-geometry data and its local memory: the constructor's tables and the size of the local memory block (include/nektar_interface/particle_cell_mapping/map_particles_newton.hpp 80-95, 185-225), and the two kernels (254-380, 404-546) as programs of a work-group in which every work item has a block of its own (LocalMemoryBlock, NESO-Particles) in one shared memory. Cites: `include/nektar_interface/particle_cell_mapping/map_particles_newton.hpp`, `map_particles_newton.hpp`, `x_map_newton_kernel.hpp`.
* `M_Diffusion.v` – Model of the Diffusion solver: solvers/Diffusion/EquationSystems/DiffusionSystem.cpp, CwipiDiffTensorSender.cpp, CwipiReceiveDiffTensorAndDiffuse.cpp. Exact reals; a field is its value at every quadrature point; Nektar++'s Helmholtz solve (followed by BwdTrans) is an argument. Cites: `CwipiDiffTensorSender.cpp`, `CwipiReceiveDiffTensorAndDiffuse.cpp`, `DiffusionSystem.hpp`, `solvers/Diffusion/EquationSystems/DiffusionSystem.cpp`.
* `M_Double.v` – Double precision versions of kernels whose other models work with exact real numbers: - NektarCartesianPeriodic (src/nektar_interface/particle_boundary_conditions.cpp 5-76), - rsequence / rsequence_within_extents (include/particle_utility/position_distribution.hpp 51-117), - the atomic additions of a deposit (include/nektar_interface/expansion_looping, every shape, the line with fetch_add). Arithmetic is IEEE 754 binary64, round to nearest even, gradual underflow. A result whose rounded magnitude reaches 2^1024 would be an infinity: [None]. NaN never arises without an infinity or fmod by zero, which is [None] too. A conversion to an integer type that cannot hold the value is undefined behaviour: [None]. The compiler may contract a multiplication followed by an addition into one fused operation (-ffp-contract): the argument [fused] selects this, and the theorems hold for both. Cites: `function_basis_projection.hpp`, `include/particle_utility/position_distribution.hpp`, `particle_boundary_conditions.cpp`, `position_distribution.hpp`, `src/nektar_interface/particle_boundary_conditions.cpp`.
* `M_DoubleExpr.v` – Arithmetic expressions in double precision, for the generated residual functions of the Newton mappings (include/nektar_interface/particle_cell_mapping/generated_linear/, transcribed in M_NewtonGenD): constants, inputs, negation, addition, subtraction and multiplication, each operation rounded as in M_Double. A compiler may contract a product with the addition that uses it: [contract] says, by its place in the expression, which products are not rounded. Temporaries are expanded where they are used, so that each use may be contracted or not (the default of the SYCL compilers contracts across statements). Reassociation is not modelled. 
* `M_DoubleGrid.v` – The Cartesian overlay of the particle mapping in double precision: DeviceCartesianMesh (include/nektar_interface/utility_mesh_cartesian.hpp 49-160), the cells visited and the overlap test of CoarseLookupMap::add_geom_to_map (include/nektar_interface/particle_cell_mapping/coarse_lookup_map.hpp 40-78), the extents of its constructor (103-133) and the cell a mapping kernel computes for a particle (map_particles_newton.hpp 285-310; the same text in map_particles_{2,3}d_regular.cpp). The arithmetic is that of M_Double. The numbers of cells per dimension (exp, log) are an argument. The record of a cell's candidates and its sorting are in M_Grid; they do not depend on the arithmetic. Cites: `bounding_box_intersection.hpp`, `coarse_lookup_map.hpp`, `d_regular.cpp`, `include/nektar_interface/particle_cell_mapping/coarse_lookup_map.hpp`, `include/nektar_interface/utility_mesh_cartesian.hpp`, `map_particles_newton.hpp`.
* `M_DoubleTime.v` – The particle sub-stepping of the coupled solvers in double precision: NeutralParticleSystem::integrate (solvers/SimpleSOL/ParticleSystems/NeutralParticleSystem.hpp 355-373, solvers/DriftReduced/ParticleSystems/ NeutralParticleSystem.hpp 153-174), the particle time step (SimpleSOL/EquationSystems/SOLWithParticlesSystem.cpp 48-50, DriftReduced/EquationSystems/DriftReducedSystem.cpp 344-348) and the call per fluid step (SOLWithParticlesSystem.cpp 96, DriftReducedSystem.cpp 565). Only the times: what a substep does to the particles is in M_Sol and M_Neutral. Arithmetic of M_Double; Nektar++ advances the fluid's time by m_time += m_timestep. Cites: `DriftReduced/EquationSystems/DriftReducedSystem.cpp`, `DriftReducedSystem.cpp`, `NeutralParticleSystem.hpp`, `SOLWithParticlesSystem.cpp`, `SimpleSOL/EquationSystems/SOLWithParticlesSystem.cpp`, `solvers/SimpleSOL/ParticleSystems/NeutralParticleSystem.hpp`.
* `M_Driver.v` – Model of the main loop of the two Electrostatic2D3V solvers and of their output: solvers/Electrostatic2D3V/ElectrostaticTwoStream2D3V.hpp (constructor 99-237, run 242-352, finalise 354-366), ElectrostaticElectronBernsteinWaves2D3V.hpp (constructor 84-204, run 209-307, finalise 311-322), Diagnostics/LineFieldEvaluations.hpp (whole), ParticleSystems/ChargedParticles.hpp write 534-547, ParticleSystems/PoissonParticleCoupling.hpp write_forcing, write_potential 286-300. The writer is M_Writer. The state of the simulation and what its three steps do to it are arguments (M_Pic models them). Cites: `Diagnostics/LineFieldEvaluations.hpp`, `ElectrostaticElectronBernsteinWaves2D3V.hpp`, `ParticleSystems/ChargedParticles.hpp`, `ParticleSystems/PoissonParticleCoupling.hpp`, `solvers/Electrostatic2D3V/ElectrostaticTwoStream2D3V.hpp`.
* `M_Euler.v` – Model of the SimpleSOL fluid equations: solvers/SimpleSOL/EquationSystems/SOLSystem.cpp and Forcing/SourceTerms.cpp. Exact reals. Nektar++'s equation of state (VariableConverter::GetPressure) and weak DG advection are arguments. Cites: `Forcing/SourceTerms.cpp`, `solvers/SimpleSOL/EquationSystems/SOLSystem.cpp`.
* `M_EvalD.v` – Double precision version of loop_evaluate_v of include/nektar_interface/expansion_looping/ (quadrilateral, triangle, hexahedron, prism, tetrahedron; not pyramid): the sum over modes of coefficient times basis functions at a particle. The exact versions, with the bounds of the arrays, are in M_Basis. Every operation is rounded as written; the last product of the term that is added to [evaluation] may be contracted with the addition (the flags [f], one for each mode). An entry that is not finite, or outside its array, is [None]. Cites: `hexahedron.hpp`, `prism.hpp`, `quadrilateral.hpp`, `tetrahedron.hpp`, `triangle.hpp`.
* `M_Exchange.v` – Exchange of 2D geometries between ranks: include/nektar_interface/particle_mesh_interface.hpp 294-490, 629-650, 786-809. Cites: `include/nektar_interface/particle_mesh_interface.hpp`.
* `M_ExchangeMesh.v` – The 2D constructor of ParticleMeshInterface (particle_mesh_interface.hpp 871-921) up to the halo exchange: claims of the triangles, then of the quadrilaterals, into one LocalClaim and two MHGeomMaps. [bx]: the bounding box of a geometry (Nektar++). Cites: `particle_mesh_interface.hpp`.
* `M_FieldDeposit.v` – Model of depositing particle data on fields: the constructor of FieldProject with its comparison of the fields (include/nektar_interface/function_projection.hpp 107-170), FunctionProjectBasis::project for groups and sub groups (function_basis_projection.hpp 37-183, 216-269) with the setup of M_FieldEval and the launches of M_Launch, and FieldProject::project (432-527). The kernels are those of M_Basis, the solves those of M_FieldProject. Cites: `function_basis_projection.hpp`, `include/nektar_interface/function_projection.hpp`.
* `M_FieldEval.v` – Model of the setup of BasisEvaluateBase for a field (include/nektar_interface/expansion_looping/basis_evaluate_base.hpp 152-268, geom_to_expansion_builder.hpp 37-53), of FunctionEvaluateBasis::evaluate for groups and sub groups of particles (function_basis_evaluation.hpp 36-278) and of the value path of FieldEvaluate (function_evaluation.hpp 57-129). The kernels are those of M_Basis, the launches those of M_Launch. Cites: `basis_evaluate_base.hpp`, `function_basis_evaluation.hpp`, `function_evaluation.hpp`, `geom_to_expansion_builder.hpp`, `include/nektar_interface/expansion_looping/basis_evaluate_base.hpp`.
* `M_FieldHelp.v` – Model of the field helpers of include/nektar_interface/utilities.hpp (interpolation onto a field, evaluation of a field and of its derivatives at a point, map from particle cells to expansions) and of the error measures of include/nektar_interface/special_functions.hpp. Exact reals. What Nektar++ does is a parameter: the transforms, the search for the element of a point and, per element, the evaluation of point values, their derivative and the reference coordinates. Cites: `include/nektar_interface/special_functions.hpp`, `include/nektar_interface/utilities.hpp`, `special_functions.hpp`, `utilities.hpp`.
* `M_FieldProject.v` – Model of FieldProject (include/nektar_interface/function_projection.hpp 62-561), over the kernels of M_Basis. Nektar++ parts are arguments: the inverse mass matrix (MultiplyByElmtInvMass / MultiplyByInvMassMatrix), BwdTrans and LocCoordToLocCollapsed. A ParticleDat is identified by a number; all the dats of the group exist. Cites: `function_basis_projection.hpp`, `function_evaluation.hpp`, `include/nektar_interface/function_projection.hpp`.
* `M_Fluid.v` – Model of the drift-reduced fluid equation systems (solvers/DriftReduced/EquationSystems/*.cpp), of their base classes (include/nektar_interface/solver_base/eqnsys_base.hpp, time_evolved_eqnsys_base.hpp) and of the growth rate diagnostics (solvers/DriftReduced/Diagnostics/GrowthRatesRecorder.hpp). Exact reals. A field is its value at every quadrature point; all fields have the same points (validate_fields). Nektar++'s operators (PhysDeriv, HelmSolve, the advection and diffusion objects, ExtractTracePhys, Integral) are arguments. Cites: `DriftReducedSystem.cpp`, `HWSystem.cpp`, `LAPDSystem.cpp`, `eqnsys_base.hpp`, `include/nektar_interface/solver_base/eqnsys_base.hpp`, `solvers/DriftReduced/Diagnostics/GrowthRatesRecorder.hpp`, `time_evolved_eqnsys_base.hpp`.
* `M_Generic3D.v` – include/nektar_interface/particle_cell_mapping/newton_generic_3d.hpp (MappingGeneric3D, the Newton implementation of curved 3D elements) and its use by x_map_newton_kernel.hpp, with the local memory threaded through explicitly. [double] is R; None for a value = a non-finite value was produced. Cites: `include/nektar_interface/particle_cell_mapping/newton_generic_3d.hpp`, `map_particles_newton.hpp`, `x_map_newton.hpp`, `x_map_newton_kernel.hpp`.
* `M_Grid.v` – Model of bounding boxes, the Cartesian mesh, the coarse lookup map and the Cartesian periodic boundary condition. Everything over exact reals. Cites: `d_regular.cpp`, `include/nektar_interface/bounding_box_intersection.hpp`, `include/nektar_interface/particle_cell_mapping/coarse_lookup_map.hpp`, `include/nektar_interface/utility_mesh_cartesian.hpp`, `src/nektar_interface/particle_boundary_conditions.cpp`.
* `M_Halo.v` – Halo extension in 2D: src/nektar_interface/geometry_transport/halo_extension.cpp and include/nektar_interface/geometry_transport/halo_extension.hpp. Cites: `include/nektar_interface/geometry_transport/halo_extension.hpp`, `src/nektar_interface/geometry_transport/halo_extension.cpp`.
* `M_Halo3D.v` – Halos on a 3D mesh as built by the constructor of ParticleMeshInterface: include/nektar_interface/particle_mesh_interface.hpp 672-780 (exchange_2d_send_wrapper, create_halos_3d), 786-809 (collect_neighbour_ranks, 3D branch), 881-921 (constructor, 3D branches) and src/nektar_interface/geometry_transport/geometry_transport_3d.cpp 193-209, 280-331, 351-390. Cites: `geometry_transport_3d.cpp`, `include/nektar_interface/particle_mesh_interface.hpp`, `particle_mesh_interface.hpp`, `remote_geom_3d.hpp`, `src/nektar_interface/geometry_transport/geometry_transport_3d.cpp`.
* `M_HaloExt3.v` – Halo extension on a 3D mesh: src/nektar_interface/geometry_transport/halo_extension.cpp 290-327 (halo_exchange_send_sizes), 375-393 (halo_get_rank_to_geoms_3d), 420-643 (extend_halos_fixed_offset with ndim == 3); include/nektar_interface/geometry_transport/halo_extension.hpp; geometry_transport_3d.cpp 11-32 (get_all_elements_3d). The cells, the requests and the exchange of 2D objects are those of M_Halo. Cites: `geometry_transport_3d.cpp`, `include/nektar_interface/geometry_transport/halo_extension.hpp`, `src/nektar_interface/geometry_transport/halo_extension.cpp`.
* `M_HexGeom.v` – include/nektar_interface/utility_mesh.hpp: make_hex_geom, a curved hexahedron from three coordinate maps. [double] is R. What Nektar++ computes from the pieces (GetGeomFactors, Setup, the validity warning 246-247) is not modelled: the result is the control points, the tables and the numbering handed to the constructors of Nektar++. Cites: `include/nektar_interface/utility_mesh.hpp`.
* `M_Implicit.v` – Model of ImplicitHelper (include/solvers/helpers/implicit_helper.hpp): the implicit stage of the Rogers-Ricci solver. Exact reals. The Newton solver, the projection and the right hand side are oracles. Arrays are lists; one per rank where ranks communicate. Cites: `include/solvers/helpers/implicit_helper.hpp`.
* `M_IoniseD.v` – Double precision version of the change of a neutral particle's weight by ionisation and of the density source it leaves behind: SimpleSOL/ParticleSystems/NeutralParticleSystem.hpp ionise 448-450 and 484-501, DriftReduced/ParticleSystems/NeutralParticleSystem.hpp ionise 463-465 and 490-507 (the same statements; exact version: ionise_sol, ionise_dr in M_Sol). The rate is an input, any double. The last product of deltaweight may be contracted with either addition that uses it, [cc] and [cu], independently. An infinite intermediate result is [None]. Momentum and energy sources are not modelled here. Cites: `DriftReduced/ParticleSystems/NeutralParticleSystem.hpp`, `SimpleSOL/ParticleSystems/NeutralParticleSystem.hpp`.
* `M_Jacobi.v` – Model of the Jacobi polynomial code: include/nektar_interface/special_functions.hpp and src/nektar_interface/expansion_looping/jacobi_coeff_mod_basis.cpp. Exact reals; [int] arithmetic exact (the orders and alphas in use keep it far from overflow). A non-finite double is None. Cites: `include/nektar_interface/special_functions.hpp`, `jacobi_coeff_mod_basis.cpp`, `special_functions.hpp`, `src/nektar_interface/expansion_looping/jacobi_coeff_mod_basis.cpp`.
* `M_Journey.v` – Which elements the particle to cell mapping knows, and its choice by dimension: src/nektar_interface/particle_cell_mapping/{nektar_graph_local_mapper,map_particles_2d,map_particles_3d}.cpp. The pieces (initial halo exchange, pipelines, cell translation) are M_Exchange, M_Halo3D, M_Regular, M_Util. Cites: `ShapeType.hpp`, `cell_id_translation.hpp`, `map_particles_2d.cpp`, `map_particles_2d_regular.cpp`, `map_particles_3d.cpp`, `map_particles_3d_regular.cpp`, `map_particles_newton.hpp`.
* `M_Launch.v` – Model of how the basis kernels are launched on the device and of their work-group local memory: FunctionEvaluateBasis::evaluate_inner (include/nektar_interface/function_basis_evaluation.hpp 40-127), FunctionProjectBasis::project_inner (function_basis_projection.hpp 39-122), get_loop_data and prepare_per_dim_basis (expansion_looping/basis_evaluate_base.hpp 51-80, 111-137), the cells per shape (192-193, 229-246) and get_particle_loop_global_size (utility_sycl.hpp 41-48). The values computed are those of M_Basis. Sizes are nat (the ints do not overflow). The local size is an argument (get_num_local_work_items of NESO-Particles); SYCL gives the item with global id (i, j) of a range split in groups of {1, L} the local id j mod L in group (i, j / L). Cites: `basis_evaluate_base.hpp`, `expansion_looping/basis_evaluate_base.hpp`, `function_basis_evaluation.hpp`, `function_basis_projection.hpp`, `include/nektar_interface/function_basis_evaluation.hpp`, `utility_sycl.hpp`.
* `M_LinePlane.v` – Boundary elements as planes: src/nektar_interface/composite_interaction/composite_utility.cpp, include/nektar_interface/composite_interaction/line_plane_intersection.hpp and line_line_intersection.hpp. Exact reals. A linear element is the list of its vertices. Cites: `composite_utility.cpp`, `include/nektar_interface/composite_interaction/line_plane_intersection.hpp`, `line_line_intersection.hpp`, `line_plane_intersection.hpp`, `special_functions.hpp`, `src/nektar_interface/composite_interaction/composite_utility.cpp`.
* `M_Loop.v` – Counted loops and memory, shared by the numeric kernels. Exact reals. 
* `M_MeshIf.v` – Model of the mesh hierarchy construction and of the cell claims of include/nektar_interface/particle_mesh_interface.hpp. Exact reals. Cites: `include/nektar_interface/particle_mesh_interface.hpp`.
* `M_Neutral.v` – Model of the population of the DriftReduced solver's neutral particles and of the step that drives them: solvers/DriftReduced/ParticleSystems/NeutralParticleSystem.hpp (set_up_particles 75-136, integrate 153-174, project_source_terms 179-196, add_particles 300-373, transfer_particles), DriftReducedSystem.cpp v_PreIntegrate 562-571. The kernels (ionise_dr, euler_dr), particles and state are those of M_Sol. The particles of all ranks are one list, in the order of the ranks. Cites: `DriftReducedSystem.cpp`, `solvers/DriftReduced/ParticleSystems/NeutralParticleSystem.hpp`.
* `M_NewtonBind.v` – Model of the Newton inversion and of the particle to cell mapping pipelines: include/nektar_interface/particle_cell_mapping/{x_map_newton_kernel,x_map_newton,map_particles_newton, newton_relative_exit_tolerances}.hpp, src/nektar_interface/particle_cell_mapping/{map_particles_2d, map_particles_3d,map_particles_host,map_particles_common}.cpp. [double] is R; None for a value = a non-finite value was produced. Cites: `coarse_lookup_map.hpp`, `map_particles_2d.cpp`, `map_particles_2d_regular.cpp`, `map_particles_3d.cpp`, `map_particles_3d_regular.cpp`, `map_particles_common.cpp`, `map_particles_host.cpp`, `map_particles_newton.hpp`, `newton_relative_exit_tolerances.hpp`, `x_map_newton.hpp`, `x_map_newton_kernel.hpp`.
* `M_NewtonD.v` – The residuals of the Newton mapping types in double precision: newton_residual_v of include/nektar_interface/particle_cell_mapping/ newton_{quad,tet,prism,hex,quad_embed_3d,triangle_embed_3d}.hpp with the generated functions of M_NewtonGenD and newton_relative_exit_tolerances.hpp 11-42. Not modelled in doubles: the Newton step, the pyramid (it divides). Cites: `newton_hex.hpp`, `newton_quad_embed_3d.hpp`, `newton_relative_exit_tolerances.hpp`, `newton_triangle_embed_3d.hpp`.
* `M_NewtonGen.v` – GENERATED by tools/gen_newton.py from /repo; do not edit by hand. Transcription, statement by statement, of the straight-line functions of include/nektar_interface/particle_cell_mapping/generated_linear/*.hpp (newton_step_linear_{2,3}d and newton_f_linear_{2,3}d of each element type). The binary literals 0.5, 0.25, 0.125 are written 1/2, 1/4, 1/8; [double] is R; a division is checked: a zero divisor gives None (the code would produce inf or NaN). The unused phys arguments of the step functions are kept. Cites: `include/nektar_interface/particle_cell_mapping/generated_linear/hexahedron.hpp`, `include/nektar_interface/particle_cell_mapping/generated_linear/prism.hpp`, `include/nektar_interface/particle_cell_mapping/generated_linear/pyramid.hpp`, `include/nektar_interface/particle_cell_mapping/generated_linear/quadrilateral.hpp`, `include/nektar_interface/particle_cell_mapping/generated_linear/quadrilateralembed3d.hpp`, `include/nektar_interface/particle_cell_mapping/generated_linear/tetrahedron.hpp`.
* `M_NewtonGenD.v` – GENERATED by tools/gen_newton.py /repo expr; do not edit by hand. The residual functions newton_f_linear_{2,3}d of include/nektar_interface/particle_cell_mapping/generated_linear/*.hpp, statement by statement, as expressions of M_DoubleExpr (temporaries are lets, so they expand where they are used); without the pyramid's, which divides. Cites: `include/nektar_interface/particle_cell_mapping/generated_linear/hexahedron.hpp`, `include/nektar_interface/particle_cell_mapping/generated_linear/prism.hpp`, `include/nektar_interface/particle_cell_mapping/generated_linear/quadrilateral.hpp`, `include/nektar_interface/particle_cell_mapping/generated_linear/quadrilateralembed3d.hpp`, `include/nektar_interface/particle_cell_mapping/generated_linear/tetrahedron.hpp`.
* `M_NewtonMap.v` – Model of the Newton mapping types: include/nektar_interface/particle_cell_mapping/newton_{quad,tet,prism,hex,pyr, quad_embed_3d,triangle_embed_3d}.hpp, newton_relative_exit_tolerances.hpp. [double] is R; None = a non-finite value was produced. [c i k] is coordinates[i][k] of DataDevice. Cites: `mapping_newton_iteration_base.hpp`, `newton_hex.hpp`, `newton_prism.hpp`, `newton_pyr.hpp`, `newton_quad.hpp`, `newton_quad_embed_3d.hpp`, `newton_relative_exit_tolerances.hpp`, `newton_tet.hpp`, `newton_triangle_embed_3d.hpp`, `particle_cell_mapping_common.hpp`, `x_map_newton.hpp`, `x_map_newton_kernel.hpp`.
* `M_Pack2D.v` – Model of PackedGeom2D / PackedGeoms2D: the message format used to send triangles and quadrilaterals between ranks. Cites: `packed_geom_2d.hpp`, `packed_geoms_2d.hpp`, `remote_geom_2d.hpp`.
* `M_Params.v` – Model of the parameter loading of the DriftReduced solvers: load_params of solvers/DriftReduced/EquationSystems/DriftReducedSystem.cpp, HW2DSystem.cpp, HW3DSystem.cpp, LAPDSystem.cpp and RogersRicci2DSystem.cpp. Exact reals. Cites: `HW2DSystem.cpp`, `HW3DSystem.cpp`, `LAPDSystem.cpp`, `RogersRicci2DSystem.cpp`, `solvers/DriftReduced/EquationSystems/DriftReducedSystem.cpp`.
* `M_PartSys.v` – Model of the base class of all particle systems, src/nektar_interface/solver_base/partsys_base.cpp and include/nektar_interface/solver_base/partsys_base.hpp, and of the choice of a particle system by an equation system, include/nektar_interface/solver_base/eqnsys_base.hpp 54-78. Cites: `DriftReducedSystem.cpp`, `SOLWithParticlesSystem.cpp`, `include/nektar_interface/solver_base/eqnsys_base.hpp`, `include/nektar_interface/solver_base/partsys_base.hpp`, `src/nektar_interface/solver_base/partsys_base.cpp`.
* `M_Pic.v` – Model of the Electrostatic2D3V particle-in-cell solver: integrators, charge normalisation, neutralising background, diagnostics, driver. Exact reals; Nektar++ (quadrature, transforms, Helmholtz solve) and the field evaluation at particles are explicit function arguments. Cites: `ChargedParticles.hpp`, `Diagnostics/FieldEnergy.hpp`, `Diagnostics/FieldMean.hpp`, `Diagnostics/KineticEnergy.hpp`, `Diagnostics/PotentialEnergy.hpp`, `ElectrostaticTwoStream2D3V.hpp`, `EquationSystems/PoissonPIC.cpp`, `IntegratorBorisUniformB.hpp`, `PoissonParticleCoupling.hpp`, `include/nektar_interface/function_projection.hpp`, `solvers/Electrostatic2D3V/ParticleSystems/ChargedParticles.hpp`.
* `M_Plane.v` – Model of the DriftPlane solver: solvers/DriftPlane/EquationSystems/DriftPlaneSystem.cpp, Blob2DSystem.cpp and RiemannSolvers/DriftUpwindSolver.hpp. Exact reals; a field is its value at every quadrature (or trace) point. Nektar++'s operators are arguments. Cites: `Blob2DSystem.cpp`, `RiemannSolvers/DriftUpwindSolver.hpp`, `eqnsys_base.hpp`, `solvers/DriftPlane/EquationSystems/DriftPlaneSystem.cpp`.
* `M_ProjectD.v` – Double precision version of loop_project_v of include/nektar_interface/expansion_looping/ (quadrilateral, triangle, hexahedron, prism, tetrahedron; not pyramid): the contributions of one particle to the coefficients of its element, in the order of the calls of fetch_add, and the sum that a coefficient holds after its atomic additions. The exact versions, with the bounds of the arrays, are in M_Basis. Every operation is rounded as written (there is no sum to contract a product with: the addition is the atomic). A value that is not finite, or a read outside an array, is [None]. Cites: `function_basis_projection.hpp`, `hexahedron.hpp`, `prism.hpp`, `quadrilateral.hpp`, `tetrahedron.hpp`, `triangle.hpp`.
* `M_PyrD.v` – Double precision version of mod_PyrC of include/nektar_interface/basis_evaluation.hpp. The exact version, with the bounds of the output, is in M_Basis. [output] and [output_base] are the end of the list of values written and an index into it, as there. The loop over r (361-384) with the term before it (345-347) has the text of the loop of mod_B for px = p + q - 1 (alpha = 2 * px - 1 = 2 * p + 2 * q - 3), with r0_pow_inner as the power, up to the order of the two factors of a product: it is modelled by the same function. Cites: `include/nektar_interface/basis_evaluation.hpp`.
* `M_Reader.v` – Model of the particle session reader (src/nektar_interface/solver_base/particle_reader.cpp). Strings are lists of characters; std::string::npos is [None]; a thrown exception / failed assertion is [None] of the result. Cites: `particle_reader.cpp`, `src/nektar_interface/solver_base/particle_reader.cpp`.
* `M_Reader2.v` – Model of the rest of the particle session reader (src/nektar_interface/solver_base/particle_reader.cpp): species, their functions, reactions, read_particles and the species and reaction parameter loads. XML elements are records of their attributes and the texts of their parameter elements (an element without text is skipped, 445, 687). A failed NESOASSERT and an exception leaving the reader are [AssertFail]; [UB] is a std::string built from the null pointer of a missing attribute, or an index past the end of a vector. Cites: `src/nektar_interface/solver_base/particle_reader.cpp`.
* `M_RealBase.v` – Exact-real base for the continuous parts of the model. [double] is modelled by [R]; comparisons are Flocq's boolean comparisons; double-to-int conversion is [Ztrunc]. 
* `M_Regular.v` – Model of the regular (affine) element mappers and of the construction of the 2D / 3D mapping pipelines: src/nektar_interface/particle_cell_mapping/{map_particles_2d_regular,map_particles_3d_regular,map_particles_2d, map_particles_3d}.cpp, include/nektar_interface/particle_cell_mapping/{map_particles_2d_regular, map_particles_3d_regular,particle_cell_mapping_common}.hpp. [double] is R. Cites: `common.hpp`, `geometry_container_3d.hpp`, `geometry_types_3d.hpp`, `map_particles_2d.cpp`, `map_particles_2d_regular.cpp`, `map_particles_2d_regular.hpp`, `map_particles_3d.cpp`, `map_particles_3d_regular.cpp`, `map_particles_3d_regular.hpp`, `particle_cell_mapping_common.hpp`.
* `M_RemoteGeom.v` – Model of RemoteGeom<T>: the serialisation of segments, 2D faces and polyhedra (include/nektar_interface/geometry_transport/remote_geom.hpp). Cites: `ShapeType.hpp`, `include/nektar_interface/geometry_transport/remote_geom.hpp`, `remote_geom.hpp`, `shape_mapping.hpp`.
* `M_Rma.v` – The counting protocol of ParticleMeshInterface: exchange_init_send_counts (326-332) and exchange_finalise_send_counts (337-355) of include/nektar_interface/particle_mesh_interface.hpp, run on all ranks under every interleaving of the ranks and any number of times in a row (the interface runs it once per geometry type, on the same window). Cites: `include/nektar_interface/particle_mesh_interface.hpp`.
* `M_Rounds.v` – The size messages of the exchanges of ParticleMeshInterface, on all ranks under every interleaving, with every exchange following the other on the same communicator and the same tag: include/nektar_interface/particle_mesh_interface.hpp 326-355 (counting, as in M_Rma) followed by 360-390 (exchange_get_recv_ranks: num_recv_ranks receives from MPI_ANY_SOURCE with tag 45, one send with tag 45 per send rank, then MPI_Waitall). The constructor runs this two (2D, 653-668) or three (3D, 724-766) times, halo_extend again after it. A receive from any source may match any message addressed to the rank that is in flight, also one that belongs to another exchange: nothing in the message says which. Simplification: the packed data (tag 46 and 135), sent to and received from the ranks found here by name, is not part of this model (M_Exchange, M_Transport); sends are buffered (a send that waits for its receive is not held up: the receives are posted before the sends, 370-380). Cites: `include/nektar_interface/particle_mesh_interface.hpp`.
* `M_Sample.v` – Model of point location by search, element-uniform sampling, the R-sequence and the line/point sampler. Cites: `include/nektar_interface/utilities.hpp`, `include/particle_utility/particle_initialisation_line.hpp`, `include/particle_utility/position_distribution.hpp`, `src/nektar_interface/utilities.cpp`.
* `M_Sol.v` – Model of the neutral particle systems of the SimpleSOL and DriftReduced solvers (solvers/SimpleSOL/ParticleSystems/NeutralParticleSystem.hpp, solvers/DriftReduced/ParticleSystems/ NeutralParticleSystem.hpp), of the ionisation rate (solvers/common/solver_utils.hpp), of the fluid step that drives them (SimpleSOL/EquationSystems/SOLWithParticlesSystem.cpp) and of the mass diagnostics (SimpleSOL/Diagnostics/MassRecording.hpp, DriftReduced/Diagnostics/MassRecorder.hpp). Exact reals; a double is [option R], None = inf or NaN. The particles of all ranks are one list: hybrid_move, cell_id_translation and cell_move only change where a particle is stored. The evaluation of the fluid fields at a particle, the draws of the random number generator and the periodic boundary condition (C22) are arguments. Cites: `DriftReduced/Diagnostics/MassRecorder.hpp`, `NeutralParticleSystem.hpp`, `SimpleSOL/Diagnostics/MassRecording.hpp`, `SimpleSOL/EquationSystems/SOLWithParticlesSystem.cpp`, `SimpleSOL/ParticleSystems/NeutralParticleSystem.cpp`, `function_projection.hpp`, `solvers/SimpleSOL/ParticleSystems/NeutralParticleSystem.hpp`, `solvers/common/solver_utils.hpp`.
* `M_Subdomain.v` – Model of ParticleMeshInterface::get_point_in_subdomain (include/nektar_interface/particle_mesh_interface.hpp 1027-1068) with get_element_2d (src/nektar_interface/geometry_transport/geometry_transport_2d.cpp 32-43), get_element_3d (geometry_transport_3d.cpp 40-65) and get_vertex_average (src/nektar_interface/composite_interaction/composite_utility.cpp 85-106, any coordim). [double] is R. Nektar++ parts given as arguments: the elements (S_Subdomain.element: shape, coordim, map; GetVertex i is the image of corner i) and Geometry::ContainsPoint. Cites: `composite_utility.cpp`, `geometry_transport_2d.cpp`, `geometry_transport_3d.cpp`, `include/nektar_interface/particle_mesh_interface.hpp`, `src/nektar_interface/composite_interaction/composite_utility.cpp`, `src/nektar_interface/geometry_transport/geometry_transport_2d.cpp`.
* `M_SumD.v` – Double precision versions of the diagnostics that add up a contribution of every particle of every rank: KineticEnergy::compute (Electrostatic2D3V/Diagnostics/KineticEnergy.hpp 46-72), PotentialEnergy::compute (Electrostatic2D3V/Diagnostics/PotentialEnergy.hpp 77-102), MassRecording::compute (SimpleSOL/Diagnostics/MassRecording.hpp 50-119) and MassRecorder::compute (DriftReduced/Diagnostics/MassRecorder.hpp 96-150, the same statements). Exact versions: kinetic_energy, potential_energy (M_Pic), mass_error (M_Sol). NP::GlobalArray (a dependency) adds the contributions of a rank with atomic additions in an unspecified order, possibly through partial sums, and adds the rank sums with MPI_Allreduce in an unspecified order: the schedule is an arbitrary binary tree of rounded additions whose leaves are the contributions and the zeros that sums start from. An infinite intermediate result is [None]. Cites: `DriftReduced/Diagnostics/MassRecorder.hpp`, `Electrostatic2D3V/Diagnostics/KineticEnergy.hpp`, `Electrostatic2D3V/Diagnostics/PotentialEnergy.hpp`, `KineticEnergy.hpp`, `MassRecording.hpp`, `PotentialEnergy.hpp`, `SimpleSOL/Diagnostics/MassRecording.hpp`.
* `M_Transport.v` – Model of the geometry exchanges: the 2D ring gather, the 3D element streams and the point-to-point exchange of streams. Cites: `geometry_transport_2d.hpp`, `geometry_transport_3d.cpp`, `packed_geoms_2d.hpp`.
* `M_Util.v` – Model of small host utilities: parameter store, solver callbacks, field name map, cell id translation, work sizes. Cites: `geometry_transport_2d.cpp`, `geometry_transport_3d.cpp`, `include/nektar_interface/parameter_store.hpp`, `include/nektar_interface/utilities.hpp`, `include/nektar_interface/utility_sycl.hpp`, `include/solvers/solver_callback_handler.hpp`.
* `M_Vtk.v` – include/nektar_interface/utility_mesh_plotting.hpp (VTKGeometryWriter, write_vtk_cells_owned, write_vtk_cells_halo) and tools/MeshPlotting. The file is the list of its words; a line of the header is one word. Simplified: a number is kept as such (the code prints six significant digits); vertex, edge and element objects are records, an element also has the address [g_ptr] the property map is keyed on; PointGeom's GetVid and GetGlobalID are the same number. Cites: `MeshPlotting.cpp`, `MeshPlottingInner.cpp`, `include/nektar_interface/utility_mesh_plotting.hpp`.
* `M_Writer.v` – Model of the HDF5 writer used by the diagnostics: include/io/generic_hdf5_writer.hpp (whole file). A group is its list of (key, value), in the order of creation; the groups of the steps are named by std::to_string(step), which is injective: here the number itself. HDF5's own behaviour (from its manual): creating an object whose name exists in the group, or any call with an invalid identifier, returns a negative value and changes nothing; an identifier is invalid once closed. Cites: `include/io/generic_hdf5_writer.hpp`.

## Parts of the code that are not modelled

* Byte-level file contents written by HDF5 and by Nektar++'s field output (which values are written, and when, is modelled: C89, C90, C93), log output.
* Header-only aggregation files (`particle_interface.hpp`, `particle_cell_mapping*.hpp`, `newton_geom_interfaces.hpp`, `typedefs.hpp`, `expansion_looping.hpp`).
* Memory management: SYCL buffers, USM pointers, lifetimes (`free` calls), streams and events.
* The python generators in `python/deformed_mappings` (their output, the generated headers, is modelled).
* Test code under `test/` and `solvers/test/`; build system; documentation.
* Nektar++, NESO-Particles, HDF5, CWIPI, MPI themselves.
* Performance-only parameters (work group sizes) except that they cannot change results (C16) and that every work item has its own scratch space (C97).

## What Print Assumptions lists for each theorem

Generated by tools/gen_assumptions.py from the built tree. Every axiom is in Coq's standard library:

* F = `ClassicalDedekindReals.sig_forall_dec`
* N = `ClassicalDedekindReals.sig_not_dec`
* E = `FunctionalExtensionality.functional_extensionality_dep`
* C = `Classical_Prop.classic`
* – = closed under the global context

### P_BBox

* C86_sampled: EF
* C86_schedule: EF
* C86_plan: EF
* C86_negative_factor_refuted: EF
* C86_lower_dim: EF
* C86_linear: EF
* C86_boundary_covered: EF
* C86_curved_refuted: EF
* C86_device_refuted: EF
* C86_boundary_nonvacuous: EF
* C86_linear_nonvacuous: EF

### P_Bary

* C43_weights: EF
* C43_weights_block: EF
* C43_sum_and_nodes: EF
* C43_polynomials: EF
* C43_polynomials_block: EF
* C43_nonvacuous: EF
* C44_scalar_2d: EF
* C44_interlaced_2d: EF
* C44_interlaced_2d_fixed: EF
* C44_scalar_3d: EF
* C44_interlaced_3d: EF
* C44_interlaced_3d_fixed: EF
* C44_block_3d: EF
* C44_evaluate_2d: EF
* C44_evaluate_3d: EF
* C44_polynomials_2d: EF
* C44_polynomials_3d: EF
* C44_nonvacuous: EF

### P_BaryD

* C113_weights: CEFN
* C113_lane: CEFN
* C113_evaluate_1d: CEFN
* C113_evaluate_2d: CEFN
* C113_evaluate_3d: CEFN
* C113_points: CEFN
* C113_sum: CEFN
* C113_constant_2d: CEFN
* C113_constant_3d: CEFN
* C113_nodes_2d: CEFN
* C113_nodes_3d: CEFN
* C113_near_node_refuted: CEFN
* C113_gap: CEFN
* C113_applied: CEFN

### P_BaryField

* C82_setup: EF
* C82_setup_succeeds: EF
* C82_setup_order: EF
* C82_evaluate: EF
* C82_value: EF
* C82_paths_agree: EF
* C82_gradient: EF
* C82_refused: EF
* C82_component_refuted: EF
* C82_missing_geometry_refuted: EF
* C82_nonvacuous: EF

### P_Basis

* C52_jacobi_function: EF
* C52_precomputed: EF
* C52_outside_limits_rejected: EF
* C52_table_entries: EF
* C52_spec_low_orders: EF
* C52_spec_recurrence: EF
* C52_legendre: EF
* C51_reference_values: EF
* C51_reference_shape_modes: EF
* C51_kernels_equal_reference: EF
* C51_collapsed_end_refuted: EF
* C51_one_mode_refuted: EF
* C51_case: EF
* C53_total_modes_basis: –
* C53_total_modes_shape: –
* C53_kernel_output_length: EF
* C53_reference_length: EF
* C53_loops_touch_all_dofs_once: EF
* C53_constructor_accepts: –
* C53_constructor_sizes: –
* C53_numbers: –
* C54_collapse_total: EF
* C54_collapse_values: EF
* C54_evaluation_is_modal_sum: EF
* C54_projection_any_order: EF
* C54_particles_evaluable: EF
* C54_adjoint: EF
* C54_collapsed_vertex_refuted: EF
* C54_case: EF

### P_BasisD

* C114_jacobi: CEFN
* C114_size: EF
* C114_size_bounds: EF
* C114_mod_A: CEFN
* C114_mod_B: CEFN
* C114_mod_C: CEFN
* C114_lists: EF
* C114_ends: CEFN
* C114_collapsed_end_refuted: CEFN
* C114_applied: CEFN
* C114_outside_table: CEFN
* C114_mod_PyrC: CEFN
* C114_lists_PyrC: EF
* C114_size_PyrC: EF
* C114_PyrC_applied: CEFN

### P_BorisD

* C109_push: CEFN
* C109_speed: CEFN
* C109_run: CEFN
* C109_exact_refuted: CEFN
* C109_applied: CEFN

### P_BoundaryData

* C95_previous_position: –
* C95_pre_integration_frame: –
* C95_normals: EFN
* C95_boundary_data_2d: EFN
* C95_boundary_data_3d: EFN
* C95_needs_previous_position: EFN
* C95_options: EF
* C95_integer_factor_refuted: –
* C95_reflection_options_refuted: EF
* C95_reflection_options_witness: EF
* C95_nonvacuous: EFN

### P_ChargedInit

* C106_population: EFN
* C106_positions: EFN
* C106_beams: EFN
* C106_quarter: EFN
* C106_species: EFN
* C106_ranks: EFN
* C106_ring: EFN
* C106_thermal: EFN
* C106_number: –
* C106_quarter_refuted: EFN
* C106_beams_refuted: EFN
* C106_ranks_refuted: EFN
* C106_seed_refuted: EFN
* C106_applied: EFN

### P_Codecs

* C01_pack_unpack_geom2d: –
* C01_nonvacuous: –
* C02_pack_unpack_geoms2d: –
* C02_nonvacuous: –
* C03_unpack_one_in_bounds_partial: –
* C03_rejects_truncated: –
* C03_unpack_collection_in_bounds_refuted: –
* C04_num_bytes_is_serialised_length: –
* C04_remote_geom_round_trip: –
* C04_nonvacuous: –
* C04_curved_rejected: –
* C04_curved_nonvacuous: –
* C03_remote_geom_deserialise_in_bounds_refuted: –

### P_Composite

* C39_scanned_cells_are_found: F
* C39_order_independent: F
* C39_scan_is_the_spanned_box: F
* C39_scan_stays_in_grid: F
* C39_nonvacuous: F
* C39_outside: F
* C40_nearest_2d: EF
* C40_nearest_3d: EFN
* C40_face_hit_sound: EFN
* C40_crossed_face_hit: EFN
* C40_nonvacuous: EF
* C41_one_group_per_composite: –
* C41_boundary_elements: –
* C41_contents_storable: EF
* C41_elements_nonvacuous: –
* C41_sub_groups: –
* C41_nonvacuous: F
* C42_collected_after_any_history: –
* C42_next_request_completes: –
* C42_held_cells_not_transferred: –
* C42_nonvacuous: –
* C40_no_hit_missed_3d: EFN
* C40_no_hit_missed_2d: EF
* C40_reported_hit_is_real_3d: EFN
* C40_reported_hit_is_real_2d: EF
* C40_end_to_end_nonvacuous: EF

### P_Coord

* C23_clamp_single: EF
* C23_clamp_pair_partial: EF
* C23_clamp_triple_partial: EF
* C23_clamp_pair_refuted: EF
* C23_clamp_triple_refuted: EF
* C23_nonvacuous: EF
* C24_collapsed_round_trip_3d: EF
* C24_collapsed_round_trip_2d: EF
* C24_inverse_direction: EF
* C24_dispatch: EF
* C24_nonvacuous: EF

### P_CoordD

* C112_round_trip_3d: CEFN
* C112_round_trip_2d: CEFN
* C112_dispatch_3d: CEFN
* C112_dispatch_2d: CEFN
* C112_clamp: CEFN
* C112_dispatch_refuted: CEFN
* C112_applied: CEFN

### P_CurvedMap

* C100_constructor: CEFN
* C100_work_group: CEFN
* C100_terminates: –
* C100_completes: –
* C100_bound: CEFN
* C100_nonvacuous: CEFN

### P_Diffusion

* C79_tensor: EFN
* C79_parameters: EFN
* C79_angle_refuted: EFN
* C79_dissipative: EFN
* C79_setup: EFN
* C79_step: EFN
* C79_stable: EFN
* C79_zero_parameters: EFN
* C79_projection: –
* C79_coupled: EFN
* C79_coupled_matrixfree_refuted: EFN
* C79_receiver_viscosity_refuted: EFN
* C79_nonvacuous: EFN
* C79_received: –

### P_Double

* C102_periodic: CEFN
* C102_rounding: CEFN
* C102_half_open_refuted: CEFN
* C102_unmoved_refuted: CEFN
* C102_short_domain_refuted: CEFN
* C102_applied: CEFN

### P_Double2

* C103_rsequence: CEFN
* C103_tiny_extent_refuted: CEFN
* C103_applied: CEFN

### P_Double3

* C104_deposit: CEFN
* C104_two_runs: CEFN
* C104_tolerance: EF
* C104_exact: CEFN
* C104_order_refuted: CEFN
* C104_applied: CEFN
* C104_deposit_applied: CEFN

### P_DoubleGrid

* C105_candidate: CEFN
* C105_cell_visited: CEFN
* C105_cell_contains: CEFN
* C105_large_coordinates_refuted: CEFN
* C105_far_particle_refuted: CEFN
* C105_applied: CEFN

### P_DoubleTime

* C107_substeps: CEFN
* C107_run: CEFN
* C107_one: CEFN
* C107_extra_refuted: CEFN
* C107_stall_refuted: CEFN
* C107_applied: CEFN

### P_Driver

* C90_run: EF
* C90_collective: –
* C90_printed_energies_refuted: EF
* C90_setup_required: F
* C90_setup_values: F
* C90_setup_deterministic: F
* C90_line_negative: F
* C90_line_size_refuted: F
* C90_bernstein_default_refuted: F
* C90_two_stream_field_refuted: EF
* C90_bernstein_globals: –
* C90_line_points: EF
* C90_line_shift: EF
* C90_nonvacuous: EF

### P_Euler

* C78_rhs_2d: EFN
* C78_rhs_1d: EFN
* C78_flux_rotation: EFN
* C78_flux_symmetric: EF
* C78_vacuum: EFN
* C78_source_shape: EFN
* C78_source_width: EFN
* C78_source_parameters: F
* C78_zero_width: EFN
* C78_forcing_count_refuted: EFN
* C78_order_refuted: EFN
* C78_nonvacuous: EFN
* C78_startup: –

### P_EvalD

* C115_loop_quad: CEFN
* C115_loop_tri: CEFN
* C115_loop_hex: CEFN
* C115_loop_prism: CEFN
* C115_loop_tet: CEFN
* C115_quad: CEFN
* C115_tri: CEFN
* C115_hex: CEFN
* C115_prism: CEFN
* C115_tet: CEFN
* C115_quad_not_finite: CEFN
* C115_hex_not_finite: CEFN
* C115_tri_not_finite: CEFN
* C115_collapsed_end_refuted: CEFN
* C115_applied: CEFN

### P_Exchange

* C35_counts_agree: –
* C35_counting_never_stuck: –
* C35_counts_nonvacuous: –
* C35_who_sends_what: –
* C35_cells_split: –
* C35_exchange_delivers: –
* C35_buffer_size_refuted: –
* C35_exchange_nonvacuous: –
* C35_exchange_runs: –
* C35_neighbour_ranks: –
* C35_overlapping_elements_arrive: EF
* C35_sends_succeed: EF
* C35_mesh_nonvacuous: EF

### P_FieldDeposit

* C101_constructor: –
* C101_same_layout: –
* C101_deposit: EF
* C101_project: EF
* C101_conserves: EF
* C101_other_group_refuted: EF

### P_FieldDeposit2

* C101_projected_at_positions_3d: EF
* C101_projected_at_positions_2d: EF
* C101_affine_functions: EF
* C101_affine_represents: EF
* C101_constructor_applied: –
* C101_applied: EF

### P_FieldEval

* C99_setup: –
* C99_setup_rejects: –
* C99_missing_expansion_refuted: –
* C99_evaluate: EF
* C99_component_unchecked_refuted: EF
* C99_field_evaluate_call: –
* C99_hypotheses_met: –
* C99_clear_positions: EF

### P_FieldEval2

* C99_reference_position: EF
* C99_value_at_accepted: EF
* C99_value_at_position_3d: EF
* C99_value_at_position_2d: EF

### P_FieldEval3

* C99_affine_fields: EF
* C99_affine_represents: EF
* C99_applied_2d: EF

### P_FieldHelp

* C94_interpolate_3d: –
* C94_interpolate_2d: –
* C94_interpolate_idempotent: –
* C94_evaluate: –
* C94_reproduces_3d: –
* C94_reproduces_2d: F
* C94_outside_refuted: –
* C94_cells_to_expansions: –
* C94_particle_to_expansion_2d: –
* C94_particle_to_expansion_3d: –
* C94_error_measures: EF
* C94_nonvacuous: EF

### P_FieldProject

* C63_partition_of_unity: EF
* C63_galerkin: EF
* C63_values_are_evaluations: EF
* C63_conserves: EF
* C63_host_agrees: EF
* C63_bad_arguments_rejected: EF
* C63_other_group_refuted: EF
* C63_case: EF

### P_Fluid

* C72_drift: EFN
* C72_cross_product: EFN
* C72_2d_refuted: EFN
* C72_zero_B_refuted: EFN
* C72_nonvacuous: EF
* C73_inputs: –
* C73_hw2d: EF
* C73_hw3d: EF
* C73_hw3d_parallel: EF
* C73_bracket: EF
* C73_required: –
* C73_variable_order_refuted: EF
* C73_variable_order_ub_refuted: EF
* C73_hw2d_stage_density_refuted: EF
* C73_nonvacuous: EF
* C73_bracket_nonvacuous: EF
* C74_hw2d_energy: EF
* C74_hw2d_enstrophy: EF
* C74_hw3d_energy: EF
* C74_hw3d_enstrophy: EF
* C74_z_term_refuted: EF
* C74_nonvacuous: EF
* C75_rhs: CEFN
* C75_momentum_exchange: CEFN
* C75_density_floor_refuted: CEFN
* C75_particle_source_refuted: CEFN
* C75_nonvacuous: EF
* C76_rhs: EFN
* C76_no_particles: –
* C76_nonvacuous: EF

### P_Generic3D

* C85_write: EF
* C85_write_rejects: F
* C85_position: EF
* C85_residual_then_step: EF
* C85_inversion: EF
* C85_cell_test: EF
* C85_start_grid: EF
* C85_accepted_is_close: EF
* C85_inside_is_accepted: EF
* C85_exact_maps: EF
* C85_affine_found: EF
* C85_nonvacuous: EF
* C85_step_needs_residual: EF

### P_Grid

* C18_cell_contains_point: EF
* C18_outside_points: EF
* C18_linear_index_bijection: EF
* C18_nonvacuous: EF
* C19_periodic_wrap_partial: EF
* C19_nonvacuous: EF
* C19_periodic_wrap_refuted: EF
* C19_wrapped_exactly_when: EF
* C20_periodic_domain_partial: EF
* C20_nonvacuous: EF
* C20_negative_domain_refuted: EF
* C20_refuted_nonvacuous: EF
* C21_overlap_volume: EF
* C21_expand_is_hull: EF
* C21_hierarchy_intersection: EF
* C21_nonvacuous: EF
* C56_lookup_constructed: CEFN
* C22_candidates_exact: CEFN
* C22_candidate_offered_partial: CEFN
* C22_nonvacuous: CEFN
* C22_upper_face_refuted: CEFN

### P_Halo

* C32_halo_cells: F
* C32_width_check: F
* C32_nonvacuous: EF
* C33_requested_from_owner: –
* C33_owner_learns_requests: –
* C33_requests_nonvacuous: –
* C33_call_completes: CEF
* C33_call_adds_exactly: CEF
* C33_halo_complete: CEF
* C33_constructor_establishes: EF
* C33_call_nonvacuous: EF
* C34_no_duplicates: CEF
* C34_history_nonvacuous: CEF

### P_Halo3D

* C87_prepare_succeeds: –
* C87_halos_delivered: –
* C87_constructor_sends: EF
* C87_overlapping_elements_arrive: EF
* C87_neighbour_ranks: –
* C87_nonvacuous: EF
* C87_runs: –
* C87_counted_nonvacuous: EF
* C87_missing_face_rejected: –

### P_HaloExt3

* C91_call_completes: CEF
* C91_call_adds_exactly: CEF
* C91_halo_complete: CEF
* C91_constructor_establishes: EF
* C91_no_duplicates: CEF
* C91_all_elements: –
* C91_all_elements_nonvacuous: –
* C91_nonvacuous: EF
* C91_history_nonvacuous: CEF

### P_HexGeom

* C92_vertices: EF
* C92_numbering: EF
* C92_edges: EF
* C92_face_edges: EF
* C92_face_points_partial: EF
* C92_face_meets_edges_partial: EF
* C92_front_left_faces_refuted: EF
* C92_face_order_refuted: EF
* C92_outside_cube_refuted: EF
* C92_nonvacuous: EF

### P_Implicit

* C83_sizes: EF
* C83_residual: EF
* C83_stage: EF
* C83_norm: EF
* C83_step_size: EFN
* C83_jacobian_quadratic: EFN
* C83_jacobian_limit: EFN
* C83_homogeneous: EFN
* C83_zero_direction_refuted: EFN
* C83_precon: –
* C83_nonvacuous: EFN
* C83_stage_nonvacuous: EF
* C83_short_arrays: F
* C83_short_output: –

### P_IoniseD

* C110_step: CEFN
* C110_run: CEFN
* C110_defined: CEFN
* C110_conserved_refuted: CEFN
* C110_unmarked_refuted: CEFN
* C110_applied: CEFN

### P_Journey

* C98_mapping_3d: CEFN
* C98_cell_with_owner_3d: EF
* C98_landing_3d: EF
* C98_no_particle_lost_3d: CEFN

### P_Journey2

* C98_mapping_2d: CEFN
* C98_landing_2d: EF
* C98_no_particle_lost_2d: CEFN
* C98_room_for_reference: F
* C98_dimensions: CEFN
* C98_nonvacuous_3d: EF
* C98_applied_3d: CEFN
* C98_nonvacuous_2d: EF

### P_Launch

* C97_every_particle_once: –
* C97_local_memory_in_bounds: EF
* C97_evaluation_undisturbed: EF
* C97_projection_undisturbed: EF
* C97_one_mode_refuted: EF
* C97_case: –
* C97_case_launch: –

### P_LinePlane

* C36_plane_test: EF
* C36_point_unique: EF
* C36_nonvacuous: EFN
* C37_filter_conservative: EFN
* C37_crossing_is_found: EFN
* C37_nonvacuous: EFN
* C38_normal_of_face: EFN
* C38_normal_exists: EFN
* C38_normal_of_edge: EFN
* C38_plane_contains_element: EFN
* C38_nonvacuous: EFN

### P_MeshIf

* C29_cells_are_overlaps: EF
* C29_each_cell_once: EF
* C29_cell_numbers_identify_cells: EF
* C29_padding: EF
* C29_volumes_sum_to_box: EF
* C29_claim_weights: EF
* C29_nonvacuous: EF
* C30_claims: F
* C30_order_independent: F
* C30_element_claims: EF
* C30_nonvacuous: –
* C31_hierarchy_covers_mesh: CEFN
* C31_hierarchy_created: CEFN
* C31_hierarchy_tight: CEFN
* C31_nonvacuous: EF
* C31_coarse_cell_size: CEFN
* C66_subdivision_order_partial: CEFN
* C66_fine_cells_match_elements_refuted: CEFN
* C66_nonvacuous: CEFN

### P_Neutral

* C81_ids: EF
* C81_added_once: CEFN
* C81_weight: EF
* C81_mass_balance: CEFN
* C81_completes: CEFN
* C81_recorded_error_zero: CEFN
* C81_two_substeps_refuted: CEFN
* C81_zero_particles: CEFN
* C81_nonperiodic: CEFN
* C81_centre_refuted: EF
* C81_seed: –
* C81_nonvacuous: CEFN
* C81_placed: EF

### P_Newton

* C45_residual_is_X_minus_p: EF
* C45_x_is_X: EF
* C45_X_maps_reference_vertices: EF
* C45_pyramid_shrinks_base_to_apex: EF
* C45_x_at_pyramid_apex_refuted: EF
* C45_jacobian_exists: EF
* C45_step_is_newton: EF
* C45_affine_exact_in_one_step: EF
* C45_tet_is_affine: EF
* C45_pyramid_apex_accepted: EF
* C45_embedded_quad_residual: EF
* C45_embedded_quad_normal: EF
* C45_embedded_quad_step: EF
* C45_embedded_triangle_residual: EF
* C45_embedded_triangle_projects: EF
* C45_embedded_triangle_exact_in_plane: EF
* C45_embedded_triangle_degenerate: EF
* C45_not_vacuous: EF
* C45_triangle_not_vacuous: EF

### P_NewtonBind

* C46_success_exactly: EF
* C46_accepted_is_close: EF
* C46_x_inverse_is_close: EF
* C46_zero_tolerance_in_element: EF
* C46_jacobian_scaling: EF
* C46_exit_scaling: EF
* C46_negative_jacobian_refuted: EF
* C46_converged_inside_accepted: EF
* C46_affine_point_found: EF
* C46_not_vacuous: EF
* C47_mapper_exists: CEFN
* C47_initial_binds_first: CEFN
* C47_final_binds_first: CEFN
* C47_position: F
* C47_passes_well_behaved: CEFN
* C47_bound_untouched: EF
* C47_no_geometries: CEFN
* C47_accepted_in_box_is_bound: CEFN
* C47_host_binds_first: F
* C47_map2d: EF
* C47_map3d: EF
* C47_not_vacuous: CEFN
* C49_keys_partial: EF
* C49_start_grid: EF
* C49_start_points: EF
* C49_starts_in_cube: EF
* C49_grid_size_max_refuted: EF
* C49_not_vacuous: EF

### P_NewtonD

* C108_residual: CEFN
* C108_embedded_quad: CEFN
* C108_embedded_triangle: CEFN
* C108_exact_refuted: CEFN
* C108_applied: CEFN

### P_Params

* C84_common: EFN
* C84_2d_refuted: CEFN
* C84_hw2d: EFN
* C84_hw3d_refused: CEFN
* C84_hw3d_alpha: CEFN
* C84_hw3d_alpha_nonfinite_refuted: CEFN
* C84_hw3d_kappa: CEFN
* C84_gyro_radius_refuted: EFN
* C84_lambda_q_refuted: CEFN
* C84_lapd: EFN
* C84_rr: EFN
* C84_source_width_refuted: EFN
* C84_frame: CEFN
* C84_nonvacuous: CEFN

### P_PartSys

* C80_number: –
* C80_disabled_refuted: –
* C80_output_step: –
* C80_trajectory: –
* C80_output_once: –
* C80_choice: –
* C80_nonvacuous: –
* C80_reported: –
* C80_messages: –

### P_Pic

* C50_boris_solves_lorentz: EF
* C50_speed_and_parallel_preserved: EF
* C50_no_B_is_kick: EF
* C50_work_energy: EF
* C50_reversible: EF
* C50_zero_mass_not_finite: EF
* C50_cross_product: EF
* C50_not_vacuous: EF
* C58_velocity_verlet: EF
* C58_reversible: EF
* C58_stormer: EF
* C58_other_types_are_boris: EF
* C58_not_vacuous: EF
* C59_charges_consistent: EF
* C59_charges_finite: EF
* C59_session_values: EF
* C59_num_particles: –
* C59_charge_density_set_refuted: EF
* C59_not_vacuous: EF
* C60_neutral_rhs: EF
* C60_forcing_coefficients_refuted: EF
* C60_not_vacuous: EF
* C61_kinetic_energy: EF
* C61_solver_kinetic_energy_partial: EF
* C61_two_mass_kinetic_energy_refuted: EF
* C61_one_species: F
* C61_two_species: EF
* C61_gauge_invariant: EF
* C61_field_energy_nonneg: EF
* C61_shifted_mean_zero: EF
* C61_potential_energy: EF
* C61_energies_defined: EF
* C61_boris_conserves_total: EF
* C61_not_vacuous: EF
* C62_integrator_choice: F
* C62_bad_type_rejected_refuted: EF

### P_Plane

* C77_session: –
* C77_rhs: EF
* C77_equations: EF
* C77_drift: EF
* C77_numerical_flux: EF
* C77_still_face_refuted: EF
* C77_budget: EF
* C77_dimension_refuted: F
* C77_zero_parameters: EF
* C77_readme_refuted: EF
* C77_parameters: EF
* C77_default_length_refuted: EF
* C77_nonvacuous: EF
* C77_budget_nonvacuous: EF

### P_ProjectD

* C116_loop_quad: CEFN
* C116_loop_tri: CEFN
* C116_loop_hex: CEFN
* C116_loop_prism: CEFN
* C116_loop_tet: CEFN
* C116_quad: CEFN
* C116_tri: CEFN
* C116_hex: CEFN
* C116_prism: CEFN
* C116_tet: CEFN
* C116_sizes: EF
* C116_coefficient: CEFN
* C116_deposits: EF
* C116_order_refuted: CEFN
* C116_applied: CEFN

### P_Reader

* C09_parse_equals_iff: –
* C09_accepts: –
* C09_rejects: –
* C10_info_lookup_partial: –
* C10_nonvacuous: –
* C10_info_defined_implies_fetchable_refuted: –
* C11_parameter_lookup: –
* C11_parameters_accepted: –
* C11_nonvacuous: –
* C11_load_size_t_exact_refuted: –
* C11_load_size_t_rejects_negative_refuted: –
* C11_load_int: –
* C11_load_int_default: –
* C11_load_size_t_partial: –
* C11_load_nonvacuous: –
* C12_unnamed_species_refuted: –
* C12_boundary_accepted: –
* C12_boundary_regions_partial: –
* C12_nonvacuous: –
* C12_brackets: –

### P_Reader2

* C55_reactions_use_declared_species: –
* C55_session_accepted: –
* C64_parameter_scopes: –
* C64_integer_loads: –
* C64_missing_parameters: –
* C64_nonvacuous: –
* C64_shared_interpreter: –
* C55_nonvacuous: –
* C65_functions_accepted: –
* C65_species_functions: –
* C65_nonvacuous: –
* C65_duplicate: –

### P_Regular

* C48_accepts_exactly: EF
* C48_points_of_element_accepted: EF
* C48_accepted_is_in_element: EF
* C48_coefficients: EF
* C48_degenerate_rejected: EF
* C48_host_agrees: EF
* C48_mapper_binds_first: CEFN
* C48_particle_in_element_bound: CEFN
* C48_mapper_well_behaved: CEFN
* C48_not_vacuous: EF
* C48_not_vacuous_accept: EF
* C57_every_3d_element_covered_once: –
* C57_map3d_binds: CEFN
* C57_mapper_settings: EF
* C57_2d_elements_covered_once_partial: –
* C57_map2d_binds_partial: CEFN
* C57_deformed_triangles_refuted: CEFN
* C57_not_vacuous: EF

### P_Rounds

* C88_no_crosstalk: –
* C88_all_received: –
* C88_never_stuck: –
* C88_never_stuck_unbuffered: –
* C88_terminates: –
* C88_nonvacuous: –

### P_Sample

* C25_find_owning_geom_partial: –
* C25_find_owning_geom_refuted: –
* C25_nonvacuous: –
* C26_uniform_within_elements: EF
* C26_uniform_within_elements_succeeds: EF
* C26_nonvacuous: EF
* C27_rsequence_partial: EF
* C27_rsequence_refuted: EF
* C27_nonvacuous: EF
* C28_line_points_partition: EF
* C28_line_points_collected: –
* C28_sampler_one_rank: –
* C28_one_owner: –
* C28_nonvacuous: –

### P_Sol

* C67_substeps_cover: CEFN
* C67_edges: CEFN
* C67_sizes: EF
* C67_streaming: EF
* C68_ionise_simplesol: CEFN
* C68_ionise_driftreduced: CEFN
* C68_rate: CEFN
* C68_rate_formula: CEFN
* C68_expint_small: CEFN
* C68_expint_large: CEFN
* C68_cold_fluid_refuted: CEFN
* C68_case: EF
* C69_mass_balance: CEFN
* C69_recorded_error_zero: CEFN
* C69_completes: CEFN
* C69_finite: CEFN
* C69_recording: –
* C69_two_substeps_refuted: CEFN
* C69_case: CEFN
* C70_walls: EF
* C70_rotated_walls_refuted: EFN
* C70_case: EFN
* C71_count: EF
* C71_drawn: EF
* C71_count_exact: EF
* C71_count_refuted: EF
* C71_no_lines: EF
* C71_ids_refuted: EF
* C71_weight: EF
* C71_units: EF
* C71_unit_values: EF
* C71_lines: EFN
* C71_case: EFN

### P_Subdomain

* C96_point_found: EF
* C96_point_in_subdomain: EF
* C96_straight_sided: EF
* C96_fails_exactly: EF
* C96_surface_mesh_refuted: EF
* C96_example: EF

### P_SumD

* C111_sum: CEFN
* C111_code_order: –
* C111_schedules: CEFN
* C111_kinetic: CEFN
* C111_potential: CEFN
* C111_mass: CEFN
* C111_balanced: CEFN
* C111_order_refuted: CEFN
* C111_exact_balance_refuted: CEFN
* C111_applied: CEFN

### P_Transport

* C05_reconstruct_deconstruct: –
* C05_reconstruct_sound: –
* C05_missing_face_always_rejected: –
* C05_nonvacuous: –
* C05_missing_face_rejected: –
* C06_faces_sent_are_faces_needed: –
* C06_nonvacuous: –
* C06_receiver_reconstructs: –
* C07_ring_gather: –
* C07_nonvacuous: –
* C08_exchange_delivers: –
* C08_nonvacuous: –

### P_Util

* C13_parameter_store: –
* C13_nonvacuous: –
* C14_callbacks: –
* C14_nonvacuous: –
* C15_cell_translation_2d: –
* C15_cell_translation_3d: –
* C15_nonvacuous: –
* C15_empty_rank_refuted: –
* C16_global_size: –
* C16_vector_padding: –
* C16_nonvacuous: –
* C17_field_index_map: –
* C17_nonvacuous: –

### P_Vtk

* C93_file: F
* C93_own_property: F
* C93_fails: F
* C93_owner_lost_3d_refuted: F
* C93_mixed_refuted: F
* C93_entry_points: F
* C93_names: –
* C93_plot_files: –
* C93_nonvacuous: F
* C93_plot_files_exactly: –

### P_Writer

* C89_stored: –
* C89_first_wins: –
* C89_numbering: –
* C89_errors_unnoticed_refuted: –
* C89_lost_writes_refuted: –
* C89_no_step: –
* C89_nonvacuous: –
