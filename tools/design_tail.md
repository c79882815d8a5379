
## Trusted base

1. Coq 8.16.1's kernel (`coqc`; no `vos`/`vok` shortcut, no switched-off check, no plugin of our own). `vm_compute` is used in a few
   `Example`s over closed discrete data, so Coq's bytecode machine is trusted there.
2. Axioms: only those of Coq's standard library (`ClassicalDedekindReals.sig_forall_dec`, `ClassicalDedekindReals.sig_not_dec`,
   `FunctionalExtensionality.functional_extensionality_dep`, `Classical_Prop.classic`), all of them through `Reals`, Flocq's
   `Raux` and function equality of fields. The list per theorem is in the last section. There is no axiom of our own, no
   `Admitted`, no functor or module type.
3. Libraries: Coq's standard library; Flocq's `Core.Raux` (`Rle_bool`, `Zfloor`, `Zceil`, `Ztrunc` and their lemmas).
4. The transcription itself: that each `M_*.v` definition is a faithful reading of the cited lines. `M_NewtonGen.v` is produced by
   `tools/gen_newton.py` from the generated C++ headers; the rest is by hand. `seeded/LOG.jsonl` records the attempts to break it.
5. What the code calls and we do not model enters as explicit function arguments ("oracles"); what is assumed of them is a visible
   hypothesis of each theorem: Nektar++ (geometry maps, `ContainsPoint`, transforms, derivatives, quadrature, Helmholtz and mass
   solves, expression evaluator, XML), NESO-Particles (decomposition, particle transport, segment intersection, cartesian
   communicator), SYCL (atomic additions commute), MPI (reliable matched delivery, barriers, atomic accumulates), the C++ random engines.

## Known abstractions

* Doubles are exact reals except where NaN/inf is reachable by a zero division or a log/sqrt of a bad argument (explicit outcome).
  No theorem bounds rounding errors.
* `int`/`long` overflow is modelled where the property depends on it (C11, C15, C35 counts, C71, C80, byte codecs) and ignored elsewhere (stated at the definition).
* Device kernels are sequential maps over particles; parallel reductions are lists in any order (theorems quantify over the order).
* Unordered containers are arbitrary lists.

## Defects of the code found by the model

Each is a theorem `…_refuted` with a concrete witness (the note in `MANIFEST.json` gives the claim that is false):
C03 (collection reader runs past the buffer), C10 (`get_info` case), C11 (size_t through int), C12 (`all species` never loads), C15 (empty rank),
C19/C20 (periodic wrap and bounding box), C22 (shared faces), C23 (`clamp_loc_coords` stops early), C25 (owner search overwritten),
C27 (negative seed), C45/C46 (pyramid apex; negative Jacobian tolerance), C49 (`grid_size_max` key), C51/C54 (collapsed vertices NaN),
C57 (deformed triangles never mapped), C59-C62 (charge parameters, forcing assignment, masses, integrator check), C63 (other group),
C66 (ln vs log2), C68-C71 (cold fluid, substeps lose mass, rotated walls, truncated counts, repeated ids), C72-C78 (see notes),
C79 (angle sign, MatrixFree sender, receiver viscosity), C80 (uninitialised total), C81 (substeps, centre),
C82 (component range unchecked; an element with no expansion silently reads expansion 0), C83 (zero direction not finite),
C84 (2D reads a three-component field out of bounds; README widths and labels differ from the code; non-finite angles accepted),
C86 (without a parameter store a curved element gets no padding and can stick out of its box; negative grid factor wraps),
C35 (receive count product overflows `int`), C89 (HDF5 errors never noticed: lost writes), C90 (stale energies printed; parameters required
despite defaults; line evaluations form a full grid), C92 (two face tables of `make_hex_geom` place control points outside the reference face),
C93 (3D halo files lose the owner; mixed files misalign; MeshPlotting exits 0 after a caught error), C94 (index -1 used unchecked for points
outside the mesh), C95 (truncated reflection ignores its own configuration; an integer `num_modes_factor` throws), C96 (surface meshes in 3D lose
the third coordinate), C97 (one mode per direction writes past the scratch space).
