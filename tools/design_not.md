## Parts of the code that are not modelled

* Byte-level file contents written by HDF5 and by Nektar++'s field output (which values are written, and when, is modelled: C89, C90, C93), log output.
* Header-only aggregation files (`particle_interface.hpp`, `particle_cell_mapping*.hpp`, `newton_geom_interfaces.hpp`, `typedefs.hpp`, `expansion_looping.hpp`).
* Memory management: SYCL buffers, USM pointers, lifetimes (`free` calls), streams and events.
* The python generators in `python/deformed_mappings` (their output, the generated headers, is modelled).
* Test code under `test/` and `solvers/test/`; build system; documentation.
* Nektar++, NESO-Particles, HDF5, CWIPI, MPI themselves.
* Performance-only parameters (work group sizes) except that they cannot change results (C16) and that every work item has its own scratch space (C97).
