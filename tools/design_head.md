# Formal model of NESO in Rocq (Coq 8.16.1)

## Layout

`rocq/theories/`, one group of files per theme:

* `M_*.v`  – the model: total Gallina functions, each definition cites the file/lines of `/repo` it models.
* `S_*.v`  – a small separate specification where the English claim needs vocabulary of its own (written without the model's helpers).
* `L_*.v`  – lemmas and proofs.
* `P_*.v`  – the property theorems only: `Theorem … exact lemma`, an `Example` that shows the hypotheses are met by a concrete non trivial case, and `Print Assumptions`.

## Modelling conventions

* Device/host `double` arithmetic is modelled by exact real arithmetic (Coq `R`). Rounding, overflow to
  infinity and NaN are **not** modelled except where a division by zero can be reached: there the model returns
  a distinct outcome (`None`). Conversion of a double to an integer is `Ztrunc`/`Zfloor` (Flocq), as the C++ cast does.
* `int`, `std::size_t` are `Z`/`nat` unless the property is about wrap-around; byte codecs use explicit
  little-endian two's complement 32/64 bit encodings, so range hypotheses are explicit.
* A failed `NESOASSERT`/`NESOThrow`/exception is a distinct outcome (`None`, or an `Err` constructor); out-of-bounds
  reads are a third distinct outcome (`UB`) where the property is about them.
* Containers: `std::map`/`std::set` are association lists / sorted lists or functions, stated at each use;
  an unordered iteration is modelled by an arbitrary list and theorems quantify over every order.
* MPI: an exchange is a function from the vector of all ranks' local states to the vector of all ranks' new
  states; per-rank program text is modelled as is, delivery by MPI's specification (matching by source and tag,
  reliable, non overtaking) is part of the trusted base.
* Oracles (Nektar++ `ContainsPoint`, residual evaluators, RNG streams, `NESO-Particles` helpers)
  are universally quantified arguments; what is assumed of them is a visible hypothesis of the theorem.

## Plan per property

| id | model | proof |
|----|-------|-------|
| C01-C03 | byte-level pack/unpack of 2D geometries with bounds-checked cursor, UB outcome | structural induction over edges/points; `_refuted` witness for the lax bound |
| C04 | tree codec of RemoteGeom with size function | induction on lists, round trip modulo tail |
| C05,C06,C08 | integer streams, face maps, prefix sums | induction |
| C07 | ring schedule over ranks `mod size` | modular arithmetic, invariant over steps |
| C09-C12 | strings, key maps of the particle reader | induction on strings; `_refuted` where the code is wrong |
| C13,C14,C17 | finite maps, histories as op lists | refinement to "last write" spec |
| C15,C16 | id maps; ceil division | induction, `lia`/`nia` |
| C18-C22 | cartesian grid over R with Zfloor/Ztrunc; boxes | real arithmetic; `_refuted` for periodic/coverage defects |
| C23,C24 | piecewise rational coordinate maps over R | `field`, `lra`, `nra` |
| C25,C26,C28 | searches/samplers over oracles | induction over candidate lists/streams |
| C27 | fmod sequence | `Zfloor`/`Ztrunc` bounds |
| C29-C35 | claims, halo neighbourhoods, exchanges | list induction, permutations, sets |
| C36-C42 | composite interaction kernels | real arithmetic + folds |
| C43,C44 | barycentric weights/evaluation | sums over lists, Lagrange uniqueness |
| C45 | generated Newton kernels transcribed | `field`/`nsatz`-style ring identities |
| C46,C47,C49 | Newton loop, candidate loops | fuel = iteration limit, induction |
| C48 | regular inverse maps | `field` |
| C50 | Boris push | `field`, `nra` |
| C51-C54 | basis kernels as imperative array writes vs reference lists | loop invariants by induction on mode number |

