(** Double precision versions of the diagnostics that add up a contribution of every particle of every rank:
    KineticEnergy::compute (Electrostatic2D3V/Diagnostics/KineticEnergy.hpp 46-72), PotentialEnergy::compute
    (Electrostatic2D3V/Diagnostics/PotentialEnergy.hpp 77-102), MassRecording::compute (SimpleSOL/Diagnostics/MassRecording.hpp 50-119) and
    MassRecorder::compute (DriftReduced/Diagnostics/MassRecorder.hpp 96-150, the same statements). Exact versions: kinetic_energy,
    potential_energy (M_Pic), mass_error (M_Sol).
    NP::GlobalArray (a dependency) adds the contributions of a rank with atomic additions in an unspecified order, possibly through partial
    sums, and adds the rank sums with MPI_Allreduce in an unspecified order: the schedule is an arbitrary binary tree of rounded additions
    whose leaves are the contributions and the zeros that sums start from. An infinite intermediate result is [None]. *)
From Coq Require Import Reals ZArith List Bool.
From Flocq Require Import Core.
From Verif Require Import M_RealBase M_Grid M_Double M_BorisD M_Pic.
Import ListNotations.
Open Scope R_scope.

(** the order of the additions *)
Inductive addtree (A : Type) := AZero | AVal (a : A) | APlus (l r : addtree A).
Arguments AZero {A}. Arguments AVal {A}. Arguments APlus {A}.
Fixpoint add_up {A} (f : A -> option R) (t : addtree A) : option R :=
  match t with AZero => Some 0 | AVal a => f a | APlus l r => do x <- add_up f l; do y <- add_up f r; fl (x + y) end.

(** KineticEnergy.hpp 48 and 58-63: each multiplication of the loop may be contracted with its addition *)
Definition kinetic_term_d (m : R) (c : (bool * bool * bool) * cpart) : option R :=
  let '((f0, f1, f2), p) := c in let '(v0, v1, v2) := cp_V p in
  do h <- fl (1 / 2 * m);
  do s0 <- mul_add f0 v0 v0 0; do s1 <- mul_add f1 v1 v1 s0; do s2 <- mul_add f2 v2 v2 s1;
  fl (s2 * h).
(** 55-70 *)
Definition kinetic_energy_d (m : R) (t : addtree ((bool * bool * bool) * cpart)) : option R := add_up (kinetic_term_d m) t.

(** PotentialEnergy.hpp 88-91; [mu]: the mean returned by FieldMean, [phi]: the evaluated potential *)
Definition potential_term_d (mu : R) (phi : cpart -> R) (p : cpart) : option R :=
  do s <- fl (phi p + - mu); fl (cp_Q p * s).
(** 84-101 *)
Definition potential_energy_d (mu : R) (phi : cpart -> R) (t : addtree cpart) : option R :=
  do e <- add_up (potential_term_d mu phi) t; fl (e * (1 / 2)).

(** MassRecording.hpp 50-119; [fluid0], [fluid]: what Integral returned at the start and now; [added]: the global number of particles added;
    [t]: the weights of all particles. The products may be contracted with the additions of 103 and 105 ([c1], [c2]).
    Result: the relative error that is printed; [None] if it is not finite. *)
Definition mass_error_d (c1 c2 : bool) (n_to_SI weight fluid0 fluid : R) (added : Z) (t : addtree R) : option R :=
  do initial_mass_fluid <- fl (fluid0 * n_to_SI);
  do mass_particles <- add_up (fun w => Some w) t;
  do mass_total <- mul_add c1 fluid n_to_SI mass_particles;
  do num <- fl (IZR added);
  do correct_total <- mul_add c2 num weight initial_mass_fluid;
  do diff <- fl (correct_total - mass_total);
  div_d (Rabs diff) (Rabs correct_total).
