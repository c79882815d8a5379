(** Specification for the diagnostics in double precision. *)
From Coq Require Import Reals List Lra ZArith Permutation.
From Verif Require Import S_Double S_BorisD M_Pic M_SumD.
Import ListNotations.
Open Scope R_scope.

(** the contributions, in the order of the tree, and the number of additions between a contribution and the result *)
Fixpoint leaves {A} (t : addtree A) : list A := match t with AZero => [] | AVal a => [a] | APlus l r => leaves l ++ leaves r end.
Fixpoint height {A} (t : addtree A) : nat := match t with AZero | AVal _ => 0%nat | APlus l r => S (Nat.max (height l) (height r)) end.
(** [x] is [exact] up to the effect of [k] successive roundings of something of magnitude [size] *)
Definition within (k : nat) (x exact size : R) : Prop := Rabs (x - exact) <= ((1 + unit_roundoff) ^ k - 1) * size.
(** every rank's particles take part exactly once *)
Definition schedules {A} (t : addtree A) (ranks : list (list A)) : Prop := Permutation (leaves t) (concat ranks).
(** one atomic addition after the other, on each rank, and the rank sums one after the other *)
Definition one_by_one {A} (l : list A) : addtree A := fold_left (fun t a => APlus t (AVal a)) l AZero.
Definition rank_by_rank {A} (ranks : list (list A)) : addtree A := fold_left (fun t l => APlus t (one_by_one l)) ranks AZero.

(** kinetic energy of a particle of mass m and the magnitude of its potential energy *)
Definition half_mv2 (m : R) (p : cpart) : R := let '(a, b, c) := cp_V p in m * (a * a + b * b + c * c) / 2.
Definition half_qphi (mu : R) (phi : cpart -> R) (p : cpart) : R := cp_Q p * (phi p - mu) / 2.
(** mass now and the mass that should be there *)
Definition mass_now (n_to_SI fluid : R) (weights : list R) : R := fluid * n_to_SI + total weights.
Definition mass_expected (n_to_SI weight fluid0 : R) (added : Z) : R := IZR added * weight + fluid0 * n_to_SI.
