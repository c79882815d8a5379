(** Specification for C116: the contributions of a particle to the coefficients of its element and the sum of the contributions to a coefficient.
    The exact modes: S_Basis. Their sizes: S_EvalD. *)
From Coq Require Import Reals List Bool Arith.
From Verif Require Import S_Double S_Basis S_BasisD S_BaryD S_EvalD.
Import ListNotations.
Open Scope R_scope.

(** one contribution, relative to the magnitude of the particle's value times the size of the mode *)
Definition contribution_error (P : nat) : R := (168 * INR P + 400) * unit_roundoff.
(** one contribution for each mode, in order, each within that error of value times exact mode *)
Definition contributions_within (P : nat) (value : R) (computed : option (list (nat * R))) (modes sizes : list R) : Prop :=
  exists l, computed = Some l /\ map fst l = seq 0 (length modes) /\
    Forall2 (fun e ms => is_double e /\ Rabs (e - value * fst ms) <= contribution_error P * (Rabs value * snd ms)) (map snd l) (combine modes sizes).
Fixpoint sum_of (l : list R) : R := match l with [] => 0 | x :: t => x + sum_of t end.
(** the calls of fetch_add on coefficient [k] made for the particles, particle by particle *)
Definition adds_to (k : nat) (parts : list (list (nat * R))) : list R := map snd (filter (fun a => Nat.eqb (fst a) k) (concat parts)).
(** a sum of [n] contributions, relative to the sum of their magnitudes *)
Definition deposit_error (P n : nat) : R := (336 * INR P + 4 * INR n + 800) * unit_roundoff.
(** every mode is at most its size *)
Definition sized_modes (modes sizes : list R) : Prop := Forall2 (fun y s => Rabs y <= s /\ 1 <= s <= 2 ^ 550) modes sizes.
(** a particle: its value, its contributions as computed, the exact modes at it and their sizes; [n] modes *)
Record deposit := { d_value : R; d_computed : list (nat * R); d_modes : list R; d_sizes : list R }.
Definition good (P n : nat) (d : deposit) : Prop :=
  nodal (d_value d) /\ contributions_within P (d_value d) (Some (d_computed d)) (d_modes d) (d_sizes d) /\ sized_modes (d_modes d) (d_sizes d) /\ length (d_modes d) = n.
