(** Specification for C114: how far the modal basis computed in double precision may be from the exact basis of S_Basis. *)
From Coq Require Import Reals List.
From Verif Require Import S_Double S_Jacobi S_Basis.
Import ListNotations.
Open Scope R_scope.

(** The size of the terms of the recurrence for P_n^(alpha,1) on [-1,1]: the three-term recurrence at 1 with every coefficient positive. *)
Fixpoint growth (alpha n : nat) : R :=
  match n with
  | O => 1
  | S k => match k with
           | O => 2 * INR alpha + 4
           | S l => let a := INR alpha in let m := INR (S (S l)) in
               ((2 * m + a) * (2 * m + a + 1) / (2 * m * (m + a + 1)) + (2 * m + a) * Rabs (a - 1) * (a + 1) / (2 * m * (m + a + 1) * (2 * m + a - 1))) * growth alpha k
               + Rabs (m + a - 1) * (2 * m + a + 1) / ((m + a + 1) * (2 * m + a - 1)) * growth alpha l
           end
  end.
Definition size_A (p : nat) : R := match p with S (S n) => growth 1 n | _ => 1 end.
Definition size_B (p q : nat) : R := match p, q with O, _ => size_A q | _, O => 1 | _, S n => growth (2 * p - 1) n end.
(** the lists of modes of S_Basis, each mode with its size *)
Definition sized_A (P : nat) (z : R) : list (R * R) := map (fun p => (modA p z, size_A p)) (seq 0 P).
Definition sized_B (P : nat) (z : R) : list (R * R) := map (fun '(p, q) => (modB p q z, size_B p q)) (idx2 P (fun p => (P - p)%nat)).
Definition sized_C (P : nat) (z : R) : list (R * R) :=
  map (fun '(p, q, r) => (modC p q r z, size_B (p + q) r)) (idx3 P (fun p => (P - p)%nat) (fun p q => (P - p - q)%nat)).
(** [E]: relative to the size *)
Definition mode_within (E : R) (computed : option R) (exact : R * R) : Prop :=
  exists v, computed = Some v /\ is_double v /\ Rabs (v - fst exact) <= E * snd exact.
Definition basis_error (P : nat) : R := (28 * INR P + 64) * unit_roundoff.
