(** Specification for C115: the sizes of the modes of an element and the error of a sum over them. The exact modes: S_Basis. *)
From Coq Require Import Reals List Bool Arith.
From Verif Require Import S_Double S_Jacobi S_Basis S_BasisD.
Import ListNotations.
Open Scope R_scope.

Definition sizes_quad (P : nat) : list R := map (fun '(q, p) => size_A p * size_A q) (idx2 P (fun _ => P)).
Definition sizes_tri (P : nat) : list R :=
  map (fun '(p, q) => (if Nat.eqb p 0 && Nat.eqb q 1 then 1 else size_A p) * size_B p q) (idx2 P (fun p => (P - p)%nat)).
Definition sizes_hex (P : nat) : list R := map (fun '(r, q, p) => size_A p * size_A q * size_A r) (idx3 P (fun _ => P) (fun _ _ => P)).
Definition sizes_prism (P : nat) : list R :=
  map (fun '(p, q, r) => (if Nat.eqb p 0 && Nat.eqb r 1 then 1 else size_A p) * size_A q * size_B p r) (idx3 P (fun _ => P) (fun p _ => (P - p)%nat)).
Definition sizes_tet (P : nat) : list R :=
  map (fun '(p, q, r) =>
    (if Nat.eqb p 0 && (Nat.eqb q 1 || Nat.eqb q 0 && Nat.eqb r 1) then 1 else size_A p) *
    (if Nat.eqb p 0 && Nat.eqb q 0 && Nat.eqb r 1 then 1 else size_B p q) * size_B (p + q) r)
    (idx3 P (fun p => (P - p)%nat) (fun p q => (P - p - q)%nat)).
(** a sum over [n] modes of an element with [P] modes in each direction, relative to the sum of the magnitudes of its terms *)
Definition sum_error (P n : nat) : R := (168 * INR P + 8 * INR n + 400) * unit_roundoff.
(** the array [computed] of local modes, with the exact modes and their sizes [sized] *)
Definition space (P : nat) (computed : list (option R)) (sized : list (R * R)) : Prop := Forall2 (mode_within (basis_error P)) computed sized.
(** [computed] is within that error of the sum of coefficient times exact mode *)
Definition sum_within (P : nat) (dofs : list R) (computed : option R) (modes sizes : list R) : Prop :=
  exists v, computed = Some v /\ is_double v /\ Rabs (v - dot dofs modes) <= sum_error P (length modes) * dot (map Rabs dofs) sizes.
