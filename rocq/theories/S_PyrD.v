(** Specification for the pyramid part of C114. The exact modes: S_Basis. The errors: S_BasisD. *)
From Coq Require Import Reals List Arith.
From Verif Require Import S_Double S_Jacobi S_Basis S_BasisD.
Import ListNotations.
Open Scope R_scope.

(** the size of the mode [modPyrC p q r] *)
Definition size_PyrC (p q r : nat) : R :=
  match p, q with
  | O, _ => size_B q r
  | S O, O => size_B 1 r
  | S O, _ => size_B q r
  | _, O | _, S O => size_B p r
  | _, _ => match r with O => 1 | S n => growth (2 * p + 2 * q - 3) n end
  end.
Definition sized_PyrC (P : nat) (z : R) : list (R * R) :=
  map (fun '(p, q, r) => (modPyrC p q r z, size_PyrC p q r)) (idx3 P (fun _ => P) (fun p q => (P - Nat.max p q)%nat)).
