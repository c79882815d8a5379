(** Specification for C108: residuals of the linear elements in double precision. The maps X are those of S_Newton. *)
From Coq Require Import Reals ZArith List.
From Verif Require Export S_Double S_Newton.
Open Scope R_scope.

(** a double of magnitude at most [M] *)
Definition sized (M x : R) : Prop := is_double x /\ Rabs x <= M.
(** vertices and point of magnitude at most M, reference coordinates at most 1/128 outside the reference cube *)
Definition inputs_ok (nv nd : nat) (c : nat -> nat -> R) (xi p : R * R * R) (M : R) : Prop :=
  / 2 ^ 500 <= M <= 2 ^ 500 /\
  (forall i a, (i < nv)%nat -> (a < nd)%nat -> sized M (c i a)) /\
  (forall a, (a < nd)%nat -> sized M (comp p a) /\ sized (129 / 128) (comp xi a)).
(** the number of roundings of M that the residual of an element can be off *)
Definition roundings (e : elem) : R := match e with EQuad => 36 | ETet => 42 | EPrism => 58 | EHex => 102 | EPyr => 0 end.
