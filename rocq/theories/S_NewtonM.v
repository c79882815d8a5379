(** Words used in the statements about the Newton types: which type serves which element, the pyramid's apex case,
    affine elements, degenerate triangles. *)
From Verif Require Export M_RealBase M_Coord M_NewtonMap S_Newton.

(** The Newton type used for each linear element. *)
Definition linear_type (e : elem) (c : nat -> nat -> R) (s : R * R * R) : newton_type :=
  match e with
  | EQuad => quad_type c s | ETet => tet_type c s | EPrism => prism_type c s
  | EHex => hex_type c (comp s 0) | EPyr => pyr_type c s
  end.
(** The target point is within 1e-12 of the pyramid's apex: the special case of newton_pyr.hpp. *)
Definition apex_target (e : elem) (c : nat -> nat -> R) (p : R * R * R) : Prop :=
  e = EPyr /\ forall a, (a < 3)%nat -> Rabs (c 4%nat a - comp p a) <= kNekZeroTol.
Definition apex_ref (xi : R * R * R) : Prop :=
  Rabs (comp xi 0 - -1) <= kNekZeroTol /\ Rabs (comp xi 1 - -1) <= kNekZeroTol /\ Rabs (comp xi 2 - 1) <= kNekZeroTol.

(** The element's map is affine: X(xi) = b + A xi. *)
Definition affine_map (e : elem) (c : nat -> nat -> R) (A : nat -> nat -> R) (b : nat -> R) : Prop :=
  forall xi a, (a < ndims e)%nat -> regular e xi ->
    Xmap e c xi a = b a + fold_right (fun k acc => A a k * comp xi k + acc) 0 (seq 0 (ndims e)).

Definition edge (c : nat -> nat -> R) (i : nat) : nat -> R := fun a => c i a - c 0%nat a.
Definition noncollinear (c : nat -> nat -> R) : Prop :=
  dot3 (edge c 1) (edge c 1) * dot3 (edge c 2) (edge c 2) - dot3 (edge c 1) (edge c 2) * dot3 (edge c 1) (edge c 2) <> 0.
