(** Specification for the collapsed coordinates in double precision. *)
From Coq Require Import Reals ZArith.
From Verif Require Import S_Double M_Coord S_Coord M_CoordD.
Open Scope R_scope.

Definition doubles2 (x : pt2) : Prop := is_double (fst x) /\ is_double (snd x).
Definition doubles3 (x : pt3) : Prop := is_double (fst (fst x)) /\ is_double (snd (fst x)) /\ is_double (snd x).
Definition to_collapsed2_d (s : shape2) (x : pt2) : option pt2 := match s with Tri => tri_to_collapsed_d x | Quad => Some x end.
Definition to_collapsed3_d (s : shape3) (x : pt3) : option pt3 :=
  match s with Tet => tet_to_collapsed_d x | Pyr => pyr_to_collapsed_d x | Pri => prism_to_collapsed_d x | Hex => Some x end.
Definition to_loc2_d (f : bool) (s : shape2) (x : pt2) : option pt2 := match s with Tri => tri_to_loc_d f x | Quad => Some x end.
Definition to_loc3_d (f : bool) (s : shape3) (x : pt3) : option pt3 :=
  match s with Tet => tet_to_loc_d f x | Pyr => pyr_to_loc_d f x | Pri => prism_to_loc_d f x | Hex => Some x end.
(** the gap between 1 and the next double: std::numeric_limits<double>::epsilon() *)
Definition epsilon : R := 2 * unit_roundoff.
