(** Specification vocabulary for C23, C24: the reference elements, and closeness. *)
From Verif Require Import M_Coord.

Inductive shape2 := Tri | Quad.
Inductive shape3 := Tet | Pyr | Pri | Hex.
(** The reference elements of the Nektar++ user manual. *)
Definition in_ref2 (s : shape2) (x : pt2) : Prop :=
  let '(x0, x1) := x in
  match s with
  | Tri => -1 <= x0 /\ -1 <= x1 /\ x0 + x1 <= 0
  | Quad => -1 <= x0 <= 1 /\ -1 <= x1 <= 1
  end.
Definition in_ref3 (s : shape3) (x : pt3) : Prop :=
  let '(x0, x1, x2) := x in
  match s with
  | Tet => -1 <= x0 /\ -1 <= x1 /\ -1 <= x2 /\ x0 + x1 + x2 <= -1
  | Pyr => -1 <= x0 /\ -1 <= x1 /\ -1 <= x2 /\ x0 + x2 <= 0 /\ x1 + x2 <= 0
  | Pri => -1 <= x0 /\ -1 <= x1 <= 1 /\ -1 <= x2 /\ x0 + x2 <= 0
  | Hex => -1 <= x0 <= 1 /\ -1 <= x1 <= 1 /\ -1 <= x2 <= 1
  end.
Definition in_cube2 (x : pt2) : Prop := -1 <= fst x <= 1 /\ -1 <= snd x <= 1.
Definition in_cube3 (x : pt3) : Prop :=
  -1 <= fst (fst x) <= 1 /\ -1 <= snd (fst x) <= 1 /\ -1 <= snd x <= 1.
(** Points at least [t] away from the collapsed edge/vertex of the shape. *)
Definition away2 (s : shape2) (t : R) (x : pt2) : Prop :=
  match s with Tri => t <= 1 - snd x | Quad => True end.
Definition away3 (s : shape3) (t : R) (x : pt3) : Prop :=
  let '(x0, x1, x2) := x in
  match s with
  | Tet => t <= 1 - x2 /\ t <= - x1 - x2
  | Pyr | Pri => t <= 1 - x2
  | Hex => True
  end.
Definition close2 (t : R) (a b : pt2) : Prop := Rabs (fst a - fst b) <= t /\ Rabs (snd a - snd b) <= t.
Definition close3 (t : R) (a b : pt3) : Prop :=
  Rabs (fst (fst a) - fst (fst b)) <= t /\ Rabs (snd (fst a) - snd (fst b)) <= t /\ Rabs (snd a - snd b) <= t.

(** The per-shape entry points, and the shape numbers. *)
Definition shape_int2 (s : shape2) : Z := match s with Tri => 3 | Quad => 4 end.
Definition shape_int3 (s : shape3) : Z := match s with Tet => 5 | Pyr => 6 | Pri => 7 | Hex => 8 end.
Definition to_collapsed2 (s : shape2) : pt2 -> option pt2 :=
  match s with Tri => tri_to_collapsed | Quad => quad_to_collapsed end.
Definition to_loc2 (s : shape2) : pt2 -> pt2 := match s with Tri => tri_to_loc | Quad => quad_to_loc end.
Definition to_collapsed3 (s : shape3) : pt3 -> option pt3 :=
  match s with Tet => tet_to_collapsed | Pyr => pyr_to_collapsed | Pri => prism_to_collapsed | Hex => hex_to_collapsed end.
Definition to_loc3 (s : shape3) : pt3 -> pt3 :=
  match s with Tet => tet_to_loc | Pyr => pyr_to_loc | Pri => prism_to_loc | Hex => hex_to_loc end.

(** C23 *)
Definition in_range (tol : R) (c : coord) : Prop :=
  match c with Fin x => - (1 + tol) <= x <= 1 + tol | NonFinite => False end.
(** [c'] is [c] clamped to [-(1+tol), 1+tol] (non-finite values become the centre). *)
Definition clamped (tol : R) (c c' : coord) : Prop :=
  match c with
  | NonFinite => c' = Fin 0
  | Fin x => c' = Fin (Rmax (- (1 + tol)) (Rmin (1 + tol) x))
  end.
