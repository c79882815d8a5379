(** Specification vocabulary for C86. *)
From Verif Require Import M_Loop S_Loop S_Bary S_Coord M_Coord M_Generic3D M_BBox S_Newton S_Generic3D.
From Coq Require Import List Permutation.
Import ListNotations.
Open Scope R_scope.

(** The points of a grid of [n] x [n] equidistant points, ends included, on each face of the cube [-1,1]^3 *)
Definition face_grid (n : nat) (eta : pt3) : Prop :=
  exists a, (a < 3)%nat /\ (comp eta a = -1 \/ comp eta a = 1) /\
    forall b, (b < 3)%nat -> b <> a -> exists i, (i < n)%nat /\ comp eta b = -1 + 2 * INR i / INR (n - 1).
(** Each of the n^2 work items of each of the six faces, once, in some order, each with some local memory *)
Definition all_items (n : nat) (items : list (nat * nat * buf)) : Prop :=
  Permutation (map fst items) (list_prod (seq 0 6) (seq 0 (n * n))).
(** [m] is the smallest, [M] the largest value of g over the points P *)
Definition least {A} (P : A -> Prop) (g : A -> R) (m : R) : Prop := (forall e, P e -> m <= g e) /\ exists e, P e /\ g e = m.
Definition largest {A} (P : A -> Prop) (g : A -> R) (m : R) : Prop := (forall e, P e -> g e <= m) /\ exists e, P e /\ g e = m.
(** The element's nodal values are those of G, and in collapsed coordinates G is a polynomial of degree below the number of
    points in each direction *)
Definition represents_G (s : shape3) (x : xmap) (G : pt3 -> nat -> R) : Prop :=
  forall a, (a < 3)%nat -> tensor_poly x s (fun xi => G xi a) /\ sampled x s (xm_phys x a) (fun xi => G xi a).
(** every coordinate of the element's points is a double *)
Definition double_range (s : shape3) (G : pt3 -> nat -> R) : Prop := forall xi a, in_ref3 s xi -> (a < 3)%nat -> Rabs (G xi a) <= DBL_MAX.
(** shape of a linear element *)
Definition shape_of (e : elem) : shape3 := match e with ETet => Tet | EPrism => Pri | EPyr => Pyr | _ => Hex end.
Definition on_cube_face (eta : pt3) : Prop := in_cube3 eta /\ exists a, (a < 3)%nat /\ (comp eta a = -1 \/ comp eta a = 1).
