(** Specification for C96, independent of the code: reference cells of the six Nektar++ element shapes, their vertices,
    what an element map is, and the straight-sided element with given vertices. *)
From Coq Require Import Reals List ZArith Lra.
From Verif Require Export S_Newton.
Import ListNotations.
Open Scope R_scope.

Inductive shape := Tri | Quad | Tet | Pyr | Prism | Hex.
Definition vertices_of (s : shape) : nat :=
  match s with Tri => 3 | Quad => 4 | Tet => 4 | Pyr => 5 | Prism => 6 | Hex => 8 end.
Definition dimension_of (s : shape) : nat := match s with Tri | Quad => 2 | _ => 3 end.
(** Corner i of the reference cell. *)
Definition corner (s : shape) (i : nat) : R * R * R :=
  match s with
  | Tri => nth i [(-1,-1,0); (1,-1,0); (-1,1,0)] (0,0,0)
  | Quad => refvert EQuad i | Tet => refvert ETet i | Pyr => refvert EPyr i | Prism => refvert EPrism i
  | Hex => refvert EHex i
  end.
(** The closed reference cell and its interior. *)
Definition in_reference (s : shape) (xi : R * R * R) : Prop :=
  let '(x, y, z) := xi in
  match s with
  | Tri => -1 <= x /\ -1 <= y /\ x + y <= 0 /\ z = 0
  | Quad => -1 <= x <= 1 /\ -1 <= y <= 1 /\ z = 0
  | Tet => -1 <= x /\ -1 <= y /\ -1 <= z /\ x + y + z <= -1
  | Pyr => -1 <= x /\ -1 <= y /\ -1 <= z /\ x + z <= 0 /\ y + z <= 0
  | Prism => -1 <= x /\ -1 <= z /\ x + z <= 0 /\ -1 <= y <= 1
  | Hex => -1 <= x <= 1 /\ -1 <= y <= 1 /\ -1 <= z <= 1
  end.
Definition inside_reference (s : shape) (xi : R * R * R) : Prop :=
  let '(x, y, z) := xi in
  match s with
  | Tri => -1 < x /\ -1 < y /\ x + y < 0 /\ z = 0
  | Quad => -1 < x < 1 /\ -1 < y < 1 /\ z = 0
  | Tet => -1 < x /\ -1 < y /\ -1 < z /\ x + y + z < -1
  | Pyr => -1 < x /\ -1 < y /\ -1 < z /\ x + z < 0 /\ y + z < 0
  | Prism => -1 < x /\ -1 < z /\ x + z < 0 /\ -1 < y < 1
  | Hex => -1 < x < 1 /\ -1 < y < 1 /\ -1 < z < 1
  end.
(** The straight-sided element with vertex coordinates c. *)
Definition straight (s : shape) (c : nat -> nat -> R) (xi : R * R * R) (a : nat) : R :=
  match s with
  | Tri => Xtri c xi a
  | Quad => Xmap EQuad c xi a | Tet => Xmap ETet c xi a | Pyr => Xmap EPyr c xi a | Prism => Xmap EPrism c xi a
  | Hex => Xmap EHex c xi a
  end.
(** An element: its shape, the dimension of the space it lives in and its map from the reference cell (component by
    component; components at or above the space dimension are zero). *)
Record element := { el_shape : shape; el_space : nat; el_map : R * R * R -> nat -> R }.
Definition flat_above (e : element) : Prop := forall xi a, (el_space e <= a)%nat -> el_map e xi a = 0.
(** p is a point of the element. *)
Definition point_of (e : element) (p : R * R * R) : Prop :=
  exists xi, in_reference (el_shape e) xi /\ forall a, (a < 3)%nat -> comp p a = el_map e xi a.
Definition interior_point_of (e : element) (p : R * R * R) : Prop :=
  exists xi, inside_reference (el_shape e) xi /\ forall a, (a < 3)%nat -> comp p a = el_map e xi a.
(** The element has straight sides: its map is the straight-sided one with the same corners (the apex of a pyramid, where
    the collapsed coordinates are singular, is only required to be a corner). *)
Definition straight_sided (e : element) : Prop :=
  forall xi a, (a < 3)%nat -> inside_reference (el_shape e) xi ->
    el_map e xi a = straight (el_shape e) (fun i => el_map e (corner (el_shape e) i)) xi a.
(** Average of the corners. *)
Definition mean_corner (e : element) (a : nat) : R :=
  fold_right (fun i acc => el_map e (corner (el_shape e) i) a + acc) 0 (seq 0 (vertices_of (el_shape e)))
  / INR (vertices_of (el_shape e)).
