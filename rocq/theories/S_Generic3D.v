(** Specification vocabulary for C85: the element map as the Lagrange interpolant of its nodal values. *)
From Verif Require Import M_Loop S_Loop S_Bary S_Coord M_Coord M_NewtonMap M_Generic3D S_Newton.
From Coq Require Import List.
Import ListNotations.
Open Scope R_scope.

(** Lagrange polynomial of node i *)
Definition lagrange (n : nat) (z : nat -> R) (i : nat) (x : R) : R :=
  prodn n (fun j => if Nat.eqb j i then 1 else (x - z j) / (z i - z j)).
(** Points and weights of a direction of the map, and their number *)
Definition pts (x : xmap) (a : nat) : list R := fst (nth a (xm_base x) ([], [])).
Definition wts (x : xmap) (a : nat) : list R := snd (nth a (xm_base x) ([], [])).
Definition npts (x : xmap) (a : nat) : nat := length (pts x a).
Definition node (x : xmap) (a i : nat) : R := nth i (pts x a) 0.
(** A value list over all points, direction 0 fastest *)
Definition nodal (x : xmap) (v : list R) (i0 i1 i2 : nat) : R := nth (i2 * (npts x 0 * npts x 1) + i1 * npts x 0 + i0)%nat v 0.
(** The tensor product Lagrange interpolant of the values [v], at collapsed coordinates *)
Definition interp (x : xmap) (v : list R) (eta : pt3) : R :=
  tensor3 (npts x 0) (npts x 1) (npts x 2) (nodal x v)
    (fun i => lagrange (npts x 0) (node x 0) i (comp eta 0)) (fun i => lagrange (npts x 1) (node x 1) i (comp eta 1))
    (fun i => lagrange (npts x 2) (node x 2) i (comp eta 2)).
(** A Nektar++ map of a 3D shape: three directions of distinct points with their barycentric weights. *)
Definition good_xmap (s : shape3) (x : xmap) : Prop :=
  length (xm_base x) = 3%nat /\ xm_tot x = (npts x 0 * npts x 1 * npts x 2)%nat /\ xm_shape x = shape_int3 s /\
  forall a, (a < 3)%nat -> (0 < npts x a)%nat /\ length (wts x a) = npts x a /\ distinct (npts x a) (node x a) /\
    barycentric (npts x a) (node x a) (fun i => nth i (wts x a) 0).
(** collapsed coordinates of a reference point *)
Definition collapsed (s : shape3) (xi : pt3) : pt3 := match to_collapsed3 s xi with Some e => e | None => (0, 0, 0) end.
(** Component a of X, and of its derivative in direction b, as represented by the element *)
Definition elem_X (s : shape3) (x : xmap) (xi : pt3) (a : nat) : R := interp x (xm_phys x a) (collapsed s xi).
Definition elem_J (s : shape3) (x : xmap) (xi : pt3) (a b : nat) : R := interp x (xm_deriv x (xm_phys x a) b) (collapsed s xi).
(** Cramer's rule: xi - J^(-1) f; None if J is singular *)
Definition solve_update (J : nat -> nat -> R) (xi f : pt3) : option pt3 :=
  if Req_bool (det 3 J) 0 then None
  else Some (comp xi 0 - det 3 (fun a b => if Nat.eqb b 0 then comp f a else J a b) / det 3 J,
             comp xi 1 - det 3 (fun a b => if Nat.eqb b 1 then comp f a else J a b) / det 3 J,
             comp xi 2 - det 3 (fun a b => if Nat.eqb b 2 then comp f a else J a b) / det 3 J).
(** The element without any local memory: Newton's method on X(xi) - p, from (-0.2, -0.2, -0.2). *)
Definition element_type (s : shape3) (x : xmap) : newton_type := {|
  nt_step := fun xi p f => solve_update (elem_J s x xi) xi f;
  nt_resid := fun xi p _ =>
    let f a := elem_X s x xi a - comp p a in
    let e a := Rabs (f a) * comp (xm_scale x) a in
    Some (Rmax (Rmax (e 0%nat) (e 1%nat)) (e 2%nat), (f 0%nat, f 1%nat, f 2%nat));
  nt_init := fun _ => Some (-1/5, -1/5, -1/5);
  nt_coll := to_collapsed3 s;
  nt_loc := to_loc3 s |}.
(** The map G is represented exactly by the element: at the points of the element the stored values are those of G and of
    its partial derivatives DG, and in collapsed coordinates these are polynomials of degree below the number of points in
    each direction. *)
Definition tensor_poly (x : xmap) (s : shape3) (g : pt3 -> R) : Prop :=
  exists c, forall e0 e1 e2, g (to_loc3 s (e0, e1, e2)) = polynomial3 (npts x 0) (npts x 1) (npts x 2) c e0 e1 e2.
Definition sampled (x : xmap) (s : shape3) (v : list R) (g : pt3 -> R) : Prop :=
  forall i0 i1 i2, (i0 < npts x 0)%nat -> (i1 < npts x 1)%nat -> (i2 < npts x 2)%nat ->
    nodal x v i0 i1 i2 = g (to_loc3 s (node x 0 i0, node x 1 i1, node x 2 i2)).
Definition represents (s : shape3) (x : xmap) (G : pt3 -> nat -> R) (DG : pt3 -> nat -> nat -> R) : Prop :=
  forall a, (a < 3)%nat -> tensor_poly x s (fun xi => G xi a) /\ sampled x s (xm_phys x a) (fun xi => G xi a) /\
    forall b, (b < 3)%nat -> tensor_poly x s (fun xi => DG xi a b) /\ sampled x s (xm_deriv x (xm_phys x a) b) (fun xi => DG xi a b).
