(** Specification vocabulary for C99, fields at physical positions. *)
From Verif Require M_Generic3D S_Generic3D.
From Verif Require Import M_RealBase M_Grid M_Coord M_NewtonMap M_NewtonBind M_Regular.
From Verif Require Import S_NewtonM S_NewtonBind S_Regular.
From Coq Require Import ZArith Reals.
From Verif Require Import S_Journey M_FieldEval S_FieldEval S_Newton.
From Coq Require Import List.
Import ListNotations.
Local Open Scope R_scope.

(** The map X of element [g] from reference to physical space and how closely its inverse finds a position, per direction:
    exactly for regular elements (X affine), within the scaled Newton tolerance for straight sided others (X multilinear) and for
    curved 3D elements (X the interpolant of the nodal positions). *)
Inductive element_map (n : nat) (conf : store) (g : mgeom) : (pt3 -> nat -> R) -> (nat -> R) -> Prop :=
| em_closed s A b : closed_form n conf g = true -> adim s = n -> g_shape g = shape_number s -> is_affine s (g_verts g) A b ->
    det n A <> 0 -> 0 <= (if Nat.eqb n 2 then regular_tol_2d conf else regular_tol_3d conf) ->
    element_map n conf g (affine_coeffs n A b) (fun _ => 0)
| em_newton e c sc : closed_form n conf g = false -> ndims e = n -> g_shape g = shape_number (AElem e) -> g_newton g = linear_type e c sc ->
    0 <= contained_tol (read_config conf) -> (forall a, (a < n)%nat -> 0 < scale_of e sc a) -> (e = EHex -> 0 <= comp sc 0) ->
    element_map n conf g (Xmap e c) (fun a => newton_tol (read_config conf) / scale_of e sc a)
| em_curved s x : n = 3%nat -> closed_form n conf g = false -> g_newton g = S_Generic3D.element_type s x ->
    0 <= contained_tol (read_config conf) -> (forall a, (a < 3)%nat -> 0 < comp (M_Generic3D.xm_scale x) a) ->
    element_map n conf g (S_Generic3D.elem_X s x) (fun a => newton_tol (read_config conf) / comp (M_Generic3D.xm_scale x) a).
(** The particle is (within 1e-12) at the apex of a pyramid inverted by Newton's method. *)
Definition at_apex (g : mgeom) (p : pt3) : Prop := g_shape g = ePyramid /\ exists c sc, g_newton g = linear_type EPyr c sc /\ apex_target EPyr c p.
(** A physical point, as the first [n] components. *)
Definition phys (n : nat) (X : nat -> R) : pt3 := (X 0%nat, X 1%nat, if Nat.eqb n 3 then X 2%nat else 0).
(** The field with coefficients [coeffs] is, on the element, the function [f] of the physical position: at every reference
    position [xi] (2D: with third coordinate 0) in [D]. *)
Definition represents (n : nat) (D : pt3 -> Prop) (e : fexp) (coeffs : list R) (X : pt3 -> nat -> R) (f : pt3 -> R) : Prop :=
  forall xi v, (n = 2%nat -> comp xi 2 = 0) -> D xi -> value_at e coeffs xi v -> v = f (phys n (X xi)).
(** [f] changes by at most [K a] times the change of component [a]. *)
Definition lipschitz (n : nat) (K : nat -> R) (f : pt3 -> R) : Prop :=
  (forall a, 0 <= K a) /\ forall x y, Rabs (f (phys n x) - f (phys n y)) <= fold_right (fun a s => K a * Rabs (x a - y a) + s) 0 (seq 0 n).
Definition bound (n : nat) (K acc : nat -> R) : R := fold_right (fun a s => K a * acc a + s) 0 (seq 0 n).
(** The reference coordinates of the vertices of each element, in the order of the coefficients of a two-mode expansion. *)
Definition corners (s : M_Basis.shape) : list pt3 :=
  match s with
  | M_Basis.Tri => [(-1, -1, 0); (-1, 1, 0); (1, -1, 0)]
  | M_Basis.Quad => [(-1, -1, 0); (1, -1, 0); (-1, 1, 0); (1, 1, 0)]
  | M_Basis.Hex => [(-1, -1, -1); (1, -1, -1); (-1, 1, -1); (1, 1, -1); (-1, -1, 1); (1, -1, 1); (-1, 1, 1); (1, 1, 1)]
  | M_Basis.Prism => [(-1, -1, -1); (-1, -1, 1); (-1, 1, -1); (-1, 1, 1); (1, -1, -1); (1, 1, -1)]
  | M_Basis.Pyr => [(-1, -1, -1); (-1, -1, 1); (-1, 1, -1); (1, -1, -1); (1, 1, -1)]
  | M_Basis.Tet => [(-1, -1, -1); (-1, -1, 1); (-1, 1, -1); (1, -1, -1)]
  end.
(** More than 1e-12 away from where the element's coordinates collapse. *)
Definition off_collapse (s : M_Basis.shape) (xi : pt3) : Prop :=
  let '(x0, x1, x2) := xi in
  match s with
  | M_Basis.Quad | M_Basis.Hex => True
  | M_Basis.Tri => kNekZeroTol <= 1 - x1
  | M_Basis.Pyr | M_Basis.Prism => kNekZeroTol <= 1 - x2
  | M_Basis.Tet => kNekZeroTol <= 1 - x2 /\ kNekZeroTol <= - x1 - x2
  end.
