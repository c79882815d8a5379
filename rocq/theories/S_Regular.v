(** Specification vocabulary for C48, C57. *)
From Verif Require Export M_Regular S_Coord S_Newton S_NewtonM S_NewtonBind.

(** The elements of the 2D and 3D mappers: shape number, reference element, physical map. *)
Inductive ashape := ATri | AElem (e : elem).
Definition shape_number (s : ashape) : Z :=
  match s with ATri => eTriangle | AElem EQuad => eQuadrilateral | AElem ETet => eTetrahedron
  | AElem EPrism => ePrism | AElem EHex => eHexahedron | AElem EPyr => ePyramid end.
Definition adim (s : ashape) : nat := match s with ATri => 2 | AElem e => ndims e end.
Definition in_areference (s : ashape) (xi : pt3) : Prop :=
  match s with ATri => in_ref2 Tri (fst xi) /\ snd xi = 0 | AElem e => in_element e xi end.
Definition aaway (s : ashape) (t : R) (xi : pt3) : Prop :=
  match s with ATri => away2 Tri t (fst xi) | AElem e => away e t xi end.
(** The physical map is X(xi) = b + A xi: [b] and the columns of [A] are half the edges from vertex 0. *)
Definition affine_coeffs (n : nat) (A : nat -> nat -> R) (b : nat -> R) (xi : pt3) (a : nat) : R :=
  b a + fold_right (fun k acc => A a k * comp xi k + acc) 0 (seq 0 n).
Definition is_affine (s : ashape) (c : nat -> nat -> R) (A : nat -> nat -> R) (b : nat -> R) : Prop :=
  match s with
  | ATri => forall xi a, (a < 2)%nat -> Xtri c xi a = affine_coeffs 2 A b xi a
  | AElem e => affine_map e c A b
  end.
(** Collapsed coordinates, and the cube enlarged by a tolerance. *)
Definition acollapse (s : ashape) (xi : pt3) : option pt3 :=
  match s with
  | ATri => option_map (fun e => (e, snd xi)) (tri_to_collapsed (fst xi))
  | AElem EQuad => Some xi
  | AElem ETet => tet_to_collapsed xi | AElem EPrism => prism_to_collapsed xi
  | AElem EHex => Some xi | AElem EPyr => pyr_to_collapsed xi
  end.
Definition in_cube_tol (n : nat) (tol : R) (eta : pt3) : Prop := forall a, (a < n)%nat -> Rabs (comp eta a) <= 1 + tol.

(** The mapper's answer for one element: [try] in 2D or 3D. *)
Definition regular_accepts (n : nat) (tol : R) (g : mgeom) (p : pt3) : option pt3 :=
  if Nat.eqb n 2 then try_regular_2d tol g p else try_regular_3d tol g p.
(** [p] agrees with X in the element's dimensions. *)
Definition at_affine (n : nat) (A : nat -> nat -> R) (b : nat -> R) (xi p : pt3) : Prop :=
  forall a, (a < n)%nat -> affine_coeffs n A b xi a = comp p a.

(** C57: which Newton mapper covers an element; the element lists of the mappers of a pipeline. *)
Definition offers_2d (geoms : list mgeom) : list (list mgeom) := [filter g_regular geoms; newton_geoms_2d geoms].
Definition offers_3d (all_generic : bool) (geoms : list mgeom) : list (list mgeom) :=
  [if all_generic then [] else filter g_regular geoms;
   linear_geoms all_generic geoms eTetrahedron; linear_geoms all_generic geoms ePrism;
   linear_geoms all_generic geoms eHexahedron; linear_geoms all_generic geoms ePyramid;
   nonlinear_geoms all_generic geoms].
Definition covered_once (offers : list (list mgeom)) (g : mgeom) : Prop :=
  exists l1 l l2, offers = l1 ++ l :: l2 /\ In g l /\ forall l', In l' (l1 ++ l2) -> ~ In g l'.
Definition known2 (g : mgeom) : Prop := g_shape g = eTriangle \/ g_shape g = eQuadrilateral.
Definition known3 (g : mgeom) : Prop := In (g_shape g) [eTetrahedron; ePyramid; ePrism; eHexahedron].
(** The particle is in the element's bounding box (half-open). *)
Definition in_half_open (n : nat) (g : mgeom) (q : particle) : Prop :=
  forall d, (d < n)%nat -> fst (nth d (g_box g) (0, 0)) <= nthR (q_pos q) d < snd (nth d (g_box g) (0, 0)).
(** The element itself accepts the particle's position: closed form inverse for regular elements, first Newton pass
    otherwise. *)
Definition element_accepts (n : nat) (tol : R) (conf : store) (closed_form : bool) (g : mgeom) (q : particle) : Prop :=
  exists xi, (if closed_form then regular_accepts n tol g (kernel_pos n q)
              else accepts_initial (read_config conf) (kernel_pos n q) g) = Some xi.
(** The particles have room for n reference coordinates. *)
Definition ref_room (n : nat) (grp : list (list particle)) : Prop :=
  forall cell q, In cell grp -> In q cell -> (n <= length (q_ref q))%nat.
Definition deformed_triangle (g : mgeom) : Prop := g_regular g = false /\ g_shape g = eTriangle.
