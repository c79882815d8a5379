(** Specification of the DriftPlane solver (blob2D), after examples/DriftPlane/README.md. *)
From Verif Require Export M_Plane.
Open Scope R_scope.
Open Scope list_scope.

Definition pX (e : penv) : fld -> fld := pe_deriv e 0.
Definition pY (e : penv) : fld -> fld := pe_deriv e 1.

(** A session whose first three variables are ne, w, phi, all variables distinct, in two space dimensions. *)
Definition blob_sess (s : fsess) : Prop :=
  fs_space s = 2%nat /\ NoDup (fs_vars s) /\ exists r, fs_vars s = ("ne" :: "w" :: "phi" :: r)%string.
(** Parameters without a zero divisor. *)
Definition blob_pars (p : ppar) : Prop := pp_B p <> 0 /\ pp_Lpar p <> 0 /\ pp_Rxy p <> 0 /\ pp_e p <> 0.
Definition eps_of (p : ppar) : R := pp_e p * pp_Te p / (pp_Rxy p * pp_Rxy p).

(** The drift velocity (times B). *)
Definition vx (e : penv) (phi : fld) : fld := pY e phi.
Definition vy (e : penv) (phi : fld) : fld := fun i => - pX e phi i.
(** The normal velocity at the trace points of a mesh in two dimensions. *)
Definition vnormal (e : penv) (nx ny : fld) (phi : fld) : fld :=
  fun i => nx i * pe_trace e (vx e phi) i + ny i * pe_trace e (vy e phi) i.
(** Upwind flux of a quantity whose values on the two sides are [a] (from which the normal points away) and [b]:
    the central flux plus dissipation. *)
Definition upflux (v a b : R) : R := v * (a + b) / 2 + Rabs v / 2 * (a - b).
(** The value on the upwind side; a still face takes the first. *)
Definition upval (v a b : R) : R := if Rle_bool 0 v then a else b.

(** The potential solves  laplacian phi = B^2 w  (minus the laplacian of the ion pressure if there is one). *)
Definition is_phi (e : penv) (s : fsess) (p : ppar) (phys : list fld) (w phi : fld) : Prop :=
  (~ In "ph"%string (fs_vars s) -> phi = pe_poisson e (fun i => pp_B p * pp_B p * w i)) /\
  (forall k ph, nth_error (fs_vars s) k = Some "ph"%string -> nth_error phys k = Some ph ->
     phi = pe_poisson e (fun i => pp_B p * pp_B p * w i - (pX e (pX e ph) i + pY e (pY e ph) i))).

(** Fields that are continuous across the faces, and operators exact for them: both sides see the trace, the trace of a
    product is the product of the traces, the weak DG divergence of a flux with its own normal component is its divergence. *)
Record continuous (e : penv) (nx ny : fld) (phi n w : fld) : Prop := {
  ct_sides : (forall i, pe_fwd e 0 n i = pe_trace e n i) /\ (forall i, pe_bwd e 0 n i = pe_trace e n i) /\
             (forall i, pe_fwd e 1 w i = pe_trace e w i) /\ (forall i, pe_bwd e 1 w i = pe_trace e w i);
  ct_trace : forall f g a b, pe_trace e (fun i => a * f i + b * g i) = (fun i => a * pe_trace e f i + b * pe_trace e g i);
  ct_mul : forall f g, pe_trace e (fun i => f i * g i) = (fun i => pe_trace e f i * pe_trace e g i);
  ct_wdg : forall k fx fy, pe_wdg e k [fx; fy] (fun i => nx i * pe_trace e fx i + ny i * pe_trace e fy i) =
             (fun i => pX e fx i + pY e fy i) }.
(** The product rule for the advection of [f] at a point, and mixed derivatives of phi that agree. *)
Definition product_rule (e : penv) (phi f : fld) (i : nat) : Prop :=
  pX e (fun j => f j * vx e phi j) i = pX e f i * vx e phi i + f i * pX e (pY e phi) i /\
  pY e (fun j => f j * vy e phi j) i = pY e f i * vy e phi i - f i * pX e (pY e phi) i.
