(** Specification of the drift-reduced equation systems, after examples/DriftReduced/README.md. Written with the Nektar++
    operators of [oenv] only. *)
From Verif Require Export M_Fluid.
Open Scope R_scope.
Open Scope list_scope.

Definition dX (e : oenv) : fld -> fld := oe_deriv e 0.
Definition dY (e : oenv) : fld -> fld := oe_deriv e 1.
Definition dZ (e : oenv) : fld -> fld := oe_deriv e 2.

(** E x B drift for E = - grad phi and B = (0, 0, B): (E x B)/B^2 = (- dphi/dy, dphi/dx, 0)/B. *)
Definition drift (e : oenv) (B : R) (phi : fld) : list fld :=
  [(fun i => - dY e phi i / B); (fun i => dX e phi i / B); (fun _ => 0)].

(** The advection operator applied to the field [f] and the velocity [v]: flux f*v, normal velocity v.n on the trace. *)
Fixpoint dotl (a b : list fld) (i : nat) : R :=
  match a, b with x :: xr, y :: yr => x i * y i + dotl xr yr i | _, _ => 0 end.
Definition advection (e : oenv) (v : list fld) (f : fld) : fld :=
  oe_adv e (map (fun c : fld => (fun i => f i * c i) : fld) v) (dotl (oe_normals e) (map (oe_trace e) v)) v f.

(** Sessions a user is expected to write: a 3D mesh, distinct variables. *)
Definition session3 (s : fsess) : Prop := fs_mesh s = 3%nat /\ fs_space s = 3%nat /\ NoDup (fs_vars s).
(** The value m_fields holds for the variable of that name. *)
Definition field_named (s : fsess) (phys : list fld) (n : string) (f : fld) : Prop :=
  exists k, nth_error (fs_vars s) k = Some n /\ nth_error phys k = Some f.

(** The Hasegawa-Wakatani right hand sides: -[phi, n] + coupling - kappa dphi/dy + source, -[phi, w] + coupling. *)
Definition hw_dn (e : oenv) (B kappa : R) (phi n coupling src : fld) : fld :=
  fun i => - advection e (drift e B phi) n i + coupling i - kappa * dY e phi i + src i.
Definition hw_dw (e : oenv) (B : R) (phi w coupling : fld) : fld :=
  fun i => - advection e (drift e B phi) w i + coupling i.
Definition coupling2 (alpha : R) (phi n : fld) : fld := fun i => alpha * (phi i - n i).

(** * Growth rates *)
(** The calculus the energy and enstrophy balances need: a linear integral, linear commuting derivatives that integrate by
    parts without boundary terms (periodic domains, the boundary conditions of the examples). *)
Record calculus (e : oenv) (I : fld -> R) : Prop := {
  ca_int : forall a f b g, I (fun i => a * f i + b * g i) = a * I f + b * I g;
  ca_lin : forall j a f b g, oe_deriv e j (fun i => a * f i + b * g i) = (fun i => a * oe_deriv e j f i + b * oe_deriv e j g i);
  ca_parts : forall j f g, I (fun i => f i * oe_deriv e j g i) = - I (fun i => oe_deriv e j f i * g i);
  ca_comm : forall j k f, oe_deriv e j (oe_deriv e k f) = oe_deriv e k (oe_deriv e j f) }.
(** The operator of the potential solve: the perpendicular Laplacian, plus the z derivatives when [z]. *)
Definition lap (e : oenv) (z : bool) (f : fld) : fld :=
  fun i => dX e (dX e f) i + dY e (dY e f) i + (if z then dZ e (dZ e f) i else 0).
(** The fields after a (fictitious) time t along the given rates of change. *)
Definition along (f f' : fld) (t : R) : fld := fun i => f i + t * f' i.

(** * LAPD *)
(** Velocity of a species: the drift plus its parallel velocity along B = (0, 0, B). *)
Definition with_par (e : oenv) (B : R) (phi vpar : fld) : list fld :=
  [(fun i => - dY e phi i / B); (fun i => dX e phi i / B); (fun i => B / Rabs B * vpar i)].
(** v_par = G / max(n, floor) / mass at the points of the mesh. *)
Definition is_vpar (s : fsess) (p : lapdpar) (n G : fld) (mass : R) (v : fld) : Prop :=
  forall i, (i < fs_npts s)%nat -> v i = G i / Rmax (n i) (lp_nref p * lp_floor p) / mass.
(** nu_ei = nu_const * n * (logLambda_const - ln(n_SI)/2) at the points of the mesh. *)
Definition is_nu (s : fsess) (p : lapdpar) (n : fld) (nu : fld) : Prop :=
  forall i, (i < fs_npts s)%nat -> nu i = lp_nu p * n i * (lp_coulomb p - 5 / 10 * ln (lp_n_to_SI p * n i)).
