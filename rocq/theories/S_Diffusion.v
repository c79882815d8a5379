(** Specification of the Diffusion solver, after examples/Diffusion/README.md. *)
From Verif Require Export M_Diffusion.
Open Scope R_scope.
Open Scope list_scope.

(** A Galerkin discretisation: an integral, the two derivatives and the space of discrete functions. *)
Record galerkin := { ga_I : fld -> R; ga_dx : fld -> fld; ga_dy : fld -> fld; ga_V : fld -> Prop }.
Definition ga_ok (g : galerkin) : Prop :=
  (forall f h a b, ga_I g (fun i => a * f i + b * h i) = a * ga_I g f + b * ga_I g h) /\
  (forall f, (forall i, 0 <= f i) -> 0 <= ga_I g f).
Definition inner (g : galerkin) (f h : fld) : R := ga_I g (fun i => f i * h i).
(** The integral of (D grad f) . grad h *)
Definition aform (g : galerkin) (d00 d01 d11 : fld) (f h : fld) : R :=
  ga_I g (fun i => (d00 i * ga_dx g f i + d01 i * ga_dy g f i) * ga_dx g h i + (d01 i * ga_dx g f i + d11 i * ga_dy g f i) * ga_dy g h i).
(** The tensor that a Helmholtz solve finds in the maps it is given. *)
Definition tensor_of (h : hmaps) (d00 d01 d11 : fld) : Prop :=
  (exists a b c, hm_d00 h = Some a /\ hm_d01 h = Some b /\ hm_d11 h = Some c /\ hm_v00 h = None /\ hm_v01 h = None /\ hm_v11 h = None /\
     d00 = (fun _ => a) /\ d01 = (fun _ => b) /\ d11 = (fun _ => c)) \/
  (hm_d00 h = None /\ hm_d01 h = None /\ hm_d11 h = None /\ hm_v00 h = Some d00 /\ hm_v01 h = Some d01 /\ hm_v11 h = Some d11).
Definition psd (d00 d01 d11 : fld) : Prop := forall i x y, 0 <= d00 i * (x * x) + 2 * d01 i * (x * y) + d11 i * (y * y).
(** Nektar++'s solve of  div(D grad Y) - L Y = f  in weak form with natural boundary conditions (no spectral viscosity). *)
Definition helm_solver (g : galerkin) (helm : hmaps -> fld -> fld) : Prop :=
  forall h f d00 d01 d11 L, hm_lambda h = Some L -> 0 < L -> tensor_of h d00 d01 d11 -> psd d00 d01 d11 -> hm_svv_cut h = None ->
    ga_V g (helm h f) /\ forall v, ga_V g v -> aform g d00 d01 d11 (helm h f) v + L * inner g (helm h f) v = - inner g f v.

(** The diffusivity tensor (2/(3n)) kappa with eigenvalue k_par along the unit vector (ux, uy) and k_perp across it. *)
Definition has_eigen (d00 d01 d11 : R) (x y l : R) : Prop := d00 * x + d01 * y = l * x /\ d01 * x + d11 * y = l * y.
Definition good_pars (p : dpar) : Prop := 0 < dp_n p /\ 0 <= dp_kpar p /\ 0 <= dp_kperp p.
(** Backward Euler (BDFImplicitOrder1): one implicit solve per step, the maps being kept from one step to the next. *)
Fixpoint steps (helm : nat -> hmaps -> fld -> fld) (p : dpar) (h : hmaps) (ls : list R) (inn : list fld) : fres (hmaps * list fld) :=
  match ls with
  | [] => FOk (h, inn)
  | l :: r => let! x := do_implicit_solve helm p h inn l in steps helm p (fst x) r (snd x)
  end.
