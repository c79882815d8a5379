(** Model of the DriftPlane solver: solvers/DriftPlane/EquationSystems/DriftPlaneSystem.cpp, Blob2DSystem.cpp and
    RiemannSolvers/DriftUpwindSolver.hpp. Exact reals; a field is its value at every quadrature (or trace) point. Nektar++'s
    operators are arguments. *)
From Verif Require Export M_Fluid.
Open Scope R_scope.
Open Scope list_scope.

(** Nektar++: PhysDeriv, HelmSolve with lambda = 0 followed by BwdTrans, ExtractTracePhys, the traces of a field seen from the
    two sides of every face (GetFwdBwdTracePhys, which uses the boundary conditions of that field), the normals, and the weak
    DG divergence of one field from its flux vector and its numerical trace flux (SU::AdvectionWeakDG::v_Advect). *)
Record penv := { pe_deriv : nat -> fld -> fld; pe_poisson : fld -> fld; pe_trace : fld -> fld; pe_fwd : nat -> fld -> fld;
  pe_bwd : nat -> fld -> fld; pe_normals : list fld; pe_wdg : nat -> list fld -> fld -> fld }.

(** load_params 137-148; [ps] are the session's parameters. *)
Record ppar := { pp_B : R; pp_Lpar : R; pp_Te : R; pp_Rxy : R; pp_e : R }.
Definition sparam (ps : string -> option R) (n : string) (d : R) : R := match ps n with Some v => v | None => d end.
Definition plane_params (ps : string -> option R) : ppar :=
  {| pp_B := sparam ps "B" (35 / 100); pp_Lpar := sparam ps "Lpar" 1; pp_Te := sparam ps "T_e" 5; pp_Rxy := sparam ps "Rxy" (3 / 2);
     pp_e := sparam ps "e" (-1) |}.

(** EqnSysBase::check_var_idx (eqnsys_base.hpp 109-115); GetVariable throws on a missing index. *)
Definition check_var_idx (s : fsess) (i : nat) (n : string) : fres unit :=
  match nth_error (fs_vars s) i with Some m => fassert (String.eqb m n) | None => FThrow end.
(** Blob2DSystem 11-18 and v_InitObject 220-227 with EqnSysBase::v_InitObject 170-181. *)
Definition plane_init (s : fsess) : fres unit :=
  let! _ := validate_fields s ["ne"; "w"; "phi"]%string in
  let! _ := check_var_idx s 0 "ne" in let! _ := check_var_idx s 1 "w" in check_var_idx s 2 "phi".

(** calc_drift_velocity 37-42. [vel] is the storage (one array per space dimension, not initialised: 241-243). *)
Definition calc_drift_velocity (e : penv) (phi : fld) (vel : list fld) : fres (list fld) :=
  let! vel := aset vel 1 (pe_deriv e 0 phi) in
  let! vel := aset vel 0 (pe_deriv e 1 phi) in
  upd vel 1 vneg.

(** calc_div_sheath_closure 22-32 *)
Definition calc_div_sheath (p : ppar) (n phi : fld) : fres fld :=
  let! il := fnan (rdiv 1 (pp_Lpar p)) in FOk (smul il (vmul n phi)).

(** e T_e / (Rxy * Rxy) *)
Definition epsilon (p : ppar) : fres R := fnan (rdiv (pp_e p * pp_Te p) (pp_Rxy p * pp_Rxy p)).

(** get_flux_vector 74-96 for the fields [vals] *)
Definition plane_flux (s : fsess) (p : ppar) (vel vals : list fld) : fres (list (list fld)) :=
  let flux := map (fun f : fld => map (fun v : fld => vmul f v) vel) vals in
  let! ne_idx := fidx s "ne" in let! w_idx := fidx s "w" in
  let! eps := epsilon p in
  let! n := aget vals ne_idx in
  let! fw := aget flux w_idx in
  let! fwy := aget fw 1 in
  let! fw' := aset fw 1 (fun i => fwy i + eps * n i) in
  aset flux w_idx fw'.

(** get_normal_velocity 104-122: the loop over the components of the drift velocity. *)
Fixpoint plane_vn (e : penv) (vel normals : list fld) (acc : fld) : fres fld :=
  match vel, normals with
  | [], _ => FOk acc
  | _ :: _, [] => FUB
  | v :: vr, n :: nr => plane_vn e vr nr (fun i => n i * pe_trace e v i + acc i)
  end.

(** DriftUpwindSolver::v_Solve 27-47 *)
Definition drift_upwind (c : R) (n_idx w_idx : Z) (vn ny : fld) (Fwd Bwd : list fld) : fres (list fld) :=
  let tmp := fun (a b : fld) (i : nat) => if Rle_bool 0 (vn i) then a i else b i in
  let flux := map (fun ab => (fun i => vn i * tmp (fst ab) (snd ab) i) : fld) (combine Fwd Bwd) in
  let! nf := aget Fwd n_idx in let! nb := aget Bwd n_idx in
  upd flux w_idx (fun f i => f i - c * ny i * tmp nf nb i).

Fixpoint imap {A B} (f : nat -> A -> B) (k : nat) (l : list A) : list B :=
  match l with [] => [] | a :: r => f k a :: imap f (S k) r end.
(** Advect (Blob2DSystem.cpp 53) with the callbacks above; create_riemann_solver 24-29 sets c = -e T_e / Rxy^2. *)
Definition plane_advect (e : penv) (s : fsess) (p : ppar) (vel inn : list fld) : fres (list fld) :=
  let! flux := plane_flux s p vel inn in
  let! vn := plane_vn e vel (pe_normals e) vzero in
  let! ny := aget (pe_normals e) 1 in
  let! n_idx := fidx s "ne" in let! w_idx := fidx s "w" in
  let! c := fnan (rdiv (- pp_e p * pp_Te p) (pp_Rxy p * pp_Rxy p)) in
  let! num := drift_upwind c n_idx w_idx vn ny (imap (pe_fwd e) 0 inn) (imap (pe_bwd e) 0 inn) in
  FOk (imap (fun k fn => pe_wdg e k (fst fn) (snd fn)) 0 (combine flux num)).

(** solve_phi 149-194 *)
Definition plane_rhs_phi (e : penv) (s : fsess) (p : ppar) (phys : list fld) (w : fld) : fres fld :=
  let rhs := smul (pp_B p * pp_B p) w in
  let ph_idx := fget_idx s "ph" in
  if Z.eqb ph_idx (-1) then FOk rhs
  else let! ph := aget phys ph_idx in
    FOk (vsub rhs (vadd (pe_deriv e 0 (pe_deriv e 0 ph)) (pe_deriv e 1 (pe_deriv e 1 ph)))).

(** Blob2DSystem::explicit_time_int 38-68. [vel] is the velocity storage; the result is phi and the right hand sides. *)
Definition blob_rhs (e : penv) (s : fsess) (p : ppar) (vel phys inn : list fld) : fres (fld * list fld) :=
  let! ne_idx := fidx s "ne" in let! w_idx := fidx s "w" in let! phi_idx := fidx s "phi" in
  let! w := aget inn w_idx in let! _ := aget phys phi_idx in
  let! rhs := plane_rhs_phi e s p phys w in
  let phi := pe_poisson e rhs in
  let! vel := calc_drift_velocity e phi vel in
  let! n := aget inn ne_idx in
  let! sheath := calc_div_sheath p n phi in
  let! adv := plane_advect e s p vel inn in
  let! ib := fnan (rdiv (-1) (pp_B p)) in
  let out := map (smul ib) adv in
  let! ie := fnan (rdiv 1 (pp_e p)) in
  let! out := upd out ne_idx (svtvp ie sheath) in
  let! out := upd out w_idx (fun o => vadd o sheath) in
  FOk (phi, out).
