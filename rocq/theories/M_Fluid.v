(** Model of the drift-reduced fluid equation systems (solvers/DriftReduced/EquationSystems/*.cpp), of their base classes
    (include/nektar_interface/solver_base/eqnsys_base.hpp, time_evolved_eqnsys_base.hpp) and of the growth rate diagnostics
    (solvers/DriftReduced/Diagnostics/GrowthRatesRecorder.hpp). Exact reals. A field is its value at every quadrature point;
    all fields have the same points (validate_fields). Nektar++'s operators (PhysDeriv, HelmSolve, the advection and diffusion
    objects, ExtractTracePhys, Integral) are arguments. *)
From Verif Require Export M_RealBase M_Util M_Sol.
From Coq Require Export String List.
Export ListNotations.
Open Scope R_scope.
Open Scope list_scope.

Notation fld := (nat -> R).

(** Outcome of a call: a value; a value that is not finite at some point; an exception or failed assertion; undefined
    behaviour (an array index out of bounds; Nektar++'s Array only checks in full debug builds). *)
Inductive fres (A : Type) : Type := FOk (a : A) | FNan | FThrow | FUB.
Arguments FOk {A} _. Arguments FNan {A}. Arguments FThrow {A}. Arguments FUB {A}.
Definition fbind {A B} (x : fres A) (f : A -> fres B) : fres B :=
  match x with FOk a => f a | FNan => FNan | FThrow => FThrow | FUB => FUB end.
Notation "'let!' x := e 'in' f" := (fbind e (fun x => f)) (at level 200, x name, e at level 100, f at level 200).
Definition fnan {A} (x : option A) : fres A := match x with Some a => FOk a | None => FNan end.
Definition fassert (b : bool) : fres unit := if b then FOk tt else FThrow.

Definition aget {A} (l : list A) (i : Z) : fres A :=
  if (i <? 0)%Z then FUB else match nth_error l (Z.to_nat i) with Some a => FOk a | None => FUB end.
Fixpoint set_nth {A} (l : list A) (n : nat) (v : A) : list A :=
  match l, n with
  | [], _ => []
  | _ :: r, O => v :: r
  | a :: r, S m => a :: set_nth r m v
  end.
Definition aset {A} (l : list A) (i : Z) (v : A) : fres (list A) :=
  let! _ := aget l i in FOk (set_nth l (Z.to_nat i) v).

(** Vmath: pointwise operations (Vadd, Vsub, Vmul, Smul, Neg, Zero). *)
Definition vadd (f g : fld) : fld := fun i => f i + g i.
Definition vsub (f g : fld) : fld := fun i => f i - g i.
Definition vmul (f g : fld) : fld := fun i => f i * g i.
Definition smul (a : R) (f : fld) : fld := fun i => a * f i.
Definition vneg (f : fld) : fld := fun i => - f i.
Definition vzero : fld := fun _ => 0.
(** Svtvp: z = alpha x + y; Svtsvtp: z = alpha x + beta y. *)
Definition svtvp (a : R) (x y : fld) : fld := fun i => a * x i + y i.
Definition svtsvtp (a : R) (x : fld) (b : R) (y : fld) : fld := fun i => a * x i + b * y i.

(** Nektar++'s operators. [oe_adv] is SU::Advection::Advect for one field: the advection object sees the flux vector and the
    normal velocity through its callbacks, and is passed the velocity and the field. [oe_diffuse] is SU::Diffusion::Diffuse
    for one field with the flux callback as an argument. [oe_src] is the session function "dens_src" at the points. *)
Record oenv := { oe_deriv : nat -> fld -> fld; oe_helm : R -> R -> option R -> fld -> fld;
  oe_adv : list fld -> fld -> list fld -> fld -> fld; oe_trace : fld -> fld; oe_normals : list fld;
  oe_diffuse : (list fld -> list fld) -> fld -> fld; oe_src : fld }.

(** The session: its variables (in order), the mesh and space dimensions, whether particles are enabled, the number of
    quadrature points. *)
Record fsess := { fs_vars : list string; fs_mesh : nat; fs_space : nat; fs_part : bool; fs_npts : nat }.

(** field_to_index[...]: NektarFieldIndexMap::operator[] throws std::out_of_range on a missing name. *)
Definition fidx (s : fsess) (n : string) : fres Z :=
  match fim_at (fim_make (fs_vars s)) n with Some i => FOk i | None => FThrow end.
Definition fget_idx (s : fsess) (n : string) : Z := fim_get_idx (fim_make (fs_vars s)) n.

(** * EqnSysBase / TimeEvoEqnSysBase *)
(** validate_fields (eqnsys_base.hpp 121-136), for fields that all have the same number of points. *)
Fixpoint validate_fields (s : fsess) (req : list string) : fres unit :=
  match req with
  | [] => FOk tt
  | n :: r => let! _ := fassert (0 <=? fget_idx s n)%Z in validate_fields s r
  end.
(** v_InitObject (time_evolved_eqnsys_base.hpp 49-60): m_intVariables. *)
Fixpoint int_variables (s : fsess) (names : list string) : fres (list Z) :=
  match names with
  | [] => FOk []
  | n :: r => let! _ := fassert (0 <=? fget_idx s n)%Z in let! t := int_variables s r in FOk (fget_idx s n :: t)
  end.
(** The arrays the time integrator passes to the right hand side (Nektar++ UnsteadySystem::v_DoSolve:
    fields[i] = m_fields[m_intVariables[i]]). *)
Fixpoint gather {A} (l : list A) (ix : list Z) : fres (list A) :=
  match ix with
  | [] => FOk []
  | i :: r => let! a := aget l i in let! t := gather l r in FOk (a :: t)
  end.

(** * DriftReducedSystem *)
(** add_adv_terms 34-76. The advection object's callbacks read the velocity [cbv] for the flux and [cbn] for the trace
    normal velocity. *)
(** get_flux_vector 261-275 for one field; flux[0].size() is the space dimension. *)
Fixpoint get_flux (d : nat) (f : fld) (vel : list fld) : fres (list fld) :=
  match d, vel with
  | O, _ => FOk []
  | S _, [] => FUB
  | S d', v :: r => let! t := get_flux d' f r in FOk (vmul f v :: t)
  end.
(** get_adv_vel_norm 216-238 *)
Fixpoint norm_loop (e : oenv) (normals vel : list fld) (acc : fld) : fres fld :=
  match normals, vel with
  | [], _ => FOk acc
  | _ :: _, [] => FUB
  | n :: nr, v :: vr => norm_loop e nr vr (vadd (vmul n (oe_trace e v)) acc)
  end.
Definition get_adv_vel_norm (e : oenv) (vel : list fld) : fres fld :=
  let! _ := fassert (List.length (oe_normals e) <=? List.length vel)%nat in norm_loop e (oe_normals e) vel vzero.
Record advobj := { ao_flux : list fld; ao_norm : list fld }.
Definition advect1 (e : oenv) (s : fsess) (o : advobj) (vel : list fld) (f : fld) : fres fld :=
  let! fl := get_flux (fs_space s) f (ao_flux o) in let! vn := get_adv_vel_norm e (ao_norm o) in FOk (oe_adv e fl vn vel f).
(** 59-68: gather the fields and advect them *)
Fixpoint adv_collect (e : oenv) (s : fsess) (o : advobj) (vel : list fld) (inn out : list fld) (names : list string)
  : fres (list fld) :=
  match names with
  | [] => FOk []
  | n :: r => let! ix := fidx s n in let! f := aget inn ix in let! _ := aget out ix in
      let! a := advect1 e s o vel f in let! t := adv_collect e s o vel inn out r in FOk (a :: t)
  end.
(** 71-75 *)
Fixpoint adv_subtract (s : fsess) (labels : list string) (res out : list fld) : fres (list fld) :=
  match labels, res with
  | l :: lr, a :: ar => let! ix := fidx s l in let! o := aget out ix in let! out' := aset out ix (vsub o a) in
      adv_subtract s lr ar out'
  | _, _ => FOk out
  end.
Definition add_adv_terms (e : oenv) (s : fsess) (names : list string) (o : advobj) (vel inn out : list fld)
  (labels : list string) : fres (list fld) :=
  let labels := match labels with [] => names | _ => labels end in
  let! t := adv_collect e s o vel inn out names in adv_subtract s labels t out.

(** add_density_source 87-100 *)
Definition add_density_source (e : oenv) (s : fsess) (out : list fld) : fres (list fld) :=
  let! ix := fidx s "ne" in let! o := aget out ix in aset out ix (vadd o (oe_src e)).

Fixpoint index_of (n : string) (l : list string) : option nat :=
  match l with [] => None | m :: r => if String.eqb n m then Some O else option_map S (index_of n r) end.
(** add_particle_sources 112-137. [phys] are the values of m_fields. *)
Fixpoint add_particle_sources (s : fsess) (ints : list string) (phys : list fld) (targets : list string) (out : list fld)
  : fres (list fld) :=
  match targets with
  | [] => FOk out
  | t :: r => let! six := fidx s (t ++ "_src") in
      if (0 <=? six)%Z then
        match index_of t ints with
        | None => FThrow
        | Some k => let! o := aget out (Z.of_nat k) in let! src := aget phys six in
            let! out' := aset out (Z.of_nat k) (vadd o src) in add_particle_sources s ints phys r out'
        end
      else add_particle_sources s ints phys r out
  end.

(** load_params 324-357: Bvec, |B|, b_unit. *)
Record bfield := { bf_vec : list R; bf_mag : R; bf_unit : list R }.
Definition load_B (s : fsess) (Bxy : R) : fres bfield :=
  let z := repeat 0 (fs_space s) in
  let! bv := aset z 2 Bxy in
  let! b0 := aget bv 0 in let! b1 := aget bv 1 in let! b2 := aget bv 2 in
  let mag := sqrt (b0 * b0 + b1 * b1 + b2 * b2) in
  FOk {| bf_vec := bv; bf_mag := mag; bf_unit := map (fun b => if Rlt_bool 0 mag then b / mag else 0) bv |}.

(** calc_E_and_adv_vels 145-175: the electric field and the drift velocity. Components that are never written keep the zeros
    of v_InitObject 449-458. *)
Definition calc_E (e : oenv) (s : fsess) (phi : fld) : list fld :=
  [vneg (oe_deriv e 0 phi); vneg (oe_deriv e 1 phi);
   if Nat.eqb (fs_mesh s) 3 then vneg (oe_deriv e 2 phi) else vzero].
Definition bdiv2 (b mag : R) : fres R := fnan (do q <- rdiv b mag; rdiv q mag).
Definition calc_ExB (s : fsess) (B : bfield) (E : list fld) : fres (list fld) :=
  let! b0 := aget (bf_vec B) 0 in let! b1 := aget (bf_vec B) 1 in let! b2 := aget (bf_vec B) 2 in
  let! e0 := aget E 0 in let! e1 := aget E 1 in let! e2 := aget E 2 in
  let m := bf_mag B in
  let! c2 := bdiv2 b2 m in let! c1m := bdiv2 (- b1) m in
  let v0 := svtsvtp c2 e1 c1m e2 in
  let! c0 := bdiv2 b0 m in let! c2m := bdiv2 (- b2) m in
  let v1 := svtsvtp c0 e2 c2m e0 in
  if Nat.eqb (fs_mesh s) 3 then
    let! c1 := bdiv2 b1 m in let! c0m := bdiv2 (- b0) m in FOk [v0; v1; svtsvtp c1 e0 c0m e1]
  else FOk [v0; v1; vzero].

(** solve_phi 366-394 *)
Record dfac := { df_00 : R; df_11 : R; df_22 : R }.
Definition solve_phi (e : oenv) (s : fsess) (d : dfac) (rhs : fld) : fld :=
  oe_helm e (df_00 d) (df_11 d) (if Nat.eqb (fs_mesh s) 3 then Some (df_22 d) else None) rhs.

(** vAdv[iDim] = b[iDim]*v_par + v_ExB[iDim] for iDim below the space dimension (HWSystem.cpp 37-40, LAPDSystem.cpp
    189-194); [prev] are the values of the remaining components. *)
Fixpoint par_plus_ExB (bu : list R) (vpar : fld) (exb prev : list fld) : fres (list fld) :=
  match bu with
  | [] => FOk prev
  | b :: br => match exb, prev with
      | v :: vr, _ :: pr => let! t := par_plus_ExB br vpar vr pr in FOk (svtvp b vpar v :: t)
      | _, _ => FUB
      end
  end.

(** * HWSystem, HW2DSystem, HW3DSystem *)
Record hwpar := { hw_B : bfield; hw_d : dfac; hw_alpha : R; hw_kappa : R }.
Definition hw_int_names : list string := ["ne"; "w"]%string.
Definition hw_required (s : fsess) : list string := ["ne"; "w"; "phi"]%string ++ (if fs_part s then ["ne_src"%string] else []).

(** HWSystem::calc_E_and_adv_vels 30-41 and get_phi_solve_rhs 49-55, with the steps of explicit_time_int that HW2D (44-61)
    and HW3D (77-94) share: the potential, the velocities, the advection terms. [phys] are the values held by m_fields. *)
Definition hw_common (e : oenv) (s : fsess) (p : hwpar) (phys inn : list fld) : fres (fld * list fld) :=
  let out := map (fun _ => vzero) inn in
  let! phi_idx := fidx s "phi" in let! _ := aget phys phi_idx in
  let! w_idx := fidx s "w" in let! w := aget inn w_idx in
  let phi := solve_phi e s (hw_d p) w in
  let! exb := calc_ExB s (hw_B p) (calc_E e s phi) in
  let! elec := par_plus_ExB (bf_unit (hw_B p)) vzero exb [vzero; vzero; vzero] in
  let! out := add_adv_terms e s ["ne"%string] {| ao_flux := elec; ao_norm := elec |} elec inn out [] in
  let! out := add_adv_terms e s ["w"%string] {| ao_flux := exb; ao_norm := exb |} exb inn out [] in
  FOk (phi, out).

Definition upd (out : list fld) (i : Z) (g : fld -> fld) : fres (list fld) :=
  let! o := aget out i in aset out i (g o).

(** kappa and particle terms: HW2D 71-81, HW3D 103-112 *)
Definition hw_tail (e : oenv) (s : fsess) (p : hwpar) (phys : list fld) (phi : fld) (out : list fld)
  : fres (fld * list fld) :=
  let! ne_idx := fidx s "ne" in
  let! out := upd out ne_idx (fun o => vsub o (smul (hw_kappa p) (oe_deriv e 1 phi))) in
  let! out := if fs_part s then add_particle_sources s hw_int_names phys ["ne"%string] out else FOk out in
  FOk (phi, out).

(** HW2DSystem::explicit_time_int 25-82 (release build). The alpha term reads the density from m_fields. *)
Definition hw2d_rhs (e : oenv) (s : fsess) (p : hwpar) (phys inn : list fld) : fres (fld * list fld) :=
  let! c := hw_common e s p phys inn in
  let phi := fst c in let out := snd c in
  let! ne_idx := fidx s "ne" in let! w_idx := fidx s "w" in
  let! phi_idx := fidx s "phi" in
  let! nph := aget (set_nth phys (Z.to_nat phi_idx) phi) ne_idx in
  let term := smul (hw_alpha p) (vsub phi nph) in
  let! out := upd out w_idx (fun o => vadd o term) in
  let! out := upd out ne_idx (fun o => vadd o term) in
  hw_tail e s p (set_nth phys (Z.to_nat phi_idx) phi) phi out.

(** HW3DSystem::get_flux_vector_diff 118-136: d = {0, 0, 1}; nDim is at most 3. *)
Definition hw3d_diff_coef : list R := [0; 0; 1].
Definition hw3d_flux_diff (q : list fld) : list fld := map (fun cq => smul (fst cq) (snd cq)) (combine hw3d_diff_coef q).
(** HW3DSystem::calc_par_dyn_term 35-54 and explicit_time_int 63-113 (finite inputs). *)
Definition hw3d_rhs (e : oenv) (s : fsess) (p : hwpar) (phys inn : list fld) : fres (fld * list fld) :=
  let! ne_idx := fidx s "ne" in let! w_idx := fidx s "w" in
  let! _ := aget inn ne_idx in let! _ := aget inn w_idx in
  let! c := hw_common e s p phys inn in
  let phi := fst c in let out := snd c in
  let! n := aget inn ne_idx in
  let term := smul (hw_alpha p) (oe_diffuse e hw3d_flux_diff (vsub phi n)) in
  let! out := upd out ne_idx (fun o => vsub o term) in
  let! out := upd out w_idx (fun o => vsub o term) in
  let! phi_idx := fidx s "phi" in
  hw_tail e s p (set_nth phys (Z.to_nat phi_idx) phi) phi out.

(** * GrowthRatesRecorder *)
(** compute_energy 100-118; [I] is Integral, [pd] the dimension of the problem (2 or 3). *)
Definition compute_energy (e : oenv) (I : fld -> R) (pd : nat) (n phi : fld) : R :=
  let x := oe_deriv e 0 phi in let y := oe_deriv e 1 phi in let z := oe_deriv e 2 phi in
  let integrand := fun i => n i * n i + x i * x i + y i * y i + (if Nat.eqb pd 2 then z i * z i else 0) in
  5 / 10 * I integrand.
(** compute_enstrophy 123-131 *)
Definition compute_enstrophy (I : fld -> R) (n w : fld) : R := 5 / 10 * I (vmul (vsub n w) (vsub n w)).
(** compute_Gamma_a 138-160 *)
Definition compute_Gamma_a (e : oenv) (I : fld -> R) (pd : nat) (alpha : R) (n phi : fld) : R :=
  let nmp := vsub n phi in
  let q := if Nat.eqb pd 2 then nmp else oe_deriv e 2 nmp in
  alpha * I (vmul q q).
(** compute_Gamma_n 165-173 *)
Definition compute_Gamma_n (e : oenv) (I : fld -> R) (kappa : R) (n phi : fld) : R :=
  - kappa * I (vmul n (oe_deriv e 1 phi)).
(** compute 178-197: E, W, dEdt_exp, dWdt_exp *)
Definition growth_record (e : oenv) (I : fld -> R) (pd : nat) (p : hwpar) (n w phi : fld) : R * R * R * R :=
  let Gn := compute_Gamma_n e I (hw_kappa p) n phi in
  let Ga := compute_Gamma_a e I pd (hw_alpha p) n phi in
  (compute_energy e I pd n phi, compute_enstrophy I n w, Gn - Ga, Gn).

(** * LAPDSystem *)
Record lapdpar := { lp_B : bfield; lp_d : dfac; lp_n_to_SI : R; lp_e : R; lp_md : R; lp_me : R; lp_Te : R; lp_Td : R;
  lp_coulomb : R; lp_nu : R; lp_nref : R; lp_floor : R }.
Definition lapd_int_names : list string := ["ne"; "Ge"; "Gd"; "w"]%string.
Definition lapd_required (s : fsess) : list string :=
  ["ne"; "Ge"; "Gd"; "w"; "phi"]%string ++ (if fs_part s then ["ne_src"%string] else []).

(** A loop over the points that computes a double: not finite if one of them is not. The value outside the points is 0. *)
Fixpoint fpts (n : nat) (f : nat -> dbl) : option fld :=
  match n with
  | O => Some vzero
  | S m => do g <- fpts m f; do v <- f m; Some (fun i => if Nat.eqb i m then v else g i)
  end.
(** calc_E_and_adv_vels 155-195: v_par = G / max(ne, n_ref * n_floor_fac) / mass *)
Definition lapd_vpar (s : fsess) (p : lapdpar) (n G : fld) (mass : R) : fres fld :=
  let! q := fnan (fpts (fs_npts s) (fun i => rdiv (G i) (Rmax (n i) (lp_nref p * lp_floor p)))) in
  let! im := fnan (rdiv 1 mass) in FOk (smul im q).
(** calc_collision_freqs 121-128, calc_coulomb_logarithm 136-147 *)
Definition lapd_log (p : lapdpar) (n : R) : dbl := do l <- dlog (lp_n_to_SI p * n); Some (lp_coulomb p - 5 / 10 * l).
Definition lapd_nu (s : fsess) (p : lapdpar) (n : fld) : fres fld :=
  fnan (fpts (fs_npts s) (fun i => do l <- lapd_log p (n i); Some (lp_nu p * n i * l))).

(** add_grad_P_terms 88-113 *)
Definition lapd_grad_P (e : oenv) (s : fsess) (p : lapdpar) (inn out : list fld) : fres (list fld) :=
  let! ne := fidx s "ne" in let! Ge := fidx s "Ge" in let! Gd := fidx s "Gd" in
  let! n := aget inn ne in
  let! out := upd out Ge (fun o => vsub o (oe_deriv e 2 (smul (lp_Te p) n))) in
  upd out Gd (fun o => vsub o (oe_deriv e 2 (smul (lp_Td p) n))).
(** add_E_par_terms 59-81 *)
Definition lapd_E_par (s : fsess) (p : lapdpar) (E2 : fld) (inn out : list fld) : fres (list fld) :=
  let! ne := fidx s "ne" in let! Ge := fidx s "Ge" in let! Gd := fidx s "Gd" in
  let! n := aget inn ne in
  let t := smul (lp_e p) (vmul n E2) in
  let! out := upd out Ge (fun o => vsub o t) in upd out Gd (fun o => vadd o t).
(** add_collision_terms 23-52; [vd] is m_adv_vel_PD[2] *)
Definition lapd_collision (s : fsess) (p : lapdpar) (vd : fld) (inn out : list fld) : fres (list fld) :=
  let! Gd := fidx s "Gd" in let! Ge := fidx s "Ge" in let! ne := fidx s "ne" in
  let! n := aget inn ne in
  let! nu := lapd_nu s p n in
  let t := fun i => lp_me p * nu i * (n i * vd i) in
  let! out := upd out Ge (fun o => vsub o t) in upd out Gd (fun o => vadd o t).

(** explicit_time_int 204-237, with get_phi_solve_rhs 284-292. m_adv_vel_PD has the space dimension's components, of which
    only [2] is ever written. *)
Definition lapd_rhs (e : oenv) (s : fsess) (p : lapdpar) (phys inn : list fld) : fres (fld * list fld) :=
  let out := map (fun _ => vzero) inn in
  let! phi_idx := fidx s "phi" in let! _ := aget phys phi_idx in
  let! w_idx := fidx s "w" in let! w := aget inn w_idx in
  let mag := bf_mag (lp_B p) in
  let! q := fnan (do a <- rdiv (mag * mag) (lp_nref p); rdiv a (lp_md p)) in
  let phi := solve_phi e s (lp_d p) (smul q w) in
  let E := calc_E e s phi in
  let! exb := calc_ExB s (lp_B p) E in
  let! ne_idx := fidx s "ne" in let! Gd_idx := fidx s "Gd" in let! Ge_idx := fidx s "Ge" in
  let! n := aget inn ne_idx in let! gd := aget inn Gd_idx in let! ge := aget inn Ge_idx in
  let! vd := lapd_vpar s p n gd (lp_md p) in
  let! ve := lapd_vpar s p n ge (lp_me p) in
  let! pd := aset (repeat vzero (fs_space s)) 2 (vsub ve vd) in
  let! elec := par_plus_ExB (bf_unit (lp_B p)) ve exb [vzero; vzero; vzero] in
  let! ions := par_plus_ExB (bf_unit (lp_B p)) vd exb (repeat vzero (fs_space s)) in
  let! out := add_adv_terms e s ["ne"; "Ge"]%string {| ao_flux := elec; ao_norm := elec |} elec inn out [] in
  let! out := add_adv_terms e s ["Gd"%string] {| ao_flux := ions; ao_norm := ions |} ions inn out [] in
  let! out := add_adv_terms e s ["w"%string] {| ao_flux := exb; ao_norm := exb |} exb inn out [] in
  let! out := lapd_grad_P e s p inn out in
  let! E2 := aget E 2 in
  let! out := lapd_E_par s p E2 inn out in
  let! pd2 := aget pd 2 in
  let! out := lapd_collision s p pd2 inn out in
  let! out := add_adv_terms e s ["ne"%string] {| ao_flux := pd; ao_norm := pd |} pd inn out ["w"%string] in
  let! out := add_density_source e s out in
  FOk (phi, out).

(** * RogersRicci2D *)
Record rrpar := { rr_B : bfield; rr_d : dfac; rr_coulomb : R; rr_T_eps : R; rr_rho : R; rr_Ls_boost : R; rr_rs_norm : R }.
(** v_InitObject 38-50: four variables in a fixed order (check_var_idx, eqnsys_base.hpp 109-115). With particles enabled,
    "ne_src" is required as well (DriftReducedSystem.cpp 428-431). *)
Definition rr_names : list string := ["n"; "T_e"; "w"; "phi"]%string.
Definition check_var (s : fsess) (i : nat) (n : string) : fres unit :=
  match nth_error (fs_vars s) i with Some m => fassert (String.eqb m n) | None => FThrow end.
Definition rr_init (s : fsess) : fres unit :=
  let! _ := validate_fields s (if fs_part s then ["ne_src"%string] else []) in
  let! _ := fassert (Nat.eqb (List.length (fs_vars s)) 4) in
  let! _ := check_var s 0 "n" in let! _ := check_var s 1 "T_e" in let! _ := check_var s 2 "w" in check_var s 3 "phi".
Definition rr_exp (p : rrpar) (phi T : R) : dbl :=
  do r <- dsqrt (T * T + rr_T_eps p); do q <- rdiv phi r; Some (exp (rr_coulomb p - q)).
(** load_params 222-223: L_s, r_s *)
Definition rr_Ls (p : rrpar) : R := 5 / 10 * rr_rho p * rr_Ls_boost p.
Definition rr_rs (p : rrpar) : R := rr_rs_norm p * rr_rho p.
Definition rr_src (p : rrpar) (r : R) : dbl :=
  do q <- rdiv (rr_rho p * r - rr_rs p) (rr_Ls p); Some (3 / 100 * (1 - tanh q)).
(** explicit_time_int 138-177; [r] are the distances from the axis (110-112). *)
Definition rr_rhs (e : oenv) (s : fsess) (p : rrpar) (r : fld) (inn : list fld) : fres (fld * list fld) :=
  let! w_idx := fidx s "w" in let! w := aget inn w_idx in
  let phi := solve_phi e s (rr_d p) (smul 1 w) in
  let! exb := calc_ExB s (rr_B p) (calc_E e s phi) in
  let o := {| ao_flux := exb; ao_norm := exb |} in
  let! n := aget inn 0 in let! T := aget inn 1 in let! w := aget inn 2 in
  let! an := advect1 e s o exb n in let! aT := advect1 e s o exb T in let! aw := advect1 e s o exb w in
  let! ex := fnan (fpts (fs_npts s) (fun i => rr_exp p (phi i) (T i))) in
  let! sr := fnan (fpts (fs_npts s) (fun i => rr_src p (r i))) in
  FOk (phi, [fun i => - 40 * an i - 1 / 24 * ex i * n i + sr i;
             fun i => - 40 * aT i - 1 / 36 * (171 / 100 * ex i - 71 / 100) * T i + sr i;
             fun i => - 40 * aw i + 1 / 24 * (1 - ex i)]).
