(** Model of the Electrostatic2D3V particle-in-cell solver: integrators, charge normalisation, neutralising
    background, diagnostics, driver. Exact reals; Nektar++ (quadrature, transforms, Helmholtz solve) and the field
    evaluation at particles are explicit function arguments. *)
From Verif Require Export M_RealBase M_Coord.
From Coq Require Export Arith.

Notation v2 := (R * R)%type.
Notation v3 := (R * R * R)%type.

(** The particle properties (solvers/Electrostatic2D3V/ParticleSystems/ChargedParticles.hpp 467-474) used here. *)
Record cpart := { cp_P : v2; cp_V : v3; cp_E : v2; cp_Q : R; cp_M : R }.

(** ELEC_PIC_2D3V_CROSS_PRODUCT_3D (IntegratorBorisUniformB.hpp 8-13). *)
Definition cross_macro (a b : v3) : v3 :=
  let '(a1, a2, a3) := a in let '(b1, b2, b3) := b in
  (a2 * b3 - a3 * b2, a3 * b1 - a1 * b3, a1 * b2 - a2 * b1).

(** The kernel of boris_2 (IntegratorBorisUniformB.hpp 71-139) for one particle. Q / M with M = 0 is not finite and
    so is everything written: None. *)
Definition boris_kernel (dt : R) (B : v3) (coef : R) (p : cpart) : option cpart :=
  let dht := dt * (1/2) in
  let '(B0, B1, B2) := B in
  match rdiv (cp_Q p) (cp_M p) with None => None | Some QoM =>
  let scaling_t := QoM * dht in
  let t0 := B0 * scaling_t in let t1 := B1 * scaling_t in let t2 := B2 * scaling_t in
  let tmagsq := t0 * t0 + t1 * t1 + t2 * t2 in
  match rdiv 2 (1 + tmagsq) with None => None | Some scaling_s =>
  let s0 := scaling_s * t0 in let s1 := scaling_s * t1 in let s2 := scaling_s * t2 in
  let '(V0, V1, V2) := cp_V p in let '(E0, E1) := cp_E p in
  let vm0 := V0 + (-1 * E0) * scaling_t * coef in
  let vm1 := V1 + (-1 * E1) * scaling_t * coef in
  let vm2 := V2 in
  let '(c0, c1, c2) := cross_macro (vm0, vm1, vm2) (t0, t1, t2) in
  let vp0 := c0 + vm0 in let vp1 := c1 + vm1 in let vp2 := c2 + vm2 in
  let '(d0, d1, d2) := cross_macro (vp0, vp1, vp2) (s0, s1, s2) in
  let vq0 := d0 + vm0 in let vq1 := d1 + vm1 in let vq2 := d2 + vm2 in
  let W0 := vq0 + scaling_t * (-1 * E0) * coef in
  let W1 := vq1 + scaling_t * (-1 * E1) * coef in
  let W2 := vq2 in
  let '(P0, P1) := cp_P p in
  Some {| cp_P := (P0 + dt * W0, P1 + dt * W1); cp_V := (W0, W1, W2); cp_E := cp_E p; cp_Q := cp_Q p; cp_M := cp_M p |}
  end end.

(** velocity_verlet_1 (ChargedParticles.hpp 578-594), without transfer_particles. *)
Definition vv1_kernel (dt coef : R) (p : cpart) : option cpart :=
  let dht := dt * (1/2) in
  match rdiv (coef * dht * cp_Q p) (cp_M p) with None => None | Some k =>
  let '(V0, V1, V2) := cp_V p in let '(E0, E1) := cp_E p in let '(P0, P1) := cp_P p in
  let W0 := V0 - E0 * k in let W1 := V1 - E1 * k in
  Some {| cp_P := (P0 + dt * W0, P1 + dt * W1); cp_V := (W0, W1, V2); cp_E := cp_E p; cp_Q := cp_Q p; cp_M := cp_M p |}
  end.
(** velocity_verlet_2 (ChargedParticles.hpp 615-628). *)
Definition vv2_kernel (dt coef : R) (p : cpart) : option cpart :=
  let dht := dt * (1/2) in
  match rdiv (coef * dht * cp_Q p) (cp_M p) with None => None | Some k =>
  let '(V0, V1, V2) := cp_V p in let '(E0, E1) := cp_E p in
  Some {| cp_P := cp_P p; cp_V := (V0 - E0 * k, V1 - E1 * k, V2); cp_E := cp_E p; cp_Q := cp_Q p; cp_M := cp_M p |}
  end.
(** transfer_particles (552-561), as seen by one particle: the boundary condition [bc] rewrites the position; the move
    between ranks and cells keeps every property. *)
Definition transfer (bc : v2 -> v2) (p : cpart) : cpart :=
  {| cp_P := bc (cp_P p); cp_V := cp_V p; cp_E := cp_E p; cp_Q := cp_Q p; cp_M := cp_M p |}.
(** compute_field's last step (PoissonParticleCoupling.hpp 281-283): E := gradient of the potential at the particle. *)
Definition set_field (g : v2 -> v2) (p : cpart) : cpart :=
  {| cp_P := cp_P p; cp_V := cp_V p; cp_E := g (cp_P p); cp_Q := cp_Q p; cp_M := cp_M p |}.
Definition obind {A B} (x : option A) (f : A -> option B) : option B := match x with Some a => f a | None => None end.
(** One time step of the main loop (ElectrostaticTwoStream2D3V.hpp 255-260, integrator_1 54-60, integrator_2 62-68),
    the potential's gradient after the solve being [g] (as a function of the position; it depends on the whole system:
    any function is allowed). boris_1 does nothing (IntegratorBorisUniformB.hpp 64-66). *)
Definition time_step (itype : Z) (dt : R) (B : v3) (coef : R) (bc g : v2 -> v2) (p : cpart) : option cpart :=
  if Z.eqb itype 0 then
    obind (vv1_kernel dt coef p) (fun p1 => vv2_kernel dt coef (set_field g (transfer bc p1)))
  else
    obind (boris_kernel dt B coef (set_field g p)) (fun p1 => Some (transfer bc p1)).
(** A particle loop (NESO-Particles) applies its kernel to every particle of every rank. *)
Definition over_group (k : cpart -> option cpart) (grp : list (list cpart)) : list (list (option cpart)) := map (map k) grp.

(** * Charge normalisation (ChargedParticles.hpp 431-451, 488-520) *)
Record chargeconf := {
  cc_per_cell : Z; cc_elements : Z; cc_total : Z;
  cc_volume : R; cc_density : R;
  cc_charge_density : option R; cc_charge : option R }.
(** charge_density is uninitialised memory unless one of the branches 503-516 runs: None. *)
Record charges := { ch_num : Z; ch_weight : R; ch_density : R; ch_charge : R; ch_charge_density : option R }.
Definition num_particles (c : chargeconf) : Z :=
  if Z.ltb (-1) (cc_total c) then cc_total c else (cc_elements c * cc_per_cell c)%Z.
Definition set_charges (c : chargeconf) : option charges :=
  let N := num_particles c in
  match
    (if Rlt_bool (cc_density c) 0 then
       match rdiv (IZR N) (cc_volume c) with Some d => Some (1, d) | None => None end
     else match rdiv (cc_density c * cc_volume c) (IZR N) with Some w => Some (w, cc_density c) | None => None end) with
  | None => None
  | Some (w, d) =>
      match cc_charge_density c with
      | Some rho =>
          match rdiv (rho * cc_volume c) (d * cc_volume c) with
          | Some q => Some {| ch_num := N; ch_weight := w; ch_density := d; ch_charge := q; ch_charge_density := Some rho |}
          | None => None end
      | None =>
          match cc_charge c with
          | Some q => Some {| ch_num := N; ch_weight := w; ch_density := d; ch_charge := q; ch_charge_density := Some (d * q) |}
          | None => Some {| ch_num := N; ch_weight := w; ch_density := d; ch_charge := 1; ch_charge_density := None |}
          end end end.

(** * The Poisson coupling (PoissonParticleCoupling.hpp). Vectors are functions of an index below tot_points /
      num_coeffs; [wq] are the quadrature weights, so Integral(f) = sum of wq i * f i (reduced over the ranks). *)
Definition vec := nat -> R.
Fixpoint vsum (n : nat) (f : vec) : R := match n with O => 0 | S m => vsum m f + f m end.
Record femops := {
  f_points : nat; f_coeffs : nat;
  f_wq : vec;
  f_bwd : vec -> vec;                  (* BwdTrans: coefficients to values at quadrature points *)
  f_fwd : vec -> vec;                  (* FwdTrans *)
  f_helm : vec -> vec }.               (* HelmSolve of a right hand side given by its quadrature values *)
Definition integral (F : femops) (f : vec) : R := vsum (f_points F) (fun i => f_wq F i * f i).
Record fields := { fu_phys : vec; fu_coeffs : vec; ff_phys : vec; ff_coeffs : vec }.
(** Constructor 183-232: neutralising values; the tests of finiteness and the L2 test are not modelled. *)
Definition ncd_coeffs (F : femops) : vec := f_fwd F (fun _ => -1).
Definition ncd_phys (F : femops) : vec := f_bwd F (ncd_coeffs F).
Definition volume (F : femops) : R := - integral F (fun _ => -1).
Inductive coupling_result := CFields (f : fields) | CNotFinite | CNotNeutral.
(** add_neutralising_field (63-100); [w] is the particle weight. *)
Definition add_neutralising (F : femops) (w : R) (st : fields) : coupling_result :=
  match rdiv (integral F (ff_phys st)) (volume F) with
  | None => CNotFinite
  | Some avg =>
      let st1 := {| fu_phys := fu_phys st; fu_coeffs := fu_coeffs st;
                    ff_phys := fun i => ff_phys st i + ncd_phys F i * avg;
                    ff_coeffs := fun i => ff_coeffs st i + ncd_coeffs F i * avg |} in
      if Rlt_bool (Rabs (integral F (ff_phys st1) * w)) (1 / 10 ^ 6) then CFields st1 else CNotNeutral
  end.
(** PoissonPIC::v_DoSolve (EquationSystems/PoissonPIC.cpp 51-63). *)
Definition do_solve (F : femops) (st : fields) : fields :=
  {| fu_coeffs := f_helm F (ff_phys st); fu_phys := f_bwd F (f_helm F (ff_phys st));
     ff_phys := ff_phys st; ff_coeffs := ff_coeffs st |}.
(** solve_equation_system (102-115); line 111 assigns the factor to every coefficient of the forcing. *)
Definition solve_system (F : femops) (w : R) (st : fields) : fields :=
  let k := - w in
  do_solve F {| fu_phys := fu_phys st; fu_coeffs := fu_coeffs st;
                ff_phys := fun i => ff_phys st i * k; ff_coeffs := fun _ => k |}.
(** FieldProject::project for the forcing (include/nektar_interface/function_projection.hpp 410-545): the coefficients
    [proj] of the projection and their backward transform. *)
Definition project_charge (F : femops) (proj : vec) (st : fields) : fields :=
  {| fu_phys := fu_phys st; fu_coeffs := fu_coeffs st; ff_phys := f_bwd F proj; ff_coeffs := proj |}.
(** compute_field (252-284) up to the evaluation of the gradient. *)
Definition compute_field (F : femops) (w : R) (proj : vec) : coupling_result :=
  let z := {| fu_phys := fun _ => 0; fu_coeffs := fun _ => 0; ff_phys := fun _ => 0; ff_coeffs := fun _ => 0 |} in
  match add_neutralising F w (project_charge F proj z) with
  | CFields st => CFields (solve_system F w st)
  | e => e end.

(** * Diagnostics *)
(** NP::GlobalArray add: every particle of every rank adds its contribution. *)
Definition global_sum (f : cpart -> R) (grp : list (list cpart)) : R :=
  fold_left (fun acc rk => acc + fold_left (fun a p => a + f p) rk 0) grp 0.
(** KineticEnergy::compute (Diagnostics/KineticEnergy.hpp 46-72); [m] is the mass given to the constructor. V has
    three components. *)
Definition kinetic_energy (m : R) (grp : list (list cpart)) : R :=
  let h := 1/2 * m in
  global_sum (fun p => let '(a, b, c) := cp_V p in (0 + a * a + b * b + c * c) * h) grp.
(** ElectrostaticTwoStream2D3V.hpp 131-133: the mass given is ChargedParticles::particle_mass = 1.0
    (ChargedParticles.hpp 362). *)
Definition solver_kinetic_energy (grp : list (list cpart)) : R := kinetic_energy 1 grp.
(** FieldMean (Diagnostics/FieldMean.hpp 27-48). *)
Definition field_mean (F : femops) (phys : vec) : option R := rdiv (integral F phys) (integral F (fun _ => 1)).
(** FieldEnergy::compute (Diagnostics/FieldEnergy.hpp 58-72). *)
Definition field_energy (F : femops) (phys : vec) : option R :=
  match field_mean F phys with
  | None => None
  | Some mu => let shift := - mu in
      Some (integral F (fun i => (phys i + shift) * (phys i + shift))) end.
(** PotentialEnergy::compute (Diagnostics/PotentialEnergy.hpp 77-102); [phi] is the potential at the particle. *)
Definition potential_energy (F : femops) (phys : vec) (phi : cpart -> R) (grp : list (list cpart)) : option R :=
  match field_mean F phys with
  | None => None
  | Some mu => let shift := - mu in
      Some (global_sum (fun p => cp_Q p * (phi p + shift)) grp * (1/2)) end.

(** * The driver's configuration (ElectrostaticTwoStream2D3V.hpp 139-185). Parameters absent from the session: None. *)
Record drvconf := { dc_Bx : option R; dc_By : option R; dc_Bz : option R; dc_type : option Z; dc_rescale : option R }.
Inductive drvres := DriverOk (itype : Z) (B : v3) (coef : R) | BadIntegrator.
Definition orelse {A} (d : A) (o : option A) : A := match o with Some a => a | None => d end.
Definition driver_setup (c : drvconf) : drvres :=
  let t := 0%Z in
  let t := match dc_Bz c with Some _ => 1%Z | None => t end in
  let t := match dc_By c with Some _ => 1%Z | None => t end in
  let t := match dc_Bx c with Some _ => 1%Z | None => t end in
  let B := (orelse 0 (dc_Bx c), orelse 0 (dc_By c), orelse 0 (dc_Bz c)) in
  let t := match dc_type c with Some k => k | None => t end in
  let coef := orelse 1 (dc_rescale c) in
  if (Z.leb 0 t || Z.leb t 1)%bool then DriverOk t B coef else BadIntegrator.

(** * Initial masses and charges (ChargedParticles.hpp 129-314). [coin] is the Bernoulli draw; particle_mass = 1.0. *)
Definition initial_MQ (distribution_position : Z) (charge : R) (coin : bool) : R * R :=
  if Z.eqb distribution_position 3 then
    (if coin then 1 * 1000000 else 1, if coin then charge else -1 * charge)
  else (1, charge).
