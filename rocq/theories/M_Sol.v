(** Model of the neutral particle systems of the SimpleSOL and DriftReduced solvers
    (solvers/SimpleSOL/ParticleSystems/NeutralParticleSystem.hpp, solvers/DriftReduced/ParticleSystems/
    NeutralParticleSystem.hpp), of the ionisation rate (solvers/common/solver_utils.hpp), of the fluid step that drives them
    (SimpleSOL/EquationSystems/SOLWithParticlesSystem.cpp) and of the mass diagnostics (SimpleSOL/Diagnostics/MassRecording.hpp,
    DriftReduced/Diagnostics/MassRecorder.hpp). Exact reals; a double is [option R], None = inf or NaN. The particles of all
    ranks are one list: hybrid_move, cell_id_translation and cell_move only change where a particle is stored. The
    evaluation of the fluid fields at a particle, the draws of the random number generator and the periodic boundary
    condition (C22) are arguments. *)
From Verif Require Export M_RealBase M_Coord.
From Coq Require Export Reals.Rpower.

Notation dbl := (option R).
Definition d2 (f : R -> R -> R) (a b : dbl) : dbl := do x <- a; do y <- b; Some (f x y).
Definition ddiv (a b : dbl) : dbl := do x <- a; do y <- b; rdiv x y.
Definition dneg (a : dbl) : dbl := do x <- a; Some (- x).
(** sqrt of a negative number is NaN; log of zero or less is not finite. *)
Definition dsqrt (x : R) : dbl := if Rlt_bool x 0 then None else Some (sqrt x).
Definition dlog (x : R) : dbl := if Rle_bool x 0 then None else Some (ln x).
(** pow(x, y) with a non-integer exponent: NaN for x < 0; 0 for x = 0 (y > 0). *)
Definition dpow (x y : R) : dbl := if Rlt_bool x 0 then None else if Req_bool x 0 then Some 0 else Some (Rpower x y).

(** * expint_barry_approx (solvers/common/solver_utils.hpp 14-25) *)
Definition gamma_Euler_Mascheroni : R := IZR 5772156649015329 / 10 ^ 16.
Definition expint_barry_approx (x : R) : dbl :=
  let G := exp (- gamma_Euler_Mascheroni) in
  do b2 <- rdiv (2 * (1 - G)) G; do b2 <- rdiv b2 (2 - G); do b <- dsqrt b2;
  do h_inf <- rdiv ((1 - G) * ((G * G) - 6 * G + 12)) (3 * G * ((2 - G) * (2 - G)) * b);
  do pw <- dpow x (sqrt (31 / 26));
  let q := 20 / 47 * pw in
  do sx <- dsqrt x;
  do h1 <- rdiv 1 (1 + x * sx); do h2 <- rdiv (h_inf * q) (1 + q);
  let h := h1 + h2 in
  do gx <- rdiv G x; do l2 <- rdiv (1 - G) ((h + b * x) * (h + b * x));
  do logfactor <- dlog (1 + gx - l2);
  do e <- rdiv x (1 - G);
  do f <- rdiv (exp (- x)) (G + (1 - G) * exp (- e));
  Some (f * logfactor).

(** * The ionisation kernels *)
Definition k_a_i : R := 4 / 10 ^ 14.
Definition k_b_i : R := 6 / 10.
Definition k_c_i : R := 56 / 100.
Definition k_E_i : R := 136 / 10.
Definition k_q_i : R := 1.
Definition k_rate_factor : R := - k_q_i * (67 * 10 ^ 6) * k_a_i * / 10 ^ 6.
(** The rate (SimpleSOL 479-483, DriftReduced 477-481). *)
Definition ion_rate (TeV : R) : dbl :=
  do invratio <- rdiv k_E_i TeV;
  do s <- dsqrt TeV;
  do e0 <- expint_barry_approx invratio; do e0 <- rdiv e0 invratio;
  do f <- rdiv (k_b_i * exp k_c_i) (invratio + k_c_i); do e1 <- expint_barry_approx (invratio + k_c_i);
  do a <- rdiv (- k_rate_factor) (TeV * s);
  Some (a * (e0 + f * e1)).

(** A particle: the properties of SimpleSOL/ParticleSystems/NeutralParticleSystem.cpp 4-15 (DriftReduced: the same without
    energy, momentum and temperature) that the code below uses. PARTICLE_ID has two components in SimpleSOL. *)
Record npart := mkNp { np_pos : R * R * R; np_vel : R * R * R; np_id : Z * Z; np_w : dbl;
  np_sd : dbl; np_sm : dbl * dbl; np_se : dbl }.
Definition particle_remove_key : Z := -1.
Record sparams := { sp_n_to_SI : R; sp_T_to_eV : R; sp_t_to_SI : R; sp_theta : R; sp_x_max : R; sp_weight : R }.

(** SimpleSOL ionise 443-528 for one particle; [n], [T]: the fields at the particle (evaluate_fields 412-436). *)
Definition ionise_sol (P : sparams) (n T : R) (dt : R) (p : npart) : npart :=
  let TeV := T * sp_T_to_eV P in
  let n_SI := n * sp_n_to_SI P in
  let k_dt_SI := dt * sp_t_to_SI P in
  let k_n_scale := rdiv 1 (sp_n_to_SI P) in
  let rate := ion_rate TeV in
  let weight := np_w p in
  let dw0 := d2 Rmult (d2 Rmult (d2 Rmult (dneg rate) weight) (Some k_dt_SI)) (Some n_SI) in
  let below := match d2 Rplus weight dw0 with Some s => Rle_bool s 0 | None => false end in
  let dw := if below then dneg weight else dw0 in
  let sd := ddiv (d2 Rmult (dneg dw) k_n_scale) (Some dt) in
  let '(v0, v1, _) := np_vel p in
  let v_s := v0 * cos (sp_theta P) + v1 * sin (sp_theta P) in
  {| np_pos := np_pos p; np_vel := np_vel p;
     np_id := (if below then particle_remove_key else fst (np_id p), snd (np_id p));
     np_w := d2 Rplus weight dw;
     np_sd := sd;
     np_sm := (d2 Rmult (d2 Rmult sd (Some v_s)) (Some (cos (sp_theta P))), d2 Rmult (d2 Rmult sd (Some v_s)) (Some (sin (sp_theta P))));
     np_se := d2 Rmult (d2 Rmult (d2 Rmult sd (Some v_s)) (Some v_s)) (Some (1/2)) |}.
(** DriftReduced ionise 456-518 and evaluate_fields 387-402: fixed temperature [TeV], background density [n_bg]. *)
Definition ionise_dr (P : sparams) (TeV n_bg : R) (n : R) (dt : R) (p : npart) : npart :=
  let n_SI := n_bg + n * sp_n_to_SI P in
  let k_dt_SI := dt * sp_t_to_SI P in
  let k_n_scale := rdiv 1 (sp_n_to_SI P) in
  let rate := ion_rate TeV in
  let weight := np_w p in
  let dw0 := d2 Rmult (d2 Rmult (d2 Rmult (dneg rate) weight) (Some k_dt_SI)) (Some n_SI) in
  let below := match d2 Rplus weight dw0 with Some s => Rle_bool s 0 | None => false end in
  let dw := if below then dneg weight else dw0 in
  {| np_pos := np_pos p; np_vel := np_vel p;
     np_id := (if below then particle_remove_key else fst (np_id p), snd (np_id p));
     np_w := d2 Rplus weight dw;
     np_sd := ddiv (d2 Rmult (dneg dw) k_n_scale) (Some dt);
     np_sm := np_sm p; np_se := np_se p |}.

(** * Moving and removing *)
(** forward_euler, SimpleSOL 380-398 (two components), DriftReduced 409-431 (three). *)
Definition euler_sol (dt : R) (p : npart) : npart :=
  let '(x, y, z) := np_pos p in let '(v0, v1, _) := np_vel p in
  {| np_pos := (x + dt * v0, y + dt * v1, z); np_vel := np_vel p; np_id := np_id p; np_w := np_w p; np_sd := np_sd p; np_sm := np_sm p; np_se := np_se p |}.
Definition euler_dr (dt : R) (p : npart) : npart :=
  let '(x, y, z) := np_pos p in let '(v0, v1, v2) := np_vel p in
  {| np_pos := (x + dt * v0, y + dt * v1, z + dt * v2); np_vel := np_vel p; np_id := np_id p; np_w := np_w p; np_sd := np_sd p; np_sm := np_sm p; np_se := np_se p |}.
(** remove_marked_particles 317-322: ParticleRemover compares component 0. *)
Definition marked (p : npart) : bool := Z.eqb (fst (np_id p)) particle_remove_key.
Definition remove_marked (l : list npart) : list npart := filter (fun p => negb (marked p)) l.
(** wall_boundary_conditions 292-315 *)
Definition wall_mark (P : sparams) (p : npart) : npart :=
  let '(px, _, _) := np_pos p in
  if Rlt_bool px 0 || Rlt_bool (0 + sp_x_max P) px
  then {| np_pos := np_pos p; np_vel := np_vel p; np_id := (particle_remove_key, snd (np_id p)); np_w := np_w p;
          np_sd := np_sd p; np_sm := np_sm p; np_se := np_se p |}
  else p.
Definition wall_bc (P : sparams) (l : list npart) : list npart := remove_marked (map (wall_mark P) l).
Definition periodic_bc (pbc : R * R * R -> R * R * R) (p : npart) : npart :=
  {| np_pos := pbc (np_pos p); np_vel := np_vel p; np_id := np_id p; np_w := np_w p; np_sd := np_sd p; np_sm := np_sm p; np_se := np_se p |}.
(** transfer_particles 337-346 *)
Definition transfer_sol (P : sparams) (fully_periodic : bool) (pbc : R * R * R -> R * R * R) (l : list npart) : list npart :=
  map (periodic_bc pbc) (if fully_periodic then l else wall_bc P l).

(** * Adding particles: SimpleSOL add_particles 221-274 *)
(** 224-226: conversion of a double to int; None: undefined behaviour (out of range, or division by zero lines). *)
Definition per_line (add_proportion : R) (num_parts_tot : Z) (lines : nat) : option Z :=
  do q <- rdiv (IZR num_parts_tot) (INR lines);
  let z := Ztrunc (add_proportion * q) in
  if (Z.leb (- 2 ^ 31) z && Z.ltb z (2 ^ 31))%bool then Some z else None.
(** The particles one rank adds for one line: [pv] positions and velocities drawn (in the order of px). *)
Definition new_parts (P : sparams) (rank : nat) (pv : list (R * R * R * (R * R * R))) : list npart :=
  map (fun '(px, (x, v)) => mkNp x v (Z.of_nat rank, Z.of_nat px) (Some (sp_weight P)) (Some 0) (Some 0, Some 0) (Some 0))
    (combine (seq 0 (length pv)) pv).
(** [draw line n]: what the sampler and the generators give for this line, per rank (C28: n in total over the ranks). *)
Definition add_particles (P : sparams) (num_parts_tot : Z) (lines : nat) (add_proportion : R)
    (draw : nat -> Z -> list (list (R * R * R * (R * R * R)))) : option (list npart) :=
  do n <- per_line add_proportion num_parts_tot lines;
  Some (flat_map (fun linex => concat (map (fun '(rank, pv) => new_parts P rank pv) (combine (seq 0 (length (draw linex n))) (draw linex n)))) (seq 0 lines)).

(** * integrate, SimpleSOL 355-373 *)
Record psys := { ps_time : R; ps_calls : nat; ps_added : Z; ps_parts : list npart }.
(** What surrounds the particles: parameters, boundary conditions, fluid fields at a position, particle source. *)
Record senv := { se_P : sparams; se_periodic : bool; se_pbc : R * R * R -> R * R * R; se_num : Z; se_lines : nat;
  se_draw : nat -> nat -> Z -> list (list (R * R * R * (R * R * R))) }.
Record sfields := { sf_n : R * R * R -> R; sf_T : R * R * R -> R }.
Definition ionise_all (P : sparams) (F : sfields) (dt : R) (l : list npart) : list npart :=
  map (fun p => ionise_sol P (sf_n F (np_pos p)) (sf_T F (np_pos p)) dt p) l.
(** One pass of the loop 364-370 apart from the time. *)
Definition substep_sol (E : senv) (F : sfields) (dt dt_inner : R) (s : psys) : option psys :=
  do prop <- rdiv dt_inner dt;
  do new <- add_particles (se_P E) (se_num E) (se_lines E) prop (se_draw E (ps_calls s));
  let l := ps_parts s ++ new in
  let l := transfer_sol (se_P E) (se_periodic E) (se_pbc E) (map (euler_sol dt_inner) l) in
  let l := ionise_all (se_P E) F dt_inner l in
  Some {| ps_time := ps_time s; ps_calls := S (ps_calls s); ps_added := (ps_added s + Z.of_nat (length new))%Z; ps_parts := l |}.
(** The result of a call: an assertion failed, the loop did not end within the fuel, undefined behaviour, or a state. *)
Inductive ires := IAssert | IFuel | IUB | IOk (s : psys).
Fixpoint int_loop (step : R -> psys -> option psys) (fuel : nat) (time_end dt time_tmp : R) (s : psys) : ires :=
  match fuel with
  | O => IFuel
  | S k =>
      if Rlt_bool time_tmp time_end then
        let dt_inner := fmin dt (time_end - time_tmp) in
        match step dt_inner s with
        | None => IUB
        | Some s' => int_loop step k time_end dt (time_tmp + dt_inner) s'
        end
      else IOk {| ps_time := time_end; ps_calls := ps_calls s; ps_added := ps_added s; ps_parts := ps_parts s |}
  end.
Definition integrate_sol (E : senv) (F : sfields) (fuel : nat) (time_end dt : R) (s : psys) : ires :=
  if Rlt_bool time_end (ps_time s) then IAssert
  else if Req_bool time_end (ps_time s) then IOk s
  else int_loop (substep_sol E F dt) fuel time_end dt (ps_time s) s.

(** * The fluid step: SOLWithParticlesSystem 47-50 and v_PreIntegrate 87-101 *)
(** project_source_terms 200-213: what each of the four fields receives is the sum of one component over the particles
    (C63); then the marked particles are removed. *)
Definition dsum (f : npart -> dbl) (l : list npart) : dbl := fold_left (fun a p => d2 Rplus a (f p)) l (Some 0).
Record fluid_source := { fs_rho : dbl; fs_rhou : dbl; fs_rhov : dbl; fs_E : dbl }.
Definition project_source (l : list npart) : fluid_source :=
  {| fs_rho := dsum np_sd l; fs_rhou := dsum (fun p => fst (np_sm p)) l; fs_rhov := dsum (fun p => snd (np_sm p)) l; fs_E := dsum np_se l |}.
(** FieldProject asserts that the values it solves with are finite (function_projection.hpp 497-518). *)
Definition finite_source (f : fluid_source) : bool :=
  match fs_rho f, fs_rhou f, fs_rhov f, fs_E f with Some _, Some _, Some _, Some _ => true | _, _, _, _ => false end.
(** None: an assertion fails, the loop does not end or undefined behaviour. *)
Definition pre_integrate (E : senv) (F : sfields) (fuel : nat) (m_time m_timestep : R) (num_part_substeps : Z) (s : psys) : option (fluid_source * psys) :=
  do part_timestep <- rdiv m_timestep (IZR num_part_substeps);
  match integrate_sol E F fuel (m_time + m_timestep) part_timestep s with
  | IOk s' =>
      let src := project_source (ps_parts s') in
      if finite_source src then Some (src,
      {| ps_time := ps_time s'; ps_calls := ps_calls s'; ps_added := ps_added s'; ps_parts := remove_marked (ps_parts s') |})
      else None
  | _ => None
  end.

(** * The mass diagnostics *)
(** compute_particle_mass 50-65, compute_total_added_mass 72-84, the relative error 104-116. *)
Definition particle_mass (l : list npart) : dbl := dsum np_w l.
Definition added_mass (P : sparams) (added : Z) : R := IZR added * sp_weight P.
Definition mass_error (P : sparams) (initial_fluid mass_fluid : R) (s : psys) : dbl :=
  do mp <- particle_mass (ps_parts s);
  let mass_total := mp + mass_fluid in
  let correct_total := added_mass P (ps_added s) + initial_fluid in
  rdiv (Rabs (correct_total - mass_total)) (Rabs correct_total).
(** compute 99-119: written to the file only every mass_recording_step steps. *)
Definition recorded (mass_recording_step step : Z) : bool :=
  if Z.ltb 0 mass_recording_step then Z.eqb (Z.rem step mass_recording_step) 0 else false.

(** * SimpleSOL set_up_particles 530-711 *)
(** 536-568: the unit factors; [Rs], [rhoInf], [uInf] as read (default 1); [wdflt]: the particle weight, set below. *)
Definition sol_units (Rs rhoInf uInf : R) : option (R * R * R) :=
  let mp_kg := 167 / 10 ^ 29 in let kB_eV_per_K := 8617333262 / 10 ^ 14 in let kB_J_per_K := 1380649 / 10 ^ 29 in
  let mu_SI := 2 * mp_kg in
  do Rs_SI <- rdiv kB_J_per_K mu_SI; do Rs_to_SI <- rdiv Rs_SI Rs;
  do vel_to_SI <- rdiv (3 * 10 ^ 4) uInf;
  do T_to_K <- rdiv (vel_to_SI * vel_to_SI) Rs_to_SI;
  do n_to_SI <- rdiv (3 * 10 ^ 18) rhoInf;
  do t_to_SI <- rdiv 1 vel_to_SI;
  Some (n_to_SI, T_to_K * kB_eV_per_K, t_to_SI).
(** 595-615: weight and number density. The division by a zero volume is None. *)
Definition sol_weight (width x_max y_max density : R) (num_parts_tot : Z) : dbl * dbl :=
  let volume := width * 1 * x_max * y_max in
  if Rlt_bool density 0 then (Some 1, rdiv (IZR num_parts_tot) volume)
  else (if Z.eqb num_parts_tot 0 then Some 0 else rdiv (density * volume) (IZR num_parts_tot), Some density).
(** 628-656: the x coordinates of the regions; None: the assertion. *)
Definition sol_regions (count : Z) (offset x_max : R) : option (list R) :=
  if Z.eqb count 1 then Some [5 / 10 * x_max]
  else if Z.eqb count 2 then Some [offset * x_max; (1 - offset) * x_max]
  else None.
(** 659-667 *)
Definition sol_rotate (theta : R) (p : R * R) : R * R :=
  (fst p * cos theta - snd p * sin theta, fst p * sin theta + snd p * cos theta).
(** 669-694: start and end of every source line; [erf_inv]: boost::math::erf_inv (an argument here). *)
Definition sol_lines (erf_inv : R -> R) (theta width x_max y_max offset : R) (count : Z) (pslpg : nat) : option (list ((R * R) * (R * R))) :=
  do regions <- sol_regions count offset x_max;
  let sigma := width * x_max in
  Some (flat_map (fun x => map (fun i =>
    let expx := INR i * 2 / INR pslpg - 1 + 1 / INR pslpg in
    (sol_rotate theta (x + erf_inv expx * 3 * sigma, 0), sol_rotate theta (x + erf_inv expx * 3 * sigma, y_max))) (seq 0 pslpg)) regions).
