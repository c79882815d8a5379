(** Model of the parameter loading of the DriftReduced solvers: load_params of solvers/DriftReduced/EquationSystems/DriftReducedSystem.cpp,
    HW2DSystem.cpp, HW3DSystem.cpp, LAPDSystem.cpp and RogersRicci2DSystem.cpp. Exact reals. *)
From Verif Require Export M_Plane.
From Flocq Require Import Core.Raux.
Open Scope R_scope.
Open Scope list_scope.

(** LoadParameter without a default (Nektar++): throws when the session does not define the parameter. *)
Definition rparam (ps : string -> option R) (n : string) : fres R := match ps n with Some v => FOk v | None => FThrow end.
(** LoadParameter of an int, with a default: the value is converted to int. *)
Definition iparam (ps : string -> option R) (n : string) (d : Z) : Z := match ps n with Some v => Ztrunc v | None => d end.

(** DriftReducedSystem::load_params 316-358; [dt] is m_timestep. The solver-info strings (322, 341) and num_write_particle_steps are left out.
    The particle step is a double that is not finite for 0 substeps, which is no error. *)
Record drpar := { dr_B : bfield; dr_d : dfac; dr_floor : R; dr_nref : R; dr_substeps : Z; dr_part_dt : dbl }.
Definition dr_params (s : fsess) (ps : string -> option R) (dt : R) : fres drpar :=
  let! B := load_B s (sparam ps "Bxy" (1 / 10)) in
  let k := iparam ps "num_particle_steps_per_fluid_step" 1 in
  FOk {| dr_B := B; dr_d := {| df_00 := sparam ps "d00" 1; df_11 := sparam ps "d11" 1; df_22 := sparam ps "d22" 1 |};
         dr_floor := sparam ps "n_floor_fac" (1 / 10 ^ 5); dr_nref := sparam ps "nRef" 1; dr_substeps := k; dr_part_dt := rdiv dt (IZR k) |}.
(** HW2DSystem::load_params 87-95 *)
Definition hw2d_params (s : fsess) (ps : string -> option R) (dt : R) : fres hwpar :=
  let! b := dr_params s ps dt in
  let! alpha := rparam ps "HW_alpha" in
  let! kappa := rparam ps "HW_kappa" in
  FOk {| hw_B := dr_B b; hw_d := dr_d b; hw_alpha := alpha; hw_kappa := kappa |}.
(** HW3DSystem::load_params 147-148 *)
Definition q_e : R := 16 / 10 ^ 20.
Definition m_prot : R := 167 / 10 ^ 29.
(** 166-178. A double that is not finite is no error in the program: FNan. *)
Definition alpha_phys (ps : string -> option R) (Bmag : R) : fres R :=
  let mi := sparam ps "mi" (2 * m_prot) in
  let! n0 := rparam ps "n0" in let! T0 := rparam ps "T0" in let! Z := rparam ps "Z" in
  let! ln_n := fnan (dlog n0) in let! ln_T := fnan (dlog T0) in
  let log_lambda := 31 - 5 / 10 * ln_n + ln_T in
  let! t32 := fnan (dpow T0 (3 / 2)) in
  let! eta := fnan (rdiv (52 / 10 ^ 6 * Z * log_lambda) t32) in
  let! w_ci := fnan (rdiv (q_e * Bmag) mi) in
  let! a1 := fnan (rdiv T0 n0) in let! a2 := fnan (rdiv a1 q_e) in let! a3 := fnan (rdiv a2 eta) in fnan (rdiv a3 w_ci).
(** 150-179 *)
Definition hw3d_alpha (ps : string -> option R) (Bmag : R) : fres R :=
  match ps "HW_alpha"%string with
  | Some a => FOk a
  | None =>
      match ps "HW_omega_ce"%string, ps "HW_nu_ei"%string with
      | Some omega_ce, Some nu_ei => fnan (rdiv omega_ce nu_ei)
      | _, _ => alpha_phys ps Bmag
      end
  end.
(** 182-197 *)
Definition hw3d_kappa (ps : string -> option R) (Bmag : R) : fres R :=
  match ps "HW_kappa"%string with
  | Some k => FOk k
  | None =>
      let mi := sparam ps "mi" (2 * (167 / 10 ^ 29)) in
      let! lambda_n := rparam ps "lambda_n" in let! n0 := rparam ps "n0" in let! T0 := rparam ps "T0" in
      let! q := fnan (rdiv (mi * T0 / q_e) Bmag) in
      let! rho := fnan (dsqrt q) in fnan (rdiv rho lambda_n)
  end.
(** A value that is not finite does not stop the program: what throws afterwards still throws. *)
Definition then_also {A B} (x : fres A) (y : fres B) : fres A := match x, y with FNan, FThrow => FThrow | _, _ => x end.
Definition hw3d_params (s : fsess) (ps : string -> option R) (dt : R) : fres hwpar :=
  let! b := dr_params s ps dt in
  let! alpha := then_also (hw3d_alpha ps (bf_mag (dr_B b))) (hw3d_kappa ps (bf_mag (dr_B b))) in
  let! kappa := hw3d_kappa ps (bf_mag (dr_B b)) in
  FOk {| hw_B := dr_B b; hw_d := dr_d b; hw_alpha := alpha; hw_kappa := kappa |}.
(** LAPDSystem::load_params 297-323 *)
Definition lapd_params (s : fsess) (ps : string -> option R) (dt : R) : fres lapdpar :=
  let! b := dr_params s ps dt in
  let! cl := rparam ps "logLambda_const" in
  let! nu := rparam ps "nu_ei_const" in
  FOk {| lp_B := dr_B b; lp_d := dr_d b; lp_n_to_SI := sparam ps "ns" 1; lp_e := sparam ps "e" 1; lp_md := sparam ps "md" 2;
         lp_me := sparam ps "me" (60 / 1836); lp_Te := sparam ps "Te" 5; lp_Td := sparam ps "Td" (1 / 10); lp_coulomb := cl; lp_nu := nu;
         lp_nref := dr_nref b; lp_floor := dr_floor b |}.
(** RogersRicci2D::load_params 200-224 *)
Definition rr_params (s : fsess) (ps : string -> option R) (dt : R) : fres rrpar :=
  let! b := dr_params s ps dt in
  FOk {| rr_B := dr_B b; rr_d := dr_d b; rr_coulomb := sparam ps "coulomb_log" 3; rr_T_eps := sparam ps "T_eps" (1 / 10 ^ 4);
         rr_rho := sparam ps "rho_s0" (12 / 10 ^ 3); rr_Ls_boost := sparam ps "Ls_boost" 2; rr_rs_norm := sparam ps "rs_norm" 20 |}.
