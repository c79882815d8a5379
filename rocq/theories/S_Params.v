(** Specification of the DriftReduced parameters: the quantities named in examples/DriftReduced/README.md. *)
From Verif Require Export M_Params.
Open Scope R_scope.

(** 393-421: elementary charge and proton mass as used there, Coulomb logarithm, Spitzer resistivity (T0 in eV), cyclotron frequency. *)
Definition coulomb_log_ei (n0 T0 : R) : R := 31 - ln n0 / 2 + ln T0.
Definition spitzer (Z n0 T0 : R) : R := 52 / 10 ^ 6 * Z * coulomb_log_ei n0 T0 / (T0 * sqrt T0).
Definition gyro_freq (e B m : R) : R := e * B / m.
(** Radius of the orbit at the sound speed: with T0 in eV the speed is sqrt (e T0 / m). *)
Definition gyro_radius (e B m T0 : R) : R := sqrt (e * T0 / m) / gyro_freq e B m.
(** [ps] defines [n] *)
Definition defines (ps : string -> option R) (n : string) : Prop := ps n <> None.
(** The names a solver reads. *)
Definition dr_names : list string := ["Bxy"; "d00"; "d11"; "d22"; "n_floor_fac"; "nRef"; "num_particle_steps_per_fluid_step"]%string.
Definition hw2d_names : list string := dr_names ++ ["HW_alpha"; "HW_kappa"]%string.
Definition hw3d_names : list string := dr_names ++ ["HW_alpha"; "HW_kappa"; "HW_omega_ce"; "HW_nu_ei"; "mi"; "n0"; "T0"; "Z"; "lambda_n"]%string.
Definition lapd_pnames : list string := dr_names ++ ["ns"; "e"; "md"; "me"; "Te"; "Td"; "logLambda_const"; "nu_ei_const"]%string.
Definition rr_pnames : list string := dr_names ++ ["coulomb_log"; "Ls_boost"; "rho_s0"; "rs_norm"; "T_eps"]%string.
(** The value of a parameter: the session's, else [d]. *)
Definition value_or (ps : string -> option R) (n : string) (d v : R) : Prop := ps n = Some v \/ (ps n = None /\ v = d).
