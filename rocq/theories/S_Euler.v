(** Specification of the SimpleSOL fluid equations, after examples/SimpleSOL/README.md (equations 5-7). *)
From Verif Require Export M_Euler.
Open Scope R_scope.
Open Scope list_scope.

(** Sessions in the order the examples use: the conserved variables first. *)
Definition sol_sess (s : fsess) : Prop := NoDup (fs_vars s) /\
  ((fs_space s = 1%nat /\ ~ In "rhov"%string (fs_vars s) /\ exists r, fs_vars s = ("rho" :: "rhou" :: "E" :: r)%string) \/
   (fs_space s = 2%nat /\ exists r, fs_vars s = ("rho" :: "rhou" :: "rhov" :: "E" :: r)%string)).

(** Euler fluxes for density r, momentum densities m, energy E and pressure p. *)
Definition euler1 (r m E p : R) : list (list R) := [[m]; [m * m / r + p]; [(E + p) * m / r]].
Definition euler2 (r m0 m1 E p : R) : list (list R) :=
  [[m0; m1]; [m0 * m0 / r + p; m0 * m1 / r]; [m1 * m0 / r; m1 * m1 / r + p]; [(E + p) * m0 / r; (E + p) * m1 / r]].

(** The Gaussian of a source: centred halfway along the field line, of width sigma. *)
Definition gauss (c : srcpar) (s : R) : R := exp (- (s - sr_smax c / 2) ^ 2 / (2 * sr_sigma c ^ 2)).
Definition along_line (c : srcpar) (x y : R) : R := x * cos (sr_theta c) + y * sin (sr_theta c).
(** Amplitudes for unit mask, times the width. *)
Definition K_rho : R := 7978845608 / 10 ^ 10.
Definition K_u : R := - (14593314828 / 10 ^ 10).
Definition K_E : R := 47873073648 / 10 ^ 10.
Definition S_rho (c : srcpar) (x y : R) : R := sr_mask c * K_rho / sr_sigma c * gauss c (along_line c x y).
Definition S_u (c : srcpar) (x y : R) : R :=
  sr_mask c * K_u / sr_sigma c * (along_line c x y / (sr_smax c / 2) - 1) * gauss c (along_line c x y).
Definition S_E (c : srcpar) (x y : R) : R := sr_mask c * K_E / sr_sigma c * gauss c (along_line c x y) / 2.
Definition src_ok (c : srcpar) : Prop := sr_sigma c <> 0 /\ sr_smax c <> 0.
(** The particle source of a variable: the field <name>_src if the session has one. *)
Definition src_field (s : fsess) (phys : list fld) (n : string) (f : fld) : Prop :=
  (In (n ++ "_src")%string (fs_vars s) -> exists k, nth_error (fs_vars s) k = Some (n ++ "_src")%string /\ nth_error phys k = Some f) /\
  (~ In (n ++ "_src")%string (fs_vars s) -> f = fun _ => 0).
Definition total (f : srcpar -> R) (l : list srcpar) : R := fold_right (fun c a => f c + a) 0 l.
