(** Specification for ionisation in double precision. *)
From Coq Require Import Reals List Lra.
From Verif Require Import S_Double M_IoniseD.
Open Scope R_scope.

(** non-negative doubles; the step and the unit of density between 2^-70 and 2^70 *)
Definition nonneg (x : R) : Prop := is_double x /\ 0 <= x.
Definition unit_like (x : R) : Prop := is_double x /\ / 2 ^ 70 <= x <= 2 ^ 70.
Definition ion_ok (i : ion_in) : Prop := nonneg (ii_rate i) /\ nonneg (ii_dt_SI i) /\ nonneg (ii_n_SI i) /\ unit_like (ii_dt i).
(** the number of ions the sources stand for: source times step, in SI units *)
Definition deposited (n_to_SI : R) (sources : list (R * R)) : R := fold_right (fun sd acc => fst sd * snd sd * n_to_SI + acc) 0 sources.
