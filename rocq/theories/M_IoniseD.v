(** Double precision version of the change of a neutral particle's weight by ionisation and of the density source it leaves behind:
    SimpleSOL/ParticleSystems/NeutralParticleSystem.hpp ionise 448-450 and 484-501, DriftReduced/ParticleSystems/NeutralParticleSystem.hpp
    ionise 463-465 and 490-507 (the same statements; exact version: ionise_sol, ionise_dr in M_Sol). The rate is an input, any double.
    The last product of deltaweight may be contracted with either addition that uses it, [cc] and [cu], independently. An infinite
    intermediate result is [None]. Momentum and energy sources are not modelled here. *)
From Coq Require Import Reals ZArith List Bool.
From Flocq Require Import Core.
From Verif Require Import M_RealBase M_Grid M_Double M_BorisD.
Import ListNotations.
Open Scope R_scope.

(** the inputs of one call for one particle: rate, k_dt_SI, n_SI, k_dt *)
Record ion_in := { ii_rate : R; ii_dt_SI : R; ii_n_SI : R; ii_dt : R }.
(** the new weight, SOURCE_DENSITY, and whether the particle is marked for removal *)
Definition ionise_d (cc cu : bool) (n_to_SI : R) (i : ion_in) (w : R) : option (R * R * bool) :=
  do k_n_scale <- div_d 1 n_to_SI;
  do a <- fl (- ii_rate i * w); do b <- fl (a * ii_dt_SI i); do dw0 <- fl (b * ii_n_SI i);
  do sum <- mul_add cc b (ii_n_SI i) w;
  let below := Rle_bool sum 0 in
  let dw := if below then - w else dw0 in
  do w' <- (if below then fl (w + - w) else mul_add cu b (ii_n_SI i) w);
  do s <- fl (- dw * k_n_scale); do sd <- div_d s (ii_dt i);
  Some (w', sd, below).
(** successive calls; the source of each call is deposited (time-integrated by the fluid over the call's k_dt) before the next. A
    marked particle is removed after its call. Result: the final weight and the sources. *)
Fixpoint ionise_run_d (n_to_SI : R) (calls : list (bool * bool * ion_in)) (w : R) : option (R * list (R * R)) :=
  match calls with
  | [] => Some (w, [])
  | (cc, cu, i) :: calls' =>
      do r <- ionise_d cc cu n_to_SI i w; let '(w1, sd, below) := r in
      if below then Some (w1, [(sd, ii_dt i)])
      else do rest <- ionise_run_d n_to_SI calls' w1; Some (fst rest, (sd, ii_dt i) :: snd rest)
  end.
