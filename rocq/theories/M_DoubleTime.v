(** The particle sub-stepping of the coupled solvers in double precision: NeutralParticleSystem::integrate
    (solvers/SimpleSOL/ParticleSystems/NeutralParticleSystem.hpp 355-373, solvers/DriftReduced/ParticleSystems/
    NeutralParticleSystem.hpp 153-174), the particle time step (SimpleSOL/EquationSystems/SOLWithParticlesSystem.cpp 48-50,
    DriftReduced/EquationSystems/DriftReducedSystem.cpp 344-348) and the call per fluid step (SOLWithParticlesSystem.cpp 96,
    DriftReducedSystem.cpp 565). Only the times: what a substep does to the particles is in M_Sol and M_Neutral.
    Arithmetic of M_Double; Nektar++ advances the fluid's time by m_time += m_timestep. *)
From Coq Require Import Reals ZArith List Bool.
From Flocq Require Import Core.
From Verif Require Import M_RealBase M_Grid M_Double.
Import ListNotations.
Open Scope R_scope.

(** std::min(a, b) *)
Definition min_d (a b : R) : R := if Rlt_bool b a then b else a.
(** SimpleSOL 363-370, DriftReduced 165-171: the substeps taken, and the time reached. [None]: more than [fuel] substeps, or overflow. *)
Fixpoint int_loop_d (fuel : nat) (time_tmp time_end dt : R) : option (list R * R) :=
  if Rlt_bool time_tmp time_end then
    match fuel with
    | O => None
    | S f =>
        do remaining <- fl (time_end - time_tmp);
        let dt_inner := min_d dt remaining in
        do time' <- fl (time_tmp + dt_inner);
        do r <- int_loop_d f time' time_end dt;
        Some (dt_inner :: fst r, snd r)
    end
  else Some ([], time_tmp).
(** SimpleSOL 355-373: the substeps and the new simulation_time; [None] also for the failed assertion *)
Definition integrate_d (fuel : nat) (simulation_time time_end dt : R) : option (list R * R) :=
  check (Rle_bool simulation_time time_end)
  (if Req_bool time_end simulation_time then Some ([], simulation_time)
   else do r <- int_loop_d fuel simulation_time time_end dt; Some (fst r, time_end)).
(** m_timestep / num_part_substeps. In C++ a zero count gives an infinite step; like every infinity that is [None] here. *)
Definition part_timestep_d (m_timestep : R) (num_part_substeps : Z) : option R :=
  if Z.eqb num_part_substeps 0 then None else fl (m_timestep / IZR num_part_substeps).
(** One fluid step: the particles first (v_PreIntegrate), then the fluid's time *)
Definition fluid_step_d (fuel : nat) (m_timestep part_timestep : R) (st : R * R) : option (list R * (R * R)) :=
  let '(m_time, simulation_time) := st in
  do target <- fl (m_time + m_timestep);
  do r <- integrate_d fuel simulation_time target part_timestep;
  do m_time' <- fl (m_time + m_timestep);
  Some (fst r, (m_time', snd r)).
(** [n] fluid steps; the substeps of each *)
Fixpoint fluid_steps_d (n : nat) (fuel : nat) (m_timestep part_timestep : R) (st : R * R) : option (list (list R) * (R * R)) :=
  match n with
  | O => Some ([], st)
  | S k => do r <- fluid_step_d fuel m_timestep part_timestep st;
           do q <- fluid_steps_d k fuel m_timestep part_timestep (snd r);
           Some (fst r :: fst q, snd q)
  end.
