(** Creation of the initial particles of the Electrostatic2D3V solver: ChargedParticles::add_particles
    (solvers/Electrostatic2D3V/ParticleSystems/ChargedParticles.hpp 75-347), the number of particles (417-435) and
    sobol_within_extents (include/particle_utility/position_distribution.hpp 27-50).
    Over the reals. Not modelled: the transport of the new particles to their owners (326-346: parallel_advection_* of NESO-Particles
    followed by transfer_particles, C13 and C98). *)
From Coq Require Import Reals ZArith List Bool.
From Verif Require Import M_RealBase M_Grid.
Import ListNotations.
Open Scope R_scope.

(** ChargedParticles.hpp 417-435: [elements]: GetNumElements of each rank, [ppc]: num_particles_per_cell, [total]: num_particles_total.
    int addition in MPI_SUM; [None]: it overflows *)
Definition num_particles (elements : list Z) (ppc total : Z) : option Z :=
  let num_elements_global := fold_right Z.add 0%Z elements in
  check (Z.ltb num_elements_global (2 ^ 31))
  (let n := (num_elements_global * ppc)%Z in
   Some (if Z.ltb (-1) total then total else n)).

(** position_distribution.hpp 40-46. [stream k]: the k-th number of the d-dimensional Sobol sequence, mapped to [0,1); seed(n) moves
    boost's generator to the n-th vector and discard(n) skips n numbers. Rows: positions[.][px]. *)
Fixpoint sobol_row (stream : Z -> R) (extents : list R) (k : Z) : list R * Z :=
  match extents with
  | [] => ([], k)
  | ex :: r => let '(xs, k') := sobol_row stream r (k + 1)%Z in (stream k * ex :: xs, k')
  end.
Fixpoint sobol_rows (stream : Z -> R) (extents : list R) (N : nat) (k : Z) : list (list R) :=
  match N with
  | O => []
  | S n => let '(row, k') := sobol_row stream extents k in row :: sobol_rows stream extents n k'
  end.
(** 27-37; [ndim] is the length of [extents] *)
Definition sobol_within_extents (stream : Z -> R) (N : nat) (extents : list R) (discard seed : Z) : list (list R) :=
  let ndim := Z.of_nat (length extents) in
  let start := (seed * ndim)%Z in
  sobol_rows stream extents N (start + discard * ndim)%Z.

(** Session, mesh and generators. [ci_seed r]: what rank r gets for particle_position_seed (std::rand() when the session has none);
    [ci_mt]: mt19937 with a seed, the others draw from it; [ci_within]: NESO-Particles' uniform_within_extents (rows);
    [ci_erf_inv]: boost's erf_inv, [None] where it throws. *)
Record cenv (G : Type) := mkCenv {
  ci_size : nat; ci_dec : nat -> Z -> nat -> Z * Z; ci_num : Z; ci_cells : nat -> Z; ci_seed : nat -> Z;
  ci_type : Z; ci_dist : Z; ci_org : R * R; ci_ext : R * R; ci_charge : R; ci_v0 : R; ci_vth : R;
  ci_sobol : Z -> R; ci_mt : Z -> G; ci_coin : G -> bool * G; ci_uni : G -> R * G; ci_within : nat -> list R -> G -> list (list R) * G;
  ci_erf_inv : R -> option R }.
Arguments ci_size {G}. Arguments ci_dec {G}. Arguments ci_num {G}. Arguments ci_cells {G}. Arguments ci_seed {G}.
Arguments ci_type {G}. Arguments ci_dist {G}. Arguments ci_org {G}. Arguments ci_ext {G}. Arguments ci_charge {G}. Arguments ci_v0 {G}.
Arguments ci_vth {G}. Arguments ci_sobol {G}. Arguments ci_mt {G}. Arguments ci_coin {G}. Arguments ci_uni {G}. Arguments ci_within {G}.
Arguments ci_erf_inv {G}.

(** What a branch writes for one particle; velocity components the branch does not write are [None] *)
Record core := mkCore { k_P : R * R; k_V : option R * option R * option R; k_Q : R; k_M : R }.
(** particle_mass, 365 *)
Definition particle_mass : R := 1.

(** 129-150 *)
Definition dist0 {G} (E : cenv G) (g : G) (x y : R) : option (core * G) :=
  let px := x + fst (ci_org E) in let py := y + snd (ci_org E) in
  Some (mkCore (px * (1 / 4), py * (1 / 4)) (Some (ci_v0 E), Some 0, None) (ci_charge E) particle_mass, g).
(** 151-188 *)
Definition dist1 {G} (E : cenv G) (g : G) (x y : R) : option (core * G) :=
  let pos_orig_0 := x + fst (ci_org E) in
  let '(species, g) := ci_coin E g in
  let pos_orig_1 := if species then 1 / 4 else 3 / 4 in
  let pos_orig_1 := snd (ci_ext E) * pos_orig_1 + snd (ci_org E) in
  check (negb (Req_bool (snd (ci_ext E)) 0))
  (let shift_1 := 1 / 100 * (y / snd (ci_ext E)) - 5 / 1000 in
   Some (mkCore (pos_orig_0, pos_orig_1 + shift_1) (Some (if species then ci_v0 E else -1 * ci_v0 E), Some 0, None) (ci_charge E) particle_mass, g)).
(** 189-215 *)
Definition dist2 {G} (E : cenv G) (g : G) (x y : R) : option (core * G) :=
  let '(species, g) := ci_coin E g in
  Some (mkCore (x + fst (ci_org E), y + snd (ci_org E)) (Some (if species then ci_v0 E else -1 * ci_v0 E), Some 0, None) (ci_charge E) particle_mass, g).
(** 216-241 *)
Definition dist3 {G} (E : cenv G) (g : G) (x y : R) : option (core * G) :=
  let '(species, g) := ci_coin E g in
  Some (mkCore (x + fst (ci_org E), y + snd (ci_org E)) (Some (if species then 0 else ci_v0 E), Some 0, None)
         (if species then ci_charge E else -1 * ci_charge E) (if species then particle_mass * 1000000 else particle_mass), g).
(** 242-288 *)
Definition dist4 {G} (E : cenv G) (g : G) (x y : R) : option (core * G) :=
  let '(u1, g) := ci_uni E g in do rvx <- ci_erf_inv E (2 * u1 - 1);
  let '(u2, g) := ci_uni E g in do rvy <- ci_erf_inv E (2 * u2 - 1);
  let '(u3, g) := ci_uni E g in do rvz <- ci_erf_inv E (2 * u3 - 1);
  let '(u4, g) := ci_uni E g in
  let isthermal := Rlt_bool (1 / 10) u4 in
  let '((rvx, rvy, rvz), g) :=
    if isthermal then ((rvx, rvy, rvz), g)
    else let '(u5, g) := ci_uni E g in
         let theta := 2 * PI * u5 in ((0, 4 * ci_vth E * sin theta, 4 * ci_vth E * cos theta), g) in
  Some (mkCore (x + fst (ci_org E), y + snd (ci_org E)) (Some (ci_vth E * rvx), Some (ci_vth E * rvy), Some (ci_vth E * rvz)) (ci_charge E) particle_mass, g).
(** 289-313 *)
Definition dist5 {G} (E : cenv G) (g : G) (x y : R) : option (core * G) :=
  let '(u, g) := ci_uni E g in
  Some (mkCore (x + fst (ci_org E), y + snd (ci_org E)) (Some (ci_v0 E), Some (1 + u), Some 0) (ci_charge E) particle_mass, g).
(** the chain of ifs 129-313 *)
Definition branch {G} (E : cenv G) : G -> R -> R -> option (core * G) :=
  if Z.eqb (ci_dist E) 0 then dist0 E else if Z.eqb (ci_dist E) 1 then dist1 E else if Z.eqb (ci_dist E) 2 then dist2 E
  else if Z.eqb (ci_dist E) 3 then dist3 E else if Z.eqb (ci_dist E) 4 then dist4 E else dist5 E.
(** the loops over px *)
Fixpoint all_cores {G} (E : cenv G) (g : G) (rows : list (list R)) : option (list core) :=
  match rows with
  | [] => Some []
  | [x; y] :: r => do kg <- branch E g x y; do ks <- all_cores E (snd kg) r; Some (fst kg :: ks)
  | _ => None
  end.
Record ipart := mkIpart { ip_core : core; ip_E : R * R; ip_cell : Z; ip_id : Z }.
(** 315-322 *)
Definition finish (cells rstart : Z) (i : nat) (k : core) : ipart :=
  mkIpart k (0, 0) (Z.rem (Z.of_nat i) cells) (Z.of_nat i + rstart)%Z.
(** 75-324: the particles rank [r] creates. [None]: failed assertion, a thrown exception, division by zero or a count beyond int *)
Definition initial_particles {G} (E : cenv G) (r : nat) : option (list ipart) :=
  let '(rstart, rend) := ci_dec E (ci_size E) (ci_num E) r in
  let N := (rend - rstart)%Z in
  let g := ci_mt E (ci_seed E r + Z.of_nat r)%Z in
  check (Z.ltb (-1) (ci_dist E)) (check (Z.ltb (ci_dist E) 6)
  (if Z.ltb 0 N then
     check (Z.leb 0 (ci_type E)) (check (Z.leb (ci_type E) 1)
     (check (Z.ltb N (2 ^ 31))
     (let extents := [fst (ci_ext E); snd (ci_ext E)] in
      let '(positions, g) :=
        if Z.eqb (ci_type E) 0 then (sobol_within_extents (ci_sobol E) (Z.to_nat N) extents rstart (ci_seed E r mod 2 ^ 32), g)
        else ci_within E (Z.to_nat N) extents g in
      let '(positions, g) := if Z.eqb (ci_dist E) 4 then ci_within E (Z.to_nat N) extents g else (positions, g) in
      do ks <- all_cores E g positions;
      check (negb (Z.eqb (ci_cells E r) 0))
      (Some (map (fun ik => finish (ci_cells E r) rstart (fst ik) (snd ik)) (combine (seq 0 (length ks)) ks))))))
   else Some [])).
(** all ranks *)
Definition population {G} (E : cenv G) : option (list ipart) :=
  do ls <- mapM (initial_particles E) (seq 0 (ci_size E)); Some (concat ls).
