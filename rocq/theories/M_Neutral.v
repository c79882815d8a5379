(** Model of the population of the DriftReduced solver's neutral particles and of the step that drives them:
    solvers/DriftReduced/ParticleSystems/NeutralParticleSystem.hpp (set_up_particles 75-136, integrate 153-174,
    project_source_terms 179-196, add_particles 300-373, transfer_particles), DriftReducedSystem.cpp v_PreIntegrate 562-571.
    The kernels (ionise_dr, euler_dr), particles and state are those of M_Sol. The particles of all ranks are one list, in the order of the ranks. *)
From Verif Require Export M_Sol.
Open Scope R_scope.

(** What surrounds the particles. [de_num]: num_parts_tot (C80); [de_dec]: NESO-Particles' get_decomp_1d (number of ranks,
    items, rank |-> first and past the last item); [de_draw call rank n]: the n positions and velocities drawn;
    [de_dim]: dimension of the mesh; [de_org], [de_ext]: origin and extent of the mesh's bounding box (C22). *)
Record drenv := { de_P : sparams; de_TeV : R; de_nbg : R; de_num : Z; de_size : nat; de_dec : nat -> Z -> nat -> Z * Z;
  de_draw : nat -> nat -> Z -> list ((R * R * R) * (R * R * R)); de_dim : nat; de_org : R * R * R; de_ext : R * R * R;
  de_periodic : bool; de_pbc : R * R * R -> R * R * R }.

(** std::round: to nearest, halves away from zero. *)
Definition round_away (x : R) : Z := if Rle_bool 0 x then Zfloor (x + 1/2) else Zceil (x - 1/2).
(** 305-306 *)
Definition num_to_add (E : drenv) (add_proportion : R) : Z := round_away (add_proportion * IZR (de_num E)).
(** 327-330: centre of the positions; only the first [de_dim] components are used (338-343), the others stay 0. *)
Definition centre (E : drenv) : R * R * R := (0, 0, (snd (de_ext E) - snd (de_org E)) / 2).
Definition new_pos (E : drenv) (x : R * R * R) : R * R * R :=
  let '(a, b, c) := x in let '(o0, o1, o2) := centre E in
  match de_dim E with
  | 1%nat => (a + o0, 0, 0) | 2%nat => (a + o0, b + o1, 0) | _ => (a + o0, b + o1, c + o2)
  end.
(** 308-358 on one rank. Unsigned arithmetic on the identifiers is exact below 2^63. *)
Definition add_on_rank (E : drenv) (call : nat) (added n : Z) (rank : nat) : list npart :=
  let '(rstart, rend) := de_dec E (de_size E) n rank in
  let N := (rend - rstart)%Z in
  if Z.ltb 0 N then
    map (fun '(ipart, (x, v)) => mkNp (new_pos E x) v ((Z.of_nat ipart + rstart + added)%Z, 0%Z) (Some (sp_weight (de_P E))) (Some 0) (Some 0, Some 0) (Some 0))
      (combine (seq 0 (Z.to_nat N)) (de_draw E call rank N))
  else [].
(** add_particles 300-373 on all ranks; the advection steps 361-369 move the particles to their ranks and put the positions
    back; the last transfer applies the boundary condition to all. *)
Definition dr_add (E : drenv) (add_proportion : R) (s : psys) : psys :=
  let n := num_to_add E add_proportion in
  let new := concat (map (add_on_rank E (ps_calls s) (ps_added s) n) (seq 0 (de_size E))) in
  {| ps_time := ps_time s; ps_calls := S (ps_calls s); ps_added := (ps_added s + n)%Z;
     ps_parts := map (periodic_bc (de_pbc E)) (ps_parts s ++ new) |}.

(** One pass of the loop 166-171. [nf]: the electron density at a position. *)
Definition substep_dr (E : drenv) (nf : R * R * R -> R) (dt_inner : R) (s : psys) : option psys :=
  let l := map (periodic_bc (de_pbc E)) (map (euler_dr dt_inner) (ps_parts s)) in
  Some {| ps_time := ps_time s; ps_calls := ps_calls s; ps_added := ps_added s;
          ps_parts := map (fun p => ionise_dr (de_P E) (de_TeV E) (de_nbg E) (nf (np_pos p)) dt_inner p) l |}.
(** integrate 153-174. boundary_conditions 378-382 asserts a fully periodic domain: every path that does not return early
    transfers particles. *)
Definition integrate_dr (E : drenv) (nf : R * R * R -> R) (fuel : nat) (time_end dt : R) (s : psys) : ires :=
  if Rlt_bool time_end (ps_time s) then IAssert
  else if (Req_bool time_end (ps_time s) || Z.eqb (de_num E) 0)%bool then IOk s
  else if negb (de_periodic E) then IAssert
  else let s := if Z.eqb (ps_added s) 0 then dr_add E 1 s else s in
    int_loop (substep_dr E nf) fuel time_end dt (ps_time s) s.

(** v_PreIntegrate with [k] particle substeps per fluid step (DriftReducedSystem.cpp load_params: part_timestep). *)
Definition dr_pre (E : drenv) (nf : R * R * R -> R) (fuel : nat) (m_time m_timestep : R) (k : Z) (s : psys) : option (dbl * psys) :=
  do part_timestep <- rdiv m_timestep (IZR k);
  match integrate_dr E nf fuel (m_time + m_timestep) part_timestep s with
  | IOk s' =>
      match dsum np_sd (ps_parts s') with
      | Some src => Some (Some src, {| ps_time := ps_time s'; ps_calls := ps_calls s'; ps_added := ps_added s'; ps_parts := remove_marked (ps_parts s') |})
      | None => None
      end
  | _ => None
  end.

(** set_up_particles 101-120: weight and number density; [density]: as read, -1 if not given. *)
Definition region_volume (E : drenv) : R :=
  let '(e0, e1, e2) := de_ext E in match de_dim E with 1%nat => e0 | 2%nat => e0 * e1 | _ => e0 * e1 * e2 end.
Definition dr_weight (E : drenv) (density : R) : dbl * dbl :=
  if Rlt_bool density 0 then (Some 1, rdiv (IZR (de_num E)) (region_volume E))
  else (if Z.eqb (de_num E) 0 then Some 0 else rdiv (density * region_volume E) (IZR (de_num E)), Some density).
(** 128-129: the seed of the generator of a rank (std::mt19937 takes it modulo 2^32). *)
Definition rank_seed (seed : Z) (rank : nat) : Z := ((seed + Z.of_nat rank) mod 2 ^ 32)%Z.
