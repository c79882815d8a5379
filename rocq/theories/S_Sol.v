(** Specification vocabulary for C67-C71. *)
From Verif Require Import M_Sol.

(** The substeps a call should make from [t] to [t1] with step at most [dt]: as many full steps as fit, then the rest. *)
Definition full_steps (t t1 dt : R) : nat := Z.to_nat (Zceil ((t1 - t) / dt) - 1).
Definition step_sizes (t t1 dt : R) : list R := repeat dt (full_steps t t1 dt) ++ [t1 - t - INR (full_steps t t1 dt) * dt].
Definition rsum_list (l : list R) : R := fold_right Rplus 0 l.
(** Running a list of substeps. *)
Fixpoint run_steps (step : R -> psys -> option psys) (ds : list R) (s : psys) : option psys :=
  match ds with [] => Some s | d :: r => match step d s with None => None | Some s' => run_steps step r s' end end.
Definition at_time (t : R) (s : psys) : psys :=
  {| ps_time := t; ps_calls := ps_calls s; ps_added := ps_added s; ps_parts := ps_parts s |}.

(** Weights are finite and not negative, no particle is flagged. *)
Definition good_weight (p : npart) : Prop := exists w, np_w p = Some w /\ 0 <= w.
Definition good_state (s : psys) : Prop := forall p, In p (ps_parts s) -> good_weight p /\ (0 <= fst (np_id p))%Z.
Definition wt (p : npart) : R := match np_w p with Some w => w | None => 0 end.
Definition total_weight (l : list npart) : R := rsum_list (map wt l).
(** The unit factors are positive, the particle weight is not negative, and the fluid has positive temperature and
    non-negative density everywhere. *)
Definition params_ok (P : sparams) : Prop :=
  0 < sp_n_to_SI P /\ 0 < sp_T_to_eV P /\ 0 < sp_t_to_SI P /\ 0 <= sp_weight P.
Definition fields_ok (F : sfields) : Prop := forall x, 0 < sf_T F x /\ 0 <= sf_n F x.
(** Left the domain through a wall: only without periodicity, and x is not in [0, x_max]. *)
Definition left_domain (P : sparams) (fully_periodic : bool) (p : npart) : Prop :=
  fully_periodic = false /\ ~ (0 <= fst (fst (np_pos p)) <= sp_x_max P).

(** Fluid steps with one particle substep each; the fluid's mass changes by timestep * n_to_SI * total density source. *)
Inductive sol_history (E : senv) (dt : R) (s0 : psys) (M0 : R) : psys -> R -> Prop :=
| sh_start : sol_history E dt s0 M0 s0 M0
| sh_step : forall s M F fuel src rho s', sol_history E dt s0 M0 s M -> fields_ok F ->
    pre_integrate E F fuel (ps_time s) dt 1 s = Some (src, s') -> fs_rho src = Some rho ->
    sol_history E dt s0 M0 s' (M + dt * sp_n_to_SI (se_P E) * rho).

(** The simulated domain: [0, x_max] x [0, y_max] turned by theta about the origin. *)
Definition in_domain (P : sparams) (y_max : R) (p : npart) : Prop :=
  let '(x, y, _) := np_pos p in
  0 <= x * cos (sp_theta P) + y * sin (sp_theta P) <= sp_x_max P /\ 0 <= y * cos (sp_theta P) - x * sin (sp_theta P) <= y_max.
(** Particles moved freely for [dt], x and y only. *)
Definition moved (dt : R) (p q : npart) : Prop :=
  fst (fst (np_pos q)) = fst (fst (np_pos p)) + dt * fst (fst (np_vel p)) /\ snd (fst (np_pos q)) = snd (fst (np_pos p)) + dt * snd (fst (np_vel p)) /\
  np_vel q = np_vel p /\ np_id q = np_id p /\ np_w q = np_w p.
(** Position [x] after time [d] at velocity [v]. *)
Definition drift3 (d : R) (v x : R * R * R) : R * R * R := let '(a, b, c) := x in let '(u, w, z) := v in (a + d * u, b + d * w, c + d * z).
