(** Specification of the DriftReduced neutral particles. *)
From Verif Require Export M_Neutral S_Sol.
Open Scope R_scope.

(** get_decomp_1d splits n items into consecutive blocks, one per rank. *)
Definition decomp_ok (dec : nat -> Z -> nat -> Z * Z) : Prop := forall size n, (0 < size)%nat -> (0 <= n)%Z ->
  fst (dec size n 0%nat) = 0%Z /\ snd (dec size n (size - 1)%nat) = n /\
  (forall r, (r < size)%nat -> (fst (dec size n r) <= snd (dec size n r))%Z) /\
  (forall r, (S r < size)%nat -> fst (dec size n (S r)) = snd (dec size n r)).
Definition draw_ok (E : drenv) : Prop := forall call rank n, (0 <= n)%Z -> length (de_draw E call rank n) = Z.to_nat n.
Definition env_ok (E : drenv) : Prop := (0 < de_size E)%nat /\ decomp_ok (de_dec E) /\ draw_ok E /\ (0 <= de_num E)%Z.
Definition phys_ok (E : drenv) (nf : R * R * R -> R) : Prop :=
  0 < sp_n_to_SI (de_P E) /\ 0 < sp_t_to_SI (de_P E) /\ 0 <= sp_weight (de_P E) /\ 0 < de_TeV E /\
  forall x, 0 <= de_nbg E + nf x * sp_n_to_SI (de_P E).
Definition pid (p : npart) : Z := fst (np_id p).
Definition no_particles : psys := {| ps_time := 0; ps_calls := 0; ps_added := 0; ps_parts := [] |}.

(** Any sequence of fluid steps (of any lengths and numbers of substeps, with any density fields) from an empty system. *)
Inductive dr_run (E : drenv) : psys -> Prop :=
| dr_start : dr_run E no_particles
| dr_step : forall s nf fuel t dt k src s', dr_run E s -> phys_ok E nf -> 0 < dt -> (0 < k)%Z ->
    dr_pre E nf fuel t dt k s = Some (src, s') -> dr_run E s'.
(** Fluid steps of length [dt] with one particle substep each; the fluid's mass changes by dt * n_to_SI * total source. *)
Inductive dr_history (E : drenv) (dt : R) (M0 : R) : psys -> R -> Prop :=
| dh_start : dr_history E dt M0 no_particles M0
| dh_step : forall s M nf fuel rho s', dr_history E dt M0 s M -> phys_ok E nf ->
    dr_pre E nf fuel (ps_time s) dt 1 s = Some (Some rho, s') ->
    dr_history E dt M0 s' (M + dt * sp_n_to_SI (de_P E) * rho).
