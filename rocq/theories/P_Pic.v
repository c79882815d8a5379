(** Properties C50, C58-C62 of the Electrostatic2D3V solver. *)
From Verif Require Import M_Pic S_Pic L_Coord L_Pic.

(** ** C50: the Boris push *)
(** For every particle of non-zero mass the push is defined and its new velocity is the one and only solution of the
    time-centred Lorentz force equation; the position advances by dt times the new velocity (x, y). *)
Theorem C50_boris_solves_lorentz : forall dt B coef p, cp_M p <> 0 ->
  exists p', boris_kernel dt B coef p = Some p' /\
  (forall W, lorentz_step dt B coef (cp_M p) (cp_Q p) (cp_E p) (cp_V p) W <-> W = cp_V p') /\
  cp_P p' = add2 (cp_P p) (scal2 dt (xy (cp_V p'))) /\
  cp_E p' = cp_E p /\ cp_Q p' = cp_Q p /\ cp_M p' = cp_M p.
Proof.
  intros dt B coef p Hm. destruct (boris_some dt B coef p Hm) as [p' H]. exists p'. split; auto.
  destruct (boris_eq _ _ _ _ _ H) as (_ & HL & R). split; auto. intros W. split; [intros HW; eapply lorentz_unique; eauto|intros ->; auto].
Qed.
Print Assumptions C50_boris_solves_lorentz.
(** With zero electric field: speed and component along B are unchanged, for every number of steps of every size. *)
Theorem C50_speed_and_parallel_preserved : forall dt B coef n p, cp_M p <> 0 -> cp_E p = (0, 0) ->
  exists p', steps n (boris_kernel dt B coef) p = Some p' /\
  speed2 (cp_V p') = speed2 (cp_V p) /\ dot3 B (cp_V p') = dot3 B (cp_V p).
Proof. intros; apply boris_steps; auto. Qed.
(** With zero magnetic field: the plain electric kick. *)
Theorem C50_no_B_is_kick : forall dt coef p p', boris_kernel dt (0, 0, 0) coef p = Some p' ->
  cp_V p' = add3 (cp_V p) (scal3 (- (dt * cp_Q p / cp_M p * coef)) (up (cp_E p))).
Proof. intros dt coef p p' H. destruct (boris_eq _ _ _ _ _ H) as (Hm & HL & _). eapply lorentz_no_B; eauto. Qed.
(** Kinetic energy changes exactly by the work of the electric field. *)
Theorem C50_work_energy : forall dt B coef p p', boris_kernel dt B coef p = Some p' ->
  true_kinetic p' - true_kinetic p = dt * cp_Q p * dot3 (scal3 (- coef) (up (cp_E p))) (scal3 (1/2) (add3 (cp_V p) (cp_V p'))).
Proof.
  intros dt B coef p p' H. destruct (boris_eq _ _ _ _ _ H) as (Hm & HL & _ & _ & _ & HM). unfold true_kinetic. rewrite HM.
  eapply lorentz_work; eauto.
Qed.
(** Time reversal: pushing back with -dt in the same field restores the velocity. *)
Theorem C50_reversible : forall dt B coef p p', boris_kernel dt B coef p = Some p' ->
  exists p'', boris_kernel (- dt) B coef p' = Some p'' /\ cp_V p'' = cp_V p.
Proof. exact boris_reverse. Qed.
Theorem C50_zero_mass_not_finite : forall dt B coef p, cp_M p = 0 -> boris_kernel dt B coef p = None.
Proof. exact boris_none. Qed.
(** The specification's cross product is orthogonal to both factors and right handed. *)
Theorem C50_cross_product : forall a b, dot3 (cross3 a b) a = 0 /\ dot3 (cross3 a b) b = 0 /\ cross3 (1,0,0) (0,1,0) = (0,0,1).
Proof. exact cross3_ok. Qed.
(** Non-vacuity: a gyrating electron. Half a turn with tan(theta/2) = t = 1: 90 degrees. *)
Example C50_not_vacuous : exists p', boris_kernel 2 (0, 0, 1) 1 {| cp_P := (0, 0); cp_V := (1, 0, 3); cp_E := (0, 0); cp_Q := 1; cp_M := 1 |} = Some p' /\
  cp_V p' = (0, -1, 3) /\ cp_P p' = (0, -2).
Proof.
  unfold boris_kernel. cbn [cp_Q cp_M cp_V cp_E cp_P]. rewrite rdiv_ok by lra. cbv zeta. rewrite rdiv_ok by lra.
  eexists. split; [reflexivity|]. cbn [cp_V cp_P cross_macro]. split; [apply triple_eq; repeat split; field|apply pair_eq; split; field].
Qed.

(** ** C58: velocity Verlet *)
(** One time step of the main loop with integrator type 0, in the gradient [g] of the potential after the solve: with
    a the acceleration at the old and a' at the new position, P' = P + dt V + dt^2/2 a (with boundary conditions
    applied), V' = V + dt/2 (a + a') in x and y, V_z kept. *)
Theorem C58_velocity_verlet : forall dt B coef bc g p, cp_M p <> 0 -> cp_E p = g (cp_P p) ->
  exists p', time_step 0 dt B coef bc g p = Some p' /\
  cp_P p' = bc (add2 (cp_P p) (add2 (scal2 dt (xy (cp_V p))) (scal2 (dt * dt / 2) (accel coef (cp_M p) (cp_Q p) g (cp_P p))))) /\
  xy (cp_V p') = add2 (xy (cp_V p)) (scal2 (dt / 2) (add2 (accel coef (cp_M p) (cp_Q p) g (cp_P p)) (accel coef (cp_M p) (cp_Q p) g (cp_P p')))) /\
  snd (cp_V p') = snd (cp_V p) /\ cp_E p' = g (cp_P p') /\ cp_Q p' = cp_Q p /\ cp_M p' = cp_M p.
Proof. intros dt B coef bc g p Hm He. unfold accel at 1 2. rewrite <- He. apply vv_step; auto. Qed.
Print Assumptions C58_velocity_verlet.
(** Time reversal, on a periodic domain: the step with -dt restores the velocity, and the position up to periods. *)
Theorem C58_reversible : forall dt B coef bc g Lx Ly p p',
  (forall x, same_site Lx Ly (bc x) x) -> (forall x y, same_site Lx Ly x y -> g x = g y) ->
  cp_E p = g (cp_P p) -> time_step 0 dt B coef bc g p = Some p' ->
  exists p'', time_step 0 (- dt) B coef bc g p' = Some p'' /\ cp_V p'' = cp_V p /\ same_site Lx Ly (cp_P p'') (cp_P p).
Proof. exact vv_reverse. Qed.
(** Two steps away from the boundary: Stormer's rule P2 - 2 P1 + P0 = dt^2 a(P1). *)
Theorem C58_stormer : forall dt B coef g p p1 p2, cp_E p = g (cp_P p) ->
  time_step 0 dt B coef (fun x => x) g p = Some p1 -> time_step 0 dt B coef (fun x => x) g p1 = Some p2 ->
  add2 (sub2 (cp_P p2) (scal2 2 (cp_P p1))) (cp_P p) = scal2 (dt * dt) (accel coef (cp_M p) (cp_Q p) g (cp_P p1)).
Proof. exact vv_stormer. Qed.
(** Every other integrator type is the Boris push in the gradient at the old position, then the boundary condition. *)
Theorem C58_other_types_are_boris : forall itype dt B coef bc g p, itype <> 0%Z -> cp_M p <> 0 ->
  exists p', time_step itype dt B coef bc g p = Some p' /\
  lorentz_step dt B coef (cp_M p) (cp_Q p) (g (cp_P p)) (cp_V p) (cp_V p') /\
  cp_P p' = bc (add2 (cp_P p) (scal2 dt (xy (cp_V p')))).
Proof.
  intros itype dt B coef bc g p Ht Hm. unfold time_step. rewrite (proj2 (Z.eqb_neq _ _) Ht).
  destruct (boris_some dt B coef (set_field g p) Hm) as [p' H]. rewrite H. eexists. split; [reflexivity|].
  destruct (boris_eq _ _ _ _ _ H) as (_ & HL & HP & _). cbn [transfer cp_V cp_P]. rewrite HP. auto.
Qed.
(** Non-vacuity: a periodic domain with periodic gradient and a boundary condition that moves something. *)
Example C58_not_vacuous : exists bc g, (forall x, same_site 1 1 (bc x) x) /\ (forall x y, same_site 1 1 x y -> g x = g y) /\
  bc (3/2, 0) = (1/2, 0) /\ g (0, 0) <> (0, 0) /\
  exists p', time_step 0 1 (0, 0, 0) 1 bc g {| cp_P := (0, 0); cp_V := (2, 0, 0); cp_E := g (0, 0); cp_Q := 1; cp_M := 1 |} = Some p' /\ cp_P p' = (1/2, 0).
Proof.
  set (bc := fun x : v2 => if Rle_bool 1 (fst x) then (fst x - 1, snd x) else x).
  exists bc, (fun _ => (1, 0)).
  assert (Hb : bc (3/2, 0) = (1/2, 0)).
  { unfold bc. cbn [fst snd]. rewrite Rle_bool_true by lra. apply pair_eq. split; lra. }
  split; [|split; [auto|split; [exact Hb|split; [intros Q; injection Q; lra|]]]].
  - intros [x y]. unfold bc. cbn [fst snd]. destruct (Rle_bool 1 x); [exists (-1)%Z, 0%Z|exists 0%Z, 0%Z]; cbn [fst snd]; split; lra.
  - destruct (C58_velocity_verlet 1 (0,0,0) 1 bc (fun _ => (1, 0)) {| cp_P := (0, 0); cp_V := (2, 0, 0); cp_E := (1, 0); cp_Q := 1; cp_M := 1 |}) as (p' & H & HP & _); [cbn; lra|reflexivity|].
    exists p'. split; [exact H|]. rewrite HP. rewrite <- Hb. f_equal. unfold add2, scal2, accel, xy, scal2. cbn [cp_P cp_V cp_M cp_Q fst snd].
    apply pair_eq. split; field.
Qed.

(** ** C59: charge normalisation *)
(** The computational particles, weighted, represent number_density * volume physical particles and, weighted and
    charged, charge_density * volume of charge - whichever of the parameters was given. *)
Theorem C59_charges_consistent : forall c s, set_charges c = Some s -> cc_volume c <> 0 ->
  ch_num s = num_particles c /\
  ch_weight s * IZR (ch_num s) = ch_density s * cc_volume c /\
  (forall rho, cc_charge_density c = Some rho -> ch_weight s * IZR (ch_num s) * ch_charge s = rho * cc_volume c) /\
  (forall rho, ch_charge_density s = Some rho -> ch_weight s * IZR (ch_num s) * ch_charge s = rho * cc_volume c) /\
  (ch_charge_density s = None <-> cc_charge_density c = None /\ cc_charge c = None).
Proof. exact charges_ok. Qed.
Print Assumptions C59_charges_consistent.
Theorem C59_charges_finite : forall c, (0 < num_particles c)%Z -> cc_volume c <> 0 -> cc_density c <> 0 -> exists s, set_charges c = Some s.
Proof. exact charges_finite. Qed.
(** What is taken from the session: a negative number density means weight 1; a given charge is kept, and is 1 when neither
    charge parameter is given. *)
Theorem C59_session_values : forall c s, set_charges c = Some s ->
  (cc_density c < 0 -> ch_weight s = 1) /\ (0 <= cc_density c -> ch_density s = cc_density c) /\
  (forall q, cc_charge_density c = None -> cc_charge c = Some q -> ch_charge s = q) /\
  (cc_charge_density c = None -> cc_charge c = None -> ch_charge s = 1).
Proof. exact charges_session. Qed.
Print Assumptions C59_session_values.
(** A requested total overrides the number per cell. *)
Theorem C59_num_particles : forall c, ((0 <= cc_total c)%Z -> num_particles c = cc_total c) /\
  ((cc_total c < 0)%Z -> num_particles c = (cc_elements c * cc_per_cell c)%Z).
Proof. intros c. unfold num_particles. split; intros H; [rewrite (proj2 (Z.ltb_lt _ _)) by lia|rewrite (proj2 (Z.ltb_ge _ _)) by lia]; auto. Qed.
(** Not an error: a session that gives neither charge parameter leaves the charge density uninitialised. *)
Theorem C59_charge_density_set_refuted : exists c s, (0 < num_particles c)%Z /\ 0 < cc_volume c /\ 0 < cc_density c /\
  set_charges c = Some s /\ ch_charge_density s = None.
Proof.
  exists {| cc_per_cell := 1; cc_elements := 1; cc_total := -1; cc_volume := 1; cc_density := 1; cc_charge_density := None; cc_charge := None |}.
  eexists. cbn [cc_volume cc_density]. split; [reflexivity|]. split; [lra|]. split; [lra|]. unfold set_charges. cbn [cc_volume cc_density cc_charge cc_charge_density].
  rewrite Rlt_bool_false by lra. change (IZR (num_particles _)) with 1. rewrite rdiv_ok by lra. split; reflexivity.
Qed.
Example C59_not_vacuous : exists c s, set_charges c = Some s /\ cc_volume c <> 0 /\ ch_charge_density s = Some 2.
Proof.
  exists {| cc_per_cell := 10; cc_elements := 4; cc_total := -1; cc_volume := 3; cc_density := -1; cc_charge_density := Some 2; cc_charge := None |}.
  destruct (C59_charges_finite {| cc_per_cell := 10; cc_elements := 4; cc_total := -1; cc_volume := 3; cc_density := -1; cc_charge_density := Some 2; cc_charge := None |}) as [s H]; [reflexivity|cbn; lra|cbn; lra|].
  exists s. split; [exact H|]. split; [cbn; lra|]. unfold set_charges in H. cbn [cc_volume cc_density cc_charge cc_charge_density] in H.
  rewrite Rlt_bool_true, rdiv_ok in H by lra. destruct (rdiv _ _) in H; [|discriminate]. injection H as <-. reflexivity.
Qed.

(** ** C60: the neutralising background *)
(** Hypothesis of both: the forward/backward transform of the constant -1 keeps its integral (the constant lies in the
    function space; the constructor checks it to 1e-6). Then the neutrality assertion never fails, the right hand side
    of the solve has integral zero and equals - weight * (projected charge - its mean), up to that transform. *)
Theorem C60_neutral_rhs : forall F w proj, volume F <> 0 -> integral F (ncd_phys F) = integral F (fun _ => -1) ->
  exists st, compute_field F w proj = CFields st /\ integral F (ff_phys st) = 0 /\
   (forall i, ff_phys st i = - w * (f_bwd F proj i + (integral F (f_bwd F proj) / volume F) * ncd_phys F i)) /\
   fu_coeffs st = f_helm F (ff_phys st) /\ fu_phys st = f_bwd F (fu_coeffs st).
Proof. intros F w proj Hv Hn. destruct (compute_field_ok F w proj Hv Hn) as (st & H1 & H2 & H3 & H4 & H5 & _). exists st. auto. Qed.
Print Assumptions C60_neutral_rhs.
(** After the call the forcing's coefficients do not describe the forcing: they are all - weight, whatever was
    projected (line 111 assigns where the line for the quadrature values multiplies). *)
Theorem C60_forcing_coefficients_refuted :
  (forall F w proj st, compute_field F w proj = CFields st -> forall i, ff_coeffs st i = - w) /\
  exists F w proj st, (forall a b i, f_bwd F (fun j => a j + b j) i = f_bwd F a i + f_bwd F b i) /\
    volume F <> 0 /\ integral F (ncd_phys F) = integral F (fun _ => -1) /\ 0 < w /\
    compute_field F w proj = CFields st /\ f_bwd F (ff_coeffs st) O <> ff_phys st O.
Proof.
  split.
  - intros F w proj st H i. unfold compute_field in H. destruct (add_neutralising _ _ _) as [s| |]; [|discriminate..].
    injection H as <-. reflexivity.
  - set (F := {| f_points := 1; f_coeffs := 1; f_wq := fun _ => 1; f_bwd := fun c => c; f_fwd := fun c => c; f_helm := fun c => c |}).
    assert (Hv : volume F <> 0) by (unfold volume, integral; cbn; lra).
    destruct (compute_field_ok F 1 (fun _ => 1) Hv eq_refl) as (st & H1 & H2 & H3 & _ & _ & H6).
    exists F, 1, (fun _ => 1), st. split; [reflexivity|]. split; auto. split; [reflexivity|]. split; [lra|]. split; auto.
    change (f_bwd F (ff_coeffs st) O) with (ff_coeffs st O). rewrite H6. unfold integral in H2. cbn in H2. lra.
Qed.
Example C60_not_vacuous : exists F, f_points F = 2%nat /\ volume F = 3 /\ integral F (ncd_phys F) = integral F (fun _ => -1).
Proof.
  exists {| f_points := 2; f_coeffs := 2; f_wq := fun i => if Nat.eqb i 0 then 1 else 2; f_bwd := fun c => c; f_fwd := fun c => c; f_helm := fun c => c |}.
  split; [reflexivity|]. split; [|reflexivity]. unfold volume, integral. cbn. lra.
Qed.

(** ** C61: energy diagnostics *)
(** The kinetic energy diagnostic is the sum of m V^2 / 2 over all particles of all ranks if every particle has the
    mass given to it. *)
Theorem C61_kinetic_energy : forall m grp, (forall rk p, In rk grp -> In p rk -> cp_M p = m) -> kinetic_energy m grp = total true_kinetic grp.
Proof. exact kinetic_ok. Qed.
(** What the solver reports is right when every particle has mass 1. *)
Theorem C61_solver_kinetic_energy_partial : forall grp, (forall rk p, In rk grp -> In p rk -> cp_M p = 1) ->
  solver_kinetic_energy grp = total true_kinetic grp.
Proof. intros grp H. exact (kinetic_ok 1 grp H). Qed.
(** The solver always gives mass 1, also for the initial distribution whose heavy species has mass 10^6: there the
    reported value is not the kinetic energy. *)
Theorem C61_two_mass_kinetic_energy_refuted : exists grp,
  (forall rk p, In rk grp -> In p rk -> exists coin, (cp_M p, cp_Q p) = initial_MQ 3 1 coin) /\
  solver_kinetic_energy grp <> total true_kinetic grp.
Proof.
  exists [[{| cp_P := (0, 0); cp_V := (1, 0, 0); cp_E := (0, 0); cp_Q := 1; cp_M := 1000000 |}]]. split.
  - intros rk p [<-|[]] [<-|[]]. exists true. cbn. apply pair_eq. split; lra.
  - unfold solver_kinetic_energy, kinetic_energy, total, true_kinetic, global_sum. cbn. lra.
Qed.
(** Masses and charges of the other initial distributions: one species of mass 1. *)
Theorem C61_one_species : forall d charge coin, d <> 3%Z -> initial_MQ d charge coin = (1, charge).
Proof. intros d charge coin H. unfold initial_MQ. rewrite (proj2 (Z.eqb_neq _ _) H). reflexivity. Qed.
(** The distribution 3 has a species of mass 10^6 and one of mass 1 with the opposite charge. *)
Theorem C61_two_species : forall charge coin, initial_MQ 3 charge coin = if coin then (1000000, charge) else (1, - charge).
Proof. intros charge [|]; unfold initial_MQ; cbn [Z.eqb Pos.eqb]; apply pair_eq; split; lra. Qed.
(** Adding a constant to the potential (which the Poisson problem does not determine) changes neither the field energy
    nor the potential energy. *)
Theorem C61_gauge_invariant : forall F phys phi grp c,
  field_energy F (fun i => phys i + c) = field_energy F phys /\
  potential_energy F (fun i => phys i + c) (fun p => phi p + c) grp = potential_energy F phys phi grp.
Proof. intros. split; [apply field_energy_gauge|apply potential_energy_gauge]. Qed.
Theorem C61_field_energy_nonneg : forall F phys e, (forall i, (i < f_points F)%nat -> 0 <= f_wq F i) -> field_energy F phys = Some e -> 0 <= e.
Proof. exact energy_nonneg. Qed.
Theorem C61_shifted_mean_zero : forall F phys mu, field_mean F phys = Some mu -> integral F (fun i => phys i - mu) = 0.
Proof. exact mean_zero. Qed.
(** The potential energy is half the sum of charge times (mean-shifted) potential. *)
Theorem C61_potential_energy : forall F phys phi grp mu, field_mean F phys = Some mu ->
  potential_energy F phys phi grp = Some (1/2 * total (fun p => cp_Q p * (phi p - mu)) grp).
Proof. intros F phys phi grp mu H. unfold potential_energy. rewrite H, global_sum_total, Rmult_comm. reflexivity. Qed.
(** Both energies are undefined exactly when the mesh volume is zero. *)
Theorem C61_energies_defined : forall F phys phi grp,
  (field_energy F phys = None <-> integral F (fun _ => 1) = 0) /\ (potential_energy F phys phi grp = None <-> integral F (fun _ => 1) = 0).
Proof. exact energies_defined. Qed.
(** The diagnostics of a Boris-pushed system: with E = 0 the total kinetic energy is the same after any number of
    steps, over all ranks. *)
Theorem C61_boris_conserves_total : forall dt B coef n grp grp',
  (forall rk p, In rk grp -> In p rk -> cp_M p = 1 /\ cp_E p = (0, 0)) ->
  Forall2 (Forall2 (fun p p' => steps n (boris_kernel dt B coef) p = Some p')) grp grp' ->
  solver_kinetic_energy grp' = solver_kinetic_energy grp.
Proof.
  intros dt B coef n grp grp' H F. unfold solver_kinetic_energy, kinetic_energy. rewrite !global_sum_total. unfold total.
  assert (G : Forall2 (fun p p' => steps n (boris_kernel dt B coef) p = Some p') (concat grp) (concat grp')).
  { clear H. induction F; cbn; auto. apply Forall2_app; auto. }
  assert (K : forall p, In p (concat grp) -> cp_M p = 1 /\ cp_E p = (0, 0)).
  { intros p Hp. apply in_concat in Hp as (rk & H1 & H2). eauto. }
  clear F H. induction G as [|p p' l l' Hp _ IH]; cbn [fold_right]; auto.
  rewrite IH by (intros; apply K; right; auto). f_equal.
  destruct (K p) as [K1 K2]; [left; auto|]. destruct (boris_steps dt B coef n p) as (q & Hq & Hs & _); [rewrite K1; lra|auto|].
  rewrite Hp in Hq. injection Hq as <-. unfold speed2, dot3 in Hs.
  destruct (cp_V p) as [[? ?] ?], (cp_V p') as [[? ?] ?]. lra.
Qed.
Print Assumptions C61_boris_conserves_total.
Example C61_not_vacuous : exists F phys, field_mean F phys = Some 2 /\ field_energy F phys = Some 2.
Proof.
  exists {| f_points := 2; f_coeffs := 2; f_wq := fun i => 1; f_bwd := fun c => c; f_fwd := fun c => c; f_helm := fun c => c |}, (fun i => if Nat.eqb i 0 then 1 else 3).
  unfold field_energy, field_mean, integral. cbn. rewrite rdiv_ok by lra. split; f_equal; lra.
Qed.

(** ** C62: choice of the integrator *)
(** Setting up the two-stream solver always succeeds: the type is the one requested, else Boris if some component of B
    is given, else velocity Verlet; absent B components are 0 and the rescaling of E is 1. *)
Theorem C62_integrator_choice : forall c, exists t B coef, driver_setup c = DriverOk t B coef /\
  t = orelse (if match dc_Bx c, dc_By c, dc_Bz c with None, None, None => true | _, _, _ => false end then 0%Z else 1%Z) (dc_type c) /\
  B = (orelse 0 (dc_Bx c), orelse 0 (dc_By c), orelse 0 (dc_Bz c)) /\ coef = orelse 1 (dc_rescale c).
Proof. exact driver_ok. Qed.
(** The check "Bad particle integrator type." never fires: a type other than 0 and 1 is accepted and runs as Boris. *)
Theorem C62_bad_type_rejected_refuted : exists c t B coef, driver_setup c = DriverOk t B coef /\ t <> 0%Z /\ t <> 1%Z /\
  forall dt bc g p, time_step t dt B coef bc g p = time_step 1 dt B coef bc g p.
Proof.
  exists {| dc_Bx := None; dc_By := None; dc_Bz := None; dc_type := Some 7%Z; dc_rescale := None |}, 7%Z, (0, 0, 0), 1. split; [reflexivity|].
  split; [lia|]. split; [lia|]. reflexivity.
Qed.
Print Assumptions C62_integrator_choice.
