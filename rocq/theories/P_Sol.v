(** C67-C71: the neutral particles of the SimpleSOL and DriftReduced solvers. *)
From Verif Require Import M_Sol S_Sol L_RealBase L_Coord L_Sol L_Sol2 L_Sol3 L_Sol4 L_Sol5 L_Sol6 L_Expint.
From Coq Require Import Lra Lia Psatz List.
Import ListNotations.

(** C67: integrate(time_end, dt) makes substeps of at most dt that exactly cover the interval, the last one being the rest. *)
Theorem C67_substeps_cover : forall E F time_end dt s fuel, 0 < dt -> ps_time s < time_end -> (length (step_sizes (ps_time s) time_end dt) < fuel)%nat ->
  rsum_list (step_sizes (ps_time s) time_end dt) = time_end - ps_time s /\ Forall (fun d => 0 < d <= dt) (step_sizes (ps_time s) time_end dt) /\
  integrate_sol E F fuel time_end dt s =
  match run_steps (substep_sol E F dt) (step_sizes (ps_time s) time_end dt) s with None => IUB | Some s' => IOk (at_time time_end s') end.
Proof.
  intros E F time_end dt s fuel H1 H2 H3. destruct (sizes_spec (ps_time s) time_end dt H1 H2) as [A B]. split; [exact A|]. split; [exact B|]. exact (integrate_run E F time_end dt s fuel H1 H2 H3).
Qed.
Theorem C67_edges : forall E F fuel time_end dt s,
  (time_end < ps_time s -> integrate_sol E F fuel time_end dt s = IAssert) /\
  (time_end = ps_time s -> integrate_sol E F fuel time_end dt s = IOk s) /\
  (ps_time s < time_end -> dt <= 0 -> forall s', integrate_sol E F fuel time_end dt s <> IOk s').
Proof. exact integrate_edges. Qed.
Example C67_sizes : step_sizes 0 1 (4/10) = [4/10; 4/10; 2/10].
Proof.
  unfold step_sizes, full_steps. replace (Zceil ((1 - 0) / (4 / 10))) with 3%Z; [change (Z.to_nat (3 - 1)) with 2%nat; cbn [repeat app]; f_equal; f_equal; f_equal; cbn [INR]; lra|]. symmetry. apply Zceil_imp. simpl. lra.
Qed.

(** Free flight: over any sequence of steps a particle moves by the total time times its velocity (in SimpleSOL in the plane only); nothing else of it changes. *)
Theorem C67_streaming : forall ds p,
  (let q := fold_left (fun p d => euler_dr d p) ds p in
   np_pos q = drift3 (rsum_list ds) (np_vel p) (np_pos p) /\ np_vel q = np_vel p /\ np_id q = np_id p /\ np_w q = np_w p /\ np_sd q = np_sd p /\ np_sm q = np_sm p /\ np_se q = np_se p) /\
  (let q := fold_left (fun p d => euler_sol d p) ds p in
   fst (np_pos q) = fst (drift3 (rsum_list ds) (np_vel p) (np_pos p)) /\ snd (np_pos q) = snd (np_pos p) /\ np_vel q = np_vel p /\ np_id q = np_id p /\ np_w q = np_w p /\ np_sd q = np_sd p /\ np_sm q = np_sm p /\ np_se q = np_se p).
Proof. intros ds p. split; [apply stream_dr|apply stream_sol]. Qed.

(** C68: what one ionisation does to one particle. *)
Theorem C68_ionise_simplesol : forall P n T dt p w, params_ok P -> 0 < T -> 0 <= n -> 0 < dt -> np_w p = Some w -> 0 <= w ->
  exists r, ion_rate (T * sp_T_to_eV P) = Some r /\ 0 < r /\
  let w' := Rmax 0 (w * (1 - r * (dt * sp_t_to_SI P) * (n * sp_n_to_SI P))) in
  let v_s := fst (fst (np_vel p)) * cos (sp_theta P) + snd (fst (np_vel p)) * sin (sp_theta P) in
  let p' := ionise_sol P n T dt p in
  np_w p' = Some w' /\ (exists sd, np_sd p' = Some sd /\ sd * dt * sp_n_to_SI P = w - w' /\
     np_sm p' = (Some (sd * v_s * cos (sp_theta P)), Some (sd * v_s * sin (sp_theta P))) /\ np_se p' = Some (sd * v_s * v_s * (1/2))) /\
  np_pos p' = np_pos p /\ np_vel p' = np_vel p /\ snd (np_id p') = snd (np_id p) /\
  (w' = 0 -> fst (np_id p') = particle_remove_key) /\ (0 < w' -> fst (np_id p') = fst (np_id p)).
Proof. exact ionise_sol_spec. Qed.
Theorem C68_ionise_driftreduced : forall P TeV nbg n dt p w, 0 < sp_n_to_SI P -> 0 < sp_t_to_SI P -> 0 < TeV -> 0 <= nbg + n * sp_n_to_SI P -> 0 < dt -> np_w p = Some w -> 0 <= w ->
  exists r, ion_rate TeV = Some r /\ 0 < r /\
  let w' := Rmax 0 (w * (1 - r * (dt * sp_t_to_SI P) * (nbg + n * sp_n_to_SI P))) in
  let p' := ionise_dr P TeV nbg n dt p in
  np_w p' = Some w' /\ (exists sd, np_sd p' = Some sd /\ sd * dt * sp_n_to_SI P = w - w') /\
  np_pos p' = np_pos p /\ np_vel p' = np_vel p /\ snd (np_id p') = snd (np_id p) /\
  (w' = 0 -> fst (np_id p') = particle_remove_key) /\ (0 < w' -> fst (np_id p') = fst (np_id p)).
Proof. exact ionise_dr_spec. Qed.
(** The approximated exponential integral and hence the rate are defined and positive exactly for positive arguments. *)
Theorem C68_rate : forall x, (0 < x -> exists e, expint_barry_approx x = Some e /\ 0 < e) /\ (x <= 0 -> expint_barry_approx x = None) /\
  (0 < x -> exists r, ion_rate x = Some r /\ 0 < r) /\ (x <= 0 -> ion_rate x = None).
Proof. intros x. split; [apply expint_pos|]. split; [apply expint_nonpos|]. split; [apply rate_pos|apply rate_nonpos]. Qed.
(** The rate: 67e6 * 4e-14 * 1e-6 T^(-3/2) (E(x)/x + b e^c E(x+c)/(x+c)) with x = 13.6/T, b = 0.6, c = 0.56, and E the approximation. *)
Theorem C68_rate_formula : forall T, 0 < T -> exists e0 e1, expint_barry_approx (136 / 10 / T) = Some e0 /\ expint_barry_approx (136 / 10 / T + 56 / 100) = Some e1 /\
  ion_rate T = Some (268 / 10 ^ 14 / (T * sqrt T) * (e0 / (136 / 10 / T) + 6 / 10 * exp (56 / 100) / (136 / 10 / T + 56 / 100) * e1)).
Proof. exact rate_value. Qed.
(** The approximation has the asymptotics of the exponential integral E1: - gamma - ln x at 0 ... *)
Theorem C68_expint_small : forall x, 0 < x <= 1 / 40 -> exists e, expint_barry_approx x = Some e /\ Rabs (e - (- 5772156649015329 / 10 ^ 16 - ln x)) <= 60 * sqrt x.
Proof.
  intros x Hx. eexists. split; [apply expint_value; lra|]. pose proof (small_bound x Hx) as H. unfold gamma_Euler_Mascheroni in H. replace (barry_E x - (-5772156649015329 / 10 ^ 16 - ln x)) with (barry_E x + ln x + IZR 5772156649015329 / 10 ^ 16) by lra. exact H.
Qed.
(** ... and e^(-x)/x (1 - 1/x + 2/x^2 + O(1/x^3)) at infinity. *)
Theorem C68_expint_large : exists C, forall x, 1 <= x -> exists e, expint_barry_approx x = Some e /\ Rabs (x * exp x * e - (1 - 1 / x + 2 / x ^ 2)) <= C / x ^ 3.
Proof. destruct large_expand as (C & _ & H). exists C. intros x Hx. eexists. split; [apply expint_value; lra|]. exact (H x Hx). Qed.
(** Where the fluid temperature is not positive the weight and the sources become NaN and the particle stays. *)
Theorem C68_cold_fluid_refuted : forall P n T dt p w, T * sp_T_to_eV P <= 0 -> np_w p = Some w ->
  let p' := ionise_sol P n T dt p in np_w p' = None /\ np_sd p' = None /\ np_id p' = np_id p.
Proof. exact ionise_sol_nan. Qed.
Example C68_case : params_ok (wP 0) /\ 0 < sf_T (wF 1) (np_pos wp) /\ 0 <= sf_n (wF 1) (np_pos wp) /\ np_w wp = Some 1 /\ 0 <= 1.
Proof. unfold params_ok, wP, wF, wp. cbn. repeat split; lra. Qed.

(** C69: with one particle substep per fluid step, the weight the particles have or bring in is the weight they keep,
    plus what leaves through the walls, plus what the fluid's density source receives over the step. *)
Theorem C69_mass_balance : forall E F fuel dt s src s', params_ok (se_P E) -> fields_ok F -> 0 < dt -> good_state s ->
  pre_integrate E F fuel (ps_time s) dt 1 s = Some (src, s') ->
  exists new rho moved_parts gone, fs_rho src = Some rho /\ ps_added s' = (ps_added s + Z.of_nat (length new))%Z /\ ps_time s' = ps_time s + dt /\ good_state s' /\
    (forall p, In p new -> np_w p = Some (sp_weight (se_P E))) /\
    Forall2 (moved dt) (ps_parts s ++ new) moved_parts /\ (forall p, In p gone <-> In p moved_parts /\ left_domain (se_P E) (se_periodic E) p) /\
    total_weight (ps_parts s) + INR (length new) * sp_weight (se_P E) =
    total_weight (ps_parts s') + total_weight gone + dt * sp_n_to_SI (se_P E) * rho.
Proof. exact balance_step. Qed.
(** Over every history of such steps in a periodic domain the recorded relative error is exactly zero. *)
Theorem C69_recorded_error_zero : forall E dt s0 M0 s M, params_ok (se_P E) -> se_periodic E = true -> 0 < dt -> good_state s0 ->
  total_weight (ps_parts s0) = added_mass (se_P E) (ps_added s0) ->
  sol_history E dt s0 M0 s M -> added_mass (se_P E) (ps_added s) + M0 <> 0 -> mass_error (se_P E) M0 M s = Some 0.
Proof. exact history_error. Qed.
(** Such steps always complete. *)
Theorem C69_completes : forall E F dt s new, params_ok (se_P E) -> fields_ok F -> 0 < dt -> good_state s ->
  add_particles (se_P E) (se_num E) (se_lines E) 1 (se_draw E (ps_calls s)) = Some new ->
  exists src s', pre_integrate E F 2 (ps_time s) dt 1 s = Some (src, s').
Proof. exact pre_defined. Qed.
(** A step only completes with finite sources. *)
Theorem C69_finite : forall E F fuel t dt n s src s', pre_integrate E F fuel t dt n s = Some (src, s') ->
  exists rho rhou rhov e, fs_rho src = Some rho /\ fs_rhou src = Some rhou /\ fs_rhov src = Some rhov /\ fs_E src = Some e.
Proof.
  intros E F fuel t dt n s src s'. unfold pre_integrate. destruct (rdiv dt (IZR n)); cbn [bind]; [|discriminate]. destruct (integrate_sol _ _ _ _ _ _) as [| | |s1]; try discriminate.
  destruct (finite_source (project_source (ps_parts s1))) eqn:Ef; [|discriminate]. intros [= <- _]. unfold finite_source in Ef.
  destruct (fs_rho _), (fs_rhou _), (fs_rhov _), (fs_E _); try discriminate. eauto 10.
Qed.
(** The balance is written every mass_recording_step steps; never if that is not positive. *)
Theorem C69_recording : forall k step, (0 <= step)%Z -> recorded k step = true <-> (0 < k)%Z /\ exists m, step = (k * m)%Z.
Proof.
  intros k step Hs. unfold recorded. destruct (Z.ltb_spec 0 k) as [Hk|Hk]; [|split; [discriminate|lia]]. rewrite Z.eqb_eq. split.
  - intros H. split; [exact Hk|]. exists (Z.quot step k). pose proof (Z.quot_rem' step k). lia.
  - intros [_ [m ->]]. apply Z.rem_divide; [lia|]. exists m. lia.
Qed.
(** With two substeps per fluid step mass is lost: a particle of weight 1 disappears and the fluid receives nothing. *)
Theorem C69_two_substeps_refuted : exists F s', fields_ok F /\ params_ok (se_P wE) /\ good_state ws /\ ps_time ws = 0 /\
  pre_integrate wE F 3 0 1 2 ws = Some ({| fs_rho := Some 0; fs_rhou := Some 0; fs_rhov := Some 0; fs_E := Some 0 |}, s') /\
  total_weight (ps_parts ws) = 1 /\ ps_parts s' = [] /\ ps_added s' = ps_added ws.
Proof. exact two_substeps. Qed.
Example C69_case : params_ok (se_P wE) /\ fields_ok (wF 1) /\ good_state ws /\ total_weight (ps_parts ws) = added_mass (se_P wE) (ps_added ws) /\
  (exists src s', pre_integrate wE (wF 1) 2 (ps_time ws) 1 1 ws = Some (src, s')) /\ exists s M, s <> ws /\ sol_history wE 1 ws 0 s M.
Proof.
  assert (HP : params_ok (se_P wE)) by (unfold params_ok, wP; cbn; lra). assert (HF : fields_ok (wF 1)) by (intros x; cbn; lra).
  assert (Hg : good_state ws) by (intros p [<-|[]]; split; [exists 1; split; [reflexivity|lra]|cbn; lia]).
  assert (Hpre : exists src s', pre_integrate wE (wF 1) 2 (ps_time ws) 1 1 ws = Some (src, s')) by (apply (pre_defined wE (wF 1) 1 ws []); auto; [lra|apply wadd]).
  split; [exact HP|]. split; [exact HF|]. split; [exact Hg|]. split; [unfold total_weight, rsum_list, added_mass; cbn; lra|]. split; [exact Hpre|].
  destruct Hpre as (src & s' & Hpre). destruct (C69_mass_balance wE (wF 1) 2 1 ws src s' HP HF ltac:(lra) Hg Hpre) as (new & rho & mp & gone & Er & _ & Et & _).
  exists s'. eexists. split; [intros ->; cbn in Et; lra|]. eapply (sh_step wE 1 ws 0 ws 0 (wF 1) 2 src rho s'); auto. constructor.
Qed.

(** C70: after the boundary conditions exactly the particles with x in [0, x_max] that were not flagged remain (all of
    them in a fully periodic domain). *)
Theorem C70_walls : forall P per pbc l q, In q (transfer_sol P per pbc l) <->
  exists p, In p l /\ (per = false -> 0 <= fst (fst (np_pos p)) <= sp_x_max P /\ fst (np_id p) <> particle_remove_key) /\ q = periodic_bc pbc p.
Proof. exact transfer_kept. Qed.
(** The test ignores the rotation of the domain: at theta = pi/2 every particle inside the domain (off one wall) is removed. *)
Theorem C70_rotated_walls_refuted : forall P l, sp_theta P = PI / 2 ->
  forall y_max p, In p l -> in_domain P y_max p -> 0 < snd (fst (np_pos p)) -> fst (fst (np_pos p)) <> 0 -> ~ In p (wall_bc P l).
Proof. exact walls_rotated. Qed.
Example C70_case : let P := wP (PI / 2) in let p := mkNp (- (1/2), 55, 0) (0, 0, 0) (0%Z, 0%Z) (Some 1) (Some 0) (Some 0, Some 0) (Some 0) in
  in_domain P 1 p /\ 0 < snd (fst (np_pos p)) /\ fst (fst (np_pos p)) <> 0.
Proof. cbv zeta. unfold in_domain. cbn [np_pos sp_theta sp_x_max wP fst snd]. rewrite cos_PI2, sin_PI2. repeat split; lra. Qed.

(** C71: the particle source. *)
Theorem C71_count : forall P num lines prop draw new n, (0 < lines)%nat -> 0 <= prop -> (0 <= num)%Z ->
  per_line prop num lines = Some n -> add_particles P num lines prop draw = Some new -> (forall l, length (concat (draw l n)) = Z.to_nat n) ->
  prop * IZR num - INR lines < INR (length new) <= prop * IZR num /\
  forall p, In p new -> np_w p = Some (sp_weight P) /\ (0 <= fst (np_id p))%Z.
Proof.
  intros P num lines prop draw new n H1 H2 H3 H4 H5 H6. destruct (per_line_spec _ _ _ _ H1 H2 H3 H4) as [A B].
  split; [|intros p; now apply in_added with (1 := H5)]. assert (C := added_count _ _ _ _ _ _ _ H5 H4 A H6). rewrite (INR_IZR_INZ (length new)), C, mult_IZR, <- INR_IZR_INZ. exact B.
Qed.
(** The positions and velocities are those drawn, every line being served once; the source terms start at zero. *)
Theorem C71_drawn : forall P num lines prop draw new n, add_particles P num lines prop draw = Some new -> per_line prop num lines = Some n ->
  map (fun p => (np_pos p, np_vel p)) new = flat_map (fun l => concat (draw l n)) (seq 0 lines) /\
  forall p, In p new -> np_sd p = Some 0 /\ np_sm p = (Some 0, Some 0) /\ np_se p = Some 0.
Proof. exact added_pv. Qed.
(** The configured number is added only if the number of lines divides it. *)
Theorem C71_count_exact : forall lines k, (0 < lines)%nat -> (0 <= k < 2 ^ 31)%Z -> per_line 1 (Z.of_nat lines * k) lines = Some k.
Proof. exact per_line_exact. Qed.
Theorem C71_count_refuted : forall P, exists draw new, (forall l n, length (concat (draw l n)) = Z.to_nat n) /\
  add_particles P 10 4 1 draw = Some new /\ length new = 8%nat.
Proof.
  intros P. exists (fun _ n => [repeat ((0, 0, 0), (0, 0, 0)) (Z.to_nat n)]). eexists. split; [intros _ n; cbn [concat]; rewrite app_nil_r; apply repeat_length|].
  split; [unfold add_particles; rewrite per_line_ex; cbn [bind]; reflexivity|reflexivity].
Qed.
(** Without source lines the conversion to int is undefined. *)
Theorem C71_no_lines : forall P num prop draw, add_particles P num 0 prop draw = None.
Proof. intros. unfold add_particles. now rewrite per_line_zero. Qed.
(** PARTICLE_ID does not identify a particle. *)
Theorem C71_ids_refuted : forall P, exists p q, add_particles P 2 2 1 two_lines_draw = Some [p; q] /\ np_pos p <> np_pos q /\ np_id p = np_id q.
Proof. exact ids_clash. Qed.
Theorem C71_weight : forall width x_max y_max density num, 0 < width -> 0 < x_max -> 0 < y_max -> (0 < num)%Z ->
  exists w d, sol_weight width x_max y_max density num = (Some w, Some d) /\ 0 <= w /\
    (0 <= density -> d = density /\ w * IZR num = density * (width * x_max * y_max)) /\ (density < 0 -> w = 1 /\ d * (width * x_max * y_max) = IZR num).
Proof. exact weight_spec. Qed.
Theorem C71_units : forall Rs rhoInf uInf, 0 < Rs -> 0 < rhoInf -> 0 < uInf ->
  exists n T t, sol_units Rs rhoInf uInf = Some (n, T, t) /\ 0 < n /\ 0 < T /\ 0 < t.
Proof. exact units_pos. Qed.
(** Their values: densities in 3e18 m^-3 / rhoInf, velocities in 3e4 m/s / uInf (so times in their inverse), temperatures by the specific gas constant of deuterium. *)
Theorem C71_unit_values : forall Rs rhoInf uInf, 0 < Rs -> 0 < rhoInf -> 0 < uInf ->
  exists n T t, sol_units Rs rhoInf uInf = Some (n, T, t) /\ n * rhoInf = 3 * 10 ^ 18 /\ t * (3 * 10 ^ 4) = uInf /\
    T * (1380649 / 10 ^ 29 / (2 * (167 / 10 ^ 29))) * (uInf * uInf) = (3 * 10 ^ 4) * (3 * 10 ^ 4) * Rs * (8617333262 / 10 ^ 14).
Proof. exact units_value. Qed.
(** Source lines: k per region, all parallel to the rotated y axis over the whole height, at 3 sigma erf_inv((2i+1)/k - 1)
    from the region's centre, symmetric about it; any other number of regions than one or two is rejected. *)
Theorem C71_lines : forall erf theta width x_max y_max offset count k,
  (forall ls, sol_lines erf theta width x_max y_max offset count k = Some ls ->
  exists centres, ls = flat_map (fun c => map (fun i => let x := c + 3 * (width * x_max) * erf ((2 * INR i + 1) / INR k - 1) in
       ((x * cos theta, x * sin theta), (x * cos theta - y_max * sin theta, x * sin theta + y_max * cos theta))) (seq 0 k)) centres /\
    ((count = 1%Z /\ centres = [x_max / 2]) \/ (count = 2%Z /\ centres = [offset * x_max; x_max - offset * x_max]))) /\
  (count <> 1%Z -> count <> 2%Z -> sol_lines erf theta width x_max y_max offset count k = None) /\
  ((forall x, erf (- x) = - erf x) -> forall i, (i < k)%nat -> erf ((2 * INR i + 1) / INR k - 1) + erf ((2 * INR (k - 1 - i) + 1) / INR k - 1) = 0).
Proof.
  intros. split; [intros ls; apply lines_spec|]. split; [apply lines_bad|]. intros H i Hi. now apply lines_sym.
Qed.
Example C71_case : exists ls, sol_lines (fun x => x) 0 (1/1000) 110 1 (2/10) 2 3 = Some ls /\ length ls = 6%nat.
Proof. eexists. split; reflexivity. Qed.

Print Assumptions C67_substeps_cover. Print Assumptions C67_edges. Print Assumptions C68_ionise_simplesol. Print Assumptions C68_ionise_driftreduced.
Print Assumptions C68_rate. Print Assumptions C68_cold_fluid_refuted. Print Assumptions C69_mass_balance. Print Assumptions C69_recorded_error_zero.
Print Assumptions C69_completes. Print Assumptions C69_two_substeps_refuted. Print Assumptions C70_walls. Print Assumptions C70_rotated_walls_refuted.
Print Assumptions C71_count. Print Assumptions C71_count_exact. Print Assumptions C71_count_refuted. Print Assumptions C71_no_lines. Print Assumptions C71_ids_refuted.
Print Assumptions C71_weight. Print Assumptions C71_units. Print Assumptions C71_lines.
Print Assumptions C67_streaming. Print Assumptions C68_rate_formula. Print Assumptions C68_expint_small. Print Assumptions C68_expint_large. Print Assumptions C69_finite. Print Assumptions C69_recording. Print Assumptions C71_drawn. Print Assumptions C71_unit_values.
