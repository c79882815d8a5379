(** C81: the population of the DriftReduced solver's neutral particles. *)
From Verif Require Import M_Sol S_Sol M_Neutral S_Neutral L_RealBase L_Coord L_Sol L_Sol2 L_Sol3 L_Sol4 L_Neutral.
From Flocq Require Import Core.Raux.
From Coq Require Import Lra Lia List ZArith.
Import ListNotations.
Open Scope R_scope.

Lemma adds_ids E props : env_ok E -> Forall (fun p => 0 <= p) props -> forall s, (0 <= ps_added s)%Z ->
  map pid (ps_parts s) = map Z.of_nat (seq 0 (Z.to_nat (ps_added s))) ->
  let t := fold_left (fun s p => dr_add E p s) props s in (0 <= ps_added t)%Z /\ map pid (ps_parts t) = map Z.of_nat (seq 0 (Z.to_nat (ps_added t))).
Proof.
  intros HE. induction 1 as [|p props Hp H IH]; intros s Hs Hi; cbn [fold_left]; [auto|]. destruct (dr_add_ids E p s HE Hp) as (E1 & E2 & E3).
  apply IH; rewrite E2; [lia|]. rewrite E1, Hi, Z2Nat.inj_add by lia. rewrite seq_app, map_app. f_equal.
  cbn [Nat.add]. rewrite <- (Nat.add_0_r (Z.to_nat (ps_added s))). generalize (Z.to_nat (num_to_add E p)) as m. generalize 0%nat as j. clear - Hs.
  intros j m. revert j. induction m as [|m IH]; intros j; [reflexivity|]. cbn [seq map]. f_equal; [lia|]. rewrite IH. f_equal. f_equal. lia.
Qed.
(** However often particles are added, in whatever proportions and on however many ranks, the identifiers are exactly
    0, 1, ..., T-1 where T is the total number added: none is used twice, none is skipped. Each call adds the requested
    proportion of the configured number, to the nearest integer. *)
Theorem C81_ids : forall E props, env_ok E -> Forall (fun p => 0 <= p) props ->
  let s := fold_left (fun s p => dr_add E p s) props no_particles in
  map pid (ps_parts s) = map Z.of_nat (seq 0 (Z.to_nat (ps_added s))) /\
  forall p s0, 0 <= p -> Rabs (IZR (ps_added (dr_add E p s0) - ps_added s0) - p * IZR (de_num E)) <= 1 / 2.
Proof.
  intros E props HE H. cbv zeta. split; [apply (adds_ids E props HE H no_particles); cbn; [lia|reflexivity]|].
  intros p s0 _. cbn [dr_add ps_added]. replace (ps_added s0 + num_to_add E p - ps_added s0)%Z with (num_to_add E p) by lia. apply round_near.
Qed.
(** In every run the particles are added once: after any sequence of fluid steps the total added is 0 or the configured
    number, and the particles present have distinct identifiers below that number. *)
Theorem C81_added_once : forall E s, env_ok E -> dr_run E s ->
  (ps_added s = 0%Z \/ ps_added s = de_num E) /\ NoDup (map pid (ps_parts s)) /\ (forall p, In p (ps_parts s) -> (0 <= pid p < de_num E)%Z) /\
  (length (ps_parts s) <= Z.to_nat (de_num E))%nat.
Proof.
  intros E s HE H. destruct (run_inv E s HE H) as (I1 & I2 & I3 & _). split; [exact I1|]. split; [exact I2|].
  split; [intros p Hp; apply I3; now apply in_map|]. rewrite <- (map_length pid).
  transitivity (length (map Z.of_nat (seq 0 (Z.to_nat (de_num E))))); [|rewrite map_length, seq_length; lia].
  apply NoDup_incl_length; auto. intros i Hi. specialize (I3 i Hi). apply in_map_iff. exists (Z.to_nat i). split; [lia|]. apply in_seq. lia.
Qed.
(** The weight given to each particle: the configured number of particles carry density times volume in total, and the
    reported density is that density; without a configured density each has weight 1. *)
Theorem C81_weight : forall E density, (0 < de_num E)%Z -> 0 < region_volume E ->
  (0 <= density -> exists w, dr_weight E density = (Some w, Some density) /\ IZR (de_num E) * w = density * region_volume E) /\
  (density < 0 -> exists d, dr_weight E density = (Some 1, Some d) /\ d * region_volume E = IZR (de_num E)).
Proof.
  intros E density Hn HV. assert (Hn' : 0 < IZR (de_num E)) by (apply IZR_lt; exact Hn). unfold dr_weight. split; intros Hd.
  - rewrite Rlt_bool_false by lra. destruct (Z.eqb_spec (de_num E) 0); [lia|]. rewrite rdiv_ok by lra. eexists. split; [reflexivity|]. field. lra.
  - rewrite Rlt_bool_true by lra. rewrite rdiv_ok by lra. eexists. split; [reflexivity|]. field. lra.
Qed.
(** With one particle substep per fluid step, what the particles have (or bring in) is what they keep plus what the
    fluid's density source receives over the step; such steps complete in a periodic domain. *)
Theorem C81_mass_balance : forall E nf fuel dt s src s', env_ok E -> phys_ok E nf -> 0 < dt -> good_state s -> de_num E <> 0%Z ->
  dr_pre E nf fuel (ps_time s) dt 1 s = Some (src, s') ->
  exists rho, src = Some rho /\ ps_time s' = ps_time s + dt /\ good_state s' /\
    (ps_added s = 0%Z -> ps_added s' = de_num E) /\ (ps_added s <> 0%Z -> ps_added s' = ps_added s) /\
    total_weight (ps_parts s) + (IZR (ps_added s') - IZR (ps_added s)) * sp_weight (de_P E) = total_weight (ps_parts s') + dt * sp_n_to_SI (de_P E) * rho.
Proof.
  intros E nf fuel dt s src s' HE HF Hd Hg Hn Hp. destruct (pre_one_dr E nf fuel dt s src s' HE HF Hd Hg Hn Hp) as (rho & A & B & C & D & F). exists rho.
  split; [exact A|]. split; [exact B|]. split; [exact C|]. split; [|split; [|exact F]].
  - intros Hz. rewrite D. apply filled_added; auto.
  - intros Hz. rewrite D. unfold filled. destruct (Z.eqb_spec (ps_added s) 0); [contradiction|reflexivity].
Qed.
Theorem C81_completes : forall E nf dt s, env_ok E -> phys_ok E nf -> 0 < dt -> good_state s -> de_num E <> 0%Z -> de_periodic E = true ->
  exists src s', dr_pre E nf 2 (ps_time s) dt 1 s = Some (src, s').
Proof. exact pre_defined_dr. Qed.
(** Over every history of such steps from an empty system the recorded relative mass error is exactly zero. *)
Theorem C81_recorded_error_zero : forall E dt M0 s M, env_ok E -> 0 < dt -> de_num E <> 0%Z -> dr_history E dt M0 s M ->
  added_mass (de_P E) (ps_added s) + M0 <> 0 -> mass_error (de_P E) M0 M s = Some 0.
Proof. exact dr_history_error. Qed.
(** With two substeps it is not: the density source is overwritten by the second, so the only particle disappears, the
    fluid receives nothing and the recorded error is 1. *)
Theorem C81_two_substeps_refuted : exists nf s', phys_ok dE nf /\ dr_pre dE nf 3 0 1 2 no_particles = Some (Some 0, s') /\
  ps_added s' = 1%Z /\ ps_parts s' = [] /\ mass_error (de_P dE) 0 (0 + 1 * 1 * 0) s' = Some 1.
Proof. exact dr_two_substeps. Qed.
(** No particles configured: no step ever adds any, moves the particle clock or gives the fluid a source. *)
Theorem C81_zero_particles : forall E nf fuel t dt k, de_num E = 0%Z -> 0 <= t -> 0 < dt -> (0 < k)%Z ->
  dr_pre E nf fuel t dt k no_particles = Some (Some 0, no_particles).
Proof.
  intros E nf fuel t dt k Hn Ht Hd Hk. unfold dr_pre. rewrite rdiv_ok by (apply not_eq_sym, Rlt_not_eq; now apply IZR_lt). cbn [bind]. unfold integrate_dr.
  change (ps_time no_particles) with 0. rewrite Rlt_bool_false by lra. rewrite Hn, Z.eqb_refl, Bool.orb_true_r. reflexivity.
Qed.
(** A domain that is not periodic in every direction is rejected as soon as particles would be added. *)
Theorem C81_nonperiodic : forall E nf fuel time_end dt s, de_num E <> 0%Z -> ps_time s < time_end -> de_periodic E = false ->
  integrate_dr E nf fuel time_end dt s = IAssert.
Proof.
  intros E nf fuel te dt s Hn Ht Hp. unfold integrate_dr. rewrite Rlt_bool_false, Req_bool_false by lra. destruct (Z.eqb_spec (de_num E) 0); [contradiction|]. rewrite Hp. reflexivity.
Qed.
(** The source is centred on the middle of the domain in z exactly when the domain starts at z = 0; otherwise it is off
    by 3/2 of the origin. In x and y it is always centred on 0. *)
Theorem C81_centre_refuted : forall E, let mid := snd (de_org E) + snd (de_ext E) / 2 in
  mid - snd (centre E) = 3 / 2 * snd (de_org E) /\ (snd (centre E) = mid <-> snd (de_org E) = 0) /\ fst (centre E) = (0, 0).
Proof. intros E. cbv zeta. unfold centre. cbn [fst snd]. split; [field|]. split; [split; intros H; lra|reflexivity]. Qed.
(** Different ranks seed their generators differently. *)
Theorem C81_seed : forall seed r1 r2, (Z.of_nat r1 < 2 ^ 32)%Z -> (Z.of_nat r2 < 2 ^ 32)%Z -> rank_seed seed r1 = rank_seed seed r2 -> r1 = r2.
Proof.
  intros seed r1 r2 H1 H2 H. unfold rank_seed in H. pose proof (Z.div_mod (seed + Z.of_nat r1) (2^32) ltac:(lia)). pose proof (Z.div_mod (seed + Z.of_nat r2) (2^32) ltac:(lia)).
  rewrite H in H0. set (a := ((seed + Z.of_nat r1) / 2 ^ 32)%Z) in *. set (b := ((seed + Z.of_nat r2) / 2 ^ 32)%Z) in *. nia.
Qed.
(** The hypotheses are met by one particle on two ranks; its history continues and the run is not empty. *)
Example C81_nonvacuous : env_ok dE /\ decomp_ok std_decomp /\ std_decomp 3 7 1 = (3, 5)%Z /\ (exists r, 0 < r /\ phys_ok dE (dnf r)) /\
  (exists s M, dr_history dE 1 5 s M /\ ps_time s = 1 /\ ps_added s = 1%Z /\ dr_run dE s) /\ region_volume dE = 8 /\ length (ps_parts (dr_add dE 1 no_particles)) = 1%nat.
Proof.
  split; [apply dE_ok|]. split; [apply std_decomp_ok|]. split; [reflexivity|]. split; [exists 1; split; [lra|apply dnf_ok; lra]|]. split.
  - assert (Hg : good_state no_particles) by (intros p []). assert (HF := dnf_ok 1 ltac:(lra)).
    destruct (C81_completes dE (dnf 1) 1 no_particles dE_ok HF ltac:(lra) Hg ltac:(discriminate) eq_refl) as (src & s' & Hp).
    destruct (C81_mass_balance dE (dnf 1) 2 1 no_particles src s' dE_ok HF ltac:(lra) Hg ltac:(discriminate) Hp) as (rho & -> & Et & _ & Ea & _).
    exists s'. eexists. split; [apply (dh_step dE 1 5 no_particles 5 (dnf 1) 2%nat rho s' (dh_start dE 1 5) HF Hp)|].
    split; [rewrite Et; cbn; ring|]. split; [apply Ea; reflexivity|].
    exact (dr_step dE no_particles (dnf 1) 2%nat 0 1 1%Z (Some rho) s' (dr_start dE) HF ltac:(lra) ltac:(lia) Hp).
  - split; [unfold region_volume; cbn; ring|rewrite dE_add; reflexivity].
Qed.
Print Assumptions C81_ids. Print Assumptions C81_added_once. Print Assumptions C81_weight. Print Assumptions C81_mass_balance. Print Assumptions C81_recorded_error_zero.
Print Assumptions C81_two_substeps_refuted. Print Assumptions C81_zero_particles. Print Assumptions C81_nonperiodic. Print Assumptions C81_centre_refuted. Print Assumptions C81_seed. Print Assumptions C81_completes.

(** Where a drawn position ends up: moved by half of (extent - origin) in z in three dimensions, unmoved in one or two, the components
    beyond the dimension 0. The volume is the product of the extents of the dimension. Without particles every weight is 0. *)
Theorem C81_placed : forall E x y z ox oy oz ex ey ez, de_org E = (ox, oy, oz) -> de_ext E = (ex, ey, ez) ->
  (de_dim E = 1%nat -> new_pos E (x, y, z) = (x, 0, 0) /\ region_volume E = ex) /\
  (de_dim E = 2%nat -> new_pos E (x, y, z) = (x, y, 0) /\ region_volume E = ex * ey) /\
  (de_dim E = 3%nat -> new_pos E (x, y, z) = (x, y, z + (ez - oz) / 2) /\ region_volume E = ex * ey * ez) /\
  (forall density, de_num E = 0%Z -> 0 <= density -> dr_weight E density = (Some 0, Some density)).
Proof.
  intros E x y z ox oy oz ex ey ez Ho He. unfold new_pos, region_volume, centre. rewrite Ho, He. cbn [fst snd]. split; [|split; [|split]].
  - intros ->. split; [|reflexivity]. apply pair3; ring.
  - intros ->. split; [|reflexivity]. apply pair3; ring.
  - intros ->. split; [|reflexivity]. apply pair3; ring.
  - intros density H Hd. unfold dr_weight. rewrite Rlt_bool_false by lra. rewrite H. reflexivity.
Qed.
Print Assumptions C81_placed.
