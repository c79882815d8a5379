(** C80: what every particle system does with its parameters and its output file. *)
From Verif Require Import M_PartSys.
From Coq Require Import Lia ZArith String List Bool.
Import ListNotations.
Open Scope string_scope.
Open Scope list_scope.
Open Scope Z_scope.

(** A 32 bit int. *)
Definition int32 (x : Z) : Prop := - 2 ^ 31 <= x < 2 ^ 31.
Definition cfg_ok (c : icfg) : Prop := forall n v, c n = Some v -> int32 v.
Definition positive (c : icfg) (n : string) (v : Z) : Prop := c n = Some v /\ 0 < v.
Definition unset (c : icfg) (n : string) : Prop := forall v, c n = Some v -> v <= 0.
Definition all_elements (elements : list Z) : Z := fold_right Z.add 0 elements.

Lemma wrap_id b x : 0 < b -> - 2 ^ (b - 1) <= x < 2 ^ (b - 1) -> wrap b x = x.
Proof.
  intros Hb H. unfold wrap. assert (2 ^ b = 2 * 2 ^ (b - 1)). { rewrite <- Z.pow_succ_r by lia. f_equal. lia. }
  rewrite Z.mod_small by lia. lia.
Qed.
Lemma rep_same r k v : rep_get (rep_set r k v) k = Some v.
Proof. unfold rep_get, rep_set. cbn [find fst]. rewrite String.eqb_refl. reflexivity. Qed.
Lemma find_filter (r : report) k k' : k <> k' ->
  find (fun e => String.eqb (fst e) k) (filter (fun e => negb (String.eqb (fst e) k')) r) = find (fun e => String.eqb (fst e) k) r.
Proof.
  intros H. induction r as [|[a b] r IH]; [reflexivity|]. cbn [filter find fst]. destruct (String.eqb_spec a k') as [->|Ha]; cbn [negb].
  - rewrite IH. destruct (String.eqb_spec k' k) as [->|]; [congruence|reflexivity].
  - cbn [find fst]. rewrite IH. reflexivity.
Qed.
Lemma rep_other r k k' v : k <> k' -> rep_get (rep_set r k' v) k = rep_get r k.
Proof. intros H. unfold rep_get, rep_set. cbn [find fst]. destruct (String.eqb_spec k' k); [congruence|]. now rewrite find_filter. Qed.

(** A positive total is used as given, whatever the number per cell; otherwise a positive number per cell is multiplied by the
    number of elements of the whole mesh; every rank computes the same number, nothing overflows, and the number reported is the
    number used. *)
Theorem C80_number c elements b : cfg_ok c -> int32 (all_elements elements) -> 0 <= all_elements elements ->
  (forall n, positive c "num_particles_total" n -> exists b', init_object c elements b = Ok b' /\ pb_num b' = Some n) /\
  (forall k, unset c "num_particles_total" -> positive c "num_particles_per_cell" k ->
     exists b', init_object c elements b = Ok b' /\ pb_num b' = Some (all_elements elements * k)) /\
  (forall b' , init_object c elements b = Ok b' ->
     rep_get (pb_report b') "Total number of particles" = pb_num b' /\
     rep_get (pb_report b') "Output frequency (steps)" = Some (pb_freq b') /\
     pb_freq b' = match c "particle_output_freq" with Some f => f | None => 0 end).
Proof.
  intros Hc He He0. unfold init_object, read_params. set (b0 := report_param _ _ _). split; [|split].
  - intros n [Hn Hp]. assert (E : load_int c "num_particles_total" (-1) = n) by (unfold load_int; rewrite Hn; reflexivity). rewrite E. rewrite (proj2 (Z.ltb_lt 0 n) Hp).
    destruct (Z.ltb 0 (load_int c "num_particles_per_cell" (-1))); eexists; (split; [reflexivity|reflexivity]).
  - intros k Hu [Hk Hp].
    assert (E : Z.ltb 0 (load_int c "num_particles_total" (-1)) = false).
    { unfold load_int. destruct (c "num_particles_total") eqn:E; [apply Z.ltb_ge; apply Hu; exact E|reflexivity]. }
    rewrite E. assert (E' : load_int c "num_particles_per_cell" (-1) = k) by (unfold load_int; rewrite Hk; reflexivity). rewrite E', (proj2 (Z.ltb_lt 0 k) Hp).
    eexists. split; [reflexivity|]. cbn. f_equal. fold (all_elements elements). rewrite (wrap_id 32) by (unfold int32 in He; cbn in *; lia).
    apply wrap_id; [lia|]. pose proof (Hc _ _ Hk) as H1. unfold int32 in *. change (2 ^ (64 - 1)) with (2 ^ 31 * 2 ^ 32). nia.
  - intros b'. destruct (Z.ltb 0 (load_int c "num_particles_total" (-1))); destruct (Z.ltb 0 (load_int c "num_particles_per_cell" (-1)));
    cbn [set_num note report_param pb_num obind]; try (destruct (pb_num b) as [x|]; [|cbn; discriminate]);
    try (destruct (pb_num b0) as [y|] eqn:Ey; [|discriminate]; cbn [obind]);
    intros H; injection H as <-; cbn [pb_report pb_num set_freq report_param pb_freq];
    rewrite (rep_other _ "Total number of particles" "Output frequency (steps)") by discriminate; rewrite !rep_same; auto.
Qed.
(** If neither is given the message says that particles are disabled, but the total is read without having been set. *)
Theorem C80_disabled_refuted c elements : unset c "num_particles_total" -> unset c "num_particles_per_cell" ->
  init_object c elements psb_new = UB.
Proof.
  intros H1 H2. unfold init_object, read_params.
  assert (E : forall n, unset c n -> Z.ltb 0 (load_int c n (-1)) = false).
  { intros n Hu. unfold load_int. destruct (c n) eqn:E; [apply Z.ltb_ge; apply Hu; exact E|reflexivity]. }
  rewrite !E by assumption. reflexivity.
Qed.

(** A step is an output step iff the frequency is positive and divides it. *)
Theorem C80_output_step b step : is_output_step b step = true <-> 0 < pb_freq b /\ (pb_freq b | step).
Proof.
  unfold is_output_step. rewrite andb_true_iff, Z.ltb_lt, Z.eqb_eq. split; intros [H1 H2]; split; auto.
  - apply Z.rem_divide; [lia|exact H2].
  - apply Z.rem_divide; [lia|exact H2].
Qed.
(** The trajectory file after steps 0 ... n-1: exactly the multiples of the frequency, in order; ceil(n / frequency) of them. *)
Definition after_steps (n : nat) (b : psb) : psb := fold_left post_integrate (map Z.of_nat (seq 0 n)) b.
Lemma post_freq b s : pb_freq (post_integrate b s) = pb_freq b.
Proof. unfold post_integrate, ps_write. destruct (is_output_step b s); [|reflexivity]. destruct (pb_file b) as [[? ?]|]; reflexivity. Qed.
Lemma fold_file n0 l : forall b acc, pb_file b = Some (n0, acc) ->
  pb_freq (fold_left post_integrate l b) = pb_freq b /\ pb_num (fold_left post_integrate l b) = pb_num b /\
  pb_file (fold_left post_integrate l b) = Some (n0, acc ++ filter (is_output_step b) l).
Proof.
  induction l as [|s l IH]; intros b acc H; [cbn; rewrite app_nil_r; auto|]. cbn [fold_left filter].
  assert (E : is_output_step (post_integrate b s) = is_output_step b). { unfold is_output_step. rewrite post_freq. reflexivity. }
  rewrite <- E. assert (N : pb_num (post_integrate b s) = pb_num b). { unfold post_integrate, ps_write. rewrite H. destruct (is_output_step b s); reflexivity. }
  destruct (IH (post_integrate b s) (if is_output_step b s then acc ++ [s] else acc)) as (F1 & F2 & F3).
  { unfold post_integrate, ps_write. rewrite H. destruct (is_output_step b s); [reflexivity|exact H]. }
  rewrite F1, F2, F3, post_freq, N. split; [reflexivity|]. split; [reflexivity|]. rewrite E. destruct (is_output_step b s); [rewrite <- app_assoc|]; reflexivity.
Qed.
Theorem C80_trajectory b name n : pb_file b = None -> exists l, pb_file (after_steps n (init_output b name)) = Some (name, l) /\
  pb_num (after_steps n (init_output b name)) = pb_num b /\
  (pb_freq b <= 0 -> l = []) /\
  (0 < pb_freq b -> l = map (fun i => Z.of_nat i * pb_freq b) (seq 0 (Z.to_nat ((Z.of_nat n + pb_freq b - 1) / pb_freq b)))).
Proof.
  intros H. unfold after_steps, init_output. rewrite H. set (b1 := Build_psb _ _ _ _ _).
  destruct (fold_file name (map Z.of_nat (seq 0 n)) b1 [] eq_refl) as (_ & F2 & F3). exists (filter (is_output_step b1) (map Z.of_nat (seq 0 n))).
  split; [exact F3|]. split; [exact F2|]. change (pb_freq b) with (pb_freq b1). clearbody b1. clear. split.
  - intros Hf. induction (map Z.of_nat (seq 0 n)) as [|a r IH]; [reflexivity|]. cbn. unfold is_output_step at 1. rewrite (proj2 (Z.ltb_ge 0 (pb_freq b1)) Hf). exact IH.
  - intros Hf. set (f := pb_freq b1) in *. induction n as [|n IH].
    + replace ((Z.of_nat 0 + f - 1) / f) with 0; [reflexivity|]. symmetry. apply Z.div_small. lia.
    + rewrite seq_S, map_app, filter_app, IH. cbn [map filter Nat.add].
      pose proof (Z.div_mod (Z.of_nat n) f ltac:(lia)) as D. pose proof (Z.mod_pos_bound (Z.of_nat n) f Hf) as B.
      set (q := Z.of_nat n / f) in *. set (r := Z.of_nat n mod f) in *. assert (Hq : 0 <= q) by (apply Z.div_pos; lia).
      destruct (is_output_step b1 (Z.of_nat n)) eqn:E.
      * apply C80_output_step in E as [_ E]. apply Z.mod_divide in E; [|lia]. fold f r in E.
        replace ((Z.of_nat n + f - 1) / f) with q by (apply (Z.div_unique _ f q (f - 1)); lia).
        replace ((Z.of_nat (S n) + f - 1) / f) with (q + 1) by (apply (Z.div_unique _ f (q + 1) 0); lia).
        replace (Z.to_nat (q + 1)) with (S (Z.to_nat q)) by lia. rewrite seq_S, map_app. cbn [map Nat.add]. f_equal. f_equal. rewrite Z2Nat.id by lia. lia.
      * assert (Hr : r <> 0). { intros Hr. assert (is_output_step b1 (Z.of_nat n) = true); [|congruence]. apply C80_output_step. split; [exact Hf|]. apply Z.mod_divide; [lia|]. exact Hr. }
        replace ((Z.of_nat n + f - 1) / f) with (q + 1) by (apply (Z.div_unique _ f (q + 1) (r - 1)); lia).
        replace ((Z.of_nat (S n) + f - 1) / f) with (q + 1) by (apply (Z.div_unique _ f (q + 1) r); lia). apply app_nil_r.
Qed.
(** A second init_output changes neither the file nor what was written; without one, writing changes no file. *)
Theorem C80_output_once b name name' step : let b1 := init_output b name in
  pb_file (init_output b1 name') = pb_file b1 /\ (pb_file b = None -> pb_file (ps_write b step) = None /\ pb_file b1 = Some (name, [])) /\
  pb_num (ps_write b step) = pb_num b /\ pb_freq (ps_write b step) = pb_freq b.
Proof.
  cbv zeta. unfold init_output, ps_write. destruct (pb_file b) as [[n l]|] eqn:E; cbn [pb_file note]; rewrite ?E; repeat split; auto; discriminate.
Qed.
(** Particles are enabled iff there is a PARTICLES element; its type must be named and registered. *)
Theorem C80_choice known elem : (choose_partsys known elem = Ok None <-> elem = None) /\
  (forall n, choose_partsys known elem = Ok (Some n) <-> elem = Some (Some n) /\ In n known) /\
  (choose_partsys known elem = AssertFail <-> elem = Some None \/ exists n, elem = Some (Some n) /\ ~ In n known).
Proof.
  unfold choose_partsys. destruct elem as [[m|]|].
  - destruct (existsb (String.eqb m) known) eqn:E.
    + apply existsb_exists in E as (x & Hx & Ex). apply String.eqb_eq in Ex. subst x. split; [split; discriminate|]. split.
      * intros n. split; [intros [= ->]; auto|intros [[= ->] _]; reflexivity].
      * split; [discriminate|]. intros [|(n & [= ->] & Hn)]; [discriminate|contradiction].
    + assert (Hn : ~ In m known). { intros Hi. assert (existsb (String.eqb m) known = true); [|congruence]. apply existsb_exists. exists m. split; [exact Hi|apply String.eqb_refl]. }
      split; [split; discriminate|]. split.
      * intros n. split; [discriminate|intros [[= ->] Hi]; contradiction].
      * split; [intros _; right; exists m; auto|auto].
  - split; [split; discriminate|]. split; [intros n; split; [discriminate|intros [H _]; discriminate]|]. split; auto.
  - split; [split; auto|]. split; [intros n; split; [discriminate|intros [H _]; discriminate]|]. split; [discriminate|]. intros [|(n & H & _)]; discriminate.
Qed.
Example C80_nonvacuous : let c := fun n => if String.eqb n "num_particles_per_cell" then Some 10 else if String.eqb n "particle_output_freq" then Some 3 else None in
  cfg_ok c /\ exists b, init_object c [4; 5] psb_new = Ok b /\ pb_num b = Some 90 /\
  pb_file (after_steps 8 (init_output b "t.h5part")) = Some ("t.h5part", [0; 3; 6]).
Proof.
  cbv zeta. split.
  - intros n v. destruct (String.eqb n "num_particles_per_cell"); [intros [= <-]; unfold int32; lia|]. destruct (String.eqb n "particle_output_freq"); [intros [= <-]; unfold int32; lia|discriminate].
  - eexists. split; [reflexivity|]. split; reflexivity.
Qed.
Print Assumptions C80_number.
Print Assumptions C80_trajectory.
Print Assumptions C80_choice.

(** The labels reported: these and no others. *)
Theorem C80_reported c elements b' k v : init_object c elements psb_new = Ok b' -> rep_get (pb_report b') k = Some v ->
  k = "Total number of particles" \/ k = "Output frequency (steps)" \/ k = "Number of particles per cell/element".
Proof.
  unfold init_object, read_params. intros H Hk.
  destruct (String.eqb_spec k "Total number of particles"); [auto|]. destruct (String.eqb_spec k "Output frequency (steps)"); [auto|]. destruct (String.eqb_spec k "Number of particles per cell/element"); [auto|]. exfalso.
  destruct (Z.ltb 0 (load_int c "num_particles_total" (-1))); [|]; destruct (Z.ltb 0 (load_int c "num_particles_per_cell" (-1)));
    cbn [set_num note report_param pb_num psb_new set_freq obind] in H; try discriminate H; injection H as <-;
    cbn [pb_report set_freq report_param note set_num psb_new] in Hk; rewrite !rep_other in Hk by assumption; discriminate Hk.
Qed.
Print Assumptions C80_reported.
(** The messages: one when the number per cell is ignored, one for every needless init_output or write. *)
Theorem C80_messages c elements b' n k : init_object c elements psb_new = Ok b' ->
  positive c "num_particles_total" n ->
  (positive c "num_particles_per_cell" k -> pb_notes b' = ["ignoring per cell"]) /\ (unset c "num_particles_per_cell" -> pb_notes b' = []) /\
  (forall b name, pb_file b <> None -> exists m, pb_notes (init_output b name) = pb_notes b ++ [m]) /\
  (forall b step, pb_file b = None -> exists m, pb_notes (ps_write b step) = pb_notes b ++ [m]) /\
  (forall b step, pb_file b <> None -> pb_notes (ps_write b step) = pb_notes b).
Proof.
  intros H [Hn Hp]. unfold init_object, read_params in H. assert (E : load_int c "num_particles_total" (-1) = n) by (unfold load_int; rewrite Hn; reflexivity). rewrite E, (proj2 (Z.ltb_lt 0 n) Hp) in H.
  split; [|split; [|split; [|split]]].
  - intros [Hk Hkp]. assert (E' : load_int c "num_particles_per_cell" (-1) = k) by (unfold load_int; rewrite Hk; reflexivity). rewrite E', (proj2 (Z.ltb_lt 0 k) Hkp) in H. injection H as <-. reflexivity.
  - intros Hu. assert (E' : Z.ltb 0 (load_int c "num_particles_per_cell" (-1)) = false) by (unfold load_int; destruct (c "num_particles_per_cell") eqn:X; [apply Z.ltb_ge; apply Hu; exact X|reflexivity]).
    rewrite E' in H. injection H as <-. reflexivity.
  - intros b name Hf. unfold init_output. destruct (pb_file b); [eexists; reflexivity|congruence].
  - intros b step Hf. unfold ps_write. rewrite Hf. eexists. reflexivity.
  - intros b step Hf. unfold ps_write. destruct (pb_file b) as [[? ?]|]; [reflexivity|congruence].
Qed.
Print Assumptions C80_messages.
