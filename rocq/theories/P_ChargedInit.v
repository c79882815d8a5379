(** C106: the initial particles of the Electrostatic2D3V solver. *)
From Coq Require Import Reals ZArith List Lra Lia Bool.
From Verif Require Import M_RealBase L_RealBase M_Grid M_ChargedInit S_ChargedInit L_ChargedInit.
Import ListNotations.
Open Scope R_scope.

(** All requested particles are created, whatever the number of ranks: the identifiers are 0, 1, ..., in order, each once; every rank
    starts its particles in its own cells, dealt out in turn; the electric field starts at zero. *)
Theorem C106_population {G} (E : cenv G) : setup_ok E ->
  exists l, population E = Some l /\ map ip_id l = map Z.of_nat (seq 0 (Z.to_nat (ci_num E))) /\
    Forall (fun p => ip_E p = (0, 0)) l /\
    forall r, (r < ci_size E)%nat -> exists lr, initial_particles E r = Some lr /\ incl lr l /\
      Z.of_nat (length lr) = (snd (ci_dec E (ci_size E) (ci_num E) r) - fst (ci_dec E (ci_size E) (ci_num E) r))%Z /\
      forall i p, nth_error lr i = Some p -> (0 <= ip_cell p < ci_cells E r)%Z /\ ip_cell p = (Z.of_nat i mod ci_cells E r)%Z.
Proof.
  intros Ok. pose proof Ok as (Hs & Hn & Bl & Hb & _). exists (concat (map (of_rank E) (seq 0 (ci_size E)))).
  split; [apply population_eq; auto|]. split; [|split].
  - rewrite concat_map, map_map.
    destruct (blocks_concat (ci_dec E) (ci_size E) (ci_num E) (fun i => i) (fun r => map ip_id (of_rank E r)) Hs Bl) as [C _].
    { intros r Hr. apply rank_ids; auto. }
    rewrite C, map_id, ids_0. reflexivity.
  - apply Forall_forall. intros p Hp. destruct (in_population E _ p Ok (population_eq E Ok) Hp) as (r & Hr & Hi).
    destruct (particle_from E r p Ok Hr Hi) as (_ & i & _ & _ & _ & _ & _ & _ & _ & _ & _ & ->). reflexivity.
  - intros r Hr. destruct (rank_creates E r Ok Hr) as (rows & ks & [[Ln _] _] & F & Ei). exists (numbered E r ks). split; [auto|].
    split. { intros p Hp. apply in_concat. exists (of_rank E r). split; [apply in_map, in_seq; lia|]. unfold of_rank. rewrite Ei. auto. }
    destruct Bl as (_ & _ & Bl & _). specialize (Bl r Hr). destruct (Hb r Hr) as [_ Hc].
    split. { unfold numbered. rewrite map_length, combine_length, seq_length, Nat.min_id, <- (F2_len _ _ _ F), Ln. lia. }
    intros i p Hp. unfold numbered in Hp. rewrite nth_error_map in Hp. destruct (nth_error (combine _ ks) i) as [[j k]|] eqn:Ej; [|discriminate].
    injection Hp as <-. cbn [finish ip_cell fst snd].
    assert (j = i).
    { clear - Ej. revert i Ej. assert (X : forall (ks : list core) s i, nth_error (combine (seq s (length ks)) ks) i = Some (j, k) -> j = (s + i)%nat).
      { clear. induction ks as [|a ks IH]; intros s [|i] H; cbn in H; try discriminate; [injection H as -> _; lia|apply IH in H; lia]. }
      intros i H. apply X in H. exact H. }
    subst j. rewrite Z.rem_mod_nonneg by lia. split; [apply Z.mod_pos_bound; lia|reflexivity].
Qed.
Print Assumptions C106_population.

Ltac inv_branch H := unfold branch in H; repeat (match type of H with context [Z.eqb ?a ?b] => destruct (Z.eqb_spec a b); [try lia|try lia] end).
(** Distributions 2 to 5: every particle starts in the half open domain. *)
Theorem C106_positions {G} (E : cenv G) l : setup_ok E -> (2 <= ci_dist E)%Z -> population E = Some l -> Forall (fun p => in_domain E (pos_of p)) l.
Proof.
  intros Ok D El. apply Forall_forall. intros p Hp. destruct (in_population E _ p Ok El Hp) as (r & Hr & Hi).
  destruct (particle_from E r p Ok Hr Hi) as (_ & i & x & y & g & g' & _ & _ & Bx & By & Eb & _). unfold pos_of, in_domain. generalize dependent (ip_core p). clear - D Bx By.
  intros k Eb.
  assert (X : k_P k = (x + fst (ci_org E), y + snd (ci_org E))).
  { inv_branch Eb.
    - unfold dist2 in Eb. destruct (ci_coin E g). injection Eb as <- _. reflexivity.
    - unfold dist3 in Eb. destruct (ci_coin E g). injection Eb as <- _. reflexivity.
    - unfold dist4 in Eb. destruct (ci_uni E g) as [u1 g1]. destruct (ci_erf_inv E _) as [a|]; [|discriminate]. cbn [bind] in Eb.
      destruct (ci_uni E g1) as [u2 g2]. destruct (ci_erf_inv E (2 * u2 - 1)) as [b|]; [|discriminate]. cbn [bind] in Eb.
      destruct (ci_uni E g2) as [u3 g3]. destruct (ci_erf_inv E (2 * u3 - 1)) as [c|]; [|discriminate]. cbn [bind] in Eb.
      destruct (ci_uni E g3) as [u4 g4]. destruct (Rlt_bool (1 / 10) u4); [injection Eb as <- _; reflexivity|].
      destruct (ci_uni E g4). injection Eb as <- _. reflexivity.
    - unfold dist5 in Eb. destruct (ci_uni E g). injection Eb as <- _. reflexivity. }
  rewrite X. cbn [fst snd]. lra.
Qed.
Print Assumptions C106_positions.
(** Distribution 1: two beams at one and three quarters of the height, of thickness 1/100, moving in opposite directions. *)
Definition in_beam {G} (E : cenv G) (p : ipart) (level v : R) : Prop :=
  fst (ci_org E) <= fst (pos_of p) < fst (ci_org E) + fst (ci_ext E) /\
  - (5 / 1000) <= snd (pos_of p) - (snd (ci_org E) + level * snd (ci_ext E)) < 5 / 1000 /\
  k_V (ip_core p) = (Some v, Some 0, None).
Theorem C106_beams {G} (E : cenv G) l : setup_ok E -> ci_dist E = 1%Z -> population E = Some l ->
  Forall (fun p => (in_beam E p (1 / 4) (ci_v0 E) \/ in_beam E p (3 / 4) (- ci_v0 E)) /\ (1 / 50 <= snd (ci_ext E) -> in_domain E (pos_of p))) l.
Proof.
  intros Ok D El. apply Forall_forall. intros p Hp. destruct (in_population E _ p Ok El Hp) as (r & Hr & Hi).
  destruct (particle_from E r p Ok Hr Hi) as (_ & i & x & y & g & g' & _ & _ & Bx & By & Eb & _).
  assert (He : 0 < snd (ci_ext E)) by apply Ok.
  assert (Y : 0 <= y / snd (ci_ext E) < 1).
  { split; [apply Rmult_le_pos; [tauto|apply Rlt_le, Rinv_0_lt_compat; auto]|]. apply Rmult_lt_reg_r with (snd (ci_ext E)); [auto|]. unfold Rdiv. rewrite Rmult_assoc, Rinv_l by lra. lra. }
  unfold branch in Eb. rewrite D in Eb. cbn [Z.eqb Pos.eqb] in Eb. unfold dist1 in Eb. destruct (ci_coin E g) as [sp g1].
  rewrite Req_bool_false in Eb by lra. cbn [negb check] in Eb. cbv zeta in Eb. injection Eb as Eb _. unfold in_beam, in_domain, pos_of. rewrite <- Eb. cbn [k_P k_V fst snd].
  set (t := y / snd (ci_ext E)) in *. destruct sp; (split; [|lra]).
  - left. split; [lra|]. split; [lra|reflexivity].
  - right. split; [lra|]. split; [lra|]. replace (-1 * ci_v0 E) with (- ci_v0 E) by ring. reflexivity.
Qed.
Print Assumptions C106_beams.
(** Distribution 0: for a domain with its corner at the origin, the lower left quarter. *)
Theorem C106_quarter {G} (E : cenv G) l : setup_ok E -> ci_dist E = 0%Z -> ci_org E = (0, 0) -> population E = Some l ->
  Forall (fun p => 0 <= fst (pos_of p) < fst (ci_ext E) / 4 /\ 0 <= snd (pos_of p) < snd (ci_ext E) / 4 /\ k_V (ip_core p) = (Some (ci_v0 E), Some 0, None)) l.
Proof.
  intros Ok D O El. apply Forall_forall. intros p Hp. destruct (in_population E _ p Ok El Hp) as (r & Hr & Hi).
  destruct (particle_from E r p Ok Hr Hi) as (_ & i & x & y & g & g' & _ & _ & Bx & By & Eb & _).
  unfold branch in Eb. rewrite D in Eb. cbn [Z.eqb Pos.eqb] in Eb. unfold dist0 in Eb. rewrite O in Eb. cbn [fst snd] in Eb. injection Eb as Eb _. unfold pos_of. rewrite <- Eb.
  cbn [k_P k_V fst snd]. split; [lra|]. split; [lra|reflexivity].
Qed.
Print Assumptions C106_quarter.
(** Masses and charges; velocities of the remaining distributions. *)
Theorem C106_species {G} (E : cenv G) l : setup_ok E -> population E = Some l ->
  Forall (fun p => let k := ip_core p in
    (ci_dist E <> 3%Z -> k_M k = 1 /\ k_Q k = ci_charge E) /\
    (ci_dist E = 2%Z -> k_V k = (Some (ci_v0 E), Some 0, None) \/ k_V k = (Some (- ci_v0 E), Some 0, None)) /\
    (ci_dist E = 3%Z -> (k_M k = 1000000 /\ k_Q k = ci_charge E /\ k_V k = (Some 0, Some 0, None)) \/
                        (k_M k = 1 /\ k_Q k = - ci_charge E /\ k_V k = (Some (ci_v0 E), Some 0, None))) /\
    (ci_dist E = 5%Z -> exists vy, k_V k = (Some (ci_v0 E), Some vy, Some 0) /\ 1 <= vy < 2)) l.
Proof.
  intros Ok El. apply Forall_forall. intros p Hp. destruct (in_population E _ p Ok El Hp) as (r & Hr & Hi).
  destruct (particle_from E r p Ok Hr Hi) as (_ & i & x & y & g & g' & _ & _ & Bx & By & Eb & _). cbv zeta. generalize dependent (ip_core p). 
  pose proof Ok as (_ & _ & _ & _ & _ & Hd & _ & He & _ & _ & Hu & _). intros k Eb. inv_branch Eb.
  - unfold dist0 in Eb. injection Eb as <- _. cbn [k_M k_Q k_V]. repeat split; try lia.
  - unfold dist1 in Eb. destruct (ci_coin E g). rewrite Req_bool_false in Eb by lra. injection Eb as <- _. cbn [k_M k_Q k_V]. repeat split; try lia.
  - unfold dist2 in Eb. destruct (ci_coin E g) as [sp g1]. injection Eb as <- _. cbn [k_M k_Q k_V]. replace (-1 * ci_v0 E) with (- ci_v0 E) by ring.
    repeat split; try lia. intros _. destruct sp; auto.
  - unfold dist3 in Eb. destruct (ci_coin E g) as [sp g1]. injection Eb as <- _. cbn [k_M k_Q k_V]. replace (-1 * ci_charge E) with (- ci_charge E) by ring.
    unfold particle_mass. rewrite Rmult_1_l. repeat split; try lia. intros _. destruct sp; auto.
  - unfold dist4 in Eb. destruct (ci_uni E g) as [u1 g1]. destruct (ci_erf_inv E _) as [a|]; [|discriminate]. cbn [bind] in Eb.
    destruct (ci_uni E g1) as [u2 g2]. destruct (ci_erf_inv E (2 * u2 - 1)) as [b|]; [|discriminate]. cbn [bind] in Eb.
    destruct (ci_uni E g2) as [u3 g3]. destruct (ci_erf_inv E (2 * u3 - 1)) as [c|]; [|discriminate]. cbn [bind] in Eb.
    destruct (ci_uni E g3) as [u4 g4]. destruct (Rlt_bool (1 / 10) u4); [|destruct (ci_uni E g4)]; injection Eb as <- _; cbn [k_M k_Q k_V]; repeat split; try lia.
  - unfold dist5 in Eb. pose proof (Hu g). destruct (ci_uni E g) as [u1 g1]. cbn [fst] in *. injection Eb as <- _. cbn [k_M k_Q k_V]. repeat split; try lia.
    intros _. exists (1 + u1). split; [reflexivity|lra].
Qed.
Print Assumptions C106_species.

(** With the Sobol sequence and the same seed on every rank, the particle with a given identifier starts at the same place however many
    ranks there are and however they divide the particles and the mesh (distributions 0, 2, 3, 5; for 1 the x coordinate). *)
Lemma zip_ids {A} (idf : nat -> Z) (h : core -> A) (q : nat -> A) n : forall s ks, Forall2 (fun i k => h k = q i) (seq s n) ks ->
  map (fun ik => (idf (fst ik), h (snd ik))) (combine (seq s (length ks)) ks) = map (fun i => (idf i, q i)) (seq s n).
Proof.
  induction n as [|n IH]; intros s ks F; inversion F as [|? k ? ks' F1 F2]; subst; [reflexivity|].
  cbn [length seq combine map fst snd]. rewrite F1. f_equal. apply IH. exact F2.
Qed.
Lemma F2_map_l {A B C} (P : B -> C -> Prop) (f : A -> B) l l' : Forall2 P (map f l) l' -> Forall2 (fun a c => P (f a) c) l l'.
Proof. revert l'. induction l as [|a l IH]; intros l' H; inversion H; subst; constructor; auto. Qed.
Lemma F2_imp {A B} (P Q : A -> B -> Prop) l l' : (forall a b, P a b -> Q a b) -> Forall2 P l l' -> Forall2 Q l l'.
Proof. intros I. induction 1; constructor; auto. Qed.
Lemma sobol_places {G A} (E : cenv G) (h : core -> A) (q : R -> R -> A) s l : setup_ok E -> ci_type E = 0%Z -> ci_dist E <> 4%Z ->
  (forall r, ci_seed E r = s) ->
  (forall g x y k g', branch E g x y = Some (k, g') -> h k = q x y) -> population E = Some l ->
  map (fun p => (ip_id p, h (ip_core p))) l =
  map (fun i => (i, q (ci_sobol E (s mod 2 ^ 32 * 2 + i * 2) * fst (ci_ext E)) (ci_sobol E (s mod 2 ^ 32 * 2 + i * 2 + 1) * snd (ci_ext E)))) (ids 0 (ci_num E)).
Proof.
  intros Ok T D Hs Hq El. rewrite (population_eq E Ok) in El. injection El as <-. pose proof Ok as (H0 & _ & Bl & _).
  rewrite concat_map, map_map. eapply proj1, blocks_concat; [exact H0|exact Bl|].
  intros r Hr. destruct (rank_creates E r Ok Hr) as (rows & ks & [[Ln _] Rs] & F & Ei). unfold of_rank. rewrite Ei. rewrite (Rs T D) in F.
  rewrite sobol_rows_at, Hs in F. apply F2_map_l in F. set (rs := fst (ci_dec E (ci_size E) (ci_num E) r)) in *.
  set (re := snd (ci_dec E (ci_size E) (ci_num E) r)) in *.
  unfold numbered. rewrite map_map. cbn [finish ip_id ip_core]. fold rs.
  rewrite (zip_ids (fun i => (Z.of_nat i + rs)%Z) h
    (fun i => q (ci_sobol E (s mod 2 ^ 32 * 2 + (Z.of_nat i + rs) * 2) * fst (ci_ext E)) (ci_sobol E (s mod 2 ^ 32 * 2 + (Z.of_nat i + rs) * 2 + 1) * snd (ci_ext E)))
    (Z.to_nat (re - rs))).
  - unfold ids. rewrite map_map. reflexivity.
  - eapply F2_imp; [|exact F]. intros i k (g & g' & x & y & E1 & E2). apply Hq in E2. rewrite E2. apply (f_equal (fun w => (nth 0 w 0, nth 1 w 0))) in E1. cbn [nth] in E1. apply pair_equal_spec in E1 as [<- <-].
    replace (s mod 2 ^ 32 * 2 + rs * 2 + 2 * Z.of_nat i)%Z with (s mod 2 ^ 32 * 2 + (Z.of_nat i + rs) * 2)%Z by ring. reflexivity.
Qed.
Theorem C106_ranks {G G'} (E : cenv G) (E' : cenv G') l l' : setup_ok E -> setup_ok E' -> same_problem E E' ->
  population E = Some l -> population E' = Some l' -> ci_dist E <> 4%Z ->
  map (fun p => (ip_id p, fst (pos_of p))) l = map (fun p => (ip_id p, fst (pos_of p))) l' /\
  (ci_dist E <> 1%Z -> map (fun p => (ip_id p, pos_of p)) l = map (fun p => (ip_id p, pos_of p)) l').
Proof.
  intros Ok Ok' (S1 & S2 & S3 & S4 & S5 & S6 & S7 & s & S8 & S9) El El' D.
  set (place := fun x y : R => if Z.eqb (ci_dist E) 0 then ((x + fst (ci_org E)) * (1 / 4), (y + snd (ci_org E)) * (1 / 4)) else (x + fst (ci_org E), y + snd (ci_org E))).
  assert (B : forall (X : Type) (F : cenv X), ci_dist F = ci_dist E -> ci_org F = ci_org E -> forall g x y k g', branch F g x y = Some (k, g') ->
    fst (k_P k) = fst (place x y) /\ (ci_dist E <> 1%Z -> k_P k = place x y)).
  { intros X F F1 F2 g x y k g' Eb. unfold place, branch in *. rewrite F1 in Eb. destruct (Z.eqb_spec (ci_dist E) 0).
    { unfold dist0 in Eb. rewrite F2 in Eb. injection Eb as <- _. cbn [k_P fst snd]. auto. }
    destruct (Z.eqb_spec (ci_dist E) 1).
    { unfold dist1 in Eb. destruct (ci_coin F g). destruct (negb (Req_bool (snd (ci_ext F)) 0)); [|discriminate]. rewrite F2 in Eb. cbv zeta in Eb. cbn [check] in Eb. injection Eb as <- _. cbn [k_P fst snd]. split; [auto|contradiction]. }
    destruct (Z.eqb_spec (ci_dist E) 2); [unfold dist2 in Eb; destruct (ci_coin F g); rewrite F2 in Eb; injection Eb as <- _; cbn [k_P fst snd]; auto|].
    destruct (Z.eqb_spec (ci_dist E) 3); [unfold dist3 in Eb; destruct (ci_coin F g); rewrite F2 in Eb; injection Eb as <- _; cbn [k_P fst snd]; auto|].
    destruct (Z.eqb_spec (ci_dist E) 4); [contradiction|].
    unfold dist5 in Eb; destruct (ci_uni F g); rewrite F2 in Eb; injection Eb as <- _; cbn [k_P fst snd]; auto. }
  split; [|intros D1].
  - unfold pos_of. rewrite (sobol_places E (fun k => fst (k_P k)) (fun x y => fst (place x y)) s l Ok S3 D S8) by (auto; intros; eapply (B G E); eauto).
    rewrite (sobol_places E' (fun k => fst (k_P k)) (fun x y => fst (place x y)) s l' Ok' S4 ltac:(congruence) S9) by (auto; intros; eapply (B G' E'); eauto).
    rewrite S1, S6. apply map_ext. intros i. rewrite !S7. reflexivity.
  - unfold pos_of. rewrite (sobol_places E k_P place s l Ok S3 D S8) by (auto; intros; eapply (B G E); eauto).
    rewrite (sobol_places E' k_P place s l' Ok' S4 ltac:(congruence) S9) by (auto; intros; eapply (B G' E'); eauto).
    rewrite S1, S6. apply map_ext. intros i. rewrite !S7. reflexivity.
Qed.
Print Assumptions C106_ranks.

(** Distribution 4: speeds of the non thermal particles. *)
Theorem C106_ring {G} (E : cenv G) g x y k g' : ci_dist E = 4%Z -> branch E g x y = Some (k, g') ->
  let g4 := snd (ci_uni E (snd (ci_uni E (snd (ci_uni E g))))) in
  fst (ci_uni E g4) <= 1 / 10 -> exists vy vz, k_V k = (Some 0, Some vy, Some vz) /\ vy * vy + vz * vz = (4 * ci_vth E * ci_vth E) ^ 2.
Proof.
  intros D Eb. unfold branch in Eb. rewrite D in Eb. cbn [Z.eqb Pos.eqb] in Eb. unfold dist4 in Eb.
  destruct (ci_uni E g) as [u1 g1]. destruct (ci_erf_inv E _) as [a|]; [|discriminate]. cbn [bind snd] in *.
  destruct (ci_uni E g1) as [u2 g2]. destruct (ci_erf_inv E (2 * u2 - 1)) as [b|]; [|discriminate]. cbn [bind snd] in *.
  destruct (ci_uni E g2) as [u3 g3]. destruct (ci_erf_inv E (2 * u3 - 1)) as [c|]; [|discriminate]. cbn [bind snd] in *. cbv zeta.
  destruct (ci_uni E g3) as [u4 g4]. cbn [fst]. intros H. rewrite Rlt_bool_false in Eb by auto. destruct (ci_uni E g4) as [u5 g5]. cbv zeta in Eb.
  injection Eb as <- _. cbn [k_V]. rewrite Rmult_0_r. eexists _, _. split; [reflexivity|].
  pose proof (sin2_cos2 (2 * PI * u5)) as P. unfold Rsqr in P. set (S := sin (2 * PI * u5)) in *. set (C := cos (2 * PI * u5)) in *.
  transitivity ((4 * ci_vth E * ci_vth E) ^ 2 * (S * S + C * C)); [ring|]. rewrite P. ring.
Qed.
Print Assumptions C106_ring.

(** Distribution 4: a thermal particle has the inverse error function of three successive draws as velocity, a fourth decides. *)
Theorem C106_thermal {G} (E : cenv G) g x y k g' u1 u2 u3 u4 g1 g2 g3 g4 : ci_dist E = 4%Z -> branch E g x y = Some (k, g') ->
  ci_uni E g = (u1, g1) -> ci_uni E g1 = (u2, g2) -> ci_uni E g2 = (u3, g3) -> ci_uni E g3 = (u4, g4) -> 1 / 10 < u4 ->
  g' = g4 /\ exists a b c, ci_erf_inv E (2 * u1 - 1) = Some a /\ ci_erf_inv E (2 * u2 - 1) = Some b /\ ci_erf_inv E (2 * u3 - 1) = Some c /\
    k_V k = (Some (ci_vth E * a), Some (ci_vth E * b), Some (ci_vth E * c)).
Proof.
  intros D Eb E1 E2 E3 E4 H. unfold branch in Eb. rewrite D in Eb. cbn [Z.eqb Pos.eqb] in Eb. unfold dist4 in Eb.
  rewrite E1 in Eb. destruct (ci_erf_inv E (2 * u1 - 1)) as [a|]; [|discriminate]. cbn [bind] in Eb.
  rewrite E2 in Eb. destruct (ci_erf_inv E (2 * u2 - 1)) as [b|]; [|discriminate]. cbn [bind] in Eb.
  rewrite E3 in Eb. destruct (ci_erf_inv E (2 * u3 - 1)) as [c|]; [|discriminate]. cbn [bind] in Eb.
  rewrite E4 in Eb. rewrite Rlt_bool_true in Eb by auto. injection Eb as <- <-. split; [reflexivity|]. exists a, b, c. auto.
Qed.
Print Assumptions C106_thermal.

(** The total number of particles. *)
Theorem C106_number elements ppc total n : num_particles elements ppc total = Some n ->
  ((0 <= total)%Z -> n = total) /\ ((total < 0)%Z -> n = (fold_right Z.add 0 elements * ppc)%Z).
Proof.
  unfold num_particles. cbv zeta. destruct (Z.ltb_spec (fold_right Z.add 0 elements)%Z (2 ^ 31)); [|discriminate]. cbn [check]. intros [= <-].
  destruct (Z.ltb_spec (-1) total); split; intros; lia.
Qed.
Print Assumptions C106_number.

(** * A concrete problem: get_decomp_1d as in NESO-Particles, generators that alternate *)
Definition std_dec (size : nat) (n : Z) (r : nat) : Z * Z :=
  let q := (n / Z.of_nat size)%Z in let m := (n mod Z.of_nat size)%Z in
  let st := fun k : nat => (Z.of_nat k * q + Z.min (Z.of_nat k) m)%Z in (st r, st (S r)).
Lemma std_blocks size n : (0 < size)%nat -> (0 <= n)%Z -> blocks std_dec size n.
Proof.
  intros Hs Hn. unfold blocks, std_dec. cbn [fst snd]. pose proof (Z.div_mod n (Z.of_nat size) ltac:(lia)). pose proof (Z.mod_pos_bound n (Z.of_nat size) ltac:(lia)). pose proof (Z.div_pos n (Z.of_nat size) Hn ltac:(lia)).
  set (q := (n / Z.of_nat size)%Z) in *. set (m := (n mod Z.of_nat size)%Z) in *. split; [lia|]. split.
  - replace (S (size - 1)) with size by lia. rewrite Z.min_r by lia. lia.
  - split; [intros r Hr; rewrite Nat2Z.inj_succ; nia|reflexivity].
Qed.
Definition half (g : Z) : R := if Z.even g then 1 / 4 else 3 / 4.
Definition demo (size : nat) (num dist : Z) (seeds : nat -> Z) (org ext : R * R) (sobol : Z -> R) : cenv Z :=
  mkCenv Z size std_dec num (fun r => Z.of_nat r + 3)%Z seeds 0 dist org ext (-1) 2 3 sobol (fun s => s) (fun g => (Z.even g, g + 1)%Z)
    (fun g => (half g, (g + 1)%Z))
    (fun n exts g => (repeat (map (fun ex => half g * ex) exts) n, (g + 1)%Z)) (fun x => Some x).
Lemma half_range g : 0 < half g < 1. Proof. unfold half. destruct (Z.even g); lra. Qed.
Lemma demo_ok size num dist seeds org ext sobol : (0 < size)%nat -> (0 <= num < 2 ^ 31)%Z -> (0 <= dist <= 5)%Z -> 0 < fst ext -> 0 < snd ext ->
  (forall k, 0 <= sobol k < 1) -> setup_ok (demo size num dist seeds org ext sobol).
Proof.
  intros Hs Hn Hd H0 H1 Hq. unfold setup_ok. cbn -[Z.pow std_dec blocks box_points half]. split; [auto|]. split; [lia|]. split; [apply std_blocks; lia|].
  split. { intros r Hr. split; [|lia]. pose proof (std_blocks size num Hs ltac:(lia)) as (B0 & B1 & B2 & B3).
    assert (L : forall k, (k < size)%nat -> (0 <= fst (std_dec size num k))%Z).
    { induction k; intros Hk; [lia|]. rewrite B3 by auto. pose proof (IHk ltac:(lia)). pose proof (B2 k ltac:(lia)). lia. }
    assert (U : forall d k, (k + d = size - 1)%nat -> (snd (std_dec size num k) <= num)%Z).
    { induction d; intros k Hk; [replace k with (size - 1)%nat by lia; lia|]. pose proof (IHd (S k) ltac:(lia)). pose proof (B2 (S k) ltac:(lia)). rewrite (B3 k) in * by lia. lia. }
    specialize (L r Hr). specialize (U (size - 1 - r)%nat r ltac:(lia)). lia. }
  split; [lia|]. split; [lia|]. split; [auto|]. split; [auto|]. split; [auto|].
  split. { intros n ex0 ex1 g E0 E1. split; [apply repeat_length|]. apply Forall_forall. intros row Hr. apply repeat_spec in Hr as ->. pose proof (half_range g).
    eexists _, _. split; [reflexivity|]. nra. }
  split; [intros g; pose proof (half_range g); lra|]. split; [intros _ g; pose proof (half_range g); lra|]. eauto.
Qed.
Lemma ids_in {G} (E : cenv G) : setup_ok E -> (0 < ci_num E)%Z -> exists l p, population E = Some l /\ In p l.
Proof.
  intros Ok Hn. destruct (C106_population E Ok) as (l & El & Ids & _). destruct l as [|p l]; [|exists (p :: l), p; split; [auto|left; auto]].
  exfalso. cbn [map] in Ids. destruct (Z.to_nat (ci_num E)) eqn:Z0; [lia|discriminate].
Qed.
(** Distribution 0 scales the coordinates, not the distances from the corner: for a domain away from the origin the particles start
    outside the domain (and only the periodic boundary conditions bring them back). *)
Theorem C106_quarter_refuted : exists (E : cenv Z) l p, setup_ok E /\ ci_dist E = 0%Z /\ population E = Some l /\ In p l /\ ~ in_domain E (pos_of p).
Proof.
  set (E := demo 2 5 0 (fun _ => 7%Z) (1, 1) (1, 1) half). assert (Ok : setup_ok E).
  { apply demo_ok; cbn; try lia; try lra. intros k. pose proof (half_range k). lra. }
  destruct (ids_in E Ok ltac:(cbn; lia)) as (l & p & El & Hp). exists E, l, p. split; [auto|]. split; [reflexivity|]. split; [auto|]. split; [auto|].
  destruct (in_population E l p Ok El Hp) as (r & Hr & Hi). destruct (particle_from E r p Ok Hr Hi) as (_ & i & x & y & g & g' & _ & _ & Bx & By & Eb & _).
  unfold branch in Eb. cbn [ci_dist E demo Z.eqb] in Eb. unfold dist0 in Eb. injection Eb as Eb _. unfold pos_of, in_domain. rewrite <- Eb. cbn in *. lra.
Qed.
Print Assumptions C106_quarter_refuted.
(** Distribution 1: the thickness of the beams is absolute, so in a flat domain particles start outside it. *)
Theorem C106_beams_refuted : exists (E : cenv Z) l p, setup_ok E /\ ci_dist E = 1%Z /\ population E = Some l /\ In p l /\ ~ in_domain E (pos_of p).
Proof.
  set (E := demo 1 1 1 (fun _ => 0%Z) (0, 0) (1, 1 / 1000) (fun _ => 0)). assert (Ok : setup_ok E).
  { apply demo_ok; cbn; try lia; try lra. intros k. lra. }
  destruct (ids_in E Ok ltac:(cbn; lia)) as (l & p & El & Hp). exists E, l, p. split; [auto|]. split; [reflexivity|]. split; [auto|]. split; [auto|].
  destruct (in_population E l p Ok El Hp) as (r & Hr & Hi). destruct (particle_from E r p Ok Hr Hi) as (rows & i & x & y & g & g' & [_ Rr] & Er & _ & _ & Eb & _).
  rewrite (Rr eq_refl ltac:(cbn; lia)), sobol_rows_at, nth_error_map in Er. destruct (nth_error (seq _ _) i); [|discriminate]. cbn [option_map ci_sobol E demo] in Er.
  apply (f_equal (fun w => match w with Some w => nth 1 w 0 | None => 0 end)) in Er. cbn [nth ci_ext snd] in Er. 
  unfold branch in Eb. cbn [ci_dist E demo Z.eqb Pos.eqb] in Eb. unfold dist1 in Eb. destruct (ci_coin _ g) as [sp g1].
  rewrite Req_bool_false in Eb by (cbn; lra). cbn [negb check] in Eb. cbv zeta in Eb. injection Eb as Eb _. unfold pos_of, in_domain. rewrite <- Eb.
  assert (y = 0) by lra. subst y. cbn. destruct sp; lra.
Qed.
Print Assumptions C106_beams_refuted.
(** Distribution 4 never uses the Sobol points: positions depend on the number of ranks. *)
Theorem C106_ranks_refuted : exists (E E' : cenv Z) l l', setup_ok E /\ setup_ok E' /\ same_problem E E' /\ population E = Some l /\ population E' = Some l' /\
  map (fun p => (ip_id p, pos_of p)) l <> map (fun p => (ip_id p, pos_of p)) l'.
Proof.
  set (E := demo 1 2 4 (fun _ => 0%Z) (0, 0) (1, 1) half). set (E' := demo 2 2 4 (fun _ => 0%Z) (0, 0) (1, 1) half).
  assert (K : forall k, 0 <= half k < 1) by (intros k; pose proof (half_range k); lra).
  assert (Ok : setup_ok E) by (apply demo_ok; cbn; auto; try lia; try lra).
  assert (Ok' : setup_ok E') by (apply demo_ok; cbn; auto; try lia; try lra).
  eexists E, E', _, _. split; [auto|]. split; [auto|]. split.
  { unfold same_problem. cbn. repeat (split; [auto|]). exists 0%Z. auto. }
  split; [apply population_eq; auto|]. split; [apply population_eq; auto|].
  assert (P : map (fun p => (ip_id p, pos_of p)) (of_rank E 0) = [(0%Z, (1/4 * 1 + 0, 1/4 * 1 + 0)); (1%Z, (1/4 * 1 + 0, 1/4 * 1 + 0))]).
  { unfold of_rank, initial_particles, pos_of. cbn. try change (Pos.to_nat 2) with 2%nat. try change (Pos.to_nat 1) with 1%nat. unfold half. cbn. unfold branch. cbn. unfold half. cbn. rewrite ?(Rlt_bool_true (1 / 10) (3 / 4)), ?(Rlt_bool_true (1 / 10) (1 / 4)) by lra. cbn. rewrite ?(Rlt_bool_true (1 / 10) (1 / 4)), ?(Rlt_bool_true (1 / 10) (3 / 4)) by lra. cbn. reflexivity. }
  assert (P' : map (fun p => (ip_id p, pos_of p)) (of_rank E' 1) = [(1%Z, (3/4 * 1 + 0, 3/4 * 1 + 0))]).
  { unfold of_rank, initial_particles, pos_of. cbn. try change (Pos.to_nat 2) with 2%nat. try change (Pos.to_nat 1) with 1%nat. unfold half. cbn. unfold branch. cbn. unfold half. cbn. rewrite ?(Rlt_bool_true (1 / 10) (3 / 4)), ?(Rlt_bool_true (1 / 10) (1 / 4)) by lra. cbn. rewrite ?(Rlt_bool_true (1 / 10) (1 / 4)), ?(Rlt_bool_true (1 / 10) (3 / 4)) by lra. cbn. reflexivity. }
  cbn [ci_size E E' demo seq map concat]. rewrite app_nil_r, !map_app, app_nil_r, P. fold E'. rewrite P'. intros X.
  apply (f_equal (fun w => last w (0%Z, (0, 0)))) in X. rewrite last_last in X. cbn [last] in X. injection X as X _. lra.
Qed.
Print Assumptions C106_ranks_refuted.
(** Without a seed in the session each rank takes its own std::rand(): particles of different ranks can start at the same point. *)
Theorem C106_seed_refuted : exists (E : cenv Z) l p q, setup_ok E /\ (forall i j, (0 <= i)%Z -> (0 <= j)%Z -> ci_sobol E i = ci_sobol E j -> i = j) /\
  population E = Some l /\ In p l /\ In q l /\ ip_id p <> ip_id q /\ pos_of p = pos_of q.
Proof.
  set (sob := fun k : Z => / (Rabs (IZR k) + 2)). set (E := demo 2 2 2 (fun r => if Nat.eqb r 0 then 1%Z else 0%Z) (0, 0) (1, 1) sob).
  assert (Ok : setup_ok E).
  { apply demo_ok; cbn; try lia; try lra. intros k. unfold sob. pose proof (Rabs_pos (IZR k)). split; [apply Rlt_le, Rinv_0_lt_compat; lra|].
    rewrite <- Rinv_1. apply Rinv_lt_contravar; lra. }
  assert (P : exists p, of_rank E 0 = [p] /\ ip_id p = 0%Z /\ pos_of p = (sob 2%Z * 1 + 0, sob 3%Z * 1 + 0)).
  { unfold of_rank, initial_particles, pos_of. cbn -[sob]. eexists. split; [reflexivity|]. split; reflexivity. }
  assert (Q : exists p, of_rank E 1 = [p] /\ ip_id p = 1%Z /\ pos_of p = (sob 2%Z * 1 + 0, sob 3%Z * 1 + 0)).
  { unfold of_rank, initial_particles, pos_of. cbn -[sob]. eexists. split; [reflexivity|]. split; reflexivity. }
  destruct P as (p & P1 & P2 & P3). destruct Q as (q & Q1 & Q2 & Q3).
  exists E, [p; q], p, q. split; [auto|]. split.
  { intros i j Hi Hj H. cbn in H. unfold sob in H. rewrite !Rabs_pos_eq in H by (apply IZR_le; auto). apply IZR_le in Hi, Hj.
    apply (f_equal Rinv) in H. rewrite !Rinv_inv in H. apply eq_IZR. lra. }
  split. { rewrite (population_eq E Ok). cbn [ci_size E demo seq map concat]. fold E. rewrite P1, Q1. reflexivity. }
  split; [left; auto|]. split; [right; left; auto|]. split; [congruence|congruence].
Qed.
Print Assumptions C106_seed_refuted.
(** Five particles on two and on three ranks. *)
Example C106_applied : exists l l', population (demo 2 5 3 (fun _ => 7%Z) (-1, 2) (4, 1) half) = Some l /\ population (demo 3 5 3 (fun _ => 7%Z) (-1, 2) (4, 1) half) = Some l' /\
  map ip_id l = [0; 1; 2; 3; 4]%Z /\ map (fun p => (ip_id p, pos_of p)) l = map (fun p => (ip_id p, pos_of p)) l' /\
  Forall (fun p => -1 <= fst (pos_of p) < -1 + 4 /\ 2 <= snd (pos_of p) < 2 + 1) l.
Proof.
  set (E := demo 2 5 3 _ _ _ _). set (E' := demo 3 5 3 _ _ _ _).
  assert (K : forall k, 0 <= half k < 1) by (intros k; pose proof (half_range k); lra).
  assert (Ok : setup_ok E) by (apply demo_ok; cbn; auto; try lia; try lra).
  assert (Ok' : setup_ok E') by (apply demo_ok; cbn; auto; try lia; try lra).
  destruct (C106_population E Ok) as (l & El & Il & _). destruct (C106_population E' Ok') as (l' & El' & _). exists l, l'. split; [auto|]. split; [auto|].
  split; [exact Il|]. split.
  - apply (C106_ranks E E' l l' Ok Ok'); auto; try (cbn; lia). unfold same_problem. cbn. repeat (split; [auto|]). exists 7%Z. auto.
  - apply (C106_positions E l Ok); [cbn; lia|auto].
Qed.
