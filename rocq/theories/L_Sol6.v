(** Further lemmas for C67-C71. *)
From Verif Require Import M_Sol S_Sol L_RealBase L_Coord L_Sol L_Sol3 L_Expint.
From Coq Require Import Lra Lia Psatz List.
Import ListNotations.
Open Scope R_scope.

Lemma rate_value T : 0 < T -> exists e0 e1, expint_barry_approx (136 / 10 / T) = Some e0 /\ expint_barry_approx (136 / 10 / T + 56 / 100) = Some e1 /\
  ion_rate T = Some (268 / 10 ^ 14 / (T * sqrt T) * (e0 / (136 / 10 / T) + 6 / 10 * exp (56 / 100) / (136 / 10 / T + 56 / 100) * e1)).
Proof.
  intros HT. unfold ion_rate. change (136 / 10) with k_E_i. change (56 / 100) with k_c_i. rewrite rdiv_ok by lra. cbn [bind]. set (iv := k_E_i / T).
  assert (Hiv : 0 < iv) by (unfold iv, k_E_i; apply Rdiv_lt_0_compat; lra).
  unfold dsqrt. rewrite Rlt_bool_false by lra. cbn [bind]. assert (Hc : 0 < k_c_i) by (unfold k_c_i; lra). destruct (expint_pos iv Hiv) as (e0 & -> & He0). destruct (expint_pos (iv + k_c_i)) as (e1 & E1 & He1); [lra|]. rewrite E1. cbn [bind].
  rewrite rdiv_ok by lra. cbn [bind]. rewrite rdiv_ok by lra. cbn [bind].
  assert (Hs : 0 < sqrt T) by now apply sqrt_lt_R0. assert (HTs : 0 < T * sqrt T) by nra. rewrite rdiv_ok by nra. cbn [bind]. exists e0, e1. split; [reflexivity|]. split; [reflexivity|].
  f_equal. replace (- k_rate_factor) with (268 / 10 ^ 14) by (unfold k_rate_factor, k_q_i, k_a_i; lra). reflexivity.
Qed.
Lemma units_value Rs rhoInf uInf : 0 < Rs -> 0 < rhoInf -> 0 < uInf ->
  exists n T t, sol_units Rs rhoInf uInf = Some (n, T, t) /\ n * rhoInf = 3 * 10 ^ 18 /\ t * (3 * 10 ^ 4) = uInf /\
    T * (1380649 / 10 ^ 29 / (2 * (167 / 10 ^ 29))) * (uInf * uInf) = (3 * 10 ^ 4) * (3 * 10 ^ 4) * Rs * (8617333262 / 10 ^ 14).
Proof.
  intros H1 H2 H3. unfold sol_units. cbv zeta.
  assert (Hd : forall a b, 0 < a -> 0 < b -> 0 < a / b) by (intros; now apply Rdiv_lt_0_compat).
  assert (A : forall k, 0 < 10 ^ k) by (intros; apply pow_lt; lra).
  assert (P1 : 0 < 1380649 / 10 ^ 29) by (apply Hd; [lra|apply A]). assert (P2 : 0 < 2 * (167 / 10 ^ 29)) by (apply Rmult_lt_0_compat; [lra|]; apply Hd; [lra|apply A]).
  assert (P3 : 0 < 8617333262 / 10 ^ 14) by (apply Hd; [lra|apply A]). assert (P4 : 0 < 3 * 10 ^ 4) by (apply Rmult_lt_0_compat; [lra|apply A]).
  assert (P5 : 0 < 3 * 10 ^ 18) by (apply Rmult_lt_0_compat; [lra|apply A]).
  set (a := 1380649 / 10 ^ 29) in *. set (b := 2 * (167 / 10 ^ 29)) in *. set (c := 8617333262 / 10 ^ 14) in *. set (d := 3 * 10 ^ 4) in *. set (e := 3 * 10 ^ 18) in *.
  clearbody a b c d e. clear A. rewrite (rdiv_ok a b) by lra. cbn [bind]. assert (Q1 := Hd _ _ P1 P2). rewrite (rdiv_ok _ Rs) by lra. cbn [bind]. assert (Q2 := Hd _ _ Q1 H1).
  rewrite (rdiv_ok d) by lra. cbn [bind]. assert (Q3 := Hd _ _ P4 H3). assert (Q4 : 0 < d / uInf * (d / uInf)) by (now apply Rmult_lt_0_compat).
  rewrite rdiv_ok by (apply Rgt_not_eq; exact Q2). cbn [bind]. rewrite rdiv_ok by lra. cbn [bind]. rewrite rdiv_ok by (apply Rgt_not_eq; exact Q3). cbn [bind].
  eexists _, _, _. split; [reflexivity|]. split; [field; lra|]. split; [field; lra|]. field. repeat split; lra.
Qed.
Lemma new_parts_pv P rank pv : map (fun p => (np_pos p, np_vel p)) (new_parts P rank pv) = pv.
Proof.
  unfold new_parts. rewrite map_map. rewrite <- (map_id pv) at 3. assert (H : forall a, map (fun x : nat * (R * R * R * (R * R * R)) => (np_pos (let '(px, (x0, v)) := x in mkNp x0 v (Z.of_nat rank, Z.of_nat px) (Some (sp_weight P)) (Some 0) (Some 0, Some 0) (Some 0)), np_vel (let '(px, (x0, v)) := x in mkNp x0 v (Z.of_nat rank, Z.of_nat px) (Some (sp_weight P)) (Some 0) (Some 0, Some 0) (Some 0)))) (combine (seq a (length pv)) pv) = map (fun x => x) pv); [|apply H].
  induction pv as [|[x v] pv IH]; intros a; [reflexivity|]. cbn [length seq combine map]. rewrite IH. reflexivity.
Qed.
Lemma added_pv P num lines prop draw new n : add_particles P num lines prop draw = Some new -> per_line prop num lines = Some n ->
  map (fun p => (np_pos p, np_vel p)) new = flat_map (fun l => concat (draw l n)) (seq 0 lines) /\
  forall p, In p new -> np_sd p = Some 0 /\ np_sm p = (Some 0, Some 0) /\ np_se p = Some 0.
Proof.
  unfold add_particles. intros E En. rewrite En in E. cbn [bind] in E. injection E as <-. split.
  - rewrite flat_map_concat_map, concat_map, map_map, flat_map_concat_map. f_equal. apply map_ext. intros l. rewrite concat_map, map_map. f_equal.
    set (ll := draw l n). clearbody ll. assert (H : forall a, map (fun x : nat * list (R * R * R * (R * R * R)) => map (fun p => (np_pos p, np_vel p)) (let '(rank, pv) := x in new_parts P rank pv)) (combine (seq a (length ll)) ll) = ll); [|apply H].
    induction ll as [|pv ll IH]; intros a; [reflexivity|]. cbn [length seq combine map]. rewrite IH, new_parts_pv. reflexivity.
  - intros p Hin. apply in_flat_map in Hin as (lx & _ & Hin). apply in_concat in Hin as (r & Hr & Hin). apply in_map_iff in Hr as ([rk pv] & <- & _). unfold new_parts in Hin. apply in_map_iff in Hin as ([px [x v]] & <- & _). repeat split.
Qed.
Lemma stream_dr ds : forall p, let q := fold_left (fun p d => euler_dr d p) ds p in
  np_pos q = drift3 (rsum_list ds) (np_vel p) (np_pos p) /\ np_vel q = np_vel p /\ np_id q = np_id p /\ np_w q = np_w p /\ np_sd q = np_sd p /\ np_sm q = np_sm p /\ np_se q = np_se p.
Proof.
  induction ds as [|d ds IH]; intros p; cbv zeta in *; cbn [fold_left].
  - unfold rsum_list, drift3. cbn [fold_right]. destruct (np_pos p) as [[a b] c], (np_vel p) as [[u w] z]. repeat split. f_equal; [f_equal|]; ring.
  - destruct (IH (euler_dr d p)) as (E & E1 & E2 & E3 & E4 & E5 & E6). rewrite E, E1, E2, E3, E4, E5, E6. unfold euler_dr, drift3, rsum_list. destruct (np_pos p) as [[a b] c] eqn:Ep, (np_vel p) as [[u w] z] eqn:Ev. cbn [np_pos np_vel np_id np_w np_sd np_sm np_se fold_right]. try rewrite Ev. repeat split. f_equal; [f_equal|]; ring.
Qed.
Lemma stream_sol ds : forall p, let q := fold_left (fun p d => euler_sol d p) ds p in
  fst (np_pos q) = fst (drift3 (rsum_list ds) (np_vel p) (np_pos p)) /\ snd (np_pos q) = snd (np_pos p) /\ np_vel q = np_vel p /\ np_id q = np_id p /\ np_w q = np_w p /\ np_sd q = np_sd p /\ np_sm q = np_sm p /\ np_se q = np_se p.
Proof.
  induction ds as [|d ds IH]; intros p; cbv zeta in *; cbn [fold_left].
  - unfold rsum_list, drift3. cbn [fold_right]. destruct (np_pos p) as [[a b] c], (np_vel p) as [[u w] z]. repeat split. cbn [fst]. f_equal; ring.
  - destruct (IH (euler_sol d p)) as (E & E0 & E1 & E2 & E3 & E4 & E5 & E6). rewrite E, E0, E1, E2, E3, E4, E5, E6. unfold euler_sol, drift3, rsum_list. destruct (np_pos p) as [[a b] c] eqn:Ep, (np_vel p) as [[u w] z] eqn:Ev. cbn [np_pos np_vel np_id np_w np_sd np_sm np_se fold_right]. try rewrite Ev. repeat split. cbn [fst]. f_equal; ring.
Qed.
