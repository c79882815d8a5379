(** Lemmas for C112. *)
From Flocq Require Import Core Relative.
From Verif Require Import M_RealBase L_RealBase M_Grid M_Double S_Double L_Double L_Double2 M_BorisD M_Coord S_Coord L_Coord M_CoordD S_CoordD.
From Coq Require Import Reals Lra Lia ZArith.
Open Scope R_scope.

Lemma u_val : u = / 9007199254740992.
Proof. rewrite <- u_eq. unfold unit_roundoff. f_equal. cbn. lra. Qed.
Lemma uu_le : 0 <= u * u <= u / 1000000.
Proof. pose proof u_pos. pose proof u_small. split; [apply Rmult_le_pos; lra|]. unfold Rdiv. apply Rmult_le_compat_l; lra. Qed.
Lemma ar x B : Rabs x <= B -> Rabs (rnd x - x) <= u * B + u / 1000000.
Proof.
  intros H. pose proof (rnd_any_err x). pose proof eta_small. pose proof uu_le. pose proof u_pos. assert (u * Rabs x <= u * B) by (apply Rmult_le_compat_l; lra). lra.
Qed.
Lemma fl4 x : Rabs x <= 16 -> fl x = Some (rnd x).
Proof. intros. apply (fl_bpow _ 4); [lia|cbn; lra]. Qed.
Lemma dbl_rnd x : Rabs x <= 16 -> is_double (rnd x).
Proof. intros H. apply (fl_double x). apply fl4. auto. Qed.
Lemma fmtd x : is_double x -> fmt x. Proof. intros H. apply is_double_fmt in H. tauto. Qed.
Lemma fmt_small_Z z : (Z.abs z <= 100)%Z -> fmt (IZR z).
Proof. intros. apply fmt_Z. lia. Qed.
Lemma ktol_val : kNekZeroTol = / 1000000000000.
Proof. Transparent kNekZeroTol. unfold kNekZeroTol. Opaque kNekZeroTol. f_equal. cbn. lra. Qed.
Lemma ztol_near : Rabs (ztol - kNekZeroTol) <= u / 1000.
Proof.
  rewrite ktol_val. unfold ztol. replace (10 ^ 12) with 1000000000000 by (cbn; lra). eapply Rle_trans; [apply (ar _ (/ 1000000000000)); rewrite Rabs_pos_eq; lra|]. pose proof u_pos. lra.
Qed.
Lemma ztol_range : / 10000000000000 <= ztol <= / 100000000000.
Proof. pose proof ztol_near as H. apply Rabs_le_inv in H. rewrite ktol_val, u_val in H. lra. Qed.
Lemma guard_cases r : 0 <= r -> (r < ztol /\ guard_d r = ztol) \/ (ztol <= r /\ guard_d r = r).
Proof.
  intros H. unfold guard_d. rewrite Rabs_pos_eq by auto. destruct (Rlt_bool_spec r ztol); [left|right; split; auto]. rewrite Rle_bool_true by auto. auto.
Qed.
(** what the guard adds *)
Definition gap (y : R) : R := if Rlt_bool (rnd y) ztol then ztol else 0.
Lemma gap_range y : 0 <= gap y <= ztol.
Proof. unfold gap. pose proof ztol_range. destruct (Rlt_bool _ _); lra. Qed.
Lemma ratio_ok x y : is_double x -> -1 <= x -> 1 + x <= y <= 2 -> exists e q, ratio_d x (guard_d (rnd y)) = Some e /\ is_double e /\ -1 <= e <= 1 /\ e = rnd (q - 1) /\ 0 <= q <= 2 /\
  Rabs (q * guard_d (rnd y) - 2 * rnd (1 + x)) <= 5 * u.
Proof.
  intros D X [Y1 Y2]. set (a := rnd (1 + x)). set (r := rnd y). pose proof u_pos as u0. pose proof u_small as us.
  assert (A0 : 0 <= a) by (apply rnd_abs; lra). assert (AR : a <= r) by (apply rnd_mono; lra). assert (R2 : r <= 2) by (apply rnd_le; [apply fmt_small_Z; lia|auto]).
  pose proof ztol_range as Z. unfold ratio_d. rewrite (fl4 (1 + x)) by (apply Rabs_le; lra). fold a. cbn [bind].
  rewrite (fl_exact (2 * a)).
  2:{ apply is_double_fmt. split; [apply fmt_double; [apply rnd_fmt|]|]; rewrite Rabs_pos_eq by lra; apply Rle_lt_trans with (bpow radix2 3); try (cbn; lra); apply bpow_lt; lia. }
  cbn [bind]. set (d := guard_d r). assert (Dd : 0 < d /\ a <= d /\ d <= 2). { unfold d. destruct (guard_cases r) as [[H ->]|[H ->]]; lra. } destruct Dd as (D0 & D1 & D2).
  unfold div_d. rewrite Req_bool_false by lra. assert (Q0 : 0 <= 2 * a / d <= 2).
  { split; [apply Rmult_le_pos; [lra|left; apply Rinv_0_lt_compat; lra]|]. apply Rmult_le_reg_r with d; [lra|]. unfold Rdiv. rewrite Rmult_assoc, Rinv_l by lra. lra. }
  rewrite (fl4 (2 * a / d)) by (apply Rabs_le; lra). cbn [bind]. set (q := rnd (2 * a / d)).
  assert (Q1 : 0 <= q <= 2) by (split; [apply rnd_abs; lra|apply rnd_le; [apply fmt_small_Z; lia|lra]]).
  rewrite (fl4 (q - 1)) by (apply Rabs_le; lra). exists (rnd (q - 1)), q. split; [auto|]. split; [apply dbl_rnd; apply Rabs_le; lra|].
  split; [split; [apply rnd_ge; [apply (fmt_small_Z (-1)); lia|lra]|apply rnd_le; [apply fmt_small_Z; lia|lra]]|]. split; [auto|]. split; [auto|].
  assert (E : Rabs (q - 2 * a / d) <= u * 2 + u / 1000000) by (apply ar; rewrite Rabs_pos_eq; lra).
  replace (q * d - 2 * a) with ((q - 2 * a / d) * d) by (field; lra). rewrite Rabs_mult, (Rabs_pos_eq d) by lra.
  assert (Rabs (q - 2 * a / d) * d <= (u * 2 + u / 1000000) * 2) by (apply Rmult_le_compat; try lra; apply Rabs_pos). lra.
Qed.
Lemma unratio_ok (f : bool) e q b : -1 <= e <= 1 -> e = rnd (q - 1) -> 0 <= q <= 2 -> Rabs b <= 5 / 2 ->
  exists x', unratio_d f e b = Some x' /\ is_double x' /\ Rabs (x' - (q * b / 2 - 1)) <= 20 * u.
Proof.
  intros He Ee Hq Hb. pose proof u_pos as u0. pose proof u_small as us. unfold unratio_d. rewrite (fl4 (1 + e)) by (apply Rabs_le; lra). cbn [bind]. set (c := rnd (1 + e)).
  assert (E1 : Rabs (e - (q - 1)) <= u * 1 + u / 1000000) by (rewrite Ee; apply ar; apply Rabs_le; lra).
  assert (E2 : Rabs (c - (1 + e)) <= u * 2 + u / 1000000) by (apply ar; apply Rabs_le; lra).
  assert (C : Rabs (c - q) <= 4 * u). { replace (c - q) with ((c - (1 + e)) + (e - (q - 1))) by ring. eapply Rle_trans; [apply Rabs_triang|]. lra. }
  assert (C1 : Rabs c <= 21 / 10). { replace c with (q + (c - q)) by ring. eapply Rle_trans; [apply Rabs_triang|]. rewrite (Rabs_pos_eq q) by lra. lra. }
  assert (P : Rabs (c * b) <= 21 / 4). { rewrite Rabs_mult. replace (21 / 4) with (21 / 10 * (5 / 2)) by field. apply Rmult_le_compat; auto; apply Rabs_pos. }
  rewrite (fl4 (c * b)) by lra. cbn [bind]. set (p := rnd (c * b)). assert (E3 : Rabs (p - c * b) <= u * (21 / 4) + u / 1000000) by (apply ar; auto).
  assert (E4 : Rabs (c * b - q * b) <= 10 * u). { replace (c * b - q * b) with ((c - q) * b) by ring. rewrite Rabs_mult. replace (10 * u) with (4 * u * (5 / 2)) by field. apply Rmult_le_compat; auto; apply Rabs_pos. }
  assert (P1 : Rabs p <= 6). { replace p with (c * b + (p - c * b)) by ring. eapply Rle_trans; [apply Rabs_triang|]. lra. }
  apply Rabs_le_inv in E3. apply Rabs_le_inv in E4. apply Rabs_le_inv in P1. unfold mul_add. destruct f.
  - rewrite (fl4 (p * (1 / 2) + -1)) by (apply Rabs_le; lra). exists (rnd (p * (1 / 2) + -1)). split; [auto|]. split; [apply dbl_rnd; apply Rabs_le; lra|].
    assert (E5 : Rabs (rnd (p * (1 / 2) + -1) - (p * (1 / 2) + -1)) <= u * 4 + u / 1000000) by (apply ar; apply Rabs_le; lra). apply Rabs_le_inv in E5. apply Rabs_le. lra.
  - rewrite (fl4 (p * (1 / 2))) by (apply Rabs_le; lra). cbn [bind].
    assert (E5 : Rabs (rnd (p * (1 / 2)) - (p * (1 / 2))) <= u * 3 + u / 1000000) by (apply ar; apply Rabs_le; lra). apply Rabs_le_inv in E5. set (h := rnd (p * (1 / 2))) in *.
    rewrite (fl4 (h + -1)) by (apply Rabs_le; lra). exists (rnd (h + -1)). split; [auto|]. split; [apply dbl_rnd; apply Rabs_le; lra|].
    assert (E6 : Rabs (rnd (h + -1) - (h + -1)) <= u * 5 + u / 1000000) by (apply ar; apply Rabs_le; lra). apply Rabs_le_inv in E6. apply Rabs_le. lra.
Qed.
(** there and back for one coordinate, where the factor used on the way back may differ *)
Lemma coll (f : bool) x y b : is_double x -> -1 <= x -> 1 + x <= y <= 2 -> Rabs b <= 5 / 2 ->
  exists e x', ratio_d x (guard_d (rnd y)) = Some e /\ is_double e /\ -1 <= e <= 1 /\ unratio_d f e b = Some x' /\ is_double x' /\ Rabs (x' - x) <= 26 * u + Rabs (b - rnd y) + gap y.
Proof.
  intros D X Y B. destruct (ratio_ok x y D X Y) as (e & q & E & De & He & Ee & Hq & HR). destruct (unratio_ok f e q b He Ee Hq B) as (x' & E' & D' & H').
  exists e, x'. split; [auto|]. split; [auto|]. split; [auto|]. split; [auto|]. split; [auto|].
  pose proof u_pos as u0. pose proof u_small as us. assert (AX : Rabs (rnd (1 + x) - (1 + x)) <= u * 2 + u / 1000000) by (apply ar; apply Rabs_le; lra).
  assert (A0 : 0 <= rnd (1 + x)) by (apply rnd_abs; lra). assert (AR : rnd (1 + x) <= rnd y) by (apply rnd_mono; lra). set (a := rnd (1 + x)) in *. set (r := rnd y) in *.
  assert (QB : Rabs (q * b / 2 - q * r / 2) <= Rabs (b - r)).
  { replace (q * b / 2 - q * r / 2) with (q / 2 * (b - r)) by field. rewrite Rabs_mult, (Rabs_pos_eq (q / 2)) by lra. rewrite <- (Rmult_1_l (Rabs (b - r))) at 2. apply Rmult_le_compat_r; [apply Rabs_pos|lra]. }
  replace (x' - x) with ((x' - (q * b / 2 - 1)) + ((q * b / 2 - q * r / 2) + (q * r / 2 - 1 - x))) by ring. eapply Rle_trans; [apply Rabs_triang|].
  assert (T : Rabs ((q * b / 2 - q * r / 2) + (q * r / 2 - 1 - x)) <= Rabs (b - r) + Rabs (q * r / 2 - 1 - x)) by (eapply Rle_trans; [apply Rabs_triang|]; lra).
  assert (G : Rabs (q * r / 2 - 1 - x) <= 5 * u + gap y); [|lra]. unfold gap. fold r. apply Rabs_le_inv in AX.
  destruct (guard_cases r) as [[H1 H2]|[H1 H2]]; [lra| |].
  - rewrite Rlt_bool_true by auto. assert (0 <= q * r <= 2 * r) by (split; [apply Rmult_le_pos; lra|apply Rmult_le_compat_r; lra]). apply Rabs_le. lra.
  - rewrite Rlt_bool_false by auto. rewrite H2 in HR. apply Rabs_le_inv in HR. apply Rabs_le. lra.
Qed.
Lemma gap_away y : 2 * kNekZeroTol <= y <= 2 -> gap y = 0.
Proof.
  intros H. unfold gap. rewrite Rlt_bool_false; [auto|]. assert (E : Rabs (rnd y - y) <= u * 2 + u / 1000000) by (apply ar; apply Rabs_le; pose proof tol_pos; lra).
  pose proof ztol_near as N. apply Rabs_le_inv in E. apply Rabs_le_inv in N. rewrite ktol_val, u_val in *. lra.
Qed.
Lemma gap_tol y : 0 <= gap y <= kNekZeroTol + u / 1000.
Proof. pose proof (gap_range y). pose proof ztol_near as N. apply Rabs_le_inv in N. lra. Qed.
Lemma fl50 x : Rabs x <= 1000000000000000 -> fl x = Some (rnd x).
Proof. intros. apply (fl_bpow _ 50); [lia|cbn; lra]. Qed.
Lemma guard_abs r : ztol <= Rabs (guard_d r).
Proof.
  pose proof ztol_range. unfold guard_d. destruct (Rlt_bool_spec (Rabs r) ztol); [|auto].
  destruct (Rle_bool_spec 0 r); [rewrite Rabs_pos_eq by lra; lra|rewrite Rabs_Ropp, Rabs_pos_eq by lra; lra].
Qed.
Lemma quot_small n r : Rabs n <= 4 -> Rabs (n / guard_d r) <= 50000000000000.
Proof.
  intros H. pose proof (guard_abs r) as G. pose proof ztol_range as Z. unfold Rdiv. rewrite Rabs_mult, Rabs_inv.
  replace 50000000000000 with (5 * 10000000000000) by lra. apply Rmult_le_compat; [apply Rabs_pos|left; apply Rinv_0_lt_compat; lra|lra|].
  replace 10000000000000 with (/ / 10000000000000) by (field). apply Rinv_le_contravar; lra.
Qed.
Lemma guard_n0 r : guard_d r <> 0.
Proof. pose proof (guard_abs r) as G. pose proof ztol_range. intros E. rewrite E, Rabs_R0 in G. lra. Qed.
Lemma rnd_big x B : (0 <= B) -> Rabs x <= B -> Rabs (rnd x) <= 2 * B + 1.
Proof.
  intros B0 H. pose proof (ar x B H) as A. pose proof u_pos. pose proof u_small. assert (u * B <= B * 1) by (rewrite (Rmult_comm u); apply Rmult_le_compat_l; lra).
  apply Rabs_le_inv in A. apply Rabs_le_inv in H. apply Rabs_le. lra.
Qed.
Lemma div_any n r : Rabs n <= 4 -> div_d n (guard_d r) = Some (rnd (n / guard_d r)) /\ Rabs (rnd (n / guard_d r)) <= 100000000000001.
Proof.
  intros H. pose proof (quot_small n r H) as Q. unfold div_d. rewrite Req_bool_false by apply guard_n0. rewrite fl50 by lra. split; [auto|].
  apply Rle_trans with (2 * 50000000000000 + 1); [apply rnd_big; lra|lra].
Qed.
Lemma two_u : fmt (1 + 2 * u).
Proof. rewrite u_val. replace (1 + 2 * / 9007199254740992) with (IZR 4503599627370497 * bpow radix2 (-52)) by (cbn; lra). apply fmt_mul_bpow; lia. Qed.
Lemma rnd_two x : x < 2 + 2 * u -> rnd x <= 2.
Proof.
  intros H. unfold rnd. apply round_N_le_midp; try typeclasses eauto.
  - change (fmt 2). apply fmt_small_Z. lia.
  - rewrite succ_eq_pos by lra. replace (ulp radix2 dexp 2) with (4 * u); [lra|].
    replace 2 with (bpow radix2 1) by reflexivity. rewrite ulp_bpow. rewrite u_val. cbn. lra.
Qed.
(** 2 / d is rounded to nearest *)
Lemma quot_rel d : 0 < d <= 2 -> d * rnd (2 / d) < 2 + 2 * u /\ 0 <= rnd (2 / d).
Proof.
  intros [D0 D2]. pose proof u_pos as u0. pose proof u_small as us. assert (Q : 1 <= 2 / d). { apply Rmult_le_reg_r with d; [lra|]. unfold Rdiv. rewrite Rmult_assoc, Rinv_l by lra. lra. }
  split; [|apply rnd_abs; lra]. unfold rnd. rewrite (round_FLT_FLX radix2 (-1074) 53).
  2:{ rewrite Rabs_pos_eq by lra. apply Rle_trans with (bpow radix2 0); [apply bpow_le; lia|cbn; lra]. }
  destruct (relative_error_N_FLX'_ex radix2 53 eq_refl (fun x => negb (Z.even x)) (2 / d)) as (e & He & E). rewrite E.
  replace (d * (2 / d * (1 + e))) with (2 + 2 * e) by (field; lra). unfold u_ro in He. change (-(53) + 1)%Z with (-52)%Z in He.
  replace (/ 2 * bpow radix2 (-52)) with u in He by (rewrite u_val; cbn; lra). apply Rabs_le_inv in He.
  assert (u / (1 + u) < u); [|lra]. apply Rmult_lt_reg_r with (1 + u); [lra|]. unfold Rdiv. rewrite Rmult_assoc, Rinv_l by lra.
  assert (0 < u * u) by (apply Rmult_lt_0_compat; lra). lra.
Qed.
Lemma prod_ok (f : bool) x y : -1 <= x -> 1 + x <= y <= 2 -> exists e, mul_add f (rnd (1 + x)) (rnd (2 / guard_d (rnd y))) (-1) = Some e /\ is_double e /\ -1 <= e <= 1 + 2 * u /\ (f = false -> e <= 1).
Proof.
  intros X [Y1 Y2]. pose proof u_pos as u0. pose proof u_small as us. set (a := rnd (1 + x)). set (r := rnd y).
  assert (A0 : 0 <= a) by (apply rnd_abs; lra). assert (AR : a <= r) by (apply rnd_mono; lra). assert (R2 : r <= 2) by (apply rnd_le; [apply fmt_small_Z; lia|auto]).
  pose proof ztol_range as Z. set (d := guard_d r). assert (Dd : 0 < d /\ a <= d /\ d <= 2). { unfold d. destruct (guard_cases r) as [[H ->]|[H ->]]; lra. } destruct Dd as (D0 & D1 & D2).
  destruct (quot_rel d (conj D0 D2)) as [P Q]. set (q := rnd (2 / d)) in *. assert (AQ : 0 <= a * q < 2 + 2 * u).
  { split; [apply Rmult_le_pos; lra|]. apply Rle_lt_trans with (d * q); [apply Rmult_le_compat_r; lra|auto]. }
  unfold mul_add. destruct f.
  - rewrite fl4 by (apply Rabs_le; lra). eexists. split; [reflexivity|]. split; [apply dbl_rnd; apply Rabs_le; lra|]. split; [|discriminate].
    split; [apply rnd_ge; [apply (fmt_small_Z (-1)); lia|lra]|apply rnd_le; [apply two_u|lra]].
  - rewrite fl4 by (apply Rabs_le; lra). cbn [bind]. assert (H2 : rnd (a * q) <= 2) by (apply rnd_two; lra). assert (H0 : 0 <= rnd (a * q)) by (apply rnd_abs; lra).
    rewrite fl4 by (apply Rabs_le; lra). eexists. split; [reflexivity|]. split; [apply dbl_rnd; apply Rabs_le; lra|].
    assert (L : -1 <= rnd (rnd (a * q) + -1)) by (apply rnd_ge; [apply (fmt_small_Z (-1)); lia|lra]).
    assert (U : rnd (rnd (a * q) + -1) <= 1) by (apply rnd_le; [apply fmt_small_Z; lia|lra]). split; [lra|auto].
Qed.
(** the two ways of forming the ratio agree *)
Lemma prod_near (f : bool) x y e e' : -1 <= x -> 1 + x <= y <= 2 -> mul_add f (rnd (1 + x)) (rnd (2 / guard_d (rnd y))) (-1) = Some e -> ratio_d x (guard_d (rnd y)) = Some e' ->
  Rabs (e - e') <= 10 * u.
Proof.
  intros X [Y1 Y2]. pose proof u_pos as u0. pose proof u_small as us. unfold ratio_d. rewrite (fl4 (1 + x)) by (apply Rabs_le; lra). cbn [bind]. set (a := rnd (1 + x)). set (r := rnd y).
  assert (A0 : 0 <= a) by (apply rnd_abs; lra). assert (AR : a <= r) by (apply rnd_mono; lra). assert (R2 : r <= 2) by (apply rnd_le; [apply fmt_small_Z; lia|auto]).
  pose proof ztol_range as Z. set (d := guard_d r). assert (Dd : 0 < d /\ a <= d /\ d <= 2). { unfold d. destruct (guard_cases r) as [[H ->]|[H ->]]; lra. } destruct Dd as (D0 & D1 & D2).
  rewrite (fl_exact (2 * a)).
  2:{ apply is_double_fmt. split; [apply fmt_double; [apply rnd_fmt|]|]; rewrite Rabs_pos_eq by lra; apply Rle_lt_trans with (bpow radix2 3); try (cbn; lra); apply bpow_lt; lia. }
  cbn [bind]. unfold div_d. rewrite Req_bool_false by lra. set (Q := 2 * a / d). assert (Q0 : 0 <= Q <= 2).
  { unfold Q. split; [apply Rmult_le_pos; [lra|left; apply Rinv_0_lt_compat; lra]|]. apply Rmult_le_reg_r with d; [lra|]. unfold Rdiv. rewrite Rmult_assoc, Rinv_l by lra. lra. }
  assert (K : 1 <= 2 / d). { apply Rmult_le_reg_r with d; [lra|]. unfold Rdiv. rewrite Rmult_assoc, Rinv_l by lra. lra. }
  destruct (rnd_normal (2 / d)) as (h & Hh & ->).
  { rewrite Rabs_pos_eq by lra. apply Rle_trans with (bpow radix2 0); [apply bpow_le; lia|cbn; lra]. }
  replace (a * (2 / d * (1 + h))) with (Q + Q * h) by (unfold Q; field; lra).
  assert (QH : Rabs (Q * h) <= 2 * u). { rewrite Rabs_mult, (Rabs_pos_eq Q) by lra. apply Rmult_le_compat; try lra. apply Rabs_pos. }
  apply Rabs_le_inv in QH. assert (E1 : Rabs (rnd Q - Q) <= u * 2 + u / 1000000) by (apply ar; apply Rabs_le; lra). apply Rabs_le_inv in E1.
  rewrite (fl4 Q) by (apply Rabs_le; lra). cbn [bind]. rewrite fl4 by (apply Rabs_le; lra).
  assert (E2 : Rabs (rnd (rnd Q - 1) - (rnd Q - 1)) <= u * (1 + / 1000) + u / 1000000) by (apply ar; apply Rabs_le; lra). apply Rabs_le_inv in E2.
  intros HE HE'. injection HE' as <-. unfold mul_add in HE. assert (UU : u * / 1000 <= u / 1000) by lra. replace (a * (2 / d * (1 + h))) with (Q + Q * h) in HE by (unfold Q; field; lra). destruct f.
  - rewrite fl4 in HE by (apply Rabs_le; lra). injection HE as <-.
    assert (E3 : Rabs (rnd (Q + Q * h + -1) - (Q + Q * h + -1)) <= u * (1 + / 1000) + u / 1000000) by (apply ar; apply Rabs_le; lra). apply Rabs_le_inv in E3. apply Rabs_le. lra.
  - assert (E3 : Rabs (rnd (Q + Q * h) - (Q + Q * h)) <= u * (2 + / 1000) + u / 1000000) by (apply ar; apply Rabs_le; lra). apply Rabs_le_inv in E3.
    rewrite fl4 in HE by (apply Rabs_le; lra). cbn [bind] in HE. rewrite fl4 in HE by (apply Rabs_le; lra). injection HE as <-.
    assert (E4 : Rabs (rnd (rnd (Q + Q * h) + -1) - (rnd (Q + Q * h) + -1)) <= u * (1 + / 1000) + u / 1000000) by (apply ar; apply Rabs_le; lra). apply Rabs_le_inv in E4. apply Rabs_le. lra.
Qed.
Lemma prod_any (f : bool) a q : Rabs a <= 3 -> Rabs q <= 100000000000001 -> exists e, mul_add f a q (-1) = Some e.
Proof.
  intros A Q. assert (P : Rabs (a * q) <= 300000000000003). { rewrite Rabs_mult. replace 300000000000003 with (3 * 100000000000001) by lra. apply Rmult_le_compat; auto; apply Rabs_pos. }
  unfold mul_add. destruct f.
  - rewrite fl50; eauto. apply Rabs_le_inv in P. apply Rabs_le. lra.
  - rewrite fl50 by lra. cbn [bind]. assert (R : Rabs (rnd (a * q)) <= 2 * 300000000000003 + 1) by (apply rnd_big; lra). rewrite fl50; eauto. apply Rabs_le_inv in R. apply Rabs_le. lra.
Qed.
