(** The exponential integral approximation at small and large arguments. *)
From Verif Require Import M_Sol L_RealBase L_Coord L_Sol L_BigO.
From Coq Require Import Lra Lia Psatz.
Open Scope R_scope.

(** What the code computes, for positive arguments *)
Definition barry_u (x : R) : R := G / x - (1 - G) / ((barry_h x + barry_b * x) * (barry_h x + barry_b * x)).
Definition barry_D (x : R) : R := G + (1 - G) * exp (- (x / (1 - G))).
Definition barry_E (x : R) : R := exp (- x) / barry_D x * ln (1 + barry_u x).
Lemma expint_value x : 0 < x -> expint_barry_approx x = Some (barry_E x).
Proof.
  intros Hx. pose proof G_bounds as [H1 H2]. pose proof b_bounds as [B1 B2]. pose proof b2_bounds as [C1 C2]. pose proof (barry_log x Hx) as Hl.
  pose proof (h_lb x Hx) as Hh. unfold expint_barry_approx. cbv zeta. fold G.
  rewrite (rdiv_ok (2 * (1 - G)) G) by lra. cbn [bind]. rewrite rdiv_ok by lra. cbn [bind].
  unfold dsqrt at 1. rewrite Rlt_bool_false by lra. cbn [bind]. fold barry_b.
  assert (Hd : 0 < 3 * G * ((2 - G) * (2 - G)) * barry_b) by (apply Rmult_lt_0_compat; [apply Rmult_lt_0_compat; nra|lra]).
  rewrite rdiv_ok by lra. cbn [bind]. fold barry_hinf.
  unfold dpow. rewrite Rlt_bool_false, Req_bool_false by lra. cbn [bind].
  unfold dsqrt. rewrite Rlt_bool_false by lra. cbn [bind].
  assert (Hs : 0 < sqrt x) by now apply sqrt_lt_R0.
  assert (Hpw : 0 < Rpower x (sqrt (31 / 26))) by (unfold Rpower; apply exp_pos).
  rewrite rdiv_ok by nra. cbn [bind]. rewrite rdiv_ok by nra. cbn [bind]. rewrite rdiv_ok by lra. cbn [bind].
  change (1 / (1 + x * sqrt x) + barry_hinf * (20 / 47 * Rpower x (sqrt (31 / 26))) / (1 + 20 / 47 * Rpower x (sqrt (31 / 26)))) with (barry_h x).
  assert (HD : 0 < (barry_h x + barry_b * x) * (barry_h x + barry_b * x)) by (assert (0 < barry_h x + barry_b * x) by nra; nra).
  rewrite rdiv_ok by lra. cbn [bind]. unfold dlog. rewrite Rle_bool_false by lra. cbn [bind].
  rewrite rdiv_ok by lra. cbn [bind]. assert (He : 0 < exp (- (x / (1 - G)))) by apply exp_pos.
  assert (HE : 0 < G + (1 - G) * exp (- (x / (1 - G)))) by nra.
  rewrite rdiv_ok by lra. cbn [bind]. unfold barry_E, barry_u, barry_D. f_equal. f_equal. f_equal. ring.
Qed.
Lemma u_pos x : 0 < x -> 0 < barry_u x.
Proof. intros H. pose proof (barry_log x H). unfold barry_u. lra. Qed.
Lemma u_lt x : 0 < x -> barry_u x < G / x.
Proof.
  intros H. pose proof G_bounds. pose proof b_bounds. pose proof (h_lb x H). unfold barry_u. assert (0 < (1 - G) / ((barry_h x + barry_b * x) * (barry_h x + barry_b * x))); [|lra].
  apply Rdiv_lt_0_compat; [lra|]. apply Rmult_lt_0_compat; nra.
Qed.
Lemma exp_ge x : 1 + x <= exp x.
Proof. destruct (Req_dec x 0) as [->|H]; [rewrite exp_0; lra|]. left. apply exp_ineq1, H. Qed.
Lemma exp_neg t : t <= 0 -> exp t <= 1.
Proof. intros H. destruct H as [H| ->]; [left; rewrite <- exp_0; apply exp_increasing, H|rewrite exp_0; lra]. Qed.
Lemma D_bounds x : 0 < x -> G <= barry_D x <= G + (1 - G) * exp (- (x / (1 - G))) /\ barry_D x <= 1.
Proof.
  intros H. pose proof G_bounds. unfold barry_D. pose proof (exp_pos (- (x / (1 - G)))). split; [split; [nra|apply Rle_refl]|]. assert (exp (- (x / (1 - G))) <= 1); [|nra]. apply exp_neg. assert (0 < x / (1 - G)) by (apply Rdiv_lt_0_compat; lra). lra.
Qed.
Lemma ln_le_m1 y : 0 < y -> ln y <= y - 1.
Proof. intros H. pose proof (exp_ge (ln y)). rewrite exp_ln in H0 by exact H. lra. Qed.

(** ** Small arguments *)
Lemma f_near_1 x : 0 < x -> Rabs (exp (- x) / barry_D x - 1) <= 2 * x.
Proof.
  intros H. pose proof G_bounds as [G1 G2]. destruct (D_bounds x H) as [[D1 D2] D3]. pose proof (exp_ge (- x)) as E1. pose proof (exp_ge (- (x / (1 - G)))) as E2.
  assert (E3 : exp (- x) <= 1) by (apply exp_neg; lra). assert (E4 : exp (- (x / (1 - G))) <= 1) by (apply exp_neg; assert (0 < x / (1 - G)) by (apply Rdiv_lt_0_compat; lra); lra).
  replace (exp (- x) / barry_D x - 1) with ((exp (- x) - barry_D x) / barry_D x) by (field; lra). unfold Rdiv. rewrite Rabs_mult, (Rabs_pos_eq (/ barry_D x)) by (left; apply Rinv_0_lt_compat; lra).
  assert (N : Rabs (exp (- x) - barry_D x) <= x).
  { assert (EX : (1 - G) * (x / (1 - G)) = x) by (field; lra). apply Rabs_le. unfold barry_D. split; nra. }
  apply Rle_trans with (x * / barry_D x); [apply Rmult_le_compat_r; [left; apply Rinv_0_lt_compat; lra|exact N]|]. fold (x / barry_D x). apply div_le; [lra|]. nra.
Qed.
Lemma small_bound x : 0 < x <= 1 / 40 -> Rabs (barry_E x + ln x + gamma_Euler_Mascheroni) <= 60 * sqrt x.
Proof.
  intros [H Hs]. pose proof G_bounds as [G1 G2]. pose proof b_bounds as [B1 B2]. pose proof (h_lb x H) as Hh.
  set (v := (1 - G) / ((barry_h x + barry_b * x) * (barry_h x + barry_b * x))). set (w := barry_h x + barry_b * x) in *. assert (Hw : 1 / 4 <= w) by (unfold w; nra).
  assert (Hv : 0 < v <= 8) by (unfold v; split; [apply Rdiv_lt_0_compat; nra|apply div_le; nra]).
  set (d := x / G * (1 - v)). assert (Hd : Rabs d <= 16 * x).
  { unfold d. rewrite Rabs_mult, Rabs_pos_eq by (left; apply Rdiv_lt_0_compat; lra). assert (x / G <= 2 * x) by (apply div_le; nra). assert (Rabs (1 - v) <= 8) by (apply Rabs_le; lra). assert (0 <= x / G) by (left; apply Rdiv_lt_0_compat; lra). pose proof (Rabs_pos (1 - v)). nra. }
  assert (Hdd : - (2 / 5) <= d <= 2 / 5) by (destruct (Rabs_le_inv d (16 * x) Hd); lra).
  assert (Eu : 1 + barry_u x = G / x * (1 + d)) by (unfold barry_u, d; fold w; fold v; field; split; lra).
  assert (El : ln (1 + barry_u x) = - gamma_Euler_Mascheroni - ln x + ln (1 + d)).
  { rewrite Eu, ln_mult by (try lra; apply Rdiv_lt_0_compat; lra). unfold Rdiv. rewrite ln_mult, ln_Rinv by (try apply Rinv_0_lt_compat; lra). unfold G at 1. rewrite ln_exp. ring. }
  assert (L1 : Rabs (ln (1 + d)) <= 32 * x).
  { destruct (Rabs_le_inv d (16 * x) Hd) as [K1 K2]. apply Rabs_le. split.
    - assert (M : ln (/ (1 + d)) <= / (1 + d) - 1) by (apply ln_le_m1, Rinv_0_lt_compat; lra). rewrite ln_Rinv in M by lra. assert (/ (1 + d) - 1 = - d * / (1 + d)) by (field; lra). assert (/ (1 + d) <= 2) by (rewrite <- (Rinv_inv 2); apply Rinv_le_contravar; lra). assert (0 < / (1 + d)) by (apply Rinv_0_lt_compat; lra). nra.
    - pose proof (ln_le_m1 (1 + d) ltac:(lra)). lra. }
  set (s := sqrt x). assert (Hs0 : 0 < s) by (apply sqrt_lt_R0, H). assert (Hss : s * s = x) by (apply sqrt_sqrt; lra). assert (Hs1 : s <= 1) by nra.
  assert (L2 : Rabs (ln x) * x <= 2 * s).
  { assert (Lx : ln x <= 0) by (pose proof (ln_le_m1 x H); lra). rewrite Rabs_left1 by exact Lx. assert (M : ln (/ s) <= / s - 1) by (apply ln_le_m1, Rinv_0_lt_compat, Hs0). rewrite ln_Rinv in M by exact Hs0.
    assert (Ls : ln x = 2 * ln s) by (rewrite <- Hss, ln_mult by exact Hs0; ring). rewrite Ls. assert (/ s * (s * s) = s) by (field; lra). nra. }
  pose proof (f_near_1 x H) as F. unfold barry_E. set (f := exp (- x) / barry_D x) in *. rewrite El. set (g := gamma_Euler_Mascheroni). assert (Hg : 0 < g < 6 / 10) by (unfold g, gamma_Euler_Mascheroni; lra).
  replace (f * (- g - ln x + ln (1 + d)) + ln x + g) with ((f - 1) * (- g - ln x) + f * ln (1 + d)) by ring. set (l := ln (1 + d)) in *. clearbody f l.
  assert (A1 : Rabs ((f - 1) * (- g - ln x)) <= 2 * x * (6 / 10 + Rabs (ln x))).
  { rewrite Rabs_mult. apply Rmult_le_compat; try apply Rabs_pos; [exact F|]. replace (- g - ln x) with (- (g + ln x)) by ring. rewrite Rabs_Ropp. eapply Rle_trans; [apply Rabs_triang|]. rewrite (Rabs_pos_eq g) by lra. lra. }
  assert (A2 : Rabs (f * l) <= 2 * (32 * x)).
  { rewrite Rabs_mult. apply Rmult_le_compat; try apply Rabs_pos; [|exact L1]. destruct (Rabs_le_inv _ _ F). apply Rabs_le. lra. }
  eapply Rle_trans; [apply Rabs_triang|]. assert (Hxs : x <= s * (16 / 100)) by (assert (s <= 16 / 100) by nra; nra). nra.
Qed.

(** ** Large arguments: y = 1/x *)
Lemma inv_ge1 y : 0 < y <= 1 -> 1 <= / y.
Proof. intros H. rewrite <- (Rinv_1) at 1. apply Rinv_le_contravar; lra. Qed.
Lemma h_tail y : 0 < y <= 1 -> Rabs (barry_h (/ y) - barry_hinf) <= (1 + 3 * barry_hinf) * y ^ 1.
Proof.
  intros H. pose proof (inv_ge1 y H) as Hx. pose proof hinf_lb as Hi. set (x := / y) in *. assert (Exy : y = / x) by (unfold x; rewrite Rinv_inv; reflexivity).
  unfold barry_h. cbv zeta. set (pw := Rpower x (sqrt (31 / 26))). set (q := 20 / 47 * pw).
  assert (Hpw : x <= pw).
  { unfold pw. rewrite <- (Rpower_1 x) at 1 by lra. apply Rle_Rpower; [exact Hx|]. rewrite <- sqrt_1 at 1. apply sqrt_le_1_alt. lra. }
  assert (Hsx : 1 <= sqrt x) by (rewrite <- sqrt_1 at 1; apply sqrt_le_1_alt; exact Hx).
  assert (A1 : 0 <= 1 / (1 + x * sqrt x) <= y).
  { split; [left; apply Rdiv_lt_0_compat; nra|]. rewrite Exy. unfold Rdiv. rewrite Rmult_1_l. apply Rinv_le_contravar; nra. }
  assert (Hq : 0 < q) by (unfold q; nra). assert (A2 : barry_hinf * q / (1 + q) - barry_hinf = - (barry_hinf * / (1 + q))) by (field; lra).
  assert (A3 : 0 <= / (1 + q) <= 3 * y).
  { split; [left; apply Rinv_0_lt_compat; lra|]. apply Rle_trans with (/ (x / 3)); [apply Rinv_le_contravar; [lra|unfold q; nra]|]. rewrite Exy. right. field. lra. }
  replace (1 / (1 + x * sqrt x) + barry_hinf * q / (1 + q) - barry_hinf) with (1 / (1 + x * sqrt x) + (barry_hinf * q / (1 + q) - barry_hinf)) by ring. rewrite A2. set (a := 1 / (1 + x * sqrt x)) in *. set (r := / (1 + q)) in *. clearbody a r.
  apply Rabs_le. simpl. split; nra.
Qed.
Definition c_two : R := (1 - G) / (barry_b * barry_b).
Definition c_three : R := 2 * c_two * (barry_hinf / barry_b).
Lemma b_sq : barry_b * barry_b = 2 * (1 - G) / G / (2 - G).
Proof. apply sqrt_sqrt. pose proof b2_bounds. lra. Qed.
Lemma c_two_val : c_two = G - G * G / 2.
Proof. unfold c_two. rewrite b_sq. pose proof G_bounds. field. repeat split; lra. Qed.
Lemma c_three_val : c_three = G * (G * G - 6 * G + 12) / 6.
Proof.
  unfold c_three. rewrite c_two_val. pose proof G_bounds. pose proof b_bounds. unfold barry_hinf.
  replace ((1 - G) * (G * G - 6 * G + 12) / (3 * G * ((2 - G) * (2 - G)) * barry_b) / barry_b) with ((1 - G) * (G * G - 6 * G + 12) / (3 * G * ((2 - G) * (2 - G)) * (barry_b * barry_b))) by (field; repeat split; lra).
  rewrite b_sq. field. repeat split; lra.
Qed.
Definition u_y (y : R) : R := barry_u (/ y).
Definition P_y (y : R) : R := G * y - c_two * y ^ 2 + c_three * y ^ 3.
Lemma u_expand : bO 4 (fun y => u_y y - P_y y).
Proof.
  pose proof G_bounds as [G1 G2]. pose proof b_bounds as [B1 B2]. pose proof hinf_lb as Hi.
  set (e := fun y => barry_h (/ y) - barry_hinf). assert (He : bO 1 e) by (apply (O_bound 1 e (1 + 3 * barry_hinf)); [lra|exact h_tail]).
  set (z := fun y => barry_h (/ y) * y / barry_b). set (r := fun y => / ((1 + z y) * (1 + z y)) - 1 + 2 * z y).
  assert (Hz : bO 1 z).
  { apply (O_ext 1 (fun y => (barry_hinf + e y) * (/ barry_b * y))); [intros; unfold z, e; field; lra|]. apply (O_mul 0 1); [apply O_add; [apply O_const|apply (O_weak 0 1); [lia|exact He]]|apply O_scal, O_id]. }
  assert (Hr : bO 2 r).
  { apply (O_dom 2 r (fun y => 3 * (z y * z y))); [|apply O_scal; apply (O_mul 1 1); exact Hz]. intros y Hy. assert (Z0 : 0 <= z y) by (unfold z; pose proof (h_lb (/ y) ltac:(apply Rinv_0_lt_compat; lra)); apply Rmult_le_pos; [nra|left; apply Rinv_0_lt_compat; lra]).
    unfold r. set (t := z y) in *. clearbody t. assert (Er : / ((1 + t) * (1 + t)) - 1 + 2 * t = t * t * (3 + 2 * t) / ((1 + t) * (1 + t))) by (field; lra). rewrite Er.
    assert (0 < (1 + t) * (1 + t)) by nra. rewrite Rabs_pos_eq by (apply Rmult_le_pos; [apply Rmult_le_pos; nra|left; apply Rinv_0_lt_compat; assumption]). rewrite Rabs_pos_eq by nra. apply div_le; [assumption|]. assert (0 <= t * t) by nra. assert (0 <= t * t * t) by nra. assert (0 <= t * t * t * t) by nra. nra. }
  apply (O_ext 4 (fun y => (- c_two) * (y ^ 2 * (r y - 2 * (e y * (/ barry_b * y)))))).
  - intros y Hy. unfold u_y, barry_u, P_y, r, e, c_three, c_two. assert (Eh : barry_h (/ y) = z y * barry_b / y) by (unfold z; field; lra). assert (Z0 : 0 <= z y) by (unfold z; pose proof (h_lb (/ y) ltac:(apply Rinv_0_lt_compat; lra)); apply Rmult_le_pos; [nra|left; apply Rinv_0_lt_compat; lra]).
    rewrite Eh. set (t := z y) in *. clearbody t. field. repeat split; try lra. assert (0 < t * barry_b + barry_b) by nra. lra.
  - apply O_scal. apply (O_mul 2 2); [apply O_pow|]. apply O_sub; [exact Hr|]. apply O_scal. apply (O_mul 1 1); [exact He|apply O_scal, O_id].
Qed.
Lemma P_order : bO 1 P_y.
Proof. unfold P_y. apply O_add; [apply O_sub; [apply O_scal, O_id|apply O_scal, (O_weak 1 2); [lia|apply O_pow]]|apply O_scal, (O_weak 1 3); [lia|apply O_pow]]. Qed.
Lemma u_order : bO 1 u_y.
Proof. apply (O_ext 1 (fun y => (u_y y - P_y y) + P_y y)); [intros; ring|]. apply O_add; [apply (O_weak 1 4); [lia|apply u_expand]|apply P_order]. Qed.
Lemma P_cubic : bO 4 (fun y => P_y y - P_y y ^ 2 / 2 + P_y y ^ 3 / 3 - G * (y - y ^ 2 + 2 * y ^ 3)).
Proof.
  set (c2 := c_two). set (c3 := c_three).
  set (S := fun y => - (c2 ^ 2 + 2 * G * c3) / 2 + (2 * c2 * c3) / 2 * y - c3 ^ 2 / 2 * y ^ 2 + (- 3 * G ^ 2 * c2 + (3 * G ^ 2 * c3 + 3 * G * c2 ^ 2) * y - (6 * G * c2 * c3 + c2 ^ 3) * y ^ 2 + (3 * G * c3 ^ 2 + 3 * c2 ^ 2 * c3) * y ^ 3 - 3 * c2 * c3 ^ 2 * y ^ 4 + c3 ^ 3 * y ^ 5) / 3).
  apply (O_ext 4 (fun y => y ^ 4 * S y)).
  - intros y _. unfold P_y, S. fold c2 c3. assert (E2 : c2 = G - G * G / 2) by apply c_two_val. assert (E3 : c3 = G * (G * G - 6 * G + 12) / 6) by apply c_three_val.
    assert (K : (G * y - c2 * y ^ 2 + c3 * y ^ 3) - (G * y - c2 * y ^ 2 + c3 * y ^ 3) ^ 2 / 2 + (G * y - c2 * y ^ 2 + c3 * y ^ 3) ^ 3 / 3 - G * (y - y ^ 2 + 2 * y ^ 3) - y ^ 4 * S y = (G - (c2 + G * G / 2)) * y ^ 2 + (c3 + G * c2 + G ^ 3 / 3 - 2 * G) * y ^ 3) by (unfold S; field).
    assert (Z1 : G - (c2 + G * G / 2) = 0) by (rewrite E2; field). assert (Z2 : c3 + G * c2 + G ^ 3 / 3 - 2 * G = 0) by (rewrite E3, E2; field). rewrite Z1, Z2 in K. unfold S in K. lra.
  - apply (O_mul 4 0); [apply O_pow|].
    assert (Pk : forall c k, bO 0 (fun y => c * y ^ k)) by (intros c k; apply O_scal, (O_weak 0 k); [lia|apply O_pow]).
    apply (O_ext 0 (fun y => (- (c2 ^ 2 + 2 * G * c3) / 2 - G ^ 2 * c2) * y ^ 0 + (c2 * c3 + (G ^ 2 * c3 + G * c2 ^ 2)) * y ^ 1 + (- c3 ^ 2 / 2 - (2 * G * c2 * c3 + c2 ^ 3 / 3)) * y ^ 2 + (G * c3 ^ 2 + c2 ^ 2 * c3) * y ^ 3 + (- c2 * c3 ^ 2) * y ^ 4 + c3 ^ 3 / 3 * y ^ 5)); [intros; unfold S; field|].
    repeat apply O_add; apply Pk.
Qed.
Lemma ln_expand : bO 4 (fun y => ln (1 + u_y y) - G * (y - y ^ 2 + 2 * y ^ 3)).
Proof.
  apply (O_ext 4 (fun y => (ln (1 + u_y y) - (u_y y - u_y y ^ 2 / 2 + u_y y ^ 3 / 3)) + ((u_y y - P_y y) * (1 - (u_y y + P_y y) / 2 + (u_y y ^ 2 + u_y y * P_y y + P_y y ^ 2) / 3) + (P_y y - P_y y ^ 2 / 2 + P_y y ^ 3 / 3 - G * (y - y ^ 2 + 2 * y ^ 3))))); [intros; field|].
  assert (U0 := O_weak 0 1 _ ltac:(lia) u_order). assert (P0 := O_weak 0 1 _ ltac:(lia) P_order).
  apply O_add; [|apply O_add; [|apply P_cubic]].
  - apply (O_dom 4 _ (fun y => (u_y y * u_y y) * (u_y y * u_y y))).
    + intros y Hy. assert (Hu : 0 < u_y y) by (apply u_pos, Rinv_0_lt_compat; lra). rewrite (Rabs_pos_eq ((u_y y * u_y y) * (u_y y * u_y y))) by nra. replace ((u_y y * u_y y) * (u_y y * u_y y)) with (u_y y ^ 4) by ring. apply ln_taylor. lra.
    + apply (O_mul 2 2); apply (O_mul 1 1); apply u_order.
  - apply (O_mul 4 0); [apply u_expand|].
    apply (O_ext 0 (fun y => 1 - / 2 * (u_y y + P_y y) + / 3 * (u_y y * u_y y + u_y y * P_y y + P_y y * P_y y))); [intros; field|].
    apply O_add; [apply O_sub; [apply O_const|apply O_scal, O_add; assumption]|]. apply O_scal. repeat apply O_add; apply (O_mul 0 0); assumption.
Qed.
Lemma D_expand y : 0 < y <= 1 -> 0 <= barry_D (/ y) - G <= 27 * y ^ 3.
Proof.
  intros H. pose proof G_bounds as [G1 G2]. unfold barry_D. replace (G + (1 - G) * exp (- (/ y / (1 - G))) - G) with ((1 - G) * exp (- (/ y / (1 - G)))) by ring. pose proof (exp_pos (- (/ y / (1 - G)))).
  split; [nra|]. set (t := / y / (1 - G)) in *. assert (Ht : / y <= t) by (unfold t; apply le_div; [lra|]; assert (0 < / y) by (apply Rinv_0_lt_compat; lra); nra).
  assert (E : exp (- t) = exp (- (t / 3)) ^ 3) by (replace (- t) with (- (t / 3) + (- (t / 3) + - (t / 3))) by field; rewrite !exp_plus; ring).
  assert (Hi : 0 < / y) by (apply Rinv_0_lt_compat; lra). assert (K : exp (- (t / 3)) <= 3 * y).
  { rewrite exp_Ropp. apply Rle_trans with (/ (/ y / 3)); [|right; field; lra]. apply Rinv_le_contravar; [lra|]. pose proof (exp_ge (t / 3)). lra. }
  rewrite E. pose proof (exp_pos (- (t / 3))). assert (C : exp (- (t / 3)) ^ 3 <= (3 * y) ^ 3) by (apply pow_incr; lra). replace (27 * y ^ 3) with ((3 * y) ^ 3) by ring. assert (0 <= exp (- (t / 3)) ^ 3) by (apply pow_le; lra). nra.
Qed.
(** x e^x E(x) = 1 - 1/x + 2/x^2 + O(1/x^3) *)
Lemma large_expand : exists C, 0 <= C /\ forall x, 1 <= x -> Rabs (x * exp x * barry_E x - (1 - 1 / x + 2 / x ^ 2)) <= C / x ^ 3.
Proof.
  destruct ln_expand as (C & HC & H). exists (2 * C + 4 * 27 * 2). split; [lra|]. intros x Hx. set (y := / x). assert (Hy : 0 < y <= 1) by (unfold y; split; [apply Rinv_0_lt_compat; lra|rewrite <- Rinv_1; apply Rinv_le_contravar; lra]).
  assert (Ex : x = / y) by (unfold y; rewrite Rinv_inv; reflexivity). specialize (H y Hy). pose proof (D_expand y Hy) as [D1 D2]. pose proof G_bounds as [G1 G2]. unfold u_y in H. rewrite <- Ex in *.
  unfold barry_E. set (L := ln (1 + barry_u x)) in *. set (D := barry_D x) in *. rewrite exp_Ropp. pose proof (exp_pos x).
  assert (HD : 53 / 100 < D) by lra. set (Q := 1 - y + 2 * y ^ 2).
  assert (E : x * exp x * (/ exp x / D * L) - (1 - 1 / x + 2 / x ^ 2) = (L - G * (y - y ^ 2 + 2 * y ^ 3)) / (y * D) + Q * (G - D) / D).
  { unfold Q. rewrite Ex. field. repeat split; try lra. rewrite <- Ex. lra. }
  rewrite E. replace ((2 * C + 4 * 27 * 2) / x ^ 3) with (2 * C * y ^ 3 + 2 * 27 * y ^ 3 * 4) by (unfold y; field; lra).
  eapply Rle_trans; [apply Rabs_triang|]. assert (HyD : 0 < y * D) by nra. apply Rplus_le_compat.
  - unfold Rdiv. rewrite Rabs_mult, (Rabs_pos_eq (/ (y * D))) by (left; apply Rinv_0_lt_compat; exact HyD). apply Rle_trans with (C * y ^ 4 * / (y * D)); [apply Rmult_le_compat_r; [left; apply Rinv_0_lt_compat; exact HyD|exact H]|].
    fold (C * y ^ 4 / (y * D)). apply div_le; [exact HyD|]. assert (0 <= C * y ^ 4) by (apply Rmult_le_pos; [exact HC|apply pow_le; lra]). replace (2 * C * y ^ 3 * (y * D)) with (2 * D * (C * y ^ 4)) by ring. nra.
  - unfold Rdiv. rewrite !Rabs_mult, (Rabs_pos_eq (/ D)) by (left; apply Rinv_0_lt_compat; lra). assert (Q1 : Rabs Q <= 4) by (unfold Q; apply Rabs_le; split; nra). assert (Q2 : Rabs (G - D) <= 27 * y ^ 3) by (apply Rabs_le; split; lra).
    assert (Q3 : 0 < / D <= 2) by (split; [apply Rinv_0_lt_compat; lra|rewrite <- (Rinv_inv 2); apply Rinv_le_contravar; lra]). assert (0 <= y ^ 3) by (apply pow_le; lra). pose proof (Rabs_pos Q). pose proof (Rabs_pos (G - D)).
    apply Rle_trans with (4 * (27 * y ^ 3) * 2); [|lra]. apply Rmult_le_compat; [apply Rmult_le_pos; assumption|lra|apply Rmult_le_compat; assumption|lra].
Qed.
