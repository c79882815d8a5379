(** Lemmas for C67-C70: the exponential integral approximation is positive, the ionisation kernel. *)
From Verif Require Import M_Sol L_RealBase L_Coord.
From Coq Require Import Lra Lia Psatz List.
Import ListNotations.

Lemma le_div a b c : 0 < c -> a * c <= b -> a <= b / c.
Proof. intros Hc H. apply Rmult_le_reg_r with c; auto. replace (b / c * c) with b by (field; lra). exact H. Qed.
Lemma div_le a b c : 0 < c -> b <= a * c -> b / c <= a.
Proof. intros Hc H. apply Rmult_le_reg_r with c; auto. replace (b / c * c) with b by (field; lra). exact H. Qed.
Lemma pow8_lt a b : 0 <= a -> a < b -> a ^ 8 < b ^ 8.
Proof.
  intros H0 H. assert (A : a * a < b * b) by nra. assert (B : a * a * (a * a) < b * b * (b * b)) by nra.
  replace (a ^ 8) with (a * a * (a * a) * (a * a * (a * a))) by ring. replace (b ^ 8) with (b * b * (b * b) * (b * b * (b * b))) by ring.
  assert (0 <= a * a * (a * a)) by nra. nra.
Qed.
Lemma exp8 x : exp x = exp (x / 8) ^ 8.
Proof. replace x with (x / 8 + x / 8 + (x / 8 + x / 8) + (x / 8 + x / 8 + (x / 8 + x / 8))) at 1 by field. rewrite !exp_plus. ring. Qed.
Definition G : R := exp (- gamma_Euler_Mascheroni).
Lemma G_bounds : 53 / 100 < G < 59 / 100.
Proof.
  unfold G. set (g := gamma_Euler_Mascheroni). assert (Hg : 577 / 1000 < g < 578 / 1000) by (unfold g, gamma_Euler_Mascheroni; lra).
  split.
  - rewrite exp8. apply Rlt_trans with ((9277 / 10000) ^ 8); [lra|]. apply pow8_lt; [lra|].
    apply Rle_lt_trans with (1 + - g / 8); [lra|]. apply exp_ineq1. lra.
  - rewrite exp_Ropp. apply Rmult_lt_reg_r with (exp g); [apply exp_pos|]. rewrite Rinv_l by (pose proof (exp_pos g); lra).
    assert (H : (10721 / 10000) ^ 8 < exp g).
    { rewrite exp8. apply pow8_lt; [lra|]. apply Rle_lt_trans with (1 + g / 8); [lra|]. apply exp_ineq1. lra. }
    lra.
Qed.
Definition barry_b : R := sqrt (2 * (1 - G) / G / (2 - G)).
Definition barry_hinf : R := (1 - G) * (G * G - 6 * G + 12) / (3 * G * ((2 - G) * (2 - G)) * barry_b).
Lemma b2_bounds : 97 / 100 <= 2 * (1 - G) / G / (2 - G) <= 125 / 100.
Proof.
  pose proof G_bounds as [H1 H2]. assert (Hp : 0 < G * (2 - G)) by nra.
  replace (2 * (1 - G) / G / (2 - G)) with (2 * (1 - G) / (G * (2 - G))) by (field; split; lra).
  split.
  - apply le_div; auto. nra.
  - apply div_le; auto. nra.
Qed.
Lemma b_bounds : 97 / 100 <= barry_b <= 113 / 100.
Proof.
  pose proof b2_bounds as [H1 H2]. unfold barry_b. split.
  - replace (97 / 100) with (sqrt ((97 / 100) * (97 / 100))) by (apply sqrt_square; lra). apply sqrt_le_1_alt. lra.
  - replace (113 / 100) with (sqrt ((113 / 100) * (113 / 100))) by (apply sqrt_square; lra). apply sqrt_le_1_alt. lra.
Qed.
Lemma hinf_lb : 84 / 100 <= barry_hinf.
Proof.
  pose proof G_bounds as [H1 H2]. pose proof b_bounds as [B1 B2]. unfold barry_hinf.
  set (b := barry_b) in *. clearbody b. set (g := G) in *. clearbody g.
  assert (P1 : 0 < g * ((2 - g) * (2 - g)) <= 1175 / 1000).
  { split; [apply Rmult_lt_0_compat; [lra|apply Rmult_lt_0_compat; lra]|].
    assert (0 <= (2 - g) * (59/100 - g)) by nra. assert (0 <= g * (2 - g) * (59/100 - g)) by (apply Rmult_le_pos; nra). nra. }
  set (u := g * ((2 - g) * (2 - g))) in *. replace (3 * g * ((2 - g) * (2 - g)) * b) with (3 * u * b) by (unfold u; ring). clearbody u.
  assert (Hp : 0 < 3 * u * b) by nra. assert (Hq : u * b <= 1175 / 1000 * (113 / 100)) by nra.
  assert (N : 36 / 10 <= (1 - g) * (g * g - 6 * g + 12)).
  { assert (88 / 10 <= g * g - 6 * g + 12) by nra. nra. }
  apply le_div; auto. lra.
Qed.
Definition barry_h (x : R) : R :=
  let q := 20 / 47 * Rpower x (sqrt (31 / 26)) in 1 / (1 + x * sqrt x) + barry_hinf * q / (1 + q).
Lemma h_lb x : 0 < x -> 1 / 4 <= barry_h x.
Proof.
  intros Hx. unfold barry_h. cbv zeta. set (pw := Rpower x (sqrt (31 / 26))). assert (Hpw : 0 < pw) by (unfold pw, Rpower; apply exp_pos).
  pose proof hinf_lb as Hh. set (hi := barry_hinf) in *. clearbody hi. set (q := 20 / 47 * pw). assert (Hq : 0 < q) by (unfold q; lra).
  assert (Hs : 0 < sqrt x) by now apply sqrt_lt_R0.
  assert (T2 : 0 < hi * q / (1 + q)) by (apply Rdiv_lt_0_compat; [apply Rmult_lt_0_compat; lra|lra]).
  assert (T1 : 0 < 1 / (1 + x * sqrt x)) by (apply Rdiv_lt_0_compat; nra).
  destruct (Rle_or_lt x 1) as [H|H].
  - assert (sqrt x <= 1) by (rewrite <- sqrt_1; apply sqrt_le_1_alt; lra).
    assert (1 / 2 <= 1 / (1 + x * sqrt x)); [|lra].
    unfold Rdiv. rewrite !Rmult_1_l. apply Rinv_le_contravar; nra.
  - assert (1 <= pw).
    { unfold pw. rewrite <- (Rpower_O x) by lra. apply Rle_Rpower; [lra|]. apply sqrt_pos. }
    assert (20 / 47 <= q) by (unfold q; lra).
    assert (1 / 4 <= hi * q / (1 + q)); [|lra].
    apply le_div; [lra|]. nra.
Qed.
Lemma barry_log x : 0 < x -> 1 < 1 + G / x - (1 - G) / ((barry_h x + barry_b * x) * (barry_h x + barry_b * x)).
Proof.
  intros Hx. pose proof G_bounds as [H1 H2]. pose proof b_bounds as [B1 B2]. pose proof (h_lb x Hx) as Hh.
  set (h := barry_h x) in *. clearbody h. set (b := barry_b) in *. clearbody b. set (g := G) in *. clearbody g.
  set (D := (h + b * x) * (h + b * x)). assert (HD : 0 < D) by (unfold D; assert (0 < h + b * x) by nra; nra).
  assert (K : (1 - g) * x < g * D).
  { assert (A : 4 * (h * b) * x <= D) by (unfold D; pose proof (Rle_0_sqr (h - b * x)) as Q; unfold Rsqr in Q; nra).
    assert (Bq : 97 / 400 <= h * b) by nra. assert (Cq : 1 - g < g * (4 * (h * b))) by nra.
    apply Rlt_le_trans with (g * (4 * (h * b)) * x); [nra|]. nra. }
  assert ((1 - g) / D < g / x); [|lra].
  apply Rmult_lt_reg_r with D; auto. unfold Rdiv at 1. rewrite Rmult_assoc, Rinv_l, Rmult_1_r by lra.
  apply Rmult_lt_reg_r with x; auto. replace (g / x * D * x) with (g * D) by (field; lra). exact K.
Qed.
(** The approximation is defined and positive for every positive argument. *)
Lemma expint_pos x : 0 < x -> exists e, expint_barry_approx x = Some e /\ 0 < e.
Proof.
  intros Hx. pose proof G_bounds as [H1 H2]. pose proof b_bounds as [B1 B2]. pose proof b2_bounds as [C1 C2]. pose proof (barry_log x Hx) as Hl.
  pose proof (h_lb x Hx) as Hh. unfold expint_barry_approx. cbv zeta. fold G.
  rewrite (rdiv_ok (2 * (1 - G)) G) by lra. cbn [bind]. rewrite rdiv_ok by lra. cbn [bind].
  unfold dsqrt at 1. rewrite Rlt_bool_false by lra. cbn [bind]. fold barry_b.
  assert (Hd : 0 < 3 * G * ((2 - G) * (2 - G)) * barry_b) by (apply Rmult_lt_0_compat; [apply Rmult_lt_0_compat; nra|lra]).
  rewrite rdiv_ok by lra. cbn [bind]. fold barry_hinf.
  unfold dpow. rewrite Rlt_bool_false, Req_bool_false by lra. cbn [bind].
  unfold dsqrt. rewrite Rlt_bool_false by lra. cbn [bind].
  assert (Hs : 0 < sqrt x) by now apply sqrt_lt_R0.
  assert (Hpw : 0 < Rpower x (sqrt (31 / 26))) by (unfold Rpower; apply exp_pos).
  rewrite rdiv_ok by nra. cbn [bind]. rewrite rdiv_ok by nra. cbn [bind]. rewrite rdiv_ok by lra. cbn [bind].
  change (1 / (1 + x * sqrt x) + barry_hinf * (20 / 47 * Rpower x (sqrt (31 / 26))) / (1 + 20 / 47 * Rpower x (sqrt (31 / 26)))) with (barry_h x).
  assert (HD : 0 < (barry_h x + barry_b * x) * (barry_h x + barry_b * x)) by (assert (0 < barry_h x + barry_b * x) by nra; nra).
  rewrite rdiv_ok by lra. cbn [bind]. unfold dlog. rewrite Rle_bool_false by lra. cbn [bind].
  rewrite rdiv_ok by lra. cbn [bind]. assert (He : 0 < exp (- (x / (1 - G)))) by apply exp_pos.
  assert (HE : 0 < G + (1 - G) * exp (- (x / (1 - G)))) by nra.
  rewrite rdiv_ok by lra. cbn [bind]. eexists. split; [reflexivity|]. apply Rmult_lt_0_compat.
  - apply Rdiv_lt_0_compat; [apply exp_pos|lra].
  - rewrite <- ln_1. apply ln_increasing; lra.
Qed.
Lemma expint_nonpos x : x <= 0 -> expint_barry_approx x = None.
Proof.
  intros Hx. pose proof G_bounds as [H1 H2]. pose proof b_bounds as [B1 B2]. pose proof b2_bounds as [C1 C2]. unfold expint_barry_approx. cbv zeta. fold G.
  rewrite (rdiv_ok (2 * (1 - G)) G) by lra. cbn [bind]. rewrite rdiv_ok by lra. cbn [bind].
  unfold dsqrt at 1. rewrite Rlt_bool_false by lra. cbn [bind]. fold barry_b.
  assert (Hd : 0 < 3 * G * ((2 - G) * (2 - G)) * barry_b) by (apply Rmult_lt_0_compat; [apply Rmult_lt_0_compat; nra|lra]).
  rewrite rdiv_ok by lra. cbn [bind]. fold barry_hinf. unfold dpow. case Rlt_bool_spec; intros Hn; [reflexivity|].
  assert (x = 0) by lra. subst x. rewrite Req_bool_true by reflexivity. cbn [bind]. unfold dsqrt. rewrite Rlt_bool_false by lra. cbn [bind].
  rewrite rdiv_ok by lra. cbn [bind]. rewrite rdiv_ok by lra. cbn [bind]. unfold rdiv at 1. rewrite Req_bool_true by reflexivity. reflexivity.
Qed.
Lemma rate_pos TeV : 0 < TeV -> exists r, ion_rate TeV = Some r /\ 0 < r.
Proof.
  intros HT. unfold ion_rate. rewrite rdiv_ok by lra. cbn [bind]. set (iv := k_E_i / TeV).
  assert (Hiv : 0 < iv) by (unfold iv, k_E_i; apply Rdiv_lt_0_compat; lra).
  unfold dsqrt. rewrite Rlt_bool_false by lra. cbn [bind]. destruct (expint_pos iv Hiv) as (e0 & -> & He0). cbn [bind].
  rewrite rdiv_ok by lra. cbn [bind]. assert (Hc : 0 < k_c_i) by (unfold k_c_i; lra). rewrite rdiv_ok by lra. cbn [bind].
  destruct (expint_pos (iv + k_c_i)) as (e1 & -> & He1); [lra|]. cbn [bind].
  assert (Hs : 0 < sqrt TeV) by now apply sqrt_lt_R0. rewrite rdiv_ok by nra. cbn [bind]. eexists. split; [reflexivity|].
  assert (Hk : 0 < - k_rate_factor) by (unfold k_rate_factor, k_q_i, k_a_i; lra).
  assert (0 < k_b_i * exp k_c_i) by (apply Rmult_lt_0_compat; [unfold k_b_i; lra|apply exp_pos]).
  apply Rmult_lt_0_compat; [apply Rdiv_lt_0_compat; nra|]. apply Rplus_lt_0_compat.
  - apply Rdiv_lt_0_compat; lra.
  - apply Rmult_lt_0_compat; auto. apply Rdiv_lt_0_compat; lra.
Qed.
Lemma rate_nonpos TeV : TeV <= 0 -> ion_rate TeV = None.
Proof.
  intros HT. unfold ion_rate. unfold rdiv at 1. case Req_bool_spec; intros H0; [reflexivity|]. cbn [bind].
  unfold dsqrt. rewrite Rlt_bool_true by lra. reflexivity.
Qed.
