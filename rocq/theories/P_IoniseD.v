(** C110: ionisation of neutral particles in double precision. *)
From Flocq Require Import Core.
From Verif Require Import M_RealBase L_RealBase M_Grid M_Double S_Double L_Double L_Double2 L_DoubleGrid P_Double M_BorisD M_IoniseD S_IoniseD.
From Coq Require Import List Bool Lia Lra.
Import ListNotations.
Open Scope R_scope.

Lemma neg_mul x y : 0 <= x -> y <= 0 -> y * x <= 0. Proof. intros. replace (y * x) with (- ((- y) * x)) by ring. assert (0 <= - y * x) by (apply Rmult_le_pos; lra). lra. Qed.
Lemma rnd_nonpos x : x <= 0 -> rnd x <= 0. Proof. intros. apply rnd_le; [apply fmt_0|auto]. Qed.
Definition tinyb : R := bpow radix2 (-1075).
(** the product behind deltaweight: [b] and its rounded product with the density; sums with either are between 0 and w *)
Lemma sums b n w dw : fmt w -> 0 <= w -> b * n <= 0 -> dw = rnd (b * n) ->
  (forall cc sum, mul_add cc b n w = Some sum -> sum <= w /\ (0 < sum -> - w <= dw /\ 0 <= w + b * n)).
Proof.
  intros Fw Hw Hb ->. intros cc sum H. pose proof (rnd_nonpos _ Hb) as Hd. unfold mul_add in H. destruct cc.
  - apply fl_eq in H as [-> _]. split; [apply rnd_le; [auto|lra]|]. intros Hs.
    assert (X : 0 <= w + b * n). { apply Rnot_lt_le. intros C. pose proof (rnd_nonpos (b * n + w) ltac:(lra)). lra. }
    split; [|auto]. apply rnd_ge; [apply fmt_opp; auto|lra].
  - destruct (fl (b * n)) as [d|] eqn:E; cbn [bind] in H; [|discriminate]. apply fl_eq in E as [-> _]. apply fl_eq in H as [-> _].
    split; [apply rnd_le; [auto|lra]|]. intros Hs.
    assert (X : 0 <= w + rnd (b * n)). { apply Rnot_lt_le. intros C. pose proof (rnd_nonpos (rnd (b * n) + w) ltac:(lra)). lra. }
    split; [lra|]. apply Rnot_lt_le. intros C.
    assert (Y : rnd (b * n) <= - w) by (apply rnd_le; [apply fmt_opp; auto|lra]).
    assert (Z : rnd (b * n) = - w) by lra. rewrite Z in Hs. replace (- w + w) with 0 in Hs by ring. rewrite rnd_0 in Hs. lra.
Qed.
Lemma sum_err cu b n w w' : fmt w -> 0 <= w -> b * n <= 0 -> 0 <= w + b * n -> mul_add cu b n w = Some w' ->
  0 <= w' /\ Rabs (w' - (w + rnd (b * n))) <= 2 * u * w + 2 * tinyb.
Proof.
  intros Fw Hw Hb Hs H. pose proof (rnd_nonpos _ Hb) as Hd. pose proof u_pos. unfold tinyb.
  assert (D : 0 <= w + rnd (b * n)). { assert (- w <= rnd (b * n)) by (apply rnd_ge; [apply fmt_opp; auto|lra]). lra. }
  pose proof (bpow_gt_0 radix2 (-1075)).
  unfold mul_add in H. destruct cu.
  - apply fl_eq in H as [-> _]. split; [apply rnd_ge; [apply fmt_0|lra]|].
    pose proof (rnd_any_err (b * n + w)) as N1. pose proof (rnd_any_err (b * n)) as N2.
    replace (rnd (b * n + w) - (w + rnd (b * n))) with ((rnd (b * n + w) - (b * n + w)) - (rnd (b * n) - b * n)) by ring.
    assert (A1 : u * Rabs (b * n + w) <= u * w). { apply Rmult_le_compat_l; [lra|]. rewrite Rabs_pos_eq by lra. lra. }
    assert (A2 : u * Rabs (b * n) <= u * w). { apply Rmult_le_compat_l; [lra|]. rewrite <- Rabs_Ropp, Rabs_pos_eq by lra. lra. }
    eapply Rle_trans; [apply Rabs_triang|]. rewrite Rabs_Ropp. lra.
  - destruct (fl (b * n)) as [d|] eqn:E; cbn [bind] in H; [|discriminate]. apply fl_eq in E as [-> _]. apply fl_eq in H as [-> _].
    split; [apply rnd_ge; [apply fmt_0|lra]|]. pose proof (rnd_any_err (rnd (b * n) + w)) as N1.
    assert (A1 : u * Rabs (rnd (b * n) + w) <= u * w). { apply Rmult_le_compat_l; [lra|]. rewrite Rabs_pos_eq by lra. lra. }
    replace (w + rnd (b * n)) with (rnd (b * n) + w) by ring. assert (0 <= u * w) by (apply Rmult_le_pos; lra). lra.
Qed.
(** the source of a loss [L] *)
Lemma source_err L N dt ks s sd : 0 <= L -> unit_like N -> unit_like dt -> div_d 1 N = Some ks -> fl (L * ks) = Some s -> div_d s dt = Some sd ->
  0 <= sd /\ Rabs (sd * dt * N - L) <= 4 * u * L + / 2 ^ 910.
Proof.
  intros HL [DN [N1 N2]] [Dd [d1 d2]] Hk Hs Hd. pose proof u_pos as U. pose proof u_small as US.
  rewrite inv_pow in N1, d1. rewrite <- (bpow_nat 70) in N2, d2. change (Z.of_nat 70) with 70%Z in *. change (- (70))%Z with (-70)%Z in *. 
  pose proof (bpow_gt_0 radix2 (-70)) as P70. unfold div_d in *. rewrite Req_bool_false in Hk, Hd by lra. apply fl_eq in Hk as [-> _]. apply fl_eq in Hs as [-> _]. apply fl_eq in Hd as [-> _].
  assert (KP : bpow radix2 (-70) <= 1 / N <= bpow radix2 70).
  { unfold Rdiv. rewrite Rmult_1_l. change (-70)%Z with (- (70))%Z. rewrite bpow_opp. split; [apply Rinv_le_contravar; lra|].
    rewrite <- (Rinv_inv (bpow radix2 70)). rewrite <- bpow_opp. apply Rinv_le_contravar; [apply bpow_gt_0|auto]. }
  destruct (rnd_normal (1 / N)) as (e1 & He1 & E1). { rewrite Rabs_pos_eq by lra. eapply Rle_trans; [|apply KP]. apply bpow_le. lia. }
  set (ks := rnd (1 / N)) in *.
  assert (ks0 : 0 <= ks) by (apply rnd_abs; lra).
  destruct (rnd_any (L * ks)) as (e2 & n2 & He2 & Hn2 & E2). set (s := rnd (L * ks)) in *.
  assert (s0 : 0 <= s) by (apply rnd_abs; apply Rmult_le_pos; auto).
  destruct (rnd_any (s / dt)) as (e3 & n3 & He3 & Hn3 & E3).
  split; [apply rnd_abs; apply Rmult_le_pos; [auto|left; apply Rinv_0_lt_compat; lra]|].
  assert (I : rnd (s / dt) * dt * N = L * ((1 + e1) * (1 + e2) * (1 + e3)) + n2 * (1 + e3) * N + n3 * dt * N).
  { rewrite E3. unfold Rdiv. replace ((s * / dt * (1 + e3) + n3) * dt * N) with (s * (1 + e3) * N * (/ dt * dt) + n3 * dt * N) by ring. rewrite Rinv_l, Rmult_1_r by lra.
    rewrite E2, E1. unfold Rdiv. replace ((L * (1 * / N * (1 + e1)) * (1 + e2) + n2) * (1 + e3) * N) with (L * ((1 + e1) * (1 + e2) * (1 + e3)) * (/ N * N) + n2 * (1 + e3) * N) by ring.
    rewrite Rinv_l by lra. ring. }
  rewrite I. replace (L * ((1 + e1) * (1 + e2) * (1 + e3)) + n2 * (1 + e3) * N + n3 * dt * N - L) with
    (L * ((1 + e1) * (1 + e2) * (1 + e3) - 1) + n2 * (1 + e3) * N + n3 * dt * N) by ring.
  apply rabs_le in He1. apply rabs_le in He2. apply rabs_le in He3.
  assert (B : Rabs ((1 + e1) * (1 + e2) * (1 + e3) - 1) <= 4 * u).
  { assert (P12 : Rabs (e1 * e2) <= u / 10). { rewrite Rabs_mult. apply Rle_trans with (/ 10 * u); [|lra]. apply Rmult_le_compat; try apply Rabs_pos; apply Rabs_le; lra. }
    assert (P13 : Rabs (e1 * e3) <= u / 10). { rewrite Rabs_mult. apply Rle_trans with (/ 10 * u); [|lra]. apply Rmult_le_compat; try apply Rabs_pos; apply Rabs_le; lra. }
    assert (P23 : Rabs (e2 * e3) <= u / 10). { rewrite Rabs_mult. apply Rle_trans with (/ 10 * u); [|lra]. apply Rmult_le_compat; try apply Rabs_pos; apply Rabs_le; lra. }
    assert (P123 : Rabs (e1 * e2 * e3) <= u / 10).
    { rewrite Rabs_mult. apply Rle_trans with (u / 10 * 1); [|lra]. apply Rmult_le_compat; try apply Rabs_pos; auto. apply Rabs_le; lra. }
    apply rabs_le in P12. apply rabs_le in P13. apply rabs_le in P23. apply rabs_le in P123.
    replace ((1 + e1) * (1 + e2) * (1 + e3) - 1) with (e1 + e2 + e3 + e1 * e2 + e1 * e3 + e2 * e3 + e1 * e2 * e3) by ring. apply Rabs_le. lra. }
  assert (T2 : Rabs (n2 * (1 + e3) * N) <= bpow radix2 (-1000)).
  { rewrite !Rabs_mult. rewrite (Rabs_pos_eq N) by lra. rewrite (Rabs_pos_eq (1 + e3)) by lra.
    apply Rle_trans with (bpow radix2 (-1075) * bpow radix2 1 * bpow radix2 70).
    - apply Rmult_le_compat; [apply Rmult_le_pos; [apply Rabs_pos|lra]|lra| |auto]. apply Rmult_le_compat; [apply Rabs_pos|lra|auto|change (bpow radix2 1) with 2; lra].
    - rewrite <- !bpow_plus. apply bpow_le. lia. }
  assert (T3 : Rabs (n3 * dt * N) <= bpow radix2 (-920)).
  { rewrite !Rabs_mult. rewrite (Rabs_pos_eq N), (Rabs_pos_eq dt) by lra.
    apply Rle_trans with (bpow radix2 (-1075) * bpow radix2 70 * bpow radix2 70).
    - apply Rmult_le_compat; [apply Rmult_le_pos; [apply Rabs_pos|lra]|lra| |auto]. apply Rmult_le_compat; [apply Rabs_pos|lra|auto|auto].
    - rewrite <- !bpow_plus. apply bpow_le. lia. }
  assert (T : bpow radix2 (-1000) + bpow radix2 (-920) <= / 2 ^ 910).
  { rewrite inv_pow. change (- Z.of_nat 910)%Z with (10 + -920)%Z. rewrite bpow_plus. pose proof (bpow_gt_0 radix2 (-920)).
    assert (bpow radix2 (-1000) <= bpow radix2 (-920)) by (apply bpow_le; lia). change (bpow radix2 10) with 1024. lra. }
  eapply Rle_trans; [apply Rabs_triang|]. eapply Rle_trans; [apply Rplus_le_compat_r; apply Rabs_triang|]. rewrite Rabs_mult, (Rabs_pos_eq L) by auto.
  assert (L * Rabs ((1 + e1) * (1 + e2) * (1 + e3) - 1) <= L * (4 * u)) by (apply Rmult_le_compat_l; auto). lra.
Qed.
(** One call, whatever the compiler contracts: the weight never becomes negative nor grows; a particle is marked exactly when its computed new
    weight is not positive, and a marked particle's weight is exactly zero; the source is not negative; source and loss of weight agree up to
    8 unit roundoffs of the weight (not of the loss). *)
Theorem C110_step (cc cu : bool) (N : R) (i : ion_in) (w w' sd : R) (below : bool) : unit_like N -> ion_ok i -> nonneg w ->
  ionise_d cc cu N i w = Some (w', sd, below) ->
  nonneg w' /\ w' <= w /\ (below = true -> w' = 0) /\ (cc = cu -> below = false -> 0 < w') /\ is_double sd /\ 0 <= sd /\
  Rabs (sd * ii_dt i * N - (w - w')) <= 8 * unit_roundoff * w + / 2 ^ 900.
Proof.
  intros HN ((Dr & Hr) & (Dt & Ht) & (Dn & Hn) & Hdt) (Dw & Hw) H. unfold ionise_d in H. rewrite u_eq. pose proof u_pos as U.
  destruct (div_d 1 N) as [ks|] eqn:Ek; cbn [bind] in H; [|discriminate].
  destruct (fl (- ii_rate i * w)) as [a|] eqn:Ea; cbn [bind] in H; [|discriminate].
  destruct (fl (a * ii_dt_SI i)) as [b|] eqn:Eb; cbn [bind] in H; [|discriminate].
  destruct (fl (b * ii_n_SI i)) as [dw0|] eqn:Ed; cbn [bind] in H; [|discriminate].
  destruct (mul_add cc b (ii_n_SI i) w) as [sum|] eqn:Es; cbn [bind] in H; [|discriminate].
  assert (Ha : a <= 0). { apply fl_eq in Ea as [-> _]. apply rnd_nonpos. replace (- ii_rate i * w) with (- (ii_rate i * w)) by ring. assert (0 <= ii_rate i * w) by (apply Rmult_le_pos; auto). lra. }
  assert (Hb : b <= 0). { apply fl_eq in Eb as [-> _]. apply rnd_nonpos. apply neg_mul; auto. }
  assert (Hp : b * ii_n_SI i <= 0) by (apply neg_mul; auto).
  pose proof (proj1 (proj1 (is_double_fmt w) Dw)) as Fw. apply fl_eq in Ed as [Ed _].
  destruct (sums b (ii_n_SI i) w dw0 Fw Hw Hp Ed cc sum Es) as [S1 S2].
  assert (T900 : / 2 ^ 910 + 2 * tinyb <= / 2 ^ 900).
  { unfold tinyb. rewrite !inv_pow. change (- Z.of_nat 900)%Z with (10 + -910)%Z. rewrite bpow_plus. change (- Z.of_nat 910)%Z with (-910)%Z. pose proof (bpow_gt_0 radix2 (-910)).
    assert (bpow radix2 (-1075) <= bpow radix2 (-910)) by (apply bpow_le; lia). change (bpow radix2 10) with 1024. lra. }
  assert (T0 : 0 < tinyb) by apply bpow_gt_0.
  destruct (Rle_bool sum 0) eqn:Eb0.
  - assert (F0 : fl (w + - w) = Some 0). { replace (w + - w) with 0 by ring. apply (fl_is 0 0); [cbn; ring|lia|lia]. }
    rewrite F0 in H. cbn [bind] in H. rewrite Ropp_involutive in H.
    destruct (fl (w * ks)) as [s|] eqn:E1; cbn [bind] in H; [|discriminate]. destruct (div_d s (ii_dt i)) as [sd0|] eqn:E2; cbn [bind] in H; [|discriminate].
    apply (f_equal (fun o => match o with Some v => v | None => (0, 0, false) end)) in H. apply pair_equal_spec in H as [H <-]. apply pair_equal_spec in H as [<- <-].
    destruct (source_err w N (ii_dt i) ks s sd0 Hw HN Hdt Ek E1 E2) as [A B].
    split; [split; [dbl 0%Z 0%Z|lra]|]. split; [auto|]. split; [auto|]. split; [discriminate|].
    split. { unfold div_d in E2. destruct (Req_bool (ii_dt i) 0); [discriminate|]. eapply fl_double; eauto. } split; [auto|]. rewrite Rminus_0_r. assert (0 <= u * w) by (apply Rmult_le_pos; lra). lra.
  - assert (Hs : 0 < sum). { revert Eb0. case Rle_bool_spec; [discriminate|auto]. } destruct (S2 Hs) as [S3 S4].
    destruct (mul_add cu b (ii_n_SI i) w) as [w1|] eqn:Ew; cbn [bind] in H; [|discriminate].
    destruct (fl (- dw0 * ks)) as [s|] eqn:E1; cbn [bind] in H; [|discriminate]. destruct (div_d s (ii_dt i)) as [sd0|] eqn:E2; cbn [bind] in H; [|discriminate].
    apply (f_equal (fun o => match o with Some v => v | None => (0, 0, false) end)) in H. apply pair_equal_spec in H as [H <-]. apply pair_equal_spec in H as [<- <-].
    destruct (sums b (ii_n_SI i) w dw0 Fw Hw Hp Ed cu w1 Ew) as [W1 _]. destruct (sum_err cu b (ii_n_SI i) w w1 Fw Hw Hp S4 Ew) as [W2 W3]. rewrite <- Ed in W3.
    assert (Hd : dw0 <= 0) by (rewrite Ed; apply rnd_nonpos; auto).
    destruct (source_err (- dw0) N (ii_dt i) ks s sd0 ltac:(lra) HN Hdt Ek E1 E2) as [A B].
    assert (LF : is_double w1). { unfold mul_add in Ew. destruct cu; [eapply fl_double; eauto|]. destruct (fl (b * ii_n_SI i)); cbn [bind] in Ew; [eapply fl_double; eauto|discriminate]. }
    split; [split; auto|]. split; [auto|]. split; [discriminate|]. split; [intros -> _; assert (w1 = sum) by congruence; lra|].
    split. { unfold div_d in E2. destruct (Req_bool (ii_dt i) 0); [discriminate|]. eapply fl_double; eauto. } split; [auto|].
    replace (sd0 * ii_dt i * N - (w - w1)) with ((sd0 * ii_dt i * N - - dw0) + (w1 - (w + dw0))) by ring. eapply Rle_trans; [apply Rabs_triang|].
    assert (4 * u * - dw0 <= 4 * u * w) by (apply Rmult_le_compat_l; lra). assert (0 <= u * w) by (apply Rmult_le_pos; lra). lra.
Qed.
Print Assumptions C110_step.
(** Over any number of calls: what was deposited and what is left add up to the initial weight up to 8 unit roundoffs of it per call. *)
Theorem C110_run (N : R) (calls : list (bool * bool * ion_in)) (w w' : R) (sources : list (R * R)) : unit_like N -> Forall (fun c => ion_ok (snd c)) calls -> nonneg w ->
  ionise_run_d N calls w = Some (w', sources) ->
  0 <= w' <= w /\ (length sources <= length calls)%nat /\ Forall (fun s => 0 <= fst s) sources /\
  Rabs (deposited N sources + w' - w) <= INR (length calls) * (8 * unit_roundoff * w + / 2 ^ 900).
Proof.
  intros HN. revert w w' sources. induction calls as [|[[cc cu] i] calls IH]; intros w w' sources HF Hw H; cbn [ionise_run_d] in H.
  { injection H as <- <-. split; [destruct Hw; lra|]. split; [auto|]. split; [constructor|]. cbn [deposited fold_right length INR]. replace (0 + w - w) with 0 by ring. rewrite Rabs_R0. lra. }
  inversion HF as [|? ? Hi HF']; subst. cbn [snd] in Hi.
  destruct (ionise_d cc cu N i w) as [[[w1 sd] below]|] eqn:E; cbn [bind] in H; [|discriminate].
  destruct (C110_step cc cu N i w w1 sd below HN Hi Hw E) as (A1 & A2 & A3 & _ & _ & A4 & A5).
  assert (P9 : 0 < / 2 ^ 900) by (apply Rinv_0_lt_compat, pow_lt; lra). assert (U : 0 < unit_roundoff) by (rewrite u_eq; apply u_pos).
  assert (W0 : 0 <= w) by apply Hw. assert (W1 : 0 <= w1) by apply A1.
  assert (C0 : 0 <= 8 * unit_roundoff * w + / 2 ^ 900). { assert (0 <= 8 * unit_roundoff * w) by (apply Rmult_le_pos; lra). lra. }
  change (length ((cc, cu, i) :: calls)) with (S (length calls)). rewrite S_INR. pose proof (pos_INR (length calls)).
  assert (C1 : 0 <= INR (length calls) * (8 * unit_roundoff * w + / 2 ^ 900)) by (apply Rmult_le_pos; lra).
  destruct below.
  - injection H as <- <-. split; [lra|]. split; [cbn; lia|]. split; [constructor; auto|]. cbn [deposited fold_right fst snd].
    replace (sd * ii_dt i * N + 0 + w1 - w) with (sd * ii_dt i * N - (w - w1)) by ring. lra.
  - destruct (ionise_run_d N calls w1) as [[wf srcs]|] eqn:E2; cbn [bind fst snd] in H; [|discriminate]. injection H as <- <-.
    destruct (IH w1 wf srcs HF' A1 E2) as (B1 & B2 & B3 & B4). split; [lra|]. split; [cbn; lia|]. split; [constructor; auto|].
    change (deposited N ((sd, ii_dt i) :: srcs)) with (sd * ii_dt i * N + deposited N srcs).
    replace (sd * ii_dt i * N + deposited N srcs + wf - w) with ((sd * ii_dt i * N - (w - w1)) + (deposited N srcs + wf - w1)) by ring. eapply Rle_trans; [apply Rabs_triang|].
    assert (INR (length calls) * (8 * unit_roundoff * w1 + / 2 ^ 900) <= INR (length calls) * (8 * unit_roundoff * w + / 2 ^ 900)).
    { apply Rmult_le_compat_l; [auto|]. assert (8 * unit_roundoff * w1 <= 8 * unit_roundoff * w) by (apply Rmult_le_compat_l; lra). lra. }
    lra.
Qed.
Print Assumptions C110_run.
(** Nothing overflows for inputs up to 2^200. *)
Lemma fl_le x e : (0 <= e <= 1000)%Z -> Rabs x <= bpow radix2 e -> exists r, fl x = Some r /\ Rabs r <= bpow radix2 e.
Proof. intros He H. exists (rnd x). split; [apply (fl_bpow _ e); [lia|auto]|]. apply rnd_abs_le; [apply fmt_bpow; lia|auto]. Qed.
Lemma mul_le x y a b : Rabs x <= bpow radix2 a -> Rabs y <= bpow radix2 b -> Rabs (x * y) <= bpow radix2 (a + b).
Proof. intros. rewrite Rabs_mult, bpow_plus. apply Rmult_le_compat; auto; apply Rabs_pos. Qed.
Lemma add_le x y a : Rabs x <= bpow radix2 a -> Rabs y <= bpow radix2 a -> Rabs (x + y) <= bpow radix2 (a + 1).
Proof. intros. rewrite bpow_plus. change (bpow radix2 1) with 2. eapply Rle_trans; [apply Rabs_triang|lra]. Qed.
Lemma up x a b : (a <= b)%Z -> Rabs x <= bpow radix2 a -> Rabs x <= bpow radix2 b.
Proof. intros H H1. eapply Rle_trans; [exact H1|apply bpow_le; auto]. Qed.
Lemma mul_add_le f x y z a b c : (0 <= a)%Z -> (0 <= b)%Z -> (0 <= c <= 999)%Z -> (a + b <= c)%Z -> Rabs x <= bpow radix2 a -> Rabs y <= bpow radix2 b -> Rabs z <= bpow radix2 c ->
  exists r, mul_add f x y z = Some r /\ Rabs r <= bpow radix2 (c + 1).
Proof.
  intros Ha Hb Hc Hab H1 H2 H3. pose proof (up _ _ c Hab (mul_le _ _ _ _ H1 H2)) as M. unfold mul_add. destruct f.
  - apply fl_le; [lia|]. apply add_le; auto.
  - destruct (fl_le (x * y) c) as (r & E & Hr); [lia|auto|]. rewrite E. cbn [bind]. apply fl_le; [lia|]. apply add_le; auto.
Qed.
Lemma inv_unit x : unit_like x -> x <> 0 /\ Rabs (/ x) <= bpow radix2 70.
Proof.
  intros [_ [A B]]. rewrite inv_pow in A. assert (P : 0 < bpow radix2 (- Z.of_nat 70)) by apply bpow_gt_0. split; [lra|].
  rewrite Rabs_inv, Rabs_pos_eq by lra. change 70%Z with (Z.of_nat 70). rewrite <- (Rinv_inv (bpow radix2 (Z.of_nat 70))). rewrite <- bpow_opp. apply Rinv_le_contravar; auto.
Qed.
Theorem C110_defined (cc cu : bool) (N : R) (i : ion_in) (w : R) : unit_like N -> ion_ok i -> nonneg w ->
  ii_rate i <= 2 ^ 200 -> ii_dt_SI i <= 2 ^ 200 -> ii_n_SI i <= 2 ^ 200 -> w <= 2 ^ 200 -> exists r, ionise_d cc cu N i w = Some r.
Proof.
  intros HN ((Dr & Hr) & (Dt & Ht) & (Dn & Hn) & Hdt) (Dw & Hw) B1 B2 B3 B4. rewrite <- (bpow_nat 200) in *. change (Z.of_nat 200) with 200%Z in *.
  assert (R1 : Rabs (- ii_rate i) <= bpow radix2 200) by (rewrite Rabs_Ropp, Rabs_pos_eq; auto). assert (R2 : Rabs (ii_dt_SI i) <= bpow radix2 200) by (rewrite Rabs_pos_eq; auto).
  assert (R3 : Rabs (ii_n_SI i) <= bpow radix2 200) by (rewrite Rabs_pos_eq; auto). assert (R4 : Rabs w <= bpow radix2 200) by (rewrite Rabs_pos_eq; auto).
  destruct (inv_unit N HN) as [N0 NI]. destruct (inv_unit _ Hdt) as [D0 DI]. unfold ionise_d, div_d. rewrite Req_bool_false by auto.
  destruct (fl_le (1 / N) 70) as (ks & E & K); [lia|unfold Rdiv; rewrite Rmult_1_l; auto|]. rewrite E. cbn [bind].
  destruct (fl_le (- ii_rate i * w) 400) as (a & E1 & A); [lia|apply (mul_le _ _ 200 200); auto|]. rewrite E1. cbn [bind].
  destruct (fl_le (a * ii_dt_SI i) 600) as (b & E2 & B); [lia|apply (mul_le _ _ 400 200); auto|]. rewrite E2. cbn [bind].
  destruct (fl_le (b * ii_n_SI i) 800) as (d & E3 & D); [lia|apply (mul_le _ _ 600 200); auto|]. rewrite E3. cbn [bind].
  destruct (mul_add_le cc b (ii_n_SI i) w 600 200 800) as (sum & E4 & S); try lia; auto. { apply (up _ 200); [lia|auto]. } rewrite E4. cbn [bind].
  destruct (mul_add_le cu b (ii_n_SI i) w 600 200 800) as (w1 & E5 & S1); try lia; auto. { apply (up _ 200); [lia|auto]. }
  destruct (Rle_bool sum 0).
  - replace (w + - w) with 0 by ring. rewrite (fl_is 0 0 0) by (try lia; cbn; ring). cbn [bind]. rewrite Ropp_involutive.
    destruct (fl_le (w * ks) 270) as (s & E6 & S6); [lia|apply (mul_le _ _ 200 70); auto|]. rewrite E6. cbn [bind]. rewrite Req_bool_false by auto.
    destruct (fl_le (s / ii_dt i) 340) as (sd & E7 & S7); [lia|apply (mul_le _ _ 270 70); auto|]. rewrite E7. cbn [bind]. eauto.
  - rewrite E5. cbn [bind]. destruct (fl_le (- d * ks) 870) as (s & E6 & S6); [lia|apply (mul_le _ _ 800 70); [rewrite Rabs_Ropp|]; auto|]. rewrite E6. cbn [bind]. rewrite Req_bool_false by auto.
    destruct (fl_le (s / ii_dt i) 940) as (sd & E7 & S7); [lia|apply (mul_le _ _ 870 70); auto|]. rewrite E7. cbn [bind]. eauto.
Qed.
Print Assumptions C110_defined.

(** Ionisation too slow for the resolution of a double: the weight stays exactly 1 for ever while every call deposits 2^-60. *)
Definition slow : ion_in := {| ii_rate := / 1152921504606846976; ii_dt_SI := 1; ii_n_SI := 1; ii_dt := 1 |}.
Lemma unit_1 : unit_like 1.
Proof. split; [dbl 1%Z 0%Z|]. assert (1 <= 2 ^ 70) by (apply pow_R1_Rle; lra). split; [|auto]. rewrite <- Rinv_1. apply Rinv_le_contravar; lra. Qed.
Lemma slow_ok : ion_ok slow.
Proof. unfold ion_ok, slow, nonneg. cbn. split; [split; [dbl 1%Z (-60)%Z|lra]|]. split; [split; [dbl 1%Z 0%Z|lra]|]. split; [split; [dbl 1%Z 0%Z|lra]|apply unit_1]. Qed.
Ltac ex_fl m k z := match goal with |- context [fl ?x] => replace (fl x) with (Some z) by (symmetry; replace x with z by (cbn; field); apply (fl_is m k); [cbn; lra|lia|lia]) end; cbn [bind].
Lemma slow_step cc cu : ionise_d cc cu 1 slow 1 = Some (1, / 1152921504606846976, false).
Proof.
  assert (R : fl (- / 1152921504606846976 * 1 + 1) = Some 1).
  { transitivity (Some (rnd (- / 1152921504606846976 * 1 + 1))); [apply (fl_bpow _ 1); [lia|rewrite Rabs_pos_eq; cbn; lra]|]. f_equal.
    rewrite (rnd_val _ (-53) 9007199254740992); [cbn; lra|cbn; lra|lia|]. apply Znearest_imp. apply Rabs_def1; cbn; lra. }
  assert (R' : fl (- / 1152921504606846976 + 1) = Some 1) by (rewrite <- R; f_equal; ring).
  assert (Z : forall c, mul_add c (- / 1152921504606846976) 1 1 = Some 1).
  { intros c. unfold mul_add. destruct c; [exact R|]. ex_fl (-1)%Z (-60)%Z (- / 1152921504606846976). exact R'. }
  unfold ionise_d, slow, div_d. cbn [ii_rate ii_dt_SI ii_n_SI ii_dt]. rewrite Req_bool_false by lra.
  ex_fl 1%Z 0%Z 1. ex_fl (-1)%Z (-60)%Z (- / 1152921504606846976). ex_fl (-1)%Z (-60)%Z (- / 1152921504606846976). ex_fl (-1)%Z (-60)%Z (- / 1152921504606846976).
  rewrite !Z. cbn [bind]. rewrite Rle_bool_false by lra. cbn [bind].
  ex_fl 1%Z (-60)%Z (/ 1152921504606846976). ex_fl 1%Z (-60)%Z (/ 1152921504606846976). reflexivity.
Qed.
Theorem C110_conserved_refuted : unit_like 1 /\ ion_ok slow /\ nonneg 1 /\ forall (k : nat) (cc cu : bool), exists sources,
  ionise_run_d 1 (repeat (cc, cu, slow) k) 1 = Some (1, sources) /\ deposited 1 sources = INR k / 2 ^ 60.
Proof.
  split; [apply unit_1|]. split; [apply slow_ok|]. split; [split; [dbl 1%Z 0%Z|lra]|]. intros k cc cu. induction k as [|k (srcs & IH1 & IH2)].
  - exists []. split; [reflexivity|]. cbn [deposited fold_right INR]. unfold Rdiv. ring.
  - exists ((/ 1152921504606846976, 1) :: srcs). cbn [repeat ionise_run_d]. rewrite slow_step. cbn [bind]. rewrite IH1. cbn [bind fst snd slow ii_dt]. split; [reflexivity|].
    change (deposited 1 ((/ 1152921504606846976, 1) :: srcs)) with (/ 1152921504606846976 * 1 * 1 + deposited 1 srcs). rewrite IH2, S_INR. 
    replace (2 ^ 60) with 1152921504606846976 by (cbn; lra). field.
Qed.
Print Assumptions C110_conserved_refuted.
(** If the compiler contracts in the test but not in the update, a particle can be left with weight zero and not be marked. *)
Definition grazing : ion_in := {| ii_rate := 1 - / 1073741824; ii_dt_SI := 1; ii_n_SI := 1 + / 1073741824; ii_dt := 1 |}.
Theorem C110_unmarked_refuted : ion_ok grazing /\ exists sd, ionise_d true false 1 grazing 1 = Some (0, sd, false).
Proof.
  split. { unfold ion_ok, grazing, nonneg. cbn [ii_rate ii_dt_SI ii_n_SI ii_dt]. split; [split; [dbl 1073741823%Z (-30)%Z|lra]|]. split; [split; [dbl 1%Z 0%Z|lra]|]. split; [split; [dbl 1073741825%Z (-30)%Z|lra]|apply unit_1]. }
  assert (R : fl ((/ 1073741824 - 1) * (1 + / 1073741824)) = Some (-1)).
  { transitivity (Some (rnd ((/ 1073741824 - 1) * (1 + / 1073741824)))); [apply (fl_bpow _ 1); [lia|rewrite Rabs_left; cbn; lra]|]. f_equal.
    replace ((/ 1073741824 - 1) * (1 + / 1073741824)) with (- (1 - / 1152921504606846976)) by field. rewrite rnd_opp. replace (-1) with (- (1)) by ring. f_equal.
    rewrite (rnd_val _ (-53) 9007199254740992); [cbn; lra|cbn; lra|lia|]. apply Znearest_imp. apply Rabs_def1; cbn; lra. }
  unfold ionise_d, grazing, div_d. cbn [ii_rate ii_dt_SI ii_n_SI ii_dt]. rewrite Req_bool_false by lra.
  ex_fl 1%Z 0%Z 1. ex_fl (-1073741823)%Z (-30)%Z (/ 1073741824 - 1). ex_fl (-1073741823)%Z (-30)%Z (/ 1073741824 - 1). rewrite R. cbn [bind].
  unfold mul_add. rewrite R. cbn [bind].
  ex_fl 1%Z (-60)%Z (/ 1152921504606846976). rewrite Rle_bool_false by lra. ex_fl 0%Z 0%Z 0. ex_fl 1%Z 0%Z 1. ex_fl 1%Z 0%Z 1. eexists. reflexivity.
Qed.
Print Assumptions C110_unmarked_refuted.
(** A non-trivial case: half the weight is ionised, 8 ions per unit of density, step 1/4. *)
Example C110_applied : let i := {| ii_rate := 1 / 2; ii_dt_SI := 4; ii_n_SI := 1 / 4; ii_dt := 1 / 4 |} in
  unit_like 8 /\ ion_ok i /\ nonneg 6 /\ forall cc cu, ionise_d cc cu 8 i 6 = Some (3, 3 / 2, false).
Proof.
  assert (P : 64 <= 2 ^ 70). { rewrite <- (bpow_nat 70). apply Rle_trans with (bpow radix2 6); [cbn; lra|apply bpow_le; lia]. }
  assert (Q : / 2 ^ 70 <= / 64) by (apply Rinv_le_contravar; lra). cbv zeta.
  split; [split; [dbl 8%Z 0%Z|lra]|]. split.
  { unfold ion_ok, nonneg, unit_like. cbn [ii_rate ii_dt_SI ii_n_SI ii_dt]. split; [split; [dbl 1%Z (-1)%Z|lra]|]. split; [split; [dbl 4%Z 0%Z|lra]|]. split; [split; [dbl 1%Z (-2)%Z|lra]|]. split; [dbl 1%Z (-2)%Z|lra]. }
  split; [split; [dbl 6%Z 0%Z|lra]|]. intros cc cu. unfold ionise_d, div_d. cbn [ii_rate ii_dt_SI ii_n_SI ii_dt]. rewrite Req_bool_false by lra.
  ex_fl 1%Z (-3)%Z (1 / 8). ex_fl (-3)%Z 0%Z (-3). ex_fl (-12)%Z 0%Z (-12). ex_fl (-3)%Z 0%Z (-3).
  assert (Z : forall c, mul_add c (-12) (1 / 4) 6 = Some 3). { intros c. replace 3 with (-12 * (1 / 4) + 6) by field. apply (mul_add_is c (-3) 0 3 0); try lia; cbn; lra. }
  rewrite !Z. cbn [bind]. rewrite Rle_bool_false by lra. cbn [bind].
  ex_fl 3%Z (-3)%Z (3 / 8). rewrite Req_bool_false by lra. ex_fl 3%Z (-1)%Z (3 / 2). reflexivity.
Qed.
