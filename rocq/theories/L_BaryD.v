(** Lemmas for C113. *)
From Flocq Require Import Core.
From Verif Require Import M_RealBase L_RealBase M_Grid M_Double S_Double L_Double L_Double2 M_BorisD S_Loop L_Loop S_Bary L_SumD M_BaryD S_BaryD.
From Coq Require Import Reals Lra Lia ZArith List Bool.
Import ListNotations.
Open Scope R_scope.

(** [x] computed for [y], a sum of terms of total magnitude [m], up to the factor [G] *)
Definition near (G x y m : R) : Prop := 1 <= G /\ Rabs y <= m /\ Rabs (x - y) <= (G - 1) * m.
Definition small_or (m : R) : Prop := m = 0 \/ / 2 ^ 900 <= m.
Lemma near_pos G x y m : near G x y m -> 0 <= m.
Proof. intros (_ & H & _). pose proof (Rabs_pos y). lra. Qed.
Lemma near_abs G x y m : near G x y m -> Rabs x <= G * m.
Proof. intros (H & A & B). replace x with (y + (x - y)) by ring. eapply Rle_trans; [apply Rabs_triang|]. lra. Qed.
Lemma near_refl G x : 1 <= G -> near G x x (Rabs x).
Proof. intros H. split; [auto|]. split; [lra|]. rewrite Rminus_diag_eq, Rabs_R0 by reflexivity. apply Rmult_le_pos; [lra|apply Rabs_pos]. Qed.
Lemma near_le G G' x y m : G <= G' -> near G x y m -> near G' x y m.
Proof. intros H N. pose proof (near_pos _ _ _ _ N). destruct N as (A & B & C). split; [lra|]. split; [auto|]. eapply Rle_trans; [exact C|]. apply Rmult_le_compat_r; lra. Qed.
Lemma near_add G x y m x' y' m' : near G x y m -> near G x' y' m' -> near G (x + x') (y + y') (m + m').
Proof.
  intros (A & B & C) (_ & B' & C'). split; [auto|]. split; [eapply Rle_trans; [apply Rabs_triang|lra]|]. replace (x + x' - (y + y')) with ((x - y) + (x' - y')) by ring.
  eapply Rle_trans; [apply Rabs_triang|lra].
Qed.
Lemma ge1_mul a b : 1 <= a -> 1 <= b -> 1 <= a * b.
Proof. intros. replace 1 with (1 * 1) by ring. apply Rmult_le_compat; lra. Qed.
Lemma near_mul G x y m G' x' y' m' : near G x y m -> near G' x' y' m' -> near (G * G') (x * x') (y * y') (m * m').
Proof.
  intros N N'. pose proof (near_pos _ _ _ _ N). pose proof (near_pos _ _ _ _ N'). pose proof (near_abs _ _ _ _ N). destruct N as (A & B & C), N' as (A' & B' & C').
  split; [apply ge1_mul; auto|]. split; [rewrite Rabs_mult; apply Rmult_le_compat; auto; apply Rabs_pos|].
  replace (x * x' - y * y') with ((x - y) * y' + x * (x' - y')) by ring. eapply Rle_trans; [apply Rabs_triang|]. rewrite !Rabs_mult.
  assert (Rabs (x - y) * Rabs y' <= (G - 1) * m * m') by (apply Rmult_le_compat; auto; apply Rabs_pos).
  assert (Rabs x * Rabs (x' - y') <= G * m * ((G' - 1) * m')) by (apply Rmult_le_compat; auto; apply Rabs_pos). lra.
Qed.
Lemma low_le e x : 0 <= x -> x <= 2 ^ e -> x <= bpow radix2 (Z.of_nat e). Proof. intros. rewrite bpow_nat. auto. Qed.
(** one rounding of anything not too small *)
Lemma near_rnd G x y m : near G x y m -> small_or m -> G * m <= 2 ^ 1000 -> exists r, fl x = Some r /\ is_double r /\ near (G * g 2) r y m.
Proof.
  intros N S B. exists (rnd x). pose proof (near_abs _ _ _ _ N) as NA. pose proof (near_pos _ _ _ _ N) as N0.
  assert (E : fl x = Some (rnd x)). { apply (fl_bpow _ 1000); [lia|]. change 1000%Z with (Z.of_nat 1000). rewrite bpow_nat. lra. }
  split; [auto|]. split; [eapply fl_double; eauto|]. pose proof u_pos as u0. pose proof u_small as us. pose proof (g_ge1 2) as g2. destruct N as (A & P & Q).
  split; [apply ge1_mul; auto|]. split; [auto|]. destruct S as [->|S].
  - assert (X0 : x = 0). { replace (G * 0) with 0 in NA by ring. destruct (Req_dec x 0); auto. pose proof (Rabs_pos_lt x H). lra. }
    assert (Y0 : y = 0). { destruct (Req_dec y 0); auto. pose proof (Rabs_pos_lt y H). lra. } subst x y. rewrite rnd_0. rewrite Rminus_0_r, Rabs_R0. lra.
  - pose proof (rnd_any_err x) as R. assert (T : bpow radix2 (-1075) <= u * u * m).
    { pose proof (bpow_neg 900) as P9. change (Z.of_nat 900) with 900%Z in P9. change (- (900))%Z with (-900)%Z in P9. rewrite <- P9 in S.
      apply Rle_trans with (u * u * bpow radix2 (-900)); [|apply Rmult_le_compat_l; [apply Rmult_le_pos; lra|auto]].
      Transparent u. unfold u. Opaque u. rewrite <- !bpow_plus. apply bpow_le. lia. }
    replace (rnd x - y) with ((x - y) + (rnd x - x)) by ring. eapply Rle_trans; [apply Rabs_triang|].
    assert (u * Rabs x <= u * (G * m)) by (apply Rmult_le_compat_l; lra).
    assert (u * u * m <= u * u * (G * m)). { apply Rmult_le_compat_l; [apply Rmult_le_pos; lra|]. rewrite <- (Rmult_1_l m) at 1. apply Rmult_le_compat_r; lra. }
    replace (G * g 2) with (G * (1 + 2 * u + u * u)) by (unfold g; ring).
    assert (0 <= u * (G * m)). { apply Rmult_le_pos; [lra|]. apply Rmult_le_pos; lra. } lra.
Qed.
(** the sum of two doubles *)
Lemma near_sum G x y m x' y' m' : is_double x -> is_double x' -> near G x y m -> near G x' y' m' -> G * (m + m') <= 2 ^ 1000 ->
  exists r, fl (x + x') = Some r /\ is_double r /\ near (G * g 2) r (y + y') (m + m').
Proof.
  intros D D' H H' B. pose proof (near_add _ _ _ _ _ _ _ H H') as N. exists (rnd (x + x')). pose proof (near_abs _ _ _ _ N) as NA. pose proof (near_pos _ _ _ _ N) as N0.
  assert (E : fl (x + x') = Some (rnd (x + x'))). { apply (fl_bpow _ 1000); [lia|]. change 1000%Z with (Z.of_nat 1000). rewrite bpow_nat. lra. }
  split; [auto|]. split; [eapply fl_double; eauto|]. pose proof u_pos as u0. pose proof u_small as us. pose proof (g_ge1 2) as g2. destruct N as (A & P & Q).
  split; [apply ge1_mul; auto|]. split; [auto|]. pose proof (rnd_plus_err x x' (fmt_d _ D) (fmt_d _ D')) as R.
  replace (rnd (x + x') - (y + y')) with ((x + x' - (y + y')) + (rnd (x + x') - (x + x'))) by ring. eapply Rle_trans; [apply Rabs_triang|].
  assert (u * Rabs (x + x') <= u * (G * (m + m'))) by (apply Rmult_le_compat_l; lra).
  replace (G * g 2) with (G * (1 + 2 * u + u * u)) by (unfold g; ring).
  assert (T : 0 <= u * (G * (m + m'))). { apply Rmult_le_pos; [lra|]. apply Rmult_le_pos; lra. }
  assert (0 <= u * (u * (G * (m + m')))) by (apply Rmult_le_pos; lra). lra.
Qed.
Lemma near_inv G x y m L : near G x y m -> y <> 0 -> m <= L * Rabs y -> (G - 1) * L <= 1 / 2 -> x <> 0 /\ near (1 + 2 * ((G - 1) * L)) (1 / x) (1 / y) (/ Rabs y).
Proof.
  intros (A & B & C) Y M S. assert (AY : 0 < Rabs y) by (apply Rabs_pos_lt; auto). set (e := (G - 1) * L) in *.
  assert (E : Rabs (x - y) <= e * Rabs y). { eapply Rle_trans; [exact C|]. unfold e. rewrite Rmult_assoc. apply Rmult_le_compat_l; lra. }
  assert (L0 : 0 < L). { apply Rmult_lt_reg_r with (Rabs y); lra. } assert (e0 : 0 <= e) by (apply Rmult_le_pos; lra).
  assert (X : (1 - e) * Rabs y <= Rabs x). { assert (Rabs y <= Rabs x + Rabs (x - y)); [|lra]. replace y with (x + - (x - y)) at 1 by ring. eapply Rle_trans; [apply Rabs_triang|]. rewrite Rabs_Ropp. lra. }
  assert (X2 : / 2 * Rabs y <= Rabs x). { eapply Rle_trans; [|exact X]. apply Rmult_le_compat_r; lra. }
  assert (X0 : x <> 0). { intros ->. rewrite Rabs_R0 in X2. lra. } split; [auto|]. split; [lra|]. split.
  - unfold Rdiv. rewrite Rmult_1_l, Rabs_inv. lra.
  - replace (1 / x - 1 / y) with ((y - x) * (/ x * / y)) by (field; auto). rewrite Rabs_mult, Rabs_mult, !Rabs_inv. rewrite Rabs_minus_sym.
    assert (IX : / Rabs x <= 2 * / Rabs y). { replace (2 * / Rabs y) with (/ (/ 2 * Rabs y)) by (field; lra). apply Rinv_le_contravar; lra. }
    apply Rle_trans with (e * Rabs y * (2 * / Rabs y * / Rabs y)).
    + apply Rmult_le_compat; [apply Rabs_pos| |auto|apply Rmult_le_compat_r; [left; apply Rinv_0_lt_compat; lra|auto]].
      apply Rmult_le_pos; left; apply Rinv_0_lt_compat; [apply Rabs_pos_lt; auto|auto].
    + right. field. lra.
Qed.
(** ** The accumulation loops *)
Section LOOP.
Variables (G0 : R) (K : nat).
Hypothesis HG : 1 <= G0.
Hypothesis HK : G0 * g K <= 2.
Definition st (k : nat) (s Y M : R) : Prop := is_double s /\ near (G0 * g k) s Y M /\ small_or M.
Definition step_ok (c : nat) (step : R -> option R) (e m : R) : Prop :=
  forall k s Y M, st k s Y M -> (k + c <= K)%nat -> M + m <= 2 ^ 900 -> exists s', step s = Some s' /\ st (k + c) s' (Y + e) (M + m).
Lemma small_sum a b : 0 <= a -> 0 <= b -> small_or a -> small_or b -> small_or (a + b).
Proof.
  intros A B [->|HA] [->|HB]; [left; ring|right; lra|right; lra|right]. assert (0 < / 2 ^ 900) by (apply Rinv_0_lt_compat; apply pow_lt; lra). lra.
Qed.
Lemma st0 : st 0 0 0 0.
Proof. split; [apply dbl_0|]. split; [|left; auto]. cbn. rewrite Rmult_1_r. pose proof (near_refl G0 0 HG) as H. rewrite Rabs_R0 in H. auto. Qed.
Lemma gK k : (k <= K)%nat -> 1 <= G0 * g k <= 2.
Proof. intros H. split; [apply ge1_mul; [auto|apply g_ge1]|]. eapply Rle_trans; [|exact HK]. apply Rmult_le_compat_l; [lra|apply g_mono; auto]. Qed.
Lemma pow_900 x : x <= 2 ^ 900 -> 2 * x <= 2 ^ 1000.
Proof.
  intros H. apply Rle_trans with (2 * 2 ^ 900); [lra|]. change (2 * 2 ^ 900) with (2 ^ 901). apply Rle_pow; [lra|lia].
Qed.
Lemma step_add Gp f a b e m : near Gp (a * b) e m -> small_or m -> Gp * g 2 <= G0 -> step_ok 2 (mul_add f a b) e m.
Proof.
  intros N S HGp k s Y M (D & Ns & Sm) Hk HM. pose proof (near_pos _ _ _ _ N) as m0. pose proof (near_pos _ _ _ _ Ns) as M0.
  pose proof (gK k ltac:(lia)) as GK. assert (Gp1 : 1 <= Gp) by (destruct N; auto). pose proof (g_ge1 2) as g2. pose proof (g_ge1 k) as gk.
  assert (GpG : Gp <= G0 * g k). { apply Rle_trans with (Gp * g 2); [rewrite <- (Rmult_1_r Gp) at 1; apply Rmult_le_compat_l; lra|]. eapply Rle_trans; [exact HGp|]. rewrite <- (Rmult_1_r G0) at 1. apply Rmult_le_compat_l; lra. }
  assert (BB : G0 * g k * (m + M) <= 2 ^ 1000). { apply Rle_trans with (2 * (m + M)); [apply Rmult_le_compat_r; lra|apply pow_900; lra]. }
  unfold mul_add. destruct f.
  - destruct (near_rnd (G0 * g k) (a * b + s) (e + Y) (m + M)) as (r & E & Dr & Nr); [apply near_add; auto; eapply near_le; eauto|apply small_sum; auto|auto|].
    exists r. split; [auto|]. rewrite (Rplus_comm Y), (Rplus_comm M). split; [auto|]. split; [rewrite g_add, <- Rmult_assoc; auto|apply small_sum; auto].
  - destruct (near_rnd Gp (a * b) e m N S) as (p & Ep & Dp & Np). { apply Rle_trans with (2 * m); [apply Rmult_le_compat_r; lra|apply pow_900; lra]. }
    rewrite Ep. cbn [bind]. destruct (near_sum (G0 * g k) p e m s Y M) as (r & E & Dr & Nr); auto.
    { apply (near_le (Gp * g 2)); [|auto]. eapply Rle_trans; [exact HGp|]. rewrite <- (Rmult_1_r G0) at 1. apply Rmult_le_compat_l; lra. }
    exists r. split; [auto|]. rewrite (Rplus_comm Y), (Rplus_comm M). split; [auto|]. split; [rewrite g_add, <- Rmult_assoc; auto|apply small_sum; auto].
Qed.
(** adding a double *)
Lemma step_plus t e m : is_double t -> near G0 t e m -> small_or m -> step_ok 2 (fun s => fl (s + t)) e m.
Proof.
  intros Dt N S k s Y M (D & Ns & Sm) Hk HM. pose proof (near_pos _ _ _ _ N) as m0. pose proof (near_pos _ _ _ _ Ns) as M0. pose proof (gK k ltac:(lia)) as GK. pose proof (g_ge1 k) as gk.
  destruct (near_sum (G0 * g k) s Y M t e m) as (r & E & Dr & Nr); auto.
  { apply (near_le G0); [|auto]. rewrite <- (Rmult_1_r G0) at 1. apply Rmult_le_compat_l; lra. }
  { apply Rle_trans with (2 * (M + m)); [apply Rmult_le_compat_r; lra|apply pow_900; lra]. }
  exists r. split; [auto|]. split; [auto|]. split; [rewrite g_add, <- Rmult_assoc; auto|apply small_sum; auto].
Qed.
Lemma loop_ok c n body e m : (forall i, (i < n)%nat -> 0 <= m i /\ step_ok c (body i) (e i) (m i)) -> step_ok (c * n) (for_d n body) (sumn n e) (sumn n m).
Proof.
  induction n as [|n IH]; intros H k s Y M HS Hk HM; cbn [for_d sumn] in *.
  - exists s. split; [auto|]. replace (k + c * 0)%nat with k by lia. rewrite !Rplus_0_r. auto.
  - assert (P : 0 <= sumn n m) by (apply sumn_nonneg; intros i Hi; apply H; lia). destruct (H n (Nat.lt_succ_diag_r n)) as [M0 HN].
    destruct (IH (fun i Hi => H i (Nat.lt_lt_succ_r _ _ Hi)) k s Y M HS) as (s' & E & HS'); [lia|lra|]. rewrite E. cbn [bind].
    destruct (HN (k + c * n)%nat s' (Y + sumn n e) (M + sumn n m) HS') as (s2 & E2 & HS2); [lia|lra|]. exists s2. split; [auto|].
    replace (k + c * S n)%nat with (k + c * n + c)%nat by lia. rewrite <- !Rplus_assoc. auto.
Qed.
(** a loop started at zero *)
Lemma run c n body e m : (forall i, (i < n)%nat -> 0 <= m i /\ step_ok c (body i) (e i) (m i)) -> (c * n <= K)%nat -> sumn n m <= 2 ^ 900 ->
  exists s, for_d n body 0 = Some s /\ is_double s /\ near (G0 * g (c * n)) s (sumn n e) (sumn n m) /\ small_or (sumn n m).
Proof.
  intros H Hc HM. destruct (loop_ok c n body e m H 0%nat 0 0 0 st0) as (s & E & D & N & S); [lia|lra|]. rewrite !Rplus_0_l in *. exists s. auto.
Qed.
End LOOP.
(** ** Products of factors close to one *)
Definition fac (P s : R) : Prop := 1 <= P /\ 0 <= s /\ P * (1 - s) <= 1.
Lemma fac_1 a : 0 <= a -> fac (1 + a) a.
Proof. intros H. split; [lra|]. split; [lra|]. replace ((1 + a) * (1 - a)) with (1 - a * a) by ring. assert (0 <= a * a) by (apply Rmult_le_pos; lra). lra. Qed.
Lemma fac_mul P s Q r : fac P s -> fac Q r -> s + r <= 1 -> fac (P * Q) (s + r).
Proof.
  intros (A & B & C) (A' & B' & C') S. split; [apply ge1_mul; auto|]. split; [lra|]. apply Rle_trans with (P * Q * ((1 - s) * (1 - r))).
  - apply Rmult_le_compat_l; [apply Rmult_le_pos; lra|]. assert (0 <= s * r) by (apply Rmult_le_pos; auto). lra.
  - replace (P * Q * ((1 - s) * (1 - r))) with (P * (1 - s) * (Q * (1 - r))) by ring. apply Rle_trans with (1 * 1); [apply Rmult_le_compat; auto; apply Rmult_le_pos; lra|lra].
Qed.
Lemma fac_g k : INR k * u <= 1 -> fac (g k) (INR k * u).
Proof.
  pose proof u_pos as u0. induction k as [|k IH]; intros H; [cbn; split; [lra|split; lra]|]. rewrite S_INR in *. pose proof (pos_INR k) as pk. rewrite g_S.
  replace ((INR k + 1) * u) with (u + INR k * u) by ring. apply fac_mul; [apply fac_1; lra|apply IH; lra|lra].
Qed.
Lemma fac_le P s s' : s <= s' -> fac P s -> fac P s'.
Proof. intros H (A & B & C). split; [auto|]. split; [lra|]. eapply Rle_trans; [|exact C]. apply Rmult_le_compat_l; lra. Qed.
Lemma fac_bound P s : fac P s -> s <= 1 / 2 -> P - 1 <= 2 * s.
Proof.
  intros (A & B & C) H. apply Rmult_le_reg_r with (1 - s); [lra|]. assert (2 * s * (1 - s) = s + s * (1 - 2 * s)) by ring. assert (0 <= s * (1 - 2 * s)) by (apply Rmult_le_pos; lra). lra.
Qed.
(** ** The weights *)
Definition tau (n : nat) (L : R) : R := (8 * INR n + 24) * L * u.
Lemma on_node_iff z x i : is_double (z i) -> is_double x -> Rabs (z i) <= 1 -> Rabs x <= 2 ->
  exists r, fl (z i - x) = Some r /\ near (1 + u) r (z i - x) (Rabs (z i - x)) /\ (on_node_d z x i = true <-> z i = x) /\ (z i <> x -> r <> 0).
Proof.
  intros Dz Dx Bz Bx. pose proof u_pos as u0. pose proof u_small as us. exists (rnd (z i - x)).
  assert (E : fl (z i - x) = Some (rnd (z i - x))). { apply (fl_bpow _ 4); [lia|]. apply Rabs_le_inv in Bz. apply Rabs_le_inv in Bx. apply Rabs_le. cbn. lra. }
  assert (N : near (1 + u) (rnd (z i - x)) (z i - x) (Rabs (z i - x))).
  { split; [lra|]. split; [lra|]. replace (1 + u - 1) with u by ring. apply rnd_sub_err; apply fmt_d; auto. }
  assert (NZ : z i <> x -> rnd (z i - x) <> 0). { intros H. destruct (near_inv _ _ _ _ 1 N) as [X _]; auto; lra. }
  split; [auto|]. split; [auto|]. split; [|auto]. unfold on_node_d. rewrite E. split.
  - intros H. destruct (Req_bool_spec (rnd (z i - x)) 0) as [H0|]; [|discriminate]. destruct (Req_dec (z i) x); auto. exfalso. apply NZ; auto.
  - intros ->. rewrite Rminus_diag_eq, rnd_0 by reflexivity. apply Req_bool_true. reflexivity.
Qed.
Lemma pw a b : (a <= b)%nat -> / 2 ^ b <= / 2 ^ a.
Proof. intros. apply Rinv_le_contravar; [apply pow_lt; lra|apply Rle_pow; [lra|auto]]. Qed.
Lemma quot_off n x z bw i : direction n x z bw -> (i < n)%nat -> (forall j, (j < n)%nat -> z j <> x) ->
  exists t, bw_over_diff_d z bw x i = Some t /\ is_double t /\ near (g 4) t (bw i / (z i - x)) (Rabs (bw i / (z i - x))) /\ / 2 ^ 52 <= Rabs (bw i / (z i - x)) <= 2 ^ 150.
Proof.
  intros (Hn & Dx & Bx & Hd & Hg) Hi Hx. destruct (Hd i Hi) as (Dz & Bz & Db & B1 & B2). pose proof u_pos as u0. pose proof u_small as us.
  destruct (on_node_iff z x i Dz Dx Bz Bx) as (r & E & N & _ & NZ). specialize (Hx i Hi) as Hxi. specialize (NZ Hxi). unfold bw_over_diff_d. rewrite E. cbn [bind].
  assert (Gap : / 2 ^ 100 <= Rabs (z i - x) <= 4).
  { split; [destruct Hg as [(j & Hj & Ej)|Hg]; [exfalso; apply (Hx j); auto|auto]|]. eapply Rle_trans; [apply Rabs_triang|]. rewrite Rabs_Ropp. lra. }
  set (y := z i - x) in *. assert (Y0 : 0 < Rabs y). { apply Rabs_pos_lt. unfold y. lra. } assert (Yn : y <> 0) by (unfold y; lra).
  destruct (near_inv _ _ _ _ 1 N Yn) as [_ NI]; [lra|lra|]. replace (1 + 2 * ((1 + u - 1) * 1)) with (1 + 2 * u) in NI by ring.
  assert (M : near (1 + 2 * u) (bw i / r) (bw i / y) (Rabs (bw i / y))).
  { replace (bw i / r) with (bw i * (1 / r)) by (field; auto). replace (bw i / y) with (bw i * (1 / y)) at 1 by (field; auto).
    replace (Rabs (bw i / y)) with (Rabs (bw i) * / Rabs y) by (unfold Rdiv; rewrite Rabs_mult, Rabs_inv; auto).
    replace (1 + 2 * u) with (1 * (1 + 2 * u)) by ring. apply near_mul; [apply near_refl; lra|auto]. }
  assert (R : / 2 ^ 52 <= Rabs (bw i / y) <= 2 ^ 150).
  { unfold Rdiv. rewrite Rabs_mult, Rabs_inv. split.
    - replace (/ 2 ^ 52) with (/ 2 ^ 50 * / 4) by (cbn; lra). apply Rmult_le_compat; [left; apply Rinv_0_lt_compat; apply pow_lt; lra|lra|auto|apply Rinv_le_contravar; lra].
    - replace (2 ^ 150) with (2 ^ 50 * 2 ^ 100) by (rewrite <- pow_add; reflexivity). apply Rmult_le_compat; [apply Rabs_pos|left; apply Rinv_0_lt_compat; auto|auto|].
      replace (2 ^ 100) with (/ / 2 ^ 100) by (apply Rinv_inv). apply Rinv_le_contravar; [apply Rinv_0_lt_compat; apply pow_lt; lra|lra]. }
  unfold div_d. rewrite Req_bool_false by auto. destruct (near_rnd _ _ _ _ M) as (t & Et & Dt & Nt).
  { right. eapply Rle_trans; [|apply R]. apply pw. lia. }
  { apply Rle_trans with (2 * 2 ^ 150); [apply Rmult_le_compat; [lra|apply Rabs_pos|lra|apply R]|]. change (2 * 2 ^ 150) with (2 ^ 151). apply Rle_pow; [lra|lia]. }
  exists t. split; [auto|]. split; [auto|]. split; [|auto]. eapply near_le; [|exact Nt]. replace (g 4) with (g 2 * g 2) by (symmetry; apply (g_add 2 2)).
  apply Rmult_le_compat_r; [pose proof (g_ge1 2); lra|]. unfold g. assert (0 <= u * u) by (apply Rmult_le_pos; lra). cbn. lra.
Qed.
Lemma sumn_le n f B : (forall i, (i < n)%nat -> f i <= B) -> sumn n f <= INR n * B.
Proof. induction n as [|n IH]; intros H; [cbn; lra|]. cbn [sumn]. rewrite S_INR. pose proof (H n (Nat.lt_succ_diag_r n)). assert (sumn n f <= INR n * B) by (apply IH; intros; apply H; lia). lra. Qed.
Lemma sumn_ge n f i : (forall j, (j < n)%nat -> 0 <= f j) -> (i < n)%nat -> f i <= sumn n f.
Proof.
  induction n as [|n IH]; intros H Hi; [lia|]. cbn [sumn]. pose proof (H n (Nat.lt_succ_diag_r n)). destruct (Nat.eq_dec i n) as [->|].
  - assert (0 <= sumn n f) by (apply sumn_nonneg; intros; apply H; lia). lra.
  - assert (f i <= sumn n f) by (apply IH; [intros; apply H; lia|lia]). lra.
Qed.
Lemma sumn_abs n f : Rabs (sumn n f) <= sumn n (fun i => Rabs (f i)).
Proof. induction n as [|n IH]; cbn [sumn]; [rewrite Rabs_R0; lra|]. eapply Rle_trans; [apply Rabs_triang|]. lra. Qed.
Lemma find_nothing {A} (p : A -> bool) l : (forall a, In a l -> p a = false) -> find p l = None.
Proof. induction l as [|a l IH]; intros H; cbn [find]; [auto|]. rewrite H by (left; auto). apply IH. intros. apply H. right. auto. Qed.
Definition weight_ok (G : R) (div : darray) (n : nat) (w : nat -> R) : Prop :=
  forall i, (i < n)%nat -> exists r, div i = Some r /\ is_double r /\ near G r (w i) (Rabs (w i)) /\ (w i = 0 \/ / 2 ^ 222 <= Rabs (w i)) /\ Rabs (w i) <= 2 ^ 50.
Lemma L_range n L : 1 <= L -> tau n L <= 1 / 2 -> L <= 2 ^ 48.
Proof.
  intros H1 H. unfold tau in H. pose proof (pos_INR n) as pn. pose proof u_pos. assert (24 * L * u <= 1 / 2).
  { eapply Rle_trans; [|exact H]. apply Rmult_le_compat_r; [lra|]. apply Rmult_le_compat_r; lra. }
  assert (uv : u = / 9007199254740992). { rewrite <- u_eq. unfold unit_roundoff. f_equal. cbn. lra. } rewrite uv in H2.
  apply Rmult_le_reg_r with (24 * / 9007199254740992); [lra|]. eapply Rle_trans with (1 / 2); [lra|]. cbn. lra.
Qed.
Lemma weights_d n x z bw w L : direction n x z bw -> distinct n z -> node_weights n z bw x w -> 1 <= L -> lebesgue n w <= L -> tau n L <= 1 / 2 ->
  exists G, fac G (tau n L) /\ weight_ok G (preprocess_weights_d n x z bw) n w.
Proof.
  intros HD Hdis HW L1 HL HT. pose proof (L_range n L L1 HT) as LR. pose proof u_pos as u0. pose proof u_small as us. pose proof (pos_INR n) as pn.
  assert (T0 : 0 <= tau n L). { unfold tau. apply Rmult_le_pos; [apply Rmult_le_pos; lra|lra]. }
  pose proof HD as HD'. destruct HD as (Hn & Dx & Bx & Hd & Hg). destruct HW as [(k & Hk & Ek & Wk & W0)|(Hx & HDn & HWi)].
  - exists 1. split; [split; [lra|split; [lra|lra]]|]. unfold preprocess_weights_d.
    assert (F : find (on_node_d z x) (seq 0 n) = Some k).
    { destruct (find (on_node_d z x) (seq 0 n)) as [j|] eqn:F.
      - apply find_some in F as [Fi Ft]. apply in_seq in Fi. destruct (Hd j ltac:(lia)) as (Dz & Bz & _). destruct (on_node_iff z x j Dz Dx Bz Bx) as (_ & _ & _ & O & _).
        apply O in Ft. f_equal. apply Hdis; [lia|auto|congruence].
      - exfalso. pose proof (List.find_none _ _ F k) as FN. destruct (Hd k Hk) as (Dz & Bz & _). destruct (on_node_iff z x k Dz Dx Bz Bx) as (_ & _ & _ & O & _).
        rewrite (proj2 O Ek) in FN. discriminate FN. apply in_seq. lia. }
    rewrite F. intros i Hi. assert (B50 : 1 <= 2 ^ 50) by (apply pow_R1_Rle; lra). destruct (Nat.eqb_spec i k) as [->|Ne].
    + rewrite Wk. exists 1. split; [auto|]. split; [apply is_double_fmt; split; [apply (fmt_Z 1); lia|rewrite Rabs_R1; apply (bpow_lt radix2 0); lia]|].
      split; [apply near_refl; lra|]. rewrite Rabs_R1. split; [right; rewrite <- Rinv_1; apply Rinv_le_contravar; [lra|apply pow_R1_Rle; lra]|auto].
    + rewrite W0 by auto. exists 0. split; [auto|]. split; [apply dbl_0|]. split; [apply near_refl; lra|]. rewrite Rabs_R0. split; [left; auto|lra].
  - set (t := fun i => bw i / (z i - x)). set (D := sumn n t). change (D <> 0) in HDn. assert (HWt : forall i, (i < n)%nat -> w i = t i / D) by exact HWi. clear HWi. set (M := sumn n (fun i => Rabs (t i))).
    assert (Dpos : 0 < Rabs D) by (apply Rabs_pos_lt; auto).
    assert (Q : forall i, (i < n)%nat -> exists r, bw_over_diff_d z bw x i = Some r /\ is_double r /\ near (g 4) r (t i) (Rabs (t i)) /\ / 2 ^ 52 <= Rabs (t i) <= 2 ^ 150).
    { intros i Hi. apply (quot_off n x z bw i HD' Hi Hx). }
    assert (ML : M <= L * Rabs D).
    { apply Rmult_le_reg_r with (/ Rabs D); [apply Rinv_0_lt_compat; auto|]. rewrite Rmult_assoc, Rinv_r, Rmult_1_r by lra. eapply Rle_trans; [|exact HL]. right. unfold lebesgue, M.
      rewrite <- sumn_scal_r. apply sumn_ext. intros i Hi. rewrite HWt by auto. unfold Rdiv. rewrite Rabs_mult, Rabs_inv. reflexivity. }
    assert (M170 : M <= 2 ^ 170).
    { apply Rle_trans with (INR n * 2 ^ 150); [apply sumn_le; intros i Hi; destruct (Q i Hi) as (_ & _ & _ & _ & _ & QU); exact QU|]. change 170%nat with (20 + 150)%nat. rewrite pow_add. apply Rmult_le_compat_r; [apply pow_le; lra|auto]. }
    assert (DM : Rabs D <= M) by apply sumn_abs.
    assert (n1 : (0 < n)%nat). { destruct n; [exfalso; apply HDn; reflexivity|lia]. }
    assert (M52 : / 2 ^ 52 <= M). { destruct (Q 0%nat n1) as (_ & _ & _ & _ & QL & _). eapply Rle_trans; [exact QL|]. apply (sumn_ge n (fun i => Rabs (t i)) 0%nat); [intros; apply Rabs_pos|auto]. }
    set (k := (4 + 2 * n)%nat). assert (Kk : INR k = 4 + 2 * INR n) by (unfold k; rewrite plus_INR, mult_INR; cbn; lra).
    assert (LU : u <= L * u) by (rewrite <- (Rmult_1_l u) at 1; apply Rmult_le_compat_r; lra).
    assert (NL : INR n * u <= INR n * (L * u)) by (apply Rmult_le_compat_l; auto). assert (NU0 : 0 <= INR n * u) by (apply Rmult_le_pos; lra).
    unfold tau in HT. assert (Ku : INR k * u <= 1 / 2) by (rewrite Kk; lra). pose proof (g_lin k Ku) as GL. pose proof (g_ge1 k) as Gk1.
    assert (GD : g 4 * g (2 * n) = g k) by (unfold k; rewrite g_add; reflexivity).
    assert (HK : g 4 * g (2 * n) <= 2) by (rewrite GD; lra).
    destruct (run (g 4) (2 * n) (g_ge1 4) 2 n (fun i s => do t <- bw_over_diff_d z bw x i; fl (s + t)) t (fun i => Rabs (t i))) as (dn & Ed & Dd & Nd & Sd); [|lia| |].
    { intros i Hi. split; [apply Rabs_pos|]. destruct (Q i Hi) as (r & Er & Dr & Nr & R1 & R2). rewrite Er. cbn [bind]. apply step_plus; auto; [apply g_ge1|].
      right. eapply Rle_trans; [|exact R1]. apply pw. lia. }
    { eapply Rle_trans; [exact M170|]. apply Rle_pow; [lra|lia]. }
    fold D M in Nd. rewrite GD in Nd.
    assert (GL2 : (g k - 1) * L <= (4 * INR n + 8) * L * u). { apply Rle_trans with (2 * INR k * u * L); [apply Rmult_le_compat_r; lra|]. rewrite Kk. right. ring. }
    assert (NLU : 0 <= INR n * (L * u)) by lra.
    assert (GL3 : (g k - 1) * L <= 1 / 2) by lra. assert (GL0 : 0 <= (g k - 1) * L) by (apply Rmult_le_pos; lra).
    destruct (near_inv _ _ _ _ L Nd HDn ML GL3) as [dn0 Ni]. set (a := 2 * ((g k - 1) * L)) in *. assert (a0 : 0 <= a <= 1) by (unfold a; lra).
    assert (ID : / 2 ^ 170 <= / Rabs D) by (apply Rinv_le_contravar; lra).
    assert (ID2 : / Rabs D <= 2 ^ 100).
    { apply Rle_trans with (L * / M). - apply Rmult_le_reg_r with (Rabs D * M); [apply Rmult_lt_0_compat; lra|]. replace (/ Rabs D * (Rabs D * M)) with M by (field; lra). replace (L * / M * (Rabs D * M)) with (L * Rabs D) by (field; lra). auto.
      - change 100%nat with (48 + 52)%nat. rewrite pow_add. apply Rmult_le_compat; [lra|left; apply Rinv_0_lt_compat; lra|auto|]. rewrite <- (Rinv_inv (2 ^ 52)). apply Rinv_le_contravar; [apply Rinv_0_lt_compat; apply pow_lt; lra|auto]. }
    destruct (near_rnd _ _ _ _ Ni) as (fa & Ef & Df & Nf).
    { right. eapply Rle_trans; [|exact ID]. apply pw. lia. }
    { apply Rle_trans with (2 * 2 ^ 100); [apply Rmult_le_compat; [lra|left; apply Rinv_0_lt_compat; auto|lra|auto]|]. change (2 * 2 ^ 100) with (2 ^ 101). apply Rle_pow; [lra|lia]. }
    exists (g 4 * ((1 + a) * g 2) * g 2). split.
    { apply (fac_le _ (4 * u + (a + 2 * u) + 2 * u)); [unfold tau, a; lra|].
      assert (F4 : fac (g 4) (4 * u)) by (pose proof (fac_g 4) as X; replace (INR 4) with 4 in X by (cbn; lra); apply X; lra). assert (F2 : fac (g 2) (2 * u)) by (pose proof (fac_g 2) as X; replace (INR 2) with 2 in X by (cbn; lra); apply X; lra).
      assert (As : a + 8 * u <= 1) by (unfold a; lra).
      apply fac_mul; [apply fac_mul; [auto|apply fac_mul; [apply fac_1; lra|auto|lra]|lra]|auto|lra]. }
    unfold preprocess_weights_d. rewrite find_nothing.
    2:{ intros i Hi. apply in_seq in Hi. destruct (Hd i ltac:(lia)) as (Dz & Bz & _). destruct (on_node_iff z x i Dz Dx Bz Bx) as (_ & _ & _ & O & _). destruct (on_node_d z x i); auto. exfalso. apply (Hx i); [lia|]. apply O. auto. }
    intros i Hi. rewrite Ed. cbn [bind]. unfold div_d at 1. rewrite Req_bool_false by auto. rewrite Ef. cbn [bind]. destruct (Q i Hi) as (r & Er & Dr & Nr & R1 & R2). rewrite Er. cbn [bind].
    pose proof (near_mul _ _ _ _ _ _ _ _ Nr Nf) as Np. assert (Ew : t i * (1 / D) = w i) by (rewrite HWt by auto; field; auto).
    assert (Em : Rabs (t i) * / Rabs D = Rabs (w i)) by (rewrite HWt by auto; unfold Rdiv; rewrite Rabs_mult, Rabs_inv; reflexivity). rewrite Ew, Em in Np.
    assert (WL : / 2 ^ 222 <= Rabs (w i)). { rewrite <- Em. change 222%nat with (52 + 170)%nat. rewrite pow_add, Rinv_mult. apply Rmult_le_compat; auto; left; apply Rinv_0_lt_compat; apply pow_lt; lra. }
    assert (WU : Rabs (w i) <= 2 ^ 48). { apply Rle_trans with (lebesgue n w); [apply (sumn_ge n (fun i => Rabs (w i)) i); [intros; apply Rabs_pos|auto]|lra]. }
    destruct (near_rnd _ _ _ _ Np) as (ww & Eww & Dww & Nww).
    { right. eapply Rle_trans; [|exact WL]. apply pw. lia. }
    { apply Rle_trans with (8 * 2 ^ 48).
      - apply Rmult_le_compat; [|apply Rabs_pos| |auto]. { apply Rmult_le_pos; [pose proof (g_ge1 4); lra|apply Rmult_le_pos; [lra|pose proof (g_ge1 2); lra]]. }
        assert (g 4 <= 2) by (apply Rle_trans with (g k); [apply g_mono; unfold k; lia|lra]). assert (g 2 <= 2) by (apply Rle_trans with (g k); [apply g_mono; unfold k; lia|lra]).
        pose proof (g_ge1 4). pose proof (g_ge1 2). replace 8 with (2 * (2 * 2)) by ring. apply Rmult_le_compat; [lra|apply Rmult_le_pos; lra|auto|apply Rmult_le_compat; lra].
      - change (8 * 2 ^ 48) with (2 * (2 * (2 * 2 ^ 48))) || replace (8 * 2 ^ 48) with (2 ^ 51) by (cbn; lra). apply Rle_pow; [lra|lia]. }
    exists ww. split; [auto|]. split; [auto|]. split; [auto|]. split; [right; auto|]. eapply Rle_trans; [exact WU|]. apply Rle_pow; [lra|lia].
Qed.
