(** Lemmas for C114. *)
From Flocq Require Import Core.
From Verif Require Import M_RealBase L_RealBase M_Loop L_Loop M_Grid M_Double S_Double L_Double L_Double2 M_BorisD L_SumD L_BaryD P_BaryD S_Jacobi L_Jacobi L_Basis1 S_Basis M_BasisD S_BasisD.
From Coq Require Import Reals Lra Lia ZArith Bool List.
Import ListNotations.
Open Scope R_scope.

(** * Values with an error of [K] roundings relative to [m] *)
Definition nd (K : nat) (x y m : R) : Prop := is_double x /\ near (g K) x y m.
Definition okm (m : R) : Prop := small_or m /\ m <= 2 ^ 900.
Lemma g4000 K : (K <= 4000)%nat -> g K <= 2.
Proof.
  intros H. assert (B : INR K * u <= 1 / 2).
  { pose proof u_pos. pose proof u_small. apply le_INR in H. assert (E : INR 4000 = 4000) by (rewrite INR_IZR_INZ; apply f_equal; reflexivity). rewrite E in H.
    apply Rle_trans with (4000 * u); [apply Rmult_le_compat_r; lra|]. assert (u <= / 8192); [|lra]. Transparent u. unfold u. Opaque u. cbn. lra. }
  pose proof (g_lin K B). lra.
Qed.
Lemma nd_le K K' x y m : (K <= K')%nat -> nd K x y m -> nd K' x y m.
Proof. intros H [D N]. split; auto. eapply near_le; [apply g_mono; eauto|auto]. Qed.
Lemma nd_m K x y m m' : m <= m' -> nd K x y m -> nd K x y m'.
Proof. intros H [D (A & B & C)]. split; auto. split; [auto|]. split; [lra|]. eapply Rle_trans; [exact C|]. apply Rmult_le_compat_l; lra. Qed.
Lemma nd_exact x m : is_double x -> Rabs x <= m -> nd 0 x x m.
Proof. intros D H. apply (nd_m _ _ _ (Rabs x)); auto. split; auto. apply near_refl. apply g_ge1. Qed.
Lemma nd_pos K x y m : nd K x y m -> 0 <= m. Proof. intros [_ N]. eapply near_pos; eauto. Qed.
Lemma rnd_nd K x y m : near (g K) x y m -> okm m -> (K <= 4000)%nat -> exists r, fl x = Some r /\ nd (K + 2) r y m.
Proof.
  intros N [S B] HK. pose proof (near_pos _ _ _ _ N) as m0. destruct (near_rnd _ _ _ _ N S) as (r & E & D & N').
  { pose proof (g4000 K HK). pose proof (g_ge1 K). apply Rle_trans with (2 * m); [apply Rmult_le_compat_r; lra|]. apply pow_900; auto. }
  exists r. split; auto. split; auto. rewrite g_add. auto.
Qed.
Lemma near_gmul K K' x y m x' y' m' : near (g K) x y m -> near (g K') x' y' m' -> near (g (K + K')) (x * x') (y * y') (m * m').
Proof. intros. rewrite g_add. apply near_mul; auto. Qed.
Lemma nd_mul K K' x y m x' y' m' : nd K x y m -> nd K' x' y' m' -> okm (m * m') -> (K + K' <= 4000)%nat ->
  exists r, fl (x * x') = Some r /\ nd (K + K' + 2) r (y * y') (m * m').
Proof. intros [_ N] [_ N'] O H. apply rnd_nd; auto. apply near_gmul; auto. Qed.
Lemma okm_l a b : 0 <= a -> 0 <= b -> okm (a + b) -> small_or a -> okm a.
Proof. intros A B [S H] Sa. split; auto. lra. Qed.
Lemma nd_add2 w K a b c d ya yb yc yd ma mb mc md Ka Kb Kc Kd :
  nd Ka a ya ma -> nd Kb b yb mb -> nd Kc c yc mc -> nd Kd d yd md -> (Ka + Kb <= K)%nat -> (Kc + Kd <= K)%nat -> (K <= 3990)%nat ->
  small_or (ma * mb) -> small_or (mc * md) -> ma * mb + mc * md <= 2 ^ 900 ->
  exists r, add2_d w a b c d = Some r /\ nd (K + 4) r (ya * yb + yc * yd) (ma * mb + mc * md).
Proof.
  intros A B C D H1 H2 HK S1 S2 U. pose proof (Rmult_le_pos _ _ (nd_pos _ _ _ _ A) (nd_pos _ _ _ _ B)) as p1. pose proof (Rmult_le_pos _ _ (nd_pos _ _ _ _ C) (nd_pos _ _ _ _ D)) as p2.
  pose proof (small_sum _ _ p1 p2 S1 S2) as S3.
  assert (N1 : near (g K) (a * b) (ya * yb) (ma * mb)) by (eapply near_le; [apply (g_mono (Ka + Kb)); auto|apply near_gmul; [apply A|apply B]]).
  assert (N2 : near (g K) (c * d) (yc * yd) (mc * md)) by (eapply near_le; [apply (g_mono (Kc + Kd)); auto|apply near_gmul; [apply C|apply D]]).
  destruct (rnd_nd _ _ _ _ N1) as (p & Ep & Np); [split; [auto|lra]|lia|]. destruct (rnd_nd _ _ _ _ N2) as (q & Eq & Nq); [split; [auto|lra]|lia|].
  assert (L : forall x y m, near (g K) x y m -> near (g (K + 2)) x y m) by (intros; eapply near_le; [apply (g_mono K); lia|auto]).
  replace (K + 4)%nat with (K + 2 + 2)%nat by lia. destruct w as [[|]|]; unfold add2_d; rewrite ?Ep, ?Eq; cbn [bind]; rewrite ?Eq; cbn [bind]; apply rnd_nd; try lia; try (split; [auto|lra]).
  - apply near_add; [auto|apply Nq]. - apply near_add; [apply Np|auto]. - apply near_add; [apply Np|apply Nq].
Qed.
Lemma nd_ma f K a b c ya yb yc ma mb mc Ka Kb :
  nd Ka a ya ma -> nd Kb b yb mb -> nd K c yc mc -> (Ka + Kb <= K)%nat -> (K <= 3990)%nat -> small_or (ma * mb) -> small_or mc -> ma * mb + mc <= 2 ^ 900 ->
  exists r, mul_add f a b c = Some r /\ nd (K + 4) r (ya * yb + yc) (ma * mb + mc).
Proof.
  intros A B C H1 HK S1 S2 U. pose proof (Rmult_le_pos _ _ (nd_pos _ _ _ _ A) (nd_pos _ _ _ _ B)) as p1. pose proof (nd_pos _ _ _ _ C) as p2.
  pose proof (small_sum _ _ p1 p2 S1 S2) as S3.
  assert (N1 : near (g K) (a * b) (ya * yb) (ma * mb)) by (eapply near_le; [apply (g_mono (Ka + Kb)); auto|apply near_gmul; [apply A|apply B]]).
  destruct (rnd_nd _ _ _ _ N1) as (p & Ep & Np); [split; [auto|lra]|lia|].
  assert (L : forall x y m, near (g K) x y m -> near (g (K + 2)) x y m) by (intros; eapply near_le; [apply (g_mono K); lia|auto]).
  replace (K + 4)%nat with (K + 2 + 2)%nat by lia. unfold mul_add. destruct f; [|rewrite Ep; cbn [bind]]; apply rnd_nd; try lia; try (split; [auto|lra]).
  - apply near_add; [auto|apply L, C]. - apply near_add; [apply Np|apply L, C].
Qed.
Lemma nd_within K x y m : nd K x y m -> (K <= 4000)%nat -> Rabs (x - y) <= 2 * INR K * u * m.
Proof.
  intros [_ (A & B & C)] H. eapply Rle_trans; [exact C|]. pose proof (Rabs_pos y). apply Rmult_le_compat_r; [lra|].
  assert (INR K * u <= 1 / 2); [|pose proof (g_lin K H1); lra].
  pose proof u_pos. apply le_INR in H. assert (E : INR 4000 = 4000) by (rewrite INR_IZR_INZ; apply f_equal; reflexivity). rewrite E in H.
  apply Rle_trans with (4000 * u); [apply Rmult_le_compat_r; lra|]. assert (u <= / 8192); [|lra]. Transparent u. unfold u. Opaque u. cbn. lra.
Qed.

(** * The table *)
Definition e10 (a m : R) : R := (2 * m + a) * (2 * m + a + 1) / (2 * m * (m + a + 1)).
Definition e11 (a m : R) : R := (2 * m + a) * (a - 1) * (a + 1) / (2 * m * (m + a + 1) * (2 * m + a - 1)).
Definition e2 (a m : R) : R := - ((m + a - 1) * (2 * m + a + 1) / ((m + a + 1) * (2 * m + a - 1))).
Lemma jac_rec alpha n z : let a := INR alpha in let m := INR (S (S n)) in
  e10 a m * Jacobi alpha 1 (S n) z * z + e11 a m * Jacobi alpha 1 (S n) z + e2 a m * Jacobi alpha 1 n z = Jacobi alpha 1 (S (S n)) z.
Proof.
  intros a m. pose proof (pos_INR n). pose proof (pos_INR alpha). rewrite (Jacobi_SS alpha 1 n). unfold recA, recB, recC, recD, e10, e11, e2, a, m. rewrite !S_INR. simpl INR.
  field. repeat split; lra.
Qed.
Lemma growth_SS alpha n : let a := INR alpha in let m := INR (S (S n)) in
  growth alpha (S (S n)) = (e10 a m + Rabs (e11 a m)) * growth alpha (S n) + Rabs (e2 a m) * growth alpha n.
Proof.
  intros a m. pose proof (pos_INR n). pose proof (pos_INR alpha). change (growth alpha (S (S n))) with
    (((2 * m + a) * (2 * m + a + 1) / (2 * m * (m + a + 1)) + (2 * m + a) * Rabs (a - 1) * (a + 1) / (2 * m * (m + a + 1) * (2 * m + a - 1))) * growth alpha (S n)
               + Rabs (m + a - 1) * (2 * m + a + 1) / ((m + a + 1) * (2 * m + a - 1)) * growth alpha n).
  assert (M : 2 <= m) by (unfold m; rewrite !S_INR; lra). assert (A : 0 <= a) by (unfold a; lra).
  unfold e10, e11, e2. rewrite Rabs_Ropp. unfold Rdiv. rewrite !Rabs_mult. rewrite !Rabs_inv, !Rabs_mult.
  rewrite (Rabs_pos_eq 2), (Rabs_pos_eq m), (Rabs_pos_eq (m + a + 1)), (Rabs_pos_eq (2 * m + a - 1)), (Rabs_pos_eq (2 * m + a)), (Rabs_pos_eq (a + 1)), (Rabs_pos_eq (2 * m + a + 1)) by lra.
  ring.
Qed.
Lemma e10_range a m : 0 <= a -> 2 <= m -> 1 <= e10 a m <= 2 + a / 2.
Proof.
  intros A M. unfold e10. replace ((2 * m + a) * (2 * m + a + 1) / (2 * m * (m + a + 1))) with ((2 * m + a) / (2 * m) * ((2 * m + a + 1) / (m + a + 1))) by (field; lra).
  assert (X : (2 * m + a) / (2 * m) = 1 + a * / (2 * m)) by (field; lra). assert (Y : (2 * m + a + 1) / (m + a + 1) = 1 + m * / (m + a + 1)) by (field; lra).
  assert (I1 : 0 < / (2 * m) <= / 4) by (split; [apply Rinv_0_lt_compat; lra|apply Rinv_le_contravar; lra]).
  assert (I2 : 0 < / (m + a + 1)) by (apply Rinv_0_lt_compat; lra).
  assert (P1 : 0 <= a * / (2 * m) <= a * / 4) by (split; [apply Rmult_le_pos; lra|apply Rmult_le_compat_l; lra]).
  assert (P2 : 0 <= m * / (m + a + 1) <= 1). { split; [apply Rmult_le_pos; lra|]. apply Rmult_le_reg_r with (m + a + 1); [lra|]. rewrite Rmult_assoc, Rinv_l by lra. lra. }
  rewrite X, Y. split; [replace 1 with (1 * 1) at 1 by ring; apply Rmult_le_compat; lra|].
  apply Rle_trans with ((1 + a * / 4) * 2); [apply Rmult_le_compat; lra|lra].
Qed.
Lemma e11_range a m : 0 <= a -> 2 <= m -> Rabs (e11 a m) <= a / 3 + 1.
Proof.
  intros A M. unfold e11. replace ((2 * m + a) * (a - 1) * (a + 1) / (2 * m * (m + a + 1) * (2 * m + a - 1))) with
    ((1 + / (2 * m + a - 1)) * ((a + 1) * / (m + a + 1)) * (/ (2 * m) * (a - 1))) by (field; lra).
  assert (I1 : 0 < / (2 * m) <= / 4) by (split; [apply Rinv_0_lt_compat; lra|apply Rinv_le_contravar; lra]).
  assert (I2 : 0 < / (2 * m + a - 1) <= / 3) by (split; [apply Rinv_0_lt_compat; lra|apply Rinv_le_contravar; lra]).
  assert (I3 : 0 <= (a + 1) * / (m + a + 1) <= 1).
  { split; [apply Rmult_le_pos; [lra|left; apply Rinv_0_lt_compat; lra]|]. apply Rmult_le_reg_r with (m + a + 1); [lra|]. rewrite Rmult_assoc, Rinv_l by lra. lra. }
  rewrite !Rabs_mult. rewrite (Rabs_pos_eq (1 + _)) by lra. rewrite (Rabs_pos_eq (/ (2 * m))) by lra. rewrite <- Rabs_mult. rewrite (Rabs_pos_eq ((a + 1) * _)) by lra.
  assert (Rabs (a - 1) <= a + 1) by (apply Rabs_le; lra). pose proof (Rabs_pos (a - 1)).
  assert (P : / (2 * m) * Rabs (a - 1) <= / 4 * (a + 1)) by (apply Rmult_le_compat; lra). assert (P0 : 0 <= / (2 * m) * Rabs (a - 1)) by (apply Rmult_le_pos; lra).
  apply Rle_trans with (4 / 3 * 1 * (/ 4 * (a + 1))); [|lra]. apply Rmult_le_compat; auto; [apply Rmult_le_pos; lra|apply Rmult_le_compat; lra].
Qed.
Lemma e2_range a m : 0 <= a -> 2 <= m -> Rabs (e2 a m) <= 1 /\ e2 a m <> 0.
Proof.
  intros A M. unfold e2. assert (P : 0 < (m + a + 1) * (2 * m + a - 1)) by (apply Rmult_lt_0_compat; lra).
  assert (Q : 0 < (m + a - 1) * (2 * m + a + 1)) by (apply Rmult_lt_0_compat; lra). pose proof (Rinv_0_lt_compat _ P).
  assert (S : 0 < (m + a - 1) * (2 * m + a + 1) / ((m + a + 1) * (2 * m + a - 1))) by (apply Rmult_lt_0_compat; auto).
  split; [|lra]. rewrite Rabs_Ropp, Rabs_pos_eq by lra. apply Rmult_le_reg_r with ((m + a + 1) * (2 * m + a - 1)); [auto|].
  unfold Rdiv. rewrite Rmult_assoc, Rinv_l by lra. lra.
Qed.
Lemma growth_range alpha n : 1 <= growth alpha n <= (2 * INR alpha + 4) ^ n.
Proof.
  pose proof (pos_INR alpha) as A. set (X := 2 * INR alpha + 4). assert (X4 : 4 <= X) by (unfold X; lra).
  assert (G : 1 <= growth alpha n <= X ^ n /\ 1 <= growth alpha (S n) <= X ^ (S n)); [|tauto].
  induction n as [|n [I1 I2]]; [cbn [pow]; change (growth alpha 0) with 1; change (growth alpha 1) with (2 * INR alpha + 4); fold X; lra|]. split; [auto|].
  rewrite growth_SS. set (m := INR (S (S n))). assert (M : 2 <= m) by (unfold m; rewrite !S_INR; pose proof (pos_INR n); lra).
  pose proof (e10_range (INR alpha) m A M). pose proof (e11_range (INR alpha) m A M). pose proof (proj1 (e2_range (INR alpha) m A M)).
  pose proof (Rabs_pos (e11 (INR alpha) m)). pose proof (Rabs_pos (e2 (INR alpha) m)). set (p := Rabs (e2 _ _)) in *. set (q := e10 _ _ + Rabs _) in *.
  assert (q1 : 1 <= q <= INR alpha + 3) by (unfold q; lra). split.
  - assert (1 * 1 <= q * growth alpha (S n)) by (apply Rmult_le_compat; lra). assert (0 <= p * growth alpha n) by (apply Rmult_le_pos; lra). lra.
  - assert (q * growth alpha (S n) <= (INR alpha + 3) * X ^ S n) by (apply Rmult_le_compat; lra). assert (p * growth alpha n <= 1 * X ^ n) by (apply Rmult_le_compat; lra).
    assert (P : 0 < X ^ n) by (apply pow_lt; lra). change (X ^ S (S n)) with (X * (X * X ^ n)). change (X ^ S n) with (X * X ^ n) in *.
    assert (X * X ^ n >= 4 * X ^ n) by (apply Rle_ge, Rmult_le_compat_r; lra).
    replace (X * (X * X ^ n)) with ((INR alpha + 3) * (X * X ^ n) + (INR alpha + 1) * (X * X ^ n)) by (unfold X; ring).
    assert (1 * (X * X ^ n) <= (INR alpha + 1) * (X * X ^ n)) by (apply Rmult_le_compat_r; lra). lra.
Qed.
Lemma growth_640 alpha n : (alpha <= 510)%nat -> (n <= 64)%nat -> growth alpha n <= 2 ^ 640.
Proof.
  intros HA HN. eapply Rle_trans; [apply growth_range|]. pose proof (pos_INR alpha) as A.
  assert (B : INR alpha <= 510). { apply le_INR in HA. replace 510 with (INR 510) by (rewrite INR_IZR_INZ; apply f_equal; reflexivity). auto. }
  apply Rle_trans with ((2 ^ 10) ^ n); [apply pow_incr; split; [lra|cbn; lra]|]. rewrite <- pow_mult. apply Rle_pow; [lra|lia].
Qed.
