From Verif Require Import M_RealBase.

Lemma DBL_MAX_pos : 0 < DBL_MAX.
Proof.
  unfold DBL_MAX. apply Rmult_lt_0_compat.
  - assert (/ 2 ^ 52 < 1). { rewrite <- Rinv_1. apply Rinv_lt_contravar; [|apply Rlt_pow_R1; [lra|lia]].
      rewrite Rmult_1_l. apply pow_lt. lra. } lra.
  - apply pow_lt; lra.
Qed.
Lemma DBL_MIN_pos : 0 < DBL_MIN.
Proof. unfold DBL_MIN. apply Rinv_0_lt_compat, pow_lt. lra. Qed.
Lemma DBL_MIN_lt_1 : DBL_MIN < 1.
Proof.
  unfold DBL_MIN. rewrite <- Rinv_1. apply Rinv_lt_contravar; [|apply Rlt_pow_R1; [lra|lia]].
  rewrite Rmult_1_l. apply pow_lt. lra.
Qed.
Lemma DBL_MAX_ge_1 : 1 < DBL_MAX.
Proof.
  unfold DBL_MAX. assert (H : / 2 ^ 52 < 1). { rewrite <- Rinv_1. apply Rinv_lt_contravar; [|apply Rlt_pow_R1; [lra|lia]].
      rewrite Rmult_1_l. apply pow_lt. lra. }
  assert (1 < 2 ^ 1023) by (apply Rlt_pow_R1; [lra|lia]). set (a := / 2 ^ 52) in *. set (b := 2 ^ 1023) in *. nra.
Qed.
Global Opaque DBL_MAX DBL_MIN.

Lemma fmin_Rmin a b : fmin a b = Rmin a b.
Proof. unfold fmin, Rmin. case Rlt_bool_spec; intros; destruct Rle_dec; lra. Qed.
Lemma fmax_Rmax a b : fmax a b = Rmax a b.
Proof. unfold fmax, Rmax. case Rlt_bool_spec; intros; destruct Rle_dec; lra. Qed.
Lemma fmin_le_l a b : fmin a b <= a. Proof. rewrite fmin_Rmin; apply Rmin_l. Qed.
Lemma fmin_le_r a b : fmin a b <= b. Proof. rewrite fmin_Rmin; apply Rmin_r. Qed.
Lemma fmax_ge_l a b : a <= fmax a b. Proof. rewrite fmax_Rmax; apply Rmax_l. Qed.
Lemma fmax_ge_r a b : b <= fmax a b. Proof. rewrite fmax_Rmax; apply Rmax_r. Qed.
Lemma fmin_cases a b : (fmin a b = a /\ a <= b) \/ (fmin a b = b /\ b < a).
Proof. unfold fmin. case Rlt_bool_spec; auto. Qed.
Lemma fmax_cases a b : (fmax a b = a /\ b <= a) \/ (fmax a b = b /\ a < b).
Proof. unfold fmax. case Rlt_bool_spec; auto. Qed.

Lemma Ztrunc_nonneg_bounds x : 0 <= x -> IZR (Ztrunc x) <= x < IZR (Ztrunc x) + 1.
Proof. intros H. rewrite Ztrunc_floor by auto. split; [apply Zfloor_lb|apply Zfloor_ub]. Qed.
Lemma Ztrunc_nonneg x : 0 <= x -> (0 <= Ztrunc x)%Z.
Proof. intros H. rewrite Ztrunc_floor by auto. apply Zfloor_lub. simpl. lra. Qed.
Lemma Ztrunc_nonpos x : x <= 0 -> (Ztrunc x <= 0)%Z.
Proof. intros H. rewrite Ztrunc_ceil by auto. apply Zceil_glb. simpl. lra. Qed.
Lemma Ztrunc_nonneg_unique x n : 0 <= x -> IZR n <= x < IZR n + 1 -> Ztrunc x = n.
Proof. intros H [H1 H2]. rewrite Ztrunc_floor by auto. apply Zfloor_imp. rewrite plus_IZR. simpl; lra. Qed.
Lemma fmod_spec x y : 0 <= x -> 0 < y -> 0 <= fmod x y < y /\ exists n : Z, (0 <= n)%Z /\ x = fmod x y + IZR n * y.
Proof.
  intros Hx Hy. unfold fmod.
  assert (Hd : 0 <= x / y) by (apply Rmult_le_pos; [lra|left; apply Rinv_0_lt_compat; lra]).
  destruct (Ztrunc_nonneg_bounds (x / y) Hd) as [B1 B2]. pose proof (Ztrunc_nonneg _ Hd).
  assert (E : x = (x / y) * y) by (field; lra).
  split; [|exists (Ztrunc (x / y)); split; [auto|ring]].
  set (t := IZR (Ztrunc (x / y))) in *. set (q := x / y) in *. rewrite E. nra.
Qed.
