(** Basic facts on the double precision arithmetic of M_Double. *)
From Flocq Require Import Core Relative Plus_error Div_sqrt_error.
From Verif Require Import M_RealBase L_RealBase M_Grid M_Double S_Double.
Import ListNotations.
Open Scope R_scope.

Global Instance prec53 : Prec_gt_0 53. Proof. reflexivity. Qed.
Definition fmt (x : R) : Prop := generic_format radix2 dexp x.
Lemma bpow_nat k : bpow radix2 (Z.of_nat k) = 2 ^ k.
Proof. rewrite <- (IZR_Zpower radix2) by lia. rewrite <- pow_IZR. reflexivity. Qed.
Lemma bpow_neg k : bpow radix2 (- Z.of_nat k) = / 2 ^ k.
Proof. rewrite bpow_opp, bpow_nat. reflexivity. Qed.
Lemma big_eq : bpow radix2 1024 = 2 ^ 1024.
Proof. change 1024%Z with (Z.of_nat 1024). apply bpow_nat. Qed.

Lemma is_double_fmt x : is_double x <-> fmt x /\ Rabs x < bpow radix2 1024.
Proof.
  unfold is_double, fmt, dexp. rewrite big_eq. split; intros [H B]; split; auto.
  - destruct H as (m & k & Hm & [E|[Hk E]]); apply generic_format_FLT.
    + apply FLT_spec with (Float radix2 m (Z.of_nat k)); cbn [Fnum Fexp]; try lia; [|exact Hm].
      unfold F2R; cbn [Fnum Fexp]. rewrite bpow_nat. auto.
    + apply FLT_spec with (Float radix2 m (- Z.of_nat k)); cbn [Fnum Fexp]; try lia; [|exact Hm].
      unfold F2R; cbn [Fnum Fexp]. rewrite bpow_neg. auto.
  - apply FLT_format_generic in H; [|apply prec53]. destruct H as [[m e] E Hm He]. cbn [Fnum Fexp] in *.
    unfold F2R in E; cbn [Fnum Fexp] in E.
    destruct (Z_le_dec 0 e).
    + exists m, (Z.to_nat e). split; [exact Hm|]. left. rewrite <- bpow_nat, Z2Nat.id by lia. auto.
    + exists m, (Z.to_nat (- e)). split; [exact Hm|]. right. split; [lia|].
      unfold Rdiv. rewrite <- bpow_neg. rewrite Z2Nat.id by lia. rewrite Z.opp_involutive. auto.
Qed.

Lemma rnd_fmt x : fmt (rnd x).
Proof. apply generic_format_round; typeclasses eauto. Qed.
Lemma rnd_id x : fmt x -> rnd x = x.
Proof. intros. apply round_generic; [typeclasses eauto|auto]. Qed.
Lemma rnd_mono x y : x <= y -> rnd x <= rnd y.
Proof. intros. apply round_le; auto; typeclasses eauto. Qed.
Lemma rnd_ge x y : fmt x -> x <= y -> x <= rnd y.
Proof. intros. apply round_ge_generic; auto; typeclasses eauto. Qed.
Lemma rnd_le x y : fmt y -> x <= y -> rnd x <= y.
Proof. intros. apply round_le_generic; auto; typeclasses eauto. Qed.
Lemma rnd_abs_le x y : fmt y -> Rabs x <= y -> Rabs (rnd x) <= y.
Proof. intros. apply abs_round_le_generic; auto; typeclasses eauto. Qed.
Lemma rnd_opp x : rnd (- x) = - rnd x.
Proof. apply round_NE_opp. Qed.
Lemma rnd_0 : rnd 0 = 0.
Proof. apply round_0; typeclasses eauto. Qed.
Lemma fmt_opp x : fmt x -> fmt (- x).
Proof. apply generic_format_opp. Qed.
Lemma fmt_abs x : fmt x -> fmt (Rabs x).
Proof. apply generic_format_abs. Qed.
Lemma fmt_0 : fmt 0. Proof. apply generic_format_0. Qed.
Lemma fmt_bpow e : (-1074 <= e)%Z -> fmt (bpow radix2 e).
Proof. intros. apply generic_format_FLT_bpow; [apply prec53|auto]. Qed.
Lemma fmt_mul_bpow m e : (Z.abs m <= 2 ^ 53)%Z -> (-1074 <= e)%Z -> fmt (IZR m * bpow radix2 e).
Proof.
  intros Hm He. destruct (Z_lt_dec (Z.abs m) (2 ^ 53)).
  - apply generic_format_FLT. apply FLT_spec with (Float radix2 m e); auto.
  - assert (E : (m = 2 ^ 53 \/ m = - 2 ^ 53)%Z) by lia.
    assert (B : IZR (2 ^ 53) * bpow radix2 e = bpow radix2 (53 + e)).
    { rewrite bpow_plus. f_equal. }
    destruct E as [-> | ->]; [rewrite B; apply fmt_bpow; lia|].
    rewrite opp_IZR, Ropp_mult_distr_l_reverse, B. apply fmt_opp, fmt_bpow. lia.
Qed.
Lemma fmt_Z m : (Z.abs m <= 2 ^ 53)%Z -> fmt (IZR m).
Proof. intros. replace (IZR m) with (IZR m * bpow radix2 0) by (cbn; ring). apply fmt_mul_bpow; [auto|lia]. Qed.
Lemma fmt_double x : fmt x -> Rabs x < bpow radix2 1023 -> fmt (2 * x).
Proof.
  intros H _. apply FLT_format_generic in H; [|apply prec53]. destruct H as [[m e] E Hm He]. cbn [Fnum Fexp] in *.
  apply generic_format_FLT. apply FLT_spec with (Float radix2 m (e + 1)); cbn [Fnum Fexp]; auto; try lia.
  rewrite E. unfold F2R; cbn [Fnum Fexp]. rewrite bpow_plus. cbn [bpow radix_val radix2 Z.pow_pos Pos.iter]. simpl. ring.
Qed.
(** a double of magnitude at least 2^53 is an integer, so the next integer above any double is a
    double *)
Lemma fmt_large_int x : fmt x -> bpow radix2 53 <= Rabs x -> exists n : Z, x = IZR n.
Proof.
  intros H B. apply FLT_format_generic in H; [|apply prec53]. destruct H as [[m e] E Hm He]. cbn [Fnum Fexp] in *.
  unfold F2R in E; cbn [Fnum Fexp] in E.
  destruct (Z_le_dec 0 e).
  - exists (m * 2 ^ e)%Z. rewrite mult_IZR. rewrite E. f_equal. rewrite <- (IZR_Zpower radix2) by lia. reflexivity.
  - exfalso. assert (A : Rabs x < bpow radix2 53); [|lra].
    rewrite E, Rabs_mult, (Rabs_pos_eq (bpow radix2 e)) by apply bpow_ge_0.
    rewrite <- abs_IZR.
    assert (IZR (Z.abs m) < bpow radix2 53).
    { rewrite <- (IZR_Zpower radix2) by lia. apply IZR_lt. exact Hm. }
    assert (bpow radix2 e <= 1). { change 1 with (bpow radix2 0). apply bpow_le. lia. }
    pose proof (bpow_ge_0 radix2 e). assert (0 <= IZR (Z.abs m)) by (apply IZR_le; lia). nra.
Qed.
Lemma fmt_ceil x : fmt x -> fmt (IZR (Zceil x)).
Proof.
  intros H. destruct (Rle_lt_dec (bpow radix2 53) (Rabs x)) as [B|B].
  - destruct (fmt_large_int x H B) as [n ->]. rewrite Zceil_IZR. exact H.
  - apply fmt_Z. assert (A : - bpow radix2 53 <= x <= bpow radix2 53) by (apply Rabs_le_inv; lra).
    rewrite <- (IZR_Zpower radix2 53) in A by lia. change (radix2 ^ 53)%Z with (2 ^ 53)%Z in A.
    apply Z.abs_le. split.
    + rewrite <- opp_IZR in A. destruct A as [A _]. apply le_IZR. eapply Rle_trans; [exact A|]. apply Zceil_ub.
    + apply Zceil_glb. lra.
Qed.
Lemma fmod_fmt x y : fmt x -> fmt y -> fmt (fmod x y).
Proof. intros. apply format_REM_ZR; auto; typeclasses eauto. Qed.

(** ** [fl] *)
Lemma fl_eq x r : fl x = Some r -> r = rnd x /\ Rabs r < bpow radix2 1024.
Proof. unfold fl. case Rlt_bool_spec; intros; [|discriminate]. injection H0 as <-. auto. Qed.
Lemma fl_some x b : fmt b -> b < bpow radix2 1024 -> Rabs x <= b -> fl x = Some (rnd x).
Proof.
  intros Hb B Hx. unfold fl. rewrite Rlt_bool_true; auto.
  eapply Rle_lt_trans; [apply (rnd_abs_le x b); auto|auto].
Qed.
Lemma fl_bpow x e : (-1074 <= e < 1024)%Z -> Rabs x <= bpow radix2 e -> fl x = Some (rnd x).
Proof. intros He Hx. apply (fl_some x (bpow radix2 e)); auto; [apply fmt_bpow; lia|apply bpow_lt; lia]. Qed.
Lemma fl_double x r : fl x = Some r -> is_double r.
Proof. intros H. apply fl_eq in H as [-> B]. apply is_double_fmt. split; [apply rnd_fmt|auto]. Qed.
Lemma fl_exact x : is_double x -> fl x = Some x.
Proof. intros [F B]%is_double_fmt. unfold fl. rewrite (rnd_id x F). rewrite Rlt_bool_true; auto. Qed.
Lemma fl_nearest x r : fl x = Some r -> nearest_double x r.
Proof.
  intros H. split; [eapply fl_double; eauto|]. apply fl_eq in H as [-> B]. intros y [Fy _]%is_double_fmt.
  destruct (round_N_pt radix2 dexp (fun x => negb (Z.even x)) x) as [_ N].
  specialize (N y Fy). exact N.
Qed.

(** ** Errors *)
Definition u : R := bpow radix2 (-53).
Lemma u_eq : unit_roundoff = u.
Proof. unfold u, unit_roundoff. change (-53)%Z with (- Z.of_nat 53)%Z. rewrite bpow_neg. reflexivity. Qed.
Lemma u_pos : 0 < u. Proof. apply bpow_gt_0. Qed.
Lemma u_small : u <= / 1000000.
Proof. unfold u. replace (bpow radix2 (-53)) with (/ IZR (2 ^ 53)) by reflexivity. apply Rinv_le; [lra|]. apply IZR_le. lia. Qed.
Global Opaque u.
Lemma u_ro53 : u_ro radix2 53 = u.
Proof. unfold u_ro. Transparent u. unfold u. Opaque u. change (-53)%Z with (-1 + (-53 + 1))%Z. rewrite bpow_plus. f_equal. simpl. lra. Qed.
Lemma rnd_plus x y : fmt x -> fmt y -> exists d, Rabs d <= u /\ rnd (x + y) = (x + y) * (1 + d).
Proof.
  intros Hx Hy. destruct (FLT_plus_error_N_ex radix2 (-1074) 53 (fun x => negb (Z.even x)) x y Hx Hy) as (d & Hd & E).
  exists d. split; [|exact E]. rewrite u_ro53 in Hd. eapply Rle_trans; [exact Hd|].
  pose proof u_pos. apply Rmult_le_reg_r with (1 + u); [lra|]. unfold Rdiv. rewrite Rmult_assoc, Rinv_l by lra. nra.
Qed.
Lemma rnd_normal x : bpow radix2 (-1022) <= Rabs x -> exists d, Rabs d <= u /\ rnd x = x * (1 + d).
Proof.
  intros H. destruct (relative_error_N_FLT_ex radix2 (-1074) 53 eq_refl (fun x => negb (Z.even x)) x) as (d & Hd & E).
  { exact H. }
  exists d. split; [|exact E]. eapply Rle_trans; [exact Hd|]. rewrite <- u_ro53. unfold u_ro. lra.
Qed.
Lemma rnd_any x : exists d n, Rabs d <= u /\ Rabs n <= bpow radix2 (-1075) /\ rnd x = x * (1 + d) + n.
Proof.
  destruct (relative_error_N_FLT'_ex radix2 (-1074) 53 eq_refl (fun x => negb (Z.even x)) x) as (d & n & Hd & Hn & _ & E).
  exists d, n. split; [|split; [|exact E]].
  - rewrite u_ro53 in Hd. eapply Rle_trans; [exact Hd|]. pose proof u_pos. apply Rmult_le_reg_r with (1 + u); [lra|].
    unfold Rdiv. rewrite Rmult_assoc, Rinv_l by lra. nra.
  - eapply Rle_trans; [exact Hn|]. change (-1075)%Z with (-1 + -1074)%Z. rewrite bpow_plus. simpl (bpow radix2 (-1)). lra.
Qed.
Lemma rnd_abs x : 0 <= x -> 0 <= rnd x.
Proof. intros. apply rnd_ge; [apply fmt_0|auto]. Qed.
(** computing a rounded value *)
Lemma rnd_val x e n : bpow radix2 (e + 52) <= x < bpow radix2 (e + 53) -> (-1074 <= e)%Z ->
  ZnearestE (x * bpow radix2 (- e)) = n -> rnd x = IZR n * bpow radix2 e.
Proof.
  intros Hx He Hn. unfold rnd, round, scaled_mantissa, cexp.
  assert (M : mag radix2 x = (e + 53)%Z :> Z).
  { apply mag_unique_pos. replace (e + 53 - 1)%Z with (e + 52)%Z by ring. auto. }
  rewrite M. unfold dexp, FLT_exp. replace (Z.max (e + 53 - 53) (-1074)) with e by lia.
  unfold F2R; cbn [Fnum Fexp]. rewrite Hn. reflexivity.
Qed.
