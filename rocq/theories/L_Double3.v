(** The R-sequence and atomic additions in double precision. *)
From Flocq Require Import Core Relative Plus_error Div_sqrt_error.
From Verif Require Import M_RealBase L_RealBase M_Grid M_Double S_Double L_Double L_Double2.
From Coq Require Import Permutation.
Import ListNotations.
Open Scope R_scope.

(** a double below 1 is at most 1 - 2^-53 *)
Lemma fmt_below_1 s : fmt s -> s < 1 -> s <= 1 - u.
Proof.
  intros F H. destruct (Rle_lt_dec s (1 - u)) as [|G]; [auto|]. exfalso.
  assert (P : pred radix2 dexp 1 = 1 - u).
  { rewrite pred_eq_pos by lra. unfold pred_pos.
    replace (mag radix2 1 : Z) with 1%Z by (symmetry; apply (mag_unique_pos radix2 1 1); cbn; lra).
    rewrite Req_bool_true by reflexivity. reflexivity. }
  pose proof (pred_ge_gt radix2 dexp s 1 F (fmt_Z 1 ltac:(lia)) H). lra.
Qed.
(** scaling a number in [0, 1) by a normal double stays below it *)
Lemma scaled_below s ex : fmt s -> fmt ex -> 0 <= s < 1 -> bpow radix2 (-1021) <= ex -> 0 <= rnd (s * ex) < ex.
Proof.
  intros Fs Fe [S0 S1] He. pose proof (bpow_gt_0 radix2 (-1021)). pose proof u_pos.
  pose proof (fmt_below_1 s Fs S1) as S2.
  split; [apply rnd_abs; nra|].
  apply Rle_lt_trans with (pred radix2 dexp ex); [|apply pred_lt_id; lra].
  apply round_N_le_midp; [typeclasses eauto|apply generic_format_pred; [typeclasses eauto|auto]|].
  rewrite succ_pred by (try typeclasses eauto; auto).
  assert (E : s * ex <= ex - u * ex) by nra.
  eapply Rle_lt_trans; [exact E|].
  rewrite pred_eq_pos by lra. unfold pred_pos.
  destruct (mag radix2 ex) as [k Hk] eqn:Ek. cbn [mag_val].
  assert (Nz : ex <> 0) by lra. pose proof (Hk Nz) as Hk'. rewrite Rabs_pos_eq in Hk' by lra.
  assert (K : (-1020 <= k)%Z).
  { assert (bpow radix2 (-1021) < bpow radix2 k) by lra. apply lt_bpow in H1. lia. }
  assert (W : u * bpow radix2 (k - 1) = bpow radix2 (k - 54)).
  { Transparent u. unfold u. Opaque u. rewrite <- bpow_plus. f_equal. ring. }
  assert (W2 : bpow radix2 (k - 53) = 2 * bpow radix2 (k - 54)).
  { replace (k - 53)%Z with (1 + (k - 54))%Z by ring. rewrite bpow_plus. change (bpow radix2 1) with 2. ring. }
  pose proof (bpow_gt_0 radix2 (k - 54)).
  case Req_bool_spec; intros Q.
  - assert (M : bpow radix2 (dexp (k - 1)) <= bpow radix2 (k - 54)).
    { apply bpow_le. unfold dexp, FLT_exp. lia. }
    rewrite Q at 2. rewrite W. lra.
  - rewrite ulp_neq_0 by auto. unfold cexp. rewrite Ek. cbn [mag_val].
    replace (dexp k) with (k - 53)%Z by (unfold dexp, FLT_exp; lia).
    assert (bpow radix2 (k - 1) < ex) by lra. assert (u * bpow radix2 (k - 1) < u * ex) by (apply Rmult_lt_compat_l; lra). lra.
Qed.

(** atomic additions: any order, bounded distance from the exact sum *)
Definition rsum (l : list R) : R := fold_right Rplus 0 l.
Definition asum (l : list R) : R := rsum (map Rabs l).
Lemma asum_pos l : 0 <= asum l.
Proof. induction l as [|a l IH]; [apply Rle_refl|]. change (asum (a :: l)) with (Rabs a + asum l). pose proof (Rabs_pos a). lra. Qed.
Lemma rsum_abs l : Rabs (rsum l) <= asum l.
Proof. induction l as [|a l IH]; [cbn; rewrite Rabs_R0; lra|]. change (asum (a :: l)) with (Rabs a + asum l). cbn [rsum fold_right]. fold (rsum l). eapply Rle_trans; [apply Rabs_triang|]. lra. Qed.
Lemma atomic_none l : fold_left (fun s v => do a <- s; fl (a + v)) l None = None.
Proof. induction l; cbn; auto. Qed.
Lemma pow1u n : 1 <= (1 + u) ^ n.
Proof. pose proof u_pos. apply pow_R1_Rle. lra. Qed.
Lemma adds_err l : forall c r, fmt c -> Forall fmt l -> atomic_adds c l = Some r ->
  Rabs (r - (c + rsum l)) <= ((1 + u) ^ length l - 1) * (Rabs c + asum l) /\ fmt r.
Proof.
  induction l as [|v l IH]; intros c r Fc Fl E.
  - cbn in *. injection E as <-. split; auto. replace (c - (c + 0)) with 0 by ring. rewrite Rabs_R0. lra.
  - unfold atomic_adds in E. cbn [fold_left bind] in E. inversion Fl as [|? ? Fv Fl']; subst.
    destruct (fl (c + v)) as [c'|] eqn:Ec; [|rewrite atomic_none in E; discriminate].
    pose proof (fl_eq _ _ Ec) as [Ec' _].
    assert (Fc' : fmt c') by (rewrite Ec'; apply rnd_fmt).
    destruct (IH c' r Fc' Fl' E) as [D Fr]. split; auto.
    pose proof (rnd_plus_err c v Fc Fv) as D1. rewrite <- Ec' in D1.
    cbn [rsum fold_right length]. fold (rsum l).
    replace (asum (v :: l)) with (Rabs v + asum l) by reflexivity.
    set (g := (1 + u) ^ length l) in *. assert (G : 1 <= g) by apply pow1u.
    change ((1 + u) ^ S (length l)) with ((1 + u) * g).
    pose proof u_pos. pose proof (Rabs_triang c v) as T. pose proof (Rabs_pos (c + v)). pose proof (asum_pos l).
    assert (C' : Rabs c' <= (1 + u) * Rabs (c + v)).
    { replace c' with ((c' - (c + v)) + (c + v)) by ring. eapply Rle_trans; [apply Rabs_triang|]. lra. }
    replace (r - (c + (v + rsum l))) with ((r - (c' + rsum l)) + (c' - (c + v))) by ring.
    eapply Rle_trans; [apply Rabs_triang|].
    set (s := Rabs (c + v)) in *. set (A := asum l) in *.
    assert ((g - 1) * (Rabs c' + A) <= (g - 1) * ((1 + u) * s + A)) by (apply Rmult_le_compat_l; lra).
    assert ((g - 1) * ((1 + u) * s + A) + u * s <= ((1 + u) * g - 1) * (s + A)).
    { assert (0 <= u * g * A) by (apply Rmult_le_pos; [apply Rmult_le_pos|]; lra).
      replace (((1 + u) * g - 1) * (s + A)) with ((g - 1) * ((1 + u) * s + A) + u * s + u * g * A) by ring. lra. }
    assert (((1 + u) * g - 1) * (s + A) <= ((1 + u) * g - 1) * (Rabs c + (Rabs v + A))).
    { apply Rmult_le_compat_l; [|lra]. assert (0 <= u * g) by (apply Rmult_le_pos; lra). lra. }
    lra.
Qed.
Lemma rsum_perm l l' : Permutation l l' -> rsum l = rsum l'.
Proof. induction 1; cbn [rsum fold_right]; fold rsum; [reflexivity| | |congruence]; unfold rsum in *; lra. Qed.
Lemma asum_perm l l' : Permutation l l' -> asum l = asum l'.
Proof. intros. apply rsum_perm. apply Permutation_map. auto. Qed.
(** no overflow when the magnitudes leave room *)
Lemma adds_some l : forall c, fmt c -> Forall fmt l ->
  (1 + u) ^ length l * (Rabs c + asum l) <= bpow radix2 1023 -> exists r, atomic_adds c l = Some r.
Proof.
  induction l as [|v l IH]; intros c Fc Fl B.
  - exists c. reflexivity.
  - inversion Fl as [|? ? Fv Fl']; subst. unfold atomic_adds. cbn [fold_left bind].
    cbn [length pow] in B. replace (asum (v :: l)) with (Rabs v + asum l) in B by reflexivity.
    pose proof u_pos. pose proof (pow1u (length l)). pose proof (Rabs_triang c v). pose proof (asum_pos l).
    pose proof (Rabs_pos c). pose proof (Rabs_pos v). pose proof (Rabs_pos (c + v)).
    set (g := (1 + u) ^ length l) in *.
    assert (B1 : Rabs (c + v) <= bpow radix2 1023).
    { assert (Rabs c + (Rabs v + asum l) <= (1 + u) * g * (Rabs c + (Rabs v + asum l))); [|lra].
      rewrite <- (Rmult_1_l (Rabs c + (Rabs v + asum l))) at 1. apply Rmult_le_compat_r; nra. }
    rewrite (fl_bpow _ 1023) by (lia || auto). cbn [bind].
    apply IH; auto; [apply rnd_fmt|]. fold g.
    pose proof (rnd_plus_err c v Fc Fv) as D1. set (c' := rnd (c + v)) in *.
    assert (C' : Rabs c' <= (1 + u) * Rabs (c + v)).
    { replace c' with ((c' - (c + v)) + (c + v)) by ring. eapply Rle_trans; [apply Rabs_triang|]. lra. }
    eapply Rle_trans; [|exact B].
    replace ((1 + u) * g * (Rabs c + (Rabs v + asum l))) with (g * ((1 + u) * (Rabs c + (Rabs v + asum l)))) by ring.
    apply Rmult_le_compat_l; [lra|]. nra.
Qed.
