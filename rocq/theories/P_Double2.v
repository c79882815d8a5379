(** C103: R-sequence samples in double precision; C104: atomic deposits in double precision. *)
From Flocq Require Import Core.
From Coq Require Import Permutation.
From Verif Require Import M_RealBase L_RealBase M_Grid M_Double S_Double L_Double L_Double2 L_Double3 P_Double.
From Verif Require M_Sample.
Import ListNotations.
Open Scope R_scope.

Lemma mapM_each {A B} (f : A -> option B) (P : A -> B -> Prop) l :
  (forall x, In x l -> exists y, f x = Some y /\ P x y) -> exists ys, mapM f l = Some ys /\ Forall2 P l ys.
Proof.
  induction l as [|x l IH]; intros H.
  - exists []. cbn. auto.
  - destruct (H x) as (y & Ey & Py); [left; auto|]. destruct IH as (ys & E & F); [intros; apply H; right; auto|].
    exists (y :: ys). cbn [mapM]. rewrite Ey. cbn [bind]. rewrite E. cbn [bind]. auto.
Qed.

Lemma igr_double d g : nth_error M_Sample.INVERSE_GOLDEN_RATIOS d = Some g ->
  nth_error INVERSE_GOLDEN_RATIOS_d d = Some (rnd g) /\ / 2 <= g <= 1.
Proof.
  unfold M_Sample.INVERSE_GOLDEN_RATIOS, INVERSE_GOLDEN_RATIOS_d. intros H.
  rewrite nth_error_map in *. destruct (nth_error _ d) as [n|] eqn:E; [|discriminate].
  cbn [option_map] in *. injection H as <-. split; [reflexivity|].
  apply nth_error_In in E.
  assert (B : (5000000000000000 <= n <= 10000000000000000)%Z) by (cbn [In] in E; intuition lia).
  destruct B as [B1 B2]. apply IZR_le in B1, B2. split; lra.
Qed.

Lemma sample_ok fused i g ex seed : (i < 2 ^ 31)%nat -> / 2 <= g <= 1 -> is_double seed -> 0 <= seed <= bpow radix2 900 ->
  is_double ex -> bpow radix2 (-1021) <= ex ->
  exists s, (do t <- rsequence_d fused (Z.of_nat i) (rnd g) seed; fl (t * ex)) = Some s /\ good_sample g ex seed i s.
Proof.
  intros Hi Hg [Fs _]%is_double_fmt Hs [Fx Bx]%is_double_fmt Hx.
  pose proof u_pos as U0. pose proof u_small as U1. pose proof eta_small as [H0 H1].
  set (eta := bpow radix2 (-1075)) in *.
  assert (G0 : 0 <= rnd g <= 1).
  { split; [apply rnd_abs; lra|apply rnd_le; [apply (fmt_Z 1); lia|lra]]. }
  assert (G1 : Rabs (rnd g - g) <= u).
  { destruct (rnd_normal g) as (d & Hd & ->).
    { rewrite Rabs_pos_eq by lra. apply Rle_trans with (bpow radix2 (-1)); [apply bpow_le; lia|cbn; lra]. }
    replace (g * (1 + d) - g) with (d * g) by ring. rewrite Rabs_mult, (Rabs_pos_eq g) by lra.
    pose proof (Rabs_pos d). nra. }
  apply rabs_le in G1.
  rewrite <- INR_IZR_INZ || idtac.
  set (I := INR i) in *. assert (I0 : 0 <= I) by apply pos_INR.
  assert (I1 : I <= bpow radix2 31).
  { unfold I. rewrite INR_IZR_INZ. change (bpow radix2 31) with (IZR (2 ^ 31)). apply IZR_le.
    apply Nat.lt_le_incl, inj_le in Hi. rewrite Nat2Z.inj_pow in Hi. exact Hi. }
  assert (EI : IZR (Z.of_nat i) = I) by (unfold I; rewrite INR_IZR_INZ; auto).
  set (m := I * rnd g). assert (M0 : 0 <= m <= I) by (unfold m; nra).
  assert (M1 : Rabs (rnd m - m) <= u * m + eta).
  { pose proof (rnd_any_err m) as A. rewrite (Rabs_pos_eq m) in A by lra. exact A. }
  apply rabs_le in M1.
  assert (B901 : bpow radix2 31 + bpow radix2 900 <= bpow radix2 902).
  { assert (bpow radix2 31 <= bpow radix2 900) by (apply bpow_le; lia).
    replace 902%Z with (900 + 2)%Z by reflexivity. rewrite bpow_plus. change (bpow radix2 2) with 4. lra. }
  assert (RM : 0 <= rnd m <= bpow radix2 31).
  { split; [apply rnd_abs; lra|apply rnd_le; [apply fmt_bpow; lia|lra]]. }
  assert (B31 : bpow radix2 31 <= bpow radix2 900) by (apply bpow_le; lia).
  assert (T : exists t, mul_add fused I (rnd g) seed = Some t /\ fmt t /\ 0 <= t /\
              Rabs (t - (m + seed)) <= 3 * u * (I + seed) + 3 * eta).
  { unfold mul_add. fold m. destruct fused.
    - exists (rnd (m + seed)). split; [apply (fl_bpow _ 902); [lia|rewrite Rabs_pos_eq; lra]|].
      split; [apply rnd_fmt|]. split; [apply rnd_abs; lra|].
      pose proof (rnd_any_err (m + seed)) as A. rewrite (Rabs_pos_eq (m + seed)) in A by lra. fold eta in A.
      eapply Rle_trans; [exact A|]. nra.
    - rewrite (fl_bpow m 31) by (lia || (rewrite Rabs_pos_eq; lra)). cbn [bind].
      exists (rnd (rnd m + seed)). split; [apply (fl_bpow _ 902); [lia|rewrite Rabs_pos_eq; lra]|].
      split; [apply rnd_fmt|]. split; [apply rnd_abs; lra|].
      pose proof (rnd_plus_err (rnd m) seed (rnd_fmt _) Fs) as A. rewrite (Rabs_pos_eq (rnd m + seed)) in A by lra.
      apply rabs_le in A. assert (u * (rnd m + seed) <= u * (m + u * m + eta + seed)) by (apply Rmult_le_compat_l; lra).
      assert (u * (u * m) <= u * (/ 10 * I)) by (apply Rmult_le_compat_l; [lra|apply Rmult_le_compat; lra]). assert (u * m <= u * I) by (apply Rmult_le_compat_l; lra). assert (0 <= u * seed) by (apply Rmult_le_pos; lra). assert (u * eta <= 1 * eta) by (apply Rmult_le_compat_r; lra).
      assert (0 <= u * I) by (apply Rmult_le_pos; lra).
      apply Rabs_le. lra. }
  destruct T as (t & Et & Ft & T0 & Dt).
  unfold rsequence_d. rewrite EI. rewrite Et. cbn [bind]. unfold fmod_d. rewrite Req_bool_false by lra. cbn [bind].
  destruct (fmod_spec t 1 T0 Rlt_0_1) as [[S0 S1] (k & _ & Ek)].
  assert (Ff : fmt (fmod t 1)) by (apply fmod_fmt; [auto|apply (fmt_Z 1); lia]).
  set (s := fmod t 1) in *.
  assert (X0 : 0 < ex) by (pose proof (bpow_gt_0 radix2 (-1021)); lra).
  destruct (scaled_below s ex Ff Fx (conj S0 S1) Hx) as [V0 V1].
  rewrite Rabs_pos_eq in Bx by lra.
  exists (rnd (s * ex)). split.
  { apply (fl_some _ ex Fx Bx). rewrite Rabs_pos_eq by nra. nra. }
  split. { apply is_double_fmt. split; [apply rnd_fmt|]. rewrite Rabs_pos_eq; lra. }
  split; [auto|]. exists k. rewrite u_eq. fold I.
  pose proof (rnd_any_err (s * ex)) as A. rewrite (Rabs_pos_eq (s * ex)) in A by nra. fold eta in A.
  assert (EX : eta <= u * ex).
  { apply Rle_trans with (u * bpow radix2 (-1021)); [|apply Rmult_le_compat_l; lra].
    unfold eta. Transparent u. unfold u. Opaque u. rewrite <- bpow_plus. apply bpow_le. lia. }
  assert (A1 : Rabs (rnd (s * ex) - s * ex) <= 2 * u * ex).
  { eapply Rle_trans; [exact A|]. assert (u * (s * ex) <= u * ex) by (apply Rmult_le_compat_l; nra). lra. }
  replace (rnd (s * ex) - ex * (I * g + seed - IZR k)) with
    ((rnd (s * ex) - s * ex) + ex * ((t - (m + seed)) + (m - I * g))) by (rewrite Ek; ring).
  eapply Rle_trans; [apply Rabs_triang|]. rewrite Rabs_mult, (Rabs_pos_eq ex) by lra.
  assert (A2 : Rabs ((t - (m + seed)) + (m - I * g)) <= 4 * u * (I + seed) + 3 * eta).
  { eapply Rle_trans; [apply Rabs_triang|].
    assert (Rabs (m - I * g) <= u * I).
    { unfold m. replace (I * rnd g - I * g) with (I * (rnd g - g)) by ring.
      rewrite Rabs_mult, (Rabs_pos_eq I) by lra. rewrite (Rmult_comm u). apply Rmult_le_compat_l; [auto|]. apply Rabs_le. lra. }
    nra. }
  assert (A3 : ex * Rabs ((t - (m + seed)) + (m - I * g)) <= ex * (4 * u * (I + seed) + 3 * eta)) by (apply Rmult_le_compat_l; lra).
  assert (A4 : ex * (3 * eta) <= ex * u) by (apply Rmult_le_compat_l; nra).
  assert (0 <= u * (I + seed) * ex) by (apply Rmult_le_pos; nra). assert (0 < u * ex) by (apply Rmult_lt_0_compat; lra). nra.
Qed.

(** C103 *)
Theorem C103_rsequence (fused : bool) (N ndim : nat) (extents : list R) (seed : R) :
  (N <= 2 ^ 31)%nat -> (ndim <= 10)%nat -> (ndim <= length extents)%nat ->
  is_double seed -> 0 <= seed <= 2 ^ 900 ->
  (forall ex, In ex extents -> is_double ex /\ / 2 ^ 1021 <= ex) ->
  exists columns, rsequence_within_extents_d fused N ndim extents seed = Some columns /\
    Forall2 (fun d column =>
      exists g ex, nth_error M_Sample.INVERSE_GOLDEN_RATIOS d = Some g /\ nth_error extents d = Some ex /\
        Forall2 (good_sample g ex seed) (seq 0 N) column) (seq 0 ndim) columns.
Proof.
  intros HN Hd Hl Ds Hs Hx. unfold rsequence_within_extents_d. apply mapM_each.
  intros d [_ D]%in_seq. cbn [plus] in D.
  destruct (nth_error M_Sample.INVERSE_GOLDEN_RATIOS d) as [g|] eqn:Eg.
  2:{ apply nth_error_None in Eg. cbn in Eg. lia. }
  destruct (nth_error extents d) as [ex|] eqn:Ee.
  2:{ apply nth_error_None in Ee. lia. }
  destruct (igr_double d g Eg) as [-> Hg]. cbn [bind].
  destruct (Hx ex (nth_error_In _ _ Ee)) as [Dx Hx'].
  destruct (mapM_each (fun px => do s <- rsequence_d fused (Z.of_nat px) (rnd g) seed; fl (s * ex)) (good_sample g ex seed) (seq 0 N)) as (col & E & F).
  - intros i [_ Hi]%in_seq. apply sample_ok; auto; [cbn [plus] in Hi; eapply Nat.lt_le_trans; eauto| |].
    + rewrite <- (bpow_nat 900) in Hs. exact Hs.
    + rewrite <- (bpow_neg 1021) in Hx'. exact Hx'.
  - exists col. split; [exact E|]. exists g, ex. auto.
Qed.

(** Samples of a subnormal extent are not below it: the least positive double. *)
Lemma tiny_tie : rnd (3 / 4 * bpow radix2 (-1074)) = bpow radix2 (-1074).
Proof.
  apply Rle_antisym.
  - apply rnd_le; [apply fmt_bpow; lia|]. pose proof (bpow_gt_0 radix2 (-1074)). lra.
  - pose proof (bpow_gt_0 radix2 (-1074)).
    apply round_N_ge_midp; [typeclasses eauto|apply fmt_bpow; lia|].
    assert (P : pred radix2 dexp (bpow radix2 (-1074)) = 0).
    { rewrite pred_bpow by typeclasses eauto. replace (dexp (-1074)) with (-1074)%Z by reflexivity. ring. }
    rewrite P. lra.
Qed.
Theorem C103_tiny_extent_refuted :
  exists ex seed, is_double ex /\ is_double seed /\ 0 < ex /\ 0 <= seed /\
    forall fused, rsequence_within_extents_d fused 1 1 [ex] seed = Some [[ex]].
Proof.
  exists (bpow radix2 (-1074)), (3 / 4). pose proof (bpow_gt_0 radix2 (-1074)) as P.
  split. { apply is_double_fmt. split; [apply fmt_bpow; lia|]. rewrite Rabs_pos_eq by lra. apply bpow_lt. lia. }
  split; [dbl 3%Z (-2)%Z|]. split; [auto|]. split; [lra|]. intros fused.
  unfold rsequence_within_extents_d. cbn [seq mapM nth_error INVERSE_GOLDEN_RATIOS_d map bind Z.of_nat].
  unfold rsequence_d, mul_add. rewrite Rmult_0_l, Rplus_0_l.
  assert (F0 : fl 0 = Some 0) by (apply (fl_is 0 0); [ring|lia|lia]).
  assert (F34 : fl (3 / 4) = Some (3 / 4)) by (apply (fl_is 3 (-2)); [cbn; lra|lia|lia]).
  replace (if fused then fl (3 / 4) else do m <- fl 0; fl (m + 3 / 4)) with (Some (3 / 4)).
  2:{ destruct fused; [auto|]. rewrite F0. cbn [bind]. rewrite Rplus_0_l. auto. }
  cbn [bind]. unfold fmod_d. rewrite Req_bool_false by lra. cbn [bind].
  assert (M : fmod (3 / 4) 1 = 3 / 4). { unfold fmod. rewrite (Ztrunc_nonneg_unique _ 0); lra. }
  rewrite M. rewrite (fl_bpow _ (-1074)); [|lia|rewrite Rabs_pos_eq; lra]. cbn [bind]. rewrite tiny_tie. reflexivity.
Qed.
Example C103_applied : exists columns, rsequence_within_extents_d false 1000 3 [2; / 8; 3] (/ 4) = Some columns /\
    Forall2 (fun d column =>
      exists g ex, nth_error M_Sample.INVERSE_GOLDEN_RATIOS d = Some g /\ nth_error [2; / 8; 3] d = Some ex /\
        Forall2 (good_sample g ex (/ 4)) (seq 0 1000) column) (seq 0 3) columns.
Proof.
  apply C103_rsequence; [|lia|cbn; lia|dbl 1%Z (-2)%Z| |].
  - apply Nat.le_trans with (2 ^ 10)%nat; [cbn; lia|]. apply Nat.pow_le_mono_r; lia.
  - split; [lra|]. apply Rle_trans with (2 ^ 1); [lra|]. apply Rle_pow; [lra|lia].
  - assert (T : / 2 ^ 1021 <= / 8). { apply Rinv_le; [lra|]. apply Rle_trans with (2 ^ 3); [lra|]. apply Rle_pow; [lra|lia]. }
    intros ex [<-|[<-|[<-|[]]]]; (split; [|lra]); [dbl 1%Z 1%Z|dbl 1%Z (-3)%Z|dbl 3%Z 0%Z].
Qed.
