(** C102: the periodic boundary condition in double precision. *)
From Flocq Require Import Core.
From Verif Require Import M_RealBase L_RealBase M_Grid M_Double S_Double L_Double L_Double2.
Import ListNotations.
Open Scope R_scope.

Lemma wrap_1d fused lh a : wrappable lh a ->
  exists e b, extent_d (fst lh) (snd lh) = Some e /\ periodic_d fused (fst lh) e a = Some b /\ wrapped lh a b.
Proof.
  destruct lh as [lo hi]. unfold wrappable, wrapped. cbn [fst snd].
  rewrite !is_double_fmt. intros ([F1 B1] & [F2 B2] & [F3 B3] & H & Bl & Bh & Bx & OK).
  rewrite <- (bpow_nat 899) in Bl, Bh. rewrite <- (bpow_nat 62) in Bx.
  change (Z.of_nat 899) with 899%Z in Bl, Bh. change (Z.of_nat 62) with 62%Z in Bx.
  destruct (wrap_inside fused lo hi _ a F3 F1 F2 H eq_refl Bx Bl Bh OK) as (r & E0 & Pe & Be & PO & E & Fr & Br).
  assert (Bl' : Rabs lo <= bpow radix2 900) by (eapply Rle_trans; [exact Bl|apply bpow_le; lia]).
  destruct (wrap_error fused lo hi _ a F3 F1 F2 H eq_refl Pe Bx Bl' Be) as (r' & k & E' & K).
  rewrite E in E'. injection E' as <-.
  exists (rnd (hi - lo)), r. split; [auto|]. split; [auto|].
  unfold wrap_tolerance; cbn [fst snd]. rewrite u_eq.
  set (tol := 32 * u * _) in *. split.
  - apply is_double_fmt. split; auto. apply Rle_lt_trans with (bpow radix2 899); [|apply bpow_lt; lia].
    apply Rabs_le_inv in Bl, Bh. apply Rabs_le. lra.
  - split; [auto|]. split; [exists k; auto|].
    intros G. apply Rabs_le_inv in K.
    assert (K0 : k = 0%Z).
    { destruct (Z_lt_le_dec k 0) as [K1|K1].
      - assert (IZR k <= -1) by (apply IZR_le; lia). nra.
      - destruct (Z_lt_le_dec 0 k) as [K2|K2]; [|lia].
        assert (1 <= IZR k) by (apply IZR_le; lia). nra. }
    subst k. apply Rabs_le. lra.
Qed.

Lemma wrap_all fused box x : Forall2 wrappable box x ->
  exists dom y, mapM (fun lh => do e <- extent_d (fst lh) (snd lh); Some (fst lh, e)) box = Some dom /\
    periodic_kernel_d fused dom x = Some y /\ length y = length x /\
    Forall2 (fun la b => wrapped (fst la) (snd la) b) (combine box x) y.
Proof.
  induction 1 as [|lh a box x Ha _ IH].
  - exists [], []. cbn. auto.
  - destruct IH as (dom & y & E1 & E2 & Ly & W). destruct (wrap_1d fused lh a Ha) as (e & b & E3 & E4 & Wb).
    exists ((fst lh, e) :: dom), (b :: y). cbn [mapM bind]. rewrite E3. cbn [bind]. rewrite E1. cbn [bind].
    split; [reflexivity|]. cbn [periodic_kernel_d]. rewrite E4. cbn [bind]. rewrite E2. cbn [bind].
    split; [reflexivity|]. cbn [length combine]. split; [congruence|]. constructor; auto.
Qed.

(** C102 *)
Theorem C102_periodic (fused : bool) (box : list (R * R)) (x : list R) :
  Forall2 wrappable box x ->
  exists y, periodic_execute_d fused box x = Some y /\ length y = length x /\
    Forall2 (fun la b => wrapped (fst la) (snd la) b) (combine box x) y.
Proof.
  intros H. destruct (wrap_all fused box x H) as (dom & y & E1 & E2 & L & W).
  exists y. unfold periodic_execute_d. rewrite E1. cbn [bind]. auto.
Qed.

(** The arithmetic of the double precision models is that of the standard: each operation delivers a nearest double to the exact
    result, and exactly the exact result when that is a double. *)
Theorem C102_rounding (x : R) : (forall r, fl x = Some r -> nearest_double x r) /\ (is_double x -> fl x = Some x).
Proof. split; [intros r; apply fl_nearest|apply fl_exact]. Qed.

(** The upper end of the domain is the same place as its lower end, but a wrapped coordinate can be
    the upper end. *)
Ltac dbl m k := apply is_double_fmt; split;
  [match goal with |- fmt ?x => replace x with (IZR m * bpow radix2 k) by (cbn; lra); apply fmt_mul_bpow; lia end
  |apply Rlt_le_trans with (bpow radix2 64); [apply Rabs_def1; cbn; lra|apply bpow_le; lia]].
Lemma pow899 x : Rabs x <= 64 -> Rabs x <= 2 ^ 899.
Proof.
  intros H. rewrite <- bpow_nat. eapply Rle_trans; [exact H|]. change 64 with (bpow radix2 6). apply bpow_le. lia.
Qed.
Lemma pow62 x : Rabs x <= 256 -> Rabs x <= 2 ^ 62.
Proof.
  intros H. rewrite <- bpow_nat. eapply Rle_trans; [exact H|]. change 256 with (bpow radix2 8). apply bpow_le. lia.
Qed.
Definition x_below : R := 7 / 2 - / 2 ^ 51.
Lemma x_below_eq : x_below = IZR 7881299347898367 * bpow radix2 (-51).
Proof. unfold x_below. cbn. lra. Qed.
Lemma fl_is m k x : x = IZR m * bpow radix2 k -> (Z.abs m <= 2 ^ 53)%Z -> (-1074 <= k <= 900)%Z -> fl x = Some x.
Proof.
  intros E Hm Hk. assert (F : fmt x) by (rewrite E; apply fmt_mul_bpow; lia).
  rewrite <- (rnd_id x F) at 2. apply (fl_bpow _ 960); [lia|].
  rewrite E, Rabs_mult, (Rabs_pos_eq (bpow _ _)) by apply bpow_ge_0.
  replace 960%Z with (60 + 900)%Z by reflexivity. rewrite bpow_plus.
  apply Rmult_le_compat; [apply Rabs_pos|apply bpow_ge_0| |apply bpow_le; lia].
  rewrite <- abs_IZR. change (bpow radix2 60) with (IZR (2 ^ 60)). apply IZR_le. lia.
Qed.
Lemma mul_add_is fused m k m' k' a b c : a * b = IZR m * bpow radix2 k -> a * b + c = IZR m' * bpow radix2 k' ->
  (Z.abs m <= 2 ^ 53)%Z -> (-1074 <= k <= 900)%Z -> (Z.abs m' <= 2 ^ 53)%Z -> (-1074 <= k' <= 900)%Z ->
  mul_add fused a b c = Some (a * b + c).
Proof.
  intros E E' Hm Hk Hm' Hk'. unfold mul_add. destruct fused; [apply (fl_is m' k'); auto|].
  rewrite (fl_is m k _ E Hm Hk). cbn [bind]. apply (fl_is m' k'); auto.
Qed.
Theorem C102_half_open_refuted :
  exists lh a, wrappable lh a /\ forall fused, periodic_execute_d fused [lh] [a] = Some [snd lh].
Proof.
  exists (7 / 2, 9 / 2), x_below. split.
  - unfold wrappable; cbn [fst snd]. split; [dbl 7%Z (-1)%Z|]. split; [dbl 9%Z (-1)%Z|].
    split. { unfold x_below. dbl 7881299347898367%Z (-51)%Z. }
    split; [lra|]. split; [apply pow899; apply Rabs_le; lra|]. split; [apply pow899; apply Rabs_le; lra|].
    split; [apply pow62; apply Rabs_le; unfold x_below; cbn; lra|left; lra].
  - intros fused. unfold periodic_execute_d, extent_d. cbn [mapM fst snd].
    rewrite (fl_is 1 0 (9 / 2 - 7 / 2)) by (lia || (cbn; lra)). cbn [bind periodic_kernel_d].
    replace (9 / 2 - 7 / 2) with 1 by lra. unfold periodic_d.
    assert (D : x_below - 7 / 2 = - / 2 ^ 51) by (unfold x_below; lra). rewrite D.
    rewrite (fl_is (-1) (-51) (- / 2 ^ 51)) by (lia || (cbn; lra)). cbn [bind].
    assert (A : Rabs (- / 2 ^ 51) = / 2 ^ 51) by (rewrite Rabs_Ropp; apply Rabs_pos_eq; cbn; lra). rewrite A.
    rewrite (fl_is 4503599627370497 (-51) (/ 2 ^ 51 + 2)) by (lia || (cbn; lra)). cbn [bind].
    assert (T : Ztrunc (/ 2 ^ 51 + 2) = 2%Z) by (apply Ztrunc_nonneg_unique; cbn; lra).
    unfold to_int. rewrite T. cbn [bind Z.leb Z.ltb andb]. replace ((- 2 ^ (64 - 1) <=? 2)%Z && (2 <? 2 ^ (64 - 1))%Z)%bool with true by reflexivity.
    cbn [bind]. rewrite (fl_is 2 0 2) by (lia || (cbn; lra)). cbn [bind].
    rewrite (mul_add_is fused 2 0 4503599627370495 (-51)) by (lia || (cbn; lra)). cbn [bind].
    unfold fmod_d. rewrite Req_bool_false by lra. cbn [bind].
    assert (M : fmod (2 * 1 + - / 2 ^ 51) 1 = 1 - / 2 ^ 51).
    { unfold fmod. rewrite (Ztrunc_nonneg_unique _ 1); cbn; lra. }
    rewrite M.
    assert (R1 : rnd (1 - / 2 ^ 51 + 7 / 2) = IZR 5066549580791808 * bpow radix2 (-50)).
    { apply rnd_val; [cbn; lra|lia|].
      assert (E : (1 - / 2 ^ 51 + 7 / 2) * bpow radix2 (- -50) = IZR 5066549580791807 + / 2) by (cbn; lra).
      rewrite E. unfold Znearest. rewrite (Zfloor_imp 5066549580791807) by (rewrite plus_IZR; lra).
      replace (IZR 5066549580791807 + / 2 - IZR 5066549580791807) with (/ 2) by ring. rewrite Rcompare_Eq by reflexivity.
      cbn [Z.even negb]. apply Zceil_imp. cbn. lra. }
    assert (R2 : fl (1 - / 2 ^ 51 + 7 / 2) = Some (9 / 2)).
    { rewrite (fl_bpow _ 10); [|lia|apply Rabs_le; cbn; lra]. rewrite R1. f_equal. cbn. lra. }
    rewrite R2. reflexivity.
Qed.

(** A coordinate inside the domain need not stay exactly where it is: adding the offset of whole
    periods loses its low bits. *)
Theorem C102_unmoved_refuted :
  exists lh a, wrappable lh a /\ fst lh < a < snd lh /\ forall fused, exists b, periodic_execute_d fused [lh] [a] = Some [b] /\ b <> a.
Proof.
  exists (0, 1), (bpow radix2 (-60)).
  assert (V : 0 < bpow radix2 (-60) <= / 2 ^ 60) by (cbn; lra).
  assert (V' : / 2 ^ 60 < / 1000000) by (cbn; lra).
  split; [|split].
  - unfold wrappable; cbn [fst snd]. split; [dbl 0%Z 0%Z|]. split; [dbl 1%Z 0%Z|].
    split. { apply is_double_fmt. split; [apply fmt_bpow; lia|]. rewrite Rabs_pos_eq by lra. apply bpow_lt. lia. }
    split; [lra|]. split; [apply pow899; apply Rabs_le; lra|]. split; [apply pow899; apply Rabs_le; lra|].
    split; [apply pow62; apply Rabs_le; lra|left; lra].
  - cbn [fst snd]. lra.
  - intros fused. exists 0. split; [|lra]. unfold periodic_execute_d, extent_d. cbn [mapM fst snd].
    rewrite (fl_is 1 0 (1 - 0)) by (lia || (cbn; lra)). cbn [bind periodic_kernel_d].
    replace (1 - 0) with 1 by lra. unfold periodic_d. rewrite Rminus_0_r.
    rewrite (fl_is 1 (-60) (bpow radix2 (-60))) by (lia || ring). cbn [bind].
    rewrite Rabs_pos_eq by lra.
    assert (R1 : rnd (bpow radix2 (-60) + 2) = 2).
    { rewrite (rnd_val _ (-51) 4503599627370496); [cbn; lra|cbn; lra|lia|].
      apply Znearest_imp. apply Rabs_def1; cbn; lra. }
    assert (R2 : fl (bpow radix2 (-60) + 2) = Some 2).
    { rewrite (fl_bpow _ 10); [rewrite R1; auto|lia|apply Rabs_le; cbn; lra]. }
    rewrite R2. cbn [bind].
    unfold to_int. rewrite (Ztrunc_IZR 2). replace ((- 2 ^ (64 - 1) <=? 2)%Z && (2 <? 2 ^ (64 - 1))%Z)%bool with true by reflexivity.
    cbn [bind]. rewrite (fl_is 2 0 2) by (lia || (cbn; lra)). cbn [bind].
    assert (R3 : mul_add fused 2 1 (bpow radix2 (-60)) = Some 2).
    { unfold mul_add. replace (2 * 1) with 2 by ring. rewrite (Rplus_comm 2). destruct fused; [auto|].
      rewrite (fl_is 2 0 2) by (lia || (cbn; lra)). cbn [bind]. rewrite (Rplus_comm 2). auto. }
    rewrite R3. cbn [bind]. unfold fmod_d. rewrite Req_bool_false by lra. cbn [bind].
    assert (M : fmod 2 1 = 0). { unfold fmod. rewrite (Ztrunc_nonneg_unique _ 2); lra. }
    rewrite M. rewrite (fl_is 0 0 (0 + 0)) by (lia || (cbn; lra)). cbn [bind]. rewrite Rplus_0_r. reflexivity.
Qed.

(** The hypothesis on the extent is needed: in a domain shorter than one unit, a particle further
    than two lengths below it is left outside. *)
Theorem C102_short_domain_refuted :
  exists lh a, is_double (fst lh) /\ is_double (snd lh) /\ is_double a /\ fst lh < snd lh /\
    forall fused, exists b, periodic_execute_d fused [lh] [a] = Some [b] /\ b < fst lh.
Proof.
  exists (0, / 4), (- (801 / 8)). cbn [fst snd].
  split; [dbl 0%Z 0%Z|]. split; [dbl 1%Z (-2)%Z|]. split; [dbl (-801)%Z (-3)%Z|]. split; [lra|].
  intros fused. exists (- / 8). split; [|lra]. unfold periodic_execute_d, extent_d. cbn [mapM fst snd].
  rewrite (fl_is 1 (-2) (/ 4 - 0)) by (lia || (cbn; lra)). cbn [bind periodic_kernel_d].
  replace (/ 4 - 0) with (/ 4) by lra. unfold periodic_d.
  rewrite (fl_is (-801) (-3) (- (801 / 8) - 0)) by (lia || (cbn; lra)). cbn [bind].
  rewrite Rabs_left by lra.
  rewrite (fl_is 817 (-3) (- (- (801 / 8) - 0) + 2)) by (lia || (cbn; lra)). cbn [bind].
  unfold to_int. rewrite (Ztrunc_nonneg_unique _ 102) by lra.
  replace ((- 2 ^ (64 - 1) <=? 102)%Z && (102 <? 2 ^ (64 - 1))%Z)%bool with true by reflexivity.
  cbn [bind]. rewrite (fl_is 102 0 102) by (lia || (cbn; lra)). cbn [bind].
  rewrite (mul_add_is fused 51 (-1) (-597) (-3)) by (lia || (cbn; lra)). cbn [bind].
  unfold fmod_d. rewrite Req_bool_false by lra. cbn [bind].
  assert (M : fmod (102 * / 4 + (- (801 / 8) - 0)) (/ 4) = - / 8).
  { unfold fmod. replace ((102 * / 4 + (- (801 / 8) - 0)) / / 4) with (- (597 / 2)) by field.
    rewrite Ztrunc_ceil by lra. rewrite (Zceil_imp (-298)) by (cbn; lra). lra. }
  rewrite M. rewrite (fl_is (-1) (-3) (- / 8 + 0)) by (lia || (cbn; lra)). cbn [bind]. rewrite Rplus_0_r. reflexivity.
Qed.

(** A two dimensional domain of different lengths, a particle that left through two sides. *)
Example C102_applied : exists y, periodic_execute_d true [(-1, 3); (/ 2, 2)] [17 / 4; - / 4] = Some y /\ length y = 2%nat /\
  Forall2 (fun la b => wrapped (fst la) (snd la) b) (combine [(-1, 3); (/ 2, 2)] [17 / 4; - / 4]) y.
Proof.
  apply (C102_periodic true [(-1, 3); (/ 2, 2)] [17 / 4; - / 4]).
  repeat (apply Forall2_cons); try apply Forall2_nil; unfold wrappable; cbn [fst snd].
  - split; [dbl (-1)%Z 0%Z|]. split; [dbl 3%Z 0%Z|]. split; [dbl 17%Z (-2)%Z|].
    split; [lra|]. split; [apply pow899; apply Rabs_le; lra|]. split; [apply pow899; apply Rabs_le; lra|].
    split; [apply pow62; apply Rabs_le; lra|left; lra].
  - split; [dbl 1%Z (-1)%Z|]. split; [dbl 2%Z 0%Z|]. split; [dbl (-1)%Z (-2)%Z|].
    split; [lra|]. split; [apply pow899; apply Rabs_le; lra|]. split; [apply pow899; apply Rabs_le; lra|].
    split; [apply pow62; apply Rabs_le; lra|left; lra].
Qed.
