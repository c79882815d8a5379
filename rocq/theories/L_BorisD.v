(** Lemmas for C109. *)
From Coq Require Import QArith Qreals Qabs.
From Flocq Require Import Core.
From Verif Require Import M_RealBase L_RealBase M_Grid M_Double S_Double L_Double L_Double2 L_DoubleGrid M_DoubleExpr L_DoubleExpr L_DoubleExpr2 M_Pic S_Pic L_Coord L_Pic M_BorisD S_BorisD.
From Coq Require Import List Lia.
Import ListNotations.
Open Scope R_scope.

(** ** Relative errors *)
Definition mag_in (k : Z) (x : R) : Prop := x = 0 \/ bpow radix2 (- k) <= Rabs x <= bpow radix2 k.
Definition rel (k x y : R) : Prop := Rabs (x - y) <= k * u * Rabs y.
Lemma mag_mul a b x y : mag_in a x -> mag_in b y -> mag_in (a + b) (x * y).
Proof.
  intros [->|[A1 A2]] [->|[B1 B2]]; try (left; ring). right. rewrite Rabs_mult. replace (- (a + b))%Z with (- a + - b)%Z by lia. rewrite !bpow_plus.
  split; apply Rmult_le_compat; auto; try apply bpow_ge_0; apply Rabs_pos.
Qed.
Lemma rabs_rnd x : Rabs (rnd x) = rnd (Rabs x).
Proof.
  unfold Rabs at 2. destruct (Rcase_abs x).
  - rewrite rnd_opp. unfold Rabs. destruct (Rcase_abs (rnd x)); auto. assert (rnd x <= 0) by (apply rnd_le; [apply fmt_0|lra]). lra.
  - apply Rabs_pos_eq. apply rnd_abs. lra.
Qed.
Lemma mag_rnd k x : (0 <= k <= 1022)%Z -> mag_in k x -> fl x = Some (rnd x) /\ mag_in k (rnd x) /\ rel 1 (rnd x) x.
Proof.
  intros Hk [->|[A B]].
  - rewrite rnd_0. split; [|split].
    + rewrite (fl_bpow 0 0); [now rewrite rnd_0|lia|rewrite Rabs_R0; apply bpow_ge_0].
    + left. auto.
    + unfold rel. rewrite Rminus_diag_eq by reflexivity. rewrite Rabs_R0. lra.
  - split; [|split].
    + apply (fl_bpow x k); [lia|auto].
    + right. rewrite rabs_rnd. split; [apply rnd_ge; [apply fmt_bpow; lia|auto]|apply rnd_le; [apply fmt_bpow; lia|auto]].
    + destruct (rnd_normal x) as (d & Hd & E).
      { eapply Rle_trans; [|exact A]. apply bpow_le. lia. }
      unfold rel. rewrite E. replace (x * (1 + d) - x) with (d * x) by ring. rewrite Rabs_mult. apply Rmult_le_compat_r; [apply Rabs_pos|]. lra.
Qed.
Lemma rel_mul a b x x' y y' : 0 <= a -> 0 <= b -> a * b <= 1000000 -> rel a x y -> rel b x' y' -> rel (a + b + 1) (x * x') (y * y').
Proof.
  unfold rel. intros Ha Hb Hab H1 H2. pose proof u_pos. pose proof u_small. rewrite Rabs_mult.
  replace (x * x' - y * y') with ((x - y) * y' + y * (x' - y') + (x - y) * (x' - y')) by ring.
  eapply Rle_trans; [apply Rabs_triang|]. eapply Rle_trans; [apply Rplus_le_compat_r; apply Rabs_triang|]. rewrite !Rabs_mult.
  pose proof (Rabs_pos y) as P. pose proof (Rabs_pos y') as P'.
  assert (Rabs (x - y) * Rabs y' <= a * u * Rabs y * Rabs y') by (apply Rmult_le_compat_r; auto).
  assert (Rabs y * Rabs (x' - y') <= Rabs y * (b * u * Rabs y')) by (apply Rmult_le_compat_l; auto).
  assert (Rabs (x - y) * Rabs (x' - y') <= (a * u * Rabs y) * (b * u * Rabs y')) by (apply Rmult_le_compat; auto; apply Rabs_pos).
  assert (Q : 0 <= Rabs y * Rabs y') by (apply Rmult_le_pos; auto).
  assert (a * u * Rabs y * (b * u * Rabs y') <= u * (Rabs y * Rabs y')).
  { replace (a * u * Rabs y * (b * u * Rabs y')) with ((a * b * u) * u * (Rabs y * Rabs y')) by ring. apply Rmult_le_compat_r; [auto|].
    rewrite <- (Rmult_1_l u) at 3. apply Rmult_le_compat_r; [lra|]. apply Rle_trans with (1000000 * u); [apply Rmult_le_compat_r; lra|lra]. }
  replace ((a + b + 1) * u * (Rabs y * Rabs y')) with (a * u * Rabs y * Rabs y' + Rabs y * (b * u * Rabs y') + u * (Rabs y * Rabs y')) by ring. lra.
Qed.
Lemma rel_refl x : rel 0 x x.
Proof. unfold rel. rewrite Rminus_diag_eq, Rabs_R0 by reflexivity. lra. Qed.
Lemma rel_le a b x y : a <= b -> rel a x y -> rel b x y.
Proof. unfold rel. intros H H1. eapply Rle_trans; [exact H1|]. apply Rmult_le_compat_r; [apply Rabs_pos|]. pose proof u_pos. apply Rmult_le_compat_r; lra. Qed.
Lemma rel_trans a b x y z : 0 <= a -> 0 <= b -> a * b <= 1000000 -> rel a x y -> rel b y z -> rel (a + b + 1) x z.
Proof.
  intros Ha Hb Hab H1 H2. unfold rel in *. pose proof u_pos. pose proof u_small. pose proof (Rabs_pos z).
  assert (Y : Rabs y <= (1 + b * u) * Rabs z). { replace y with (z + (y - z)) by ring. eapply Rle_trans; [apply Rabs_triang|]. lra. }
  replace (x - z) with ((x - y) + (y - z)) by ring. eapply Rle_trans; [apply Rabs_triang|].
  assert (a * u * Rabs y <= a * u * ((1 + b * u) * Rabs z)) by (apply Rmult_le_compat_l; auto; apply Rmult_le_pos; lra).
  assert (a * b * u * (u * Rabs z) <= 1 * (u * Rabs z)). { apply Rmult_le_compat_r; [apply Rmult_le_pos; lra|]. apply Rle_trans with (1000000 * u); [apply Rmult_le_compat_r; lra|lra]. }
  replace ((a + b + 1) * u * Rabs z) with (a * u * Rabs z + b * u * Rabs z + 1 * (u * Rabs z)) by ring.
  replace (a * u * ((1 + b * u) * Rabs z)) with (a * u * Rabs z + a * b * u * (u * Rabs z)) in H4 by ring. lra.
Qed.
(** a rounded product of two computed factors *)
Lemma mul_rel ka kb a b x x' y y' : (0 <= ka)%Z -> (0 <= kb)%Z -> (ka + kb <= 1022)%Z -> mag_in ka x -> mag_in kb x' -> 0 <= a -> 0 <= b -> a <= 100 -> b <= 100 -> rel a x y -> rel b x' y' ->
  exists r, fl (x * x') = Some r /\ mag_in (ka + kb) r /\ rel (a + b + 3) r (y * y').
Proof.
  intros Ka Kb Kab M1 M2 Ha Hb Ha' Hb' R1 R2. destruct (mag_rnd (ka + kb) (x * x') ltac:(lia) (mag_mul _ _ _ _ M1 M2)) as (F & Mr & R).
  exists (rnd (x * x')). split; [auto|]. split; [auto|].
  apply rel_le with (1 + (a + b + 1) + 1); [lra|]. apply rel_trans with (x * x'); [lra|lra|lra|auto|]. apply rel_mul; auto.
  apply Rle_trans with (100 * 100); [apply Rmult_le_compat; lra|lra].
Qed.
Lemma ordinary_mag x : ordinary x -> mag_in 200 x.
Proof.
  intros [_ [->|[A B]]]; [left; auto|right]. change 200%Z with (Z.of_nat 200). rewrite bpow_neg, bpow_nat. auto.
Qed.
Lemma mag_inv k x : mag_in k x -> x <> 0 -> mag_in k (/ x).
Proof.
  intros [->|[A B]] Hx; [exfalso; auto|]. right. rewrite Rabs_inv. assert (P : 0 < Rabs x) by (apply Rabs_pos_lt; auto). rewrite bpow_opp in *.
  split; [apply Rinv_le; auto|]. rewrite <- (Rinv_inv (bpow radix2 k)). apply Rinv_le; [apply Rinv_0_lt_compat, bpow_gt_0|auto].
Qed.

(** ** t, s *)
Definition half_factor (dt q m : R) : R := q / m * (dt / 2).
Lemma t_ok dt B q m : ordinary dt -> all3 ordinary B -> ordinary q -> ordinary m -> m <> 0 -> all3 (fun b => Rabs (b * half_factor dt q m) <= 1) B ->
  exists st t, boris_t_d dt B q m = Some (st, t) /\ mag_in 601 st /\ rel 6 st (half_factor dt q m) /\
    all3 (mag_in 801) t /\ (let '(b0, b1, b2) := B in let '(t0, t1, t2) := t in rel 9 t0 (b0 * half_factor dt q m) /\ rel 9 t1 (b1 * half_factor dt q m) /\ rel 9 t2 (b2 * half_factor dt q m)).
Proof.
  destruct B as [[b0 b1] b2]. intros Hd (H0 & H1 & H2) Hq Hm Hm0 _. unfold boris_t_d.
  apply ordinary_mag in Hd, H0, H1, H2, Hq, Hm.
  assert (Mh : mag_in 1 (1 / 2)). { right. rewrite Rabs_pos_eq by lra. split; cbn; lra. }
  destruct (mag_rnd 201 (dt * (1 / 2)) ltac:(lia) (mag_mul 200 1 _ _ Hd Mh)) as (F1 & M1 & R1). rewrite F1. cbn [bind].
  unfold div_d. rewrite Req_bool_false by auto.
  destruct (mag_rnd 400 (q / m) ltac:(lia) (mag_mul 200 200 _ _ Hq (mag_inv _ _ Hm Hm0))) as (F2 & M2 & R2). rewrite F2. cbn [bind].
  destruct (mul_rel 400 201 1 1 _ _ _ _ ltac:(lia) ltac:(lia) ltac:(lia) M2 M1 ltac:(lra) ltac:(lra) ltac:(lra) ltac:(lra) R2 R1) as (st & F3 & M3 & R3). rewrite F3. cbn [bind].
  replace (q / m * (dt * (1 / 2))) with (half_factor dt q m) in R3 by (unfold half_factor; lra). replace (1 + 1 + 3) with 5 in R3 by lra.
  destruct (mul_rel 200 601 0 5 _ _ _ _ ltac:(lia) ltac:(lia) ltac:(lia) H0 M3 ltac:(lra) ltac:(lra) ltac:(lra) ltac:(lra) (rel_refl b0) R3) as (t0 & F4 & M4 & R4). rewrite F4. cbn [bind].
  destruct (mul_rel 200 601 0 5 _ _ _ _ ltac:(lia) ltac:(lia) ltac:(lia) H1 M3 ltac:(lra) ltac:(lra) ltac:(lra) ltac:(lra) (rel_refl b1) R3) as (t1 & F5 & M5 & R5). rewrite F5. cbn [bind].
  destruct (mul_rel 200 601 0 5 _ _ _ _ ltac:(lia) ltac:(lia) ltac:(lia) H2 M3 ltac:(lra) ltac:(lra) ltac:(lra) ltac:(lra) (rel_refl b2) R3) as (t2 & F6 & M6 & R6). rewrite F6. cbn [bind].
  exists st, (t0, t1, t2). split; [reflexivity|]. split; [exact M3|]. split; [eapply rel_le; [|exact R3]; lra|]. split; [repeat split; assumption|].
  repeat split; (eapply rel_le; [|eassumption]; lra).
Qed.
Lemma rel_abs k x y : 0 <= k -> rel k x y -> Rabs y <= 1 -> Rabs (x - y) <= k * u.
Proof. unfold rel. intros Hk H Hy. eapply Rle_trans; [exact H|]. rewrite <- (Rmult_1_r (k * u)) at 2. apply Rmult_le_compat_l; auto. pose proof u_pos. apply Rmult_le_pos; lra. Qed.

Definition kq (k : Z) : Q := (inject_Z k * uq)%Q.
Lemma Q2R_kq k : Q2R (kq k) = IZR k * u.
Proof. unfold kq. rewrite Q2R_mult, Q2R_uq. f_equal. unfold Q2R, inject_Z. cbn. field. Qed.
(** ana2 with a stated bound on the error *)
Definition chk (be : nat -> nat * Q * Q) (e : ex) (d : nat) (B : Q) (k : Z) : bool :=
  match ana2 be e with Some (d', B', E') => (Nat.eqb d d' && Qle_bool B' B && Qle_bool E' (kq k) && qbounded2 be e)%bool | None => false end.
Lemma chk_ok be envR envD M e d B k contract place : bpow radix2 (-500) <= M <= bpow radix2 500 -> chk be e d B k = true ->
  (forall n, In n (vars e) -> input2_ok be envR envD M n) ->
  exists x, deval contract place envD e = Some x /\ Rabs (evalR envR e) <= Q2R B * M ^ d /\ Rabs (x - evalR envR e) <= IZR k * u * M ^ d.
Proof.
  intros HM H Hin. unfold chk in H. destruct (ana2 be e) as [[[d' B'] E']|] eqn:A; [|discriminate].
  apply andb_prop in H as [H HQ]. apply andb_prop in H as [H HE]. apply andb_prop in H as [Hd HB]. apply Nat.eqb_eq in Hd. subst d'.
  apply Qle_bool_iff, Qle_Rle in HB. apply Qle_bool_iff, Qle_Rle in HE. rewrite Q2R_kq in HE.
  destruct (ana2_ok be envR envD M HM contract e place d B' E' A HQ Hin) as (Hd & x & X & W1 & W2).
  assert (0 < M ^ d). { apply pow_lt. pose proof (bpow_gt_0 radix2 (-500)). lra. }
  exists x. split; [auto|]. split; (eapply Rle_trans; [eassumption|]; apply Rmult_le_compat_r; lra).
Qed.
Definition be_t : nat -> nat * Q * Q := fun _ => (0%nat, 1%Q, kq 9).
Lemma chk_den : chk be_t den_e 0 4 67 = true. Proof. vm_compute. reflexivity. Qed.
Lemma one_range : bpow radix2 (-500) <= 1 <= bpow radix2 500.
Proof. change 1 with (bpow radix2 0). split; apply bpow_le; lia. Qed.
Lemma rel_inv k x y : 0 <= k <= 100 -> 0 < y -> rel k x y -> 0 < x /\ rel (k + 1) (/ x) (/ y).
Proof.
  intros Hk Hy H. pose proof u_pos. pose proof u_small. unfold rel in *. rewrite (Rabs_pos_eq y) in H by lra.
  assert (K : 0 <= k * u <= / 10000). { split; [apply Rmult_le_pos; lra|]. apply Rle_trans with (100 * u); [apply Rmult_le_compat_r; lra|lra]. }
  apply rabs_le in H. assert (X : (1 - k * u) * y <= x) by lra. assert (0 < (1 - k * u) * y) by (apply Rmult_lt_0_compat; lra).
  split; [lra|]. rewrite Rabs_inv, (Rabs_pos_eq y) by lra. replace (/ x - / y) with (- (x - y) / x * / y) by (field; lra).
  rewrite Rabs_mult, (Rabs_pos_eq (/ y)) by (left; apply Rinv_0_lt_compat; lra). apply Rmult_le_compat_r; [left; apply Rinv_0_lt_compat; lra|].
  unfold Rdiv. rewrite Rabs_mult, Rabs_inv, (Rabs_pos_eq x), Rabs_Ropp by lra.
  apply Rmult_le_reg_r with x; [lra|]. rewrite Rmult_assoc, Rinv_l, Rmult_1_r by lra.
  assert (Rabs (x - y) <= k * u * y) by (apply Rabs_le; lra).
  assert (G : (k * u) * y <= ((k + 1) * u) * ((1 - k * u) * y)).
  { replace (((k + 1) * u) * ((1 - k * u) * y)) with (k * u * y + u * y * (1 - k * u - k * (k * u))) by ring.
    assert (k * (k * u) <= 100 * (/ 10000)) by (apply Rmult_le_compat; lra).
    assert (0 <= u * y * (1 - k * u - k * (k * u))). { apply Rmult_le_pos; [apply Rmult_le_pos; lra|lra]. } lra. }
  assert (((k + 1) * u) * ((1 - k * u) * y) <= (k + 1) * u * x) by (apply Rmult_le_compat_l; [apply Rmult_le_pos; lra|auto]). lra.
Qed.
Definition norm2 (t : v3) : R := speed2 t.
Lemma s_ok contract t tau : all3 (mag_in 801) t ->
  (let '(t0, t1, t2) := t in let '(a0, a1, a2) := tau in rel 9 t0 a0 /\ rel 9 t1 a1 /\ rel 9 t2 a2) -> all3 (fun a => Rabs a <= 1) tau ->
  exists s, boris_s_d contract t = Some s /\
    near3 (84 * u) s (scal3 (2 / (1 + norm2 tau)) tau) /\ all3 (fun a => Rabs a <= 1) (scal3 (2 / (1 + norm2 tau)) tau).
Proof.
  destruct t as [[t0 t1] t2]. destruct tau as [[a0 a1] a2]. intros (Mt0 & Mt1 & Mt2) (R0 & R1 & R2) (B0 & B1 & B2). unfold boris_s_d.
  destruct (chk_ok be_t (env3 (a0, a1, a2) (a0, a1, a2) (a0, a1, a2)) (env3 (t0, t1, t2) (t0, t1, t2) (t0, t1, t2)) 1 den_e 0 4 67 (contract 0%nat) [] one_range chk_den) as (D' & F & D1 & D2).
  { intros n Hn. unfold input2_ok, be_t. split; [lia|]. rewrite Q2R_kq. cbn [pow]. rewrite !Rmult_1_r.
    replace (Q2R 1) with 1 by (unfold Q2R; cbn; lra).
    cbn in Hn. destruct Hn as [<-|[<-|[<-|[<-|[<-|[<-|[]]]]]]]; cbn [env3 nth]; split; auto; apply rel_abs; auto; lra. }
  rewrite F. cbn [bind]. set (D := 1 + norm2 (a0, a1, a2)) in *.
  assert (ED : evalR (env3 (a0, a1, a2) (a0, a1, a2) (a0, a1, a2)) den_e = D). { cbn [evalR den_e env3 nth]. cbn [bpow]. unfold D, norm2, speed2, dot3. ring. }
  rewrite ED in *. cbn [pow] in D1, D2. rewrite Rmult_1_r in D1, D2.
  assert (DB : 1 <= D <= 4).
  { split; [unfold D, norm2, speed2, dot3; nra|]. apply Rle_trans with (Rabs D); [apply Rle_abs|]. eapply Rle_trans; [exact D1|]. unfold Q2R; cbn; lra. }
  assert (RD : rel 67 D' D). { unfold rel. rewrite (Rabs_pos_eq D) by lra. pose proof u_pos. eapply Rle_trans; [exact D2|]. rewrite <- (Rmult_1_r (67 * u)) at 1. apply Rmult_le_compat_l; lra. }
  destruct (rel_inv 67 D' D ltac:(lra) ltac:(lra) RD) as [PD RI]. unfold div_d. rewrite Req_bool_false by lra.
  assert (MD : mag_in 3 (2 / D')).
  { pose proof u_small. apply rabs_le in D2. right. rewrite Rabs_pos_eq by (left; apply Rdiv_lt_0_compat; lra). cbn [bpow Z.opp]. 
    split; (apply Rmult_le_reg_r with D'; [lra|]; unfold Rdiv; rewrite (Rmult_assoc 2), Rinv_l by lra); cbn; lra. }
  destruct (mag_rnd 3 (2 / D') ltac:(lia) MD) as (F2 & M2 & RR). rewrite F2. cbn [bind].
  assert (RS : rel 71 (rnd (2 / D')) (2 / D)).
  { apply rel_le with (1 + 69 + 1); [lra|]. apply rel_trans with (2 / D'); try lra; auto. unfold Rdiv. apply rel_le with (0 + 68 + 1); [lra|].
    apply rel_mul; try lra; [apply rel_refl|]. eapply rel_le; [|exact RI]; lra. }
  destruct (mul_rel 3 801 71 9 _ _ _ _ ltac:(lia) ltac:(lia) ltac:(lia) M2 Mt0 ltac:(lra) ltac:(lra) ltac:(lra) ltac:(lra) RS R0) as (s0 & F4 & _ & R4). rewrite F4. cbn [bind].
  destruct (mul_rel 3 801 71 9 _ _ _ _ ltac:(lia) ltac:(lia) ltac:(lia) M2 Mt1 ltac:(lra) ltac:(lra) ltac:(lra) ltac:(lra) RS R1) as (s1 & F5 & _ & R5). rewrite F5. cbn [bind].
  destruct (mul_rel 3 801 71 9 _ _ _ _ ltac:(lia) ltac:(lia) ltac:(lia) M2 Mt2 ltac:(lra) ltac:(lra) ltac:(lra) ltac:(lra) RS R2) as (s2 & F6 & _ & R6). rewrite F6. cbn [bind].
  exists (s0, s1, s2). split; [reflexivity|].
  assert (SB : forall a, a * a <= D - 1 -> Rabs (2 / D * a) <= 1).
  { intros a Ha. apply Rabs_le. assert (- D <= 2 * a <= D) by (pose proof (Rle_0_sqr (a - 1)) as Q1; pose proof (Rle_0_sqr (a + 1)) as Q2; unfold Rsqr in Q1, Q2; clear - Ha Q1 Q2; split; lra).
    split; (apply Rmult_le_reg_r with D; [lra|]; replace (2 / D * a * D) with (2 * a) by (field; lra); lra). }
  assert (E0 : Rabs (2 / D * a0) <= 1) by (apply SB; unfold D, norm2, speed2, dot3; nra).
  assert (E1 : Rabs (2 / D * a1) <= 1) by (apply SB; unfold D, norm2, speed2, dot3; nra).
  assert (E2 : Rabs (2 / D * a2) <= 1) by (apply SB; unfold D, norm2, speed2, dot3; nra).
  split; [|repeat split; assumption].
  unfold near3, sub3, scal3, all3. repeat split; (eapply Rle_trans; [apply (rel_abs (71 + 9 + 3)); [lra| |]; eassumption|]; pose proof u_pos; apply Rmult_le_compat_r; lra).
Qed.
(** ** The cross products *)
(** stage bounds: a vector with components at most [Ba] M off by at most [ka] u M, one with components at most 1 off by at most [kb] u, and a vector that is added *)
Definition be_cross (Ba : Q) (ka kb : Z) (Bc : Q) (kc : Z) (n : nat) : nat * Q * Q :=
  if Nat.ltb n 3 then (1%nat, Ba, kq ka) else if Nat.ltb n 6 then (0%nat, 1%Q, kq kb) else (1%nat, Bc, kq kc).
Definition cross_add (a b c : v3) : v3 := add3 (cross3 a b) c.
Lemma cross_stage Ba ka kb Bc kc B k contract at_ M a b c a' b' c' : bpow radix2 (-500) <= M <= bpow radix2 500 ->
  (forall i, (i < 3)%nat -> chk (be_cross Ba ka kb Bc kc) (cross_add_e i) 1 B k = true) ->
  all3 (fun x => Rabs x <= Q2R Ba * M) a -> near3 (IZR ka * u * M) a' a ->
  all3 (fun x => Rabs x <= 1) b -> near3 (IZR kb * u) b' b ->
  all3 (fun x => Rabs x <= Q2R Bc * M) c -> near3 (IZR kc * u * M) c' c ->
  exists r, cross_add_d contract at_ a' b' c' = Some r /\ near3 (IZR k * u * M) r (cross_add a b c) /\ all3 (fun x => Rabs x <= Q2R B * M) (cross_add a b c).
Proof.
  destruct a as [[x0 x1] x2], b as [[y0 y1] y2], c as [[z0 z1] z2], a' as [[x0' x1'] x2'], b' as [[y0' y1'] y2'], c' as [[z0' z1'] z2'].
  intros HM Hc (A0 & A1 & A2) (A3 & A4 & A5) (B0 & B1 & B2) (B3 & B4 & B5) (C0 & C1 & C2) (C3 & C4 & C5). unfold cross_add_d.
  set (envR := env3 (x0, x1, x2) (y0, y1, y2) (z0, z1, z2)). set (envD := env3 (x0', x1', x2') (y0', y1', y2') (z0', z1', z2')).
  assert (I : forall n, (n < 9)%nat -> input2_ok (be_cross Ba ka kb Bc kc) envR envD M n).
  { intros n Hn. unfold input2_ok, be_cross, envR, envD. replace (Q2R 1) with 1 by (unfold Q2R; cbn; lra).
    do 9 (destruct n as [|n]; [cbn [Nat.ltb Nat.leb env3 nth]; rewrite Q2R_kq; cbn [pow]; rewrite ?Rmult_1_r; replace (Q2R 1) with 1 by (unfold Q2R; cbn; lra); split; [lia|split; assumption]|]). lia. }
  assert (S : forall i, (i < 3)%nat -> exists r, deval (contract (i + at_)%nat) [] envD (cross_add_e i) = Some r /\ Rabs (evalR envR (cross_add_e i)) <= Q2R B * M /\ Rabs (r - evalR envR (cross_add_e i)) <= IZR k * u * M).
  { intros i Hi. destruct (chk_ok _ envR envD M _ _ _ _ (contract (i + at_)%nat) [] HM (Hc i Hi)) as (r & F & X & Y).
    - intros n Hn. apply I. destruct i as [|[|[|]]]; [| | |lia]; cbn in Hn; intuition lia.
    - rewrite pow_1 in X, Y. exists r. auto. }
  destruct (S 0%nat) as (r0 & F0 & X0 & Y0); [lia|]. destruct (S 1%nat) as (r1 & F1 & X1 & Y1); [lia|]. destruct (S 2%nat) as (r2 & F2 & X2 & Y2); [lia|].
  cbn [Nat.add] in F0, F1, F2. rewrite F0, F1, F2. cbn [bind]. exists (r0, r1, r2). split; [reflexivity|]. 
  unfold envR in *. cbn [evalR cross_add_e env3 nth] in X0, X1, X2, Y0, Y1, Y2.
  unfold near3, cross_add, add3, cross3, sub3, all3. repeat split; assumption.
Qed.
(** ** The electric kicks *)
Definition be_kick (Bc : Q) (kc : Z) (n : nat) : nat * Q * Q := match n with O => (1%nat, 1%Q, kq 12) | _ => (1%nat, Bc, kq kc) end.
Definition sum_e : ex := EAdd (EVar 0) (EVar 1).
Lemma a_ok E st h : ordinary E -> mag_in 601 st -> rel 6 st h -> exists a, fl (- E * st) = Some a /\ mag_in 801 a /\ rel 9 a (- E * h).
Proof.
  intros HE Ms Rs. apply ordinary_mag in HE. assert (HE' : mag_in 200 (- E)). { destruct HE as [->|H]; [left; ring|right; rewrite Rabs_Ropp; auto]. }
  destruct (mul_rel 200 601 0 6 _ _ _ _ ltac:(lia) ltac:(lia) ltac:(lia) HE' Ms ltac:(lra) ltac:(lra) ltac:(lra) ltac:(lra) (rel_refl (- E)) Rs) as (a & F & Ma & Ra).
  exists a. split; [auto|]. split; [auto|]. eapply rel_le; [|exact Ra]; lra.
Qed.
Lemma rel_absM k x y M : 0 <= k -> rel k x y -> Rabs y <= M -> Rabs (x - y) <= k * u * M.
Proof. unfold rel. intros Hk H Hy. eapply Rle_trans; [exact H|]. apply Rmult_le_compat_l; auto. pose proof u_pos. apply Rmult_le_pos; lra. Qed.
Lemma kick_ok (fused : bool) a coef G M c c' Bc kc B k : bpow radix2 (-500) <= M <= bpow radix2 500 -> chk (be_kick Bc kc) sum_e 1 B k = true ->
  mag_in 801 a -> ordinary coef -> rel 9 a G -> Rabs (G * coef) <= M -> Rabs c <= Q2R Bc * M -> Rabs (c' - c) <= IZR kc * u * M ->
  exists r, mul_add fused a coef c' = Some r /\ Rabs (r - (G * coef + c)) <= IZR k * u * M /\ Rabs (G * coef + c) <= Q2R B * M.
Proof.
  intros HM Hc Ma Hcoef Ra HG H1 H2. apply ordinary_mag in Hcoef.
  assert (P : forall g, rel 12 g (G * coef) -> exists r, fl (g + c') = Some r /\ Rabs (r - (G * coef + c)) <= IZR k * u * M /\ Rabs (G * coef + c) <= Q2R B * M).
  { intros g Rg. destruct (chk_ok _ (fun n => match n with O => G * coef | _ => c end) (fun n => match n with O => g | _ => c' end) M _ _ _ _ (fun _ => false) [] HM Hc) as (r & F & X & Y).
    - intros n Hn. cbn in Hn. unfold input2_ok, be_kick. destruct Hn as [<-|[<-|[]]]; (split; [lia|]); rewrite Q2R_kq, !pow_1; split; auto.
      + replace (Q2R 1) with 1 by (unfold Q2R; cbn; lra). lra.
      + apply rel_absM; auto; lra.
    - exists r. rewrite pow_1 in X, Y. cbn [evalR sum_e] in X, Y. auto. }
  unfold mul_add. destruct fused.
  - apply P. apply rel_le with (9 + 0 + 1); [lra|]. apply rel_mul; try lra; auto. apply rel_refl.
  - destruct (mul_rel 801 200 9 0 _ _ _ _ ltac:(lia) ltac:(lia) ltac:(lia) Ma Hcoef ltac:(lra) ltac:(lra) ltac:(lra) ltac:(lra) Ra (rel_refl coef)) as (g & F & _ & Rg).
    rewrite F. cbn [bind]. apply P. eapply rel_le; [|exact Rg]; lra.
Qed.
(** ** The whole push *)
Definition push_vm (h coef : R) (E : v2) (V : v3) : v3 := let '(V0, V1, V2) := V in (- fst E * h * coef + V0, - snd E * h * coef + V1, V2).
Definition push_W (h coef : R) (E : v2) (q : v3) : v3 := push_vm h coef E q.
Definition push_exact (dt : R) (B : v3) (coef : R) (p : cpart) : v3 :=
  let h := half_factor dt (cp_Q p) (cp_M p) in let tau := (let '(b0, b1, b2) := B in (b0 * h, b1 * h, b2 * h)) in
  let vm := push_vm h coef (cp_E p) (cp_V p) in
  push_vm h coef (cp_E p) (cross_add (cross_add vm tau vm) (scal3 (2 / (1 + norm2 tau)) tau) vm).
Lemma push_exact_kernel dt B coef p : cp_M p <> 0 -> exists p', boris_kernel dt B coef p = Some p' /\ cp_V p' = push_exact dt B coef p.
Proof.
  intros Hm. unfold boris_kernel. destruct B as [[b0 b1] b2]. rewrite rdiv_ok by auto.
  rewrite rdiv_ok by nra.
  destruct p as [[P0 P1] [[V0 V1] V2] [E0 E1] q m]. cbn [cp_V cp_E cp_P cp_Q cp_M cross_macro] in *. eexists. split; [reflexivity|]. cbn [cp_V].
  unfold push_exact, push_vm, cross_add, cross3, add3, scal3, norm2, speed2, dot3, half_factor. cbn [cp_V cp_E cp_Q cp_M fst snd].
  assert (X : q / m * (dt * (1 / 2)) = q / m * (dt / 2)) by lra. rewrite !X. set (h := q / m * (dt / 2)).
  assert (D : 1 + (b0 * h * (b0 * h) + b1 * h * (b1 * h) + b2 * h * (b2 * h)) <> 0) by nra.
  apply triple_eq. repeat split; field; auto.
Qed.
Lemma chk_vm : chk (be_kick 1 0) sum_e 1 2 15 = true. Proof. vm_compute. reflexivity. Qed.
Lemma chk_vp i : (i < 3)%nat -> chk (be_cross 2 15 9 2 15) (cross_add_e i) 1 6 96 = true.
Proof. intros H. destruct i as [|[|[|]]]; [| | |lia]; vm_compute; reflexivity. Qed.
Lemma chk_vq i : (i < 3)%nat -> chk (be_cross 6 96 84 2 15) (cross_add_e i) 1 14 1255 = true.
Proof. intros H. destruct i as [|[|[|]]]; [| | |lia]; vm_compute; reflexivity. Qed.
Lemma chk_W : chk (be_kick 14 1255) sum_e 1 15 1300 = true. Proof. vm_compute. reflexivity. Qed.
Lemma sum_double contract place env a b r : deval contract place env (EAdd a b) = Some r -> is_double r.
Proof.
  cbn [deval]. destruct (deval contract (false :: place) env a); cbn [bind]; [|discriminate]. destruct (deval contract (true :: place) env b); cbn [bind]; [|discriminate].
  apply fl_double.
Qed.
Lemma bound15 M x w : 0 < M -> Rabs w <= 15 * M -> Rabs (x - w) <= 1300 * u * M -> Rabs x <= 16 * M.
Proof.
  intros HM Hw Hx. pose proof u_small. pose proof u_pos. replace x with (w + (x - w)) by ring. eapply Rle_trans; [apply Rabs_triang|].
  assert (1300 * u * M <= 1 * M) by (apply Rmult_le_compat_r; lra). lra.
Qed.
Lemma mag_up k x : mag_in k x -> Rabs x <= bpow radix2 k.
Proof. intros [->|[_ H]]; auto. rewrite Rabs_R0. apply bpow_ge_0. Qed.
Lemma position_ok (fused : bool) dt P W w M : ordinary dt -> is_double P -> Rabs P <= 2 ^ 400 -> / 2 ^ 300 <= M <= 2 ^ 300 -> Rabs w <= 15 * M -> Rabs (W - w) <= 1300 * u * M ->
  exists X, mul_add fused dt W P = Some X /\ Rabs (X - (P + dt * w)) <= 1400 * u * (Rabs P + Rabs dt * M).
Proof.
  intros Hd HP BP HM Hw HW. pose proof u_pos as U. pose proof u_small as US.
  assert (M0 : 0 < M). { assert (0 < / 2 ^ 300) by (apply Rinv_0_lt_compat, pow_lt; lra). lra. }
  pose proof (bound15 M W w M0 Hw HW) as BW. pose proof (Rabs_pos P). pose proof (Rabs_pos dt).
  assert (Hdt := ordinary_mag _ Hd). apply is_double_fmt in HP as [FP _].
  rewrite <- (bpow_nat 400) in BP. change (Z.of_nat 400) with 400%Z in BP.
  destruct (Req_dec dt 0) as [->|Hd0].
  - exists P. rewrite !Rmult_0_l. unfold mul_add. assert (F0 : fl 0 = Some 0). { rewrite (fl_bpow 0 0); [now rewrite rnd_0|lia|rewrite Rabs_R0; apply bpow_ge_0]. }
    assert (FP' : fl (0 + P) = Some P). { rewrite Rplus_0_l. rewrite (fl_bpow P 400); [now rewrite rnd_id|lia|auto]. }
    rewrite ?Rmult_0_l. split; [destruct fused; [exact FP'|rewrite F0; exact FP']|]. rewrite Rplus_0_r, Rminus_diag_eq, Rabs_R0 by reflexivity.
    rewrite ?Rabs_R0, Rmult_0_l, Rplus_0_r. apply Rmult_le_pos; lra.
  - assert (LD : bpow radix2 (-200) <= Rabs dt). { destruct Hdt as [->|[A _]]; [contradiction|exact A]. }
    assert (UD := mag_up _ _ Hdt).
    assert (ML : bpow radix2 (-300) <= M). { rewrite inv_pow in HM. apply HM. } assert (MU : M <= bpow radix2 300). { rewrite <- (bpow_nat 300) in HM. apply HM. }
    assert (ET : bpow radix2 (-1075) <= u * (Rabs dt * M)).
    { apply Rle_trans with (u * (bpow radix2 (-200) * bpow radix2 (-300))).
      - Transparent u. unfold u. Opaque u. rewrite <- !bpow_plus. apply bpow_le. lia.
      - apply Rmult_le_compat_l; [lra|]. apply Rmult_le_compat; auto; apply bpow_ge_0. }
    assert (DW : Rabs (dt * W) <= 16 * (Rabs dt * M)). { rewrite Rabs_mult. replace (16 * (Rabs dt * M)) with (Rabs dt * (16 * M)) by ring. apply Rmult_le_compat_l; auto. }
    assert (DM : 0 <= Rabs dt * M) by (apply Rmult_le_pos; lra).
    assert (DB : Rabs dt * M <= bpow radix2 500). { change 500%Z with (200 + 300)%Z. rewrite bpow_plus. apply Rmult_le_compat; auto; lra. }
    assert (DE : Rabs (dt * W - dt * w) <= 1300 * u * (Rabs dt * M)). { rewrite <- Rmult_minus_distr_l, Rabs_mult. replace (1300 * u * (Rabs dt * M)) with (Rabs dt * (1300 * u * M)) by ring. apply Rmult_le_compat_l; auto. }
    assert (B400 : bpow radix2 400 <= bpow radix2 500) by (apply bpow_le; lia).
    assert (B510 : 64 * bpow radix2 500 <= bpow radix2 510). { change 510%Z with (10 + 500)%Z. rewrite bpow_plus. apply Rmult_le_compat_r; [apply bpow_ge_0|]. cbn. lra. }
    assert (FIN : forall g, Rabs (g - dt * W) <= 17 * u * (Rabs dt * M) -> exists X, fl (g + P) = Some X /\ Rabs (X - (P + dt * w)) <= 1400 * u * (Rabs P + Rabs dt * M)).
    { intros g Hg. assert (UM : u * (Rabs dt * M) <= / 1000000 * (Rabs dt * M)) by (apply Rmult_le_compat_r; lra).
      assert (Bg : Rabs g <= 17 * (Rabs dt * M)). { replace g with (dt * W + (g - dt * W)) by ring. eapply Rle_trans; [apply Rabs_triang|]. lra. }
      assert (Bs : Rabs (g + P) <= 17 * (Rabs dt * M) + Rabs P) by (eapply Rle_trans; [apply Rabs_triang|lra]).
      exists (rnd (g + P)). split; [apply (fl_bpow _ 510); [lia|lra]|].
      pose proof (rnd_any_err (g + P)) as N. assert (N2 : u * Rabs (g + P) <= u * (17 * (Rabs dt * M) + Rabs P)) by (apply Rmult_le_compat_l; lra).
      replace (rnd (g + P) - (P + dt * w)) with ((rnd (g + P) - (g + P)) + (g - dt * W) + (dt * W - dt * w)) by ring.
      eapply Rle_trans; [apply Rabs_triang|]. eapply Rle_trans; [apply Rplus_le_compat_r, Rabs_triang|].
      assert (0 <= u * Rabs P) by (apply Rmult_le_pos; lra). assert (0 <= u * (Rabs dt * M)) by (apply Rmult_le_pos; lra). lra. }
    unfold mul_add. destruct fused.
    + apply FIN. rewrite Rminus_diag_eq, Rabs_R0 by reflexivity. apply Rmult_le_pos; lra.
    + rewrite (fl_bpow (dt * W) 510) by (lia || lra). cbn [bind]. apply FIN. pose proof (rnd_any_err (dt * W)).
      assert (u * Rabs (dt * W) <= u * (16 * (Rabs dt * M))) by (apply Rmult_le_compat_l; lra). lra.
Qed.
Lemma push_near contract dt B coef p M : push_ok dt B coef p M -> exists p', boris_d contract dt B coef p = Some p' /\
  near3 (1300 * u * M) (cp_V p') (push_exact dt B coef p) /\
  (forall x y z, push_exact dt B coef p = (x, y, z) -> Rabs (fst (cp_P p') - (fst (cp_P p) + dt * x)) <= 1400 * u * (Rabs (fst (cp_P p)) + Rabs dt * M) /\
     Rabs (snd (cp_P p') - (snd (cp_P p) + dt * y)) <= 1400 * u * (Rabs (snd (cp_P p)) + Rabs dt * M)) /\
  cp_E p' = cp_E p /\ cp_Q p' = cp_Q p /\ cp_M p' = cp_M p /\ all3 is_double (cp_V p') /\ both2 is_double (cp_P p').
Proof.
  intros [(Hdt & HB & Hco & Hq & Hm & Hm0) (HVd & HV) (HE & HEs) HT HP HM].
  assert (HM' : bpow radix2 (-500) <= M <= bpow radix2 500).
  { rewrite inv_pow in HM. rewrite <- (bpow_nat 300) in HM. destruct HM as [A C]. split; [eapply Rle_trans; [|exact A]; apply bpow_le; lia|eapply Rle_trans; [exact C|]; apply bpow_le; lia]. }
  assert (M0 : 0 < M). { pose proof (bpow_gt_0 radix2 (-500)). lra. }
  destruct p as [[P0 P1] [[V0 V1] V2] [E0 E1] q m]. cbn [cp_V cp_E cp_P cp_Q cp_M] in *. destruct B as [[b0 b1] b2].
  set (h := half_factor dt q m) in *. change (q / m * (dt / 2)) with h in *.
  destruct HV as (A0 & A1 & A2). destruct HE as [HE0 HE1]. destruct HEs as [S0 S1]. destruct HP as [[D0 Q0] [D1 Q1]]. cbn [fst snd] in *.
  destruct HT as (T0 & T1 & T2).
  unfold boris_d. cbn [cp_V cp_E cp_P cp_Q cp_M].
  destruct (t_ok dt (b0, b1, b2) q m Hdt HB Hq Hm Hm0) as (st & [[t0 t1] t2] & F1 & Ms & Rs & Mt & R0 & R1 & R2); [repeat split; assumption|].
  fold h in Rs, R0, R1, R2. rewrite F1. cbn [bind].
  destruct (s_ok contract (t0, t1, t2) (b0 * h, b1 * h, b2 * h) Mt (conj R0 (conj R1 R2)) (conj T0 (conj T1 T2))) as (s & F2 & Ns & Bs). rewrite F2. cbn [bind].
  destruct (a_ok E0 st h HE0 Ms Rs) as (a0 & F3 & Ma0 & Ra0). rewrite F3. cbn [bind].
  destruct (a_ok E1 st h HE1 Ms Rs) as (a1 & F4 & Ma1 & Ra1). rewrite F4. cbn [bind].
  assert (G0 : Rabs (- E0 * h * coef) <= M). { replace (- E0 * h * coef) with (- (h * (E0 * coef))) by ring. rewrite Rabs_Ropp. exact S0. }
  assert (G1 : Rabs (- E1 * h * coef) <= M). { replace (- E1 * h * coef) with (- (h * (E1 * coef))) by ring. rewrite Rabs_Ropp. exact S1. }
  assert (Z0 : forall v, Rabs (v - v) <= IZR 0 * u * M). { intros v. rewrite Rminus_diag_eq, Rabs_R0 by reflexivity. lra. }
  assert (O1 : forall v, Rabs v <= M -> Rabs v <= Q2R 1 * M). { intros v Hv. replace (Q2R 1) with 1 by (unfold Q2R; cbn; lra). lra. }
  destruct (kick_ok (contract 1%nat []) a0 coef (- E0 * h) M V0 V0 1 0 2 15 HM' chk_vm Ma0 Hco Ra0 G0 (O1 _ A0) (Z0 _)) as (vm0 & F5 & N5 & B5). rewrite F5. cbn [bind].
  destruct (kick_ok (contract 2%nat []) a1 coef (- E1 * h) M V1 V1 1 0 2 15 HM' chk_vm Ma1 Hco Ra1 G1 (O1 _ A1) (Z0 _)) as (vm1 & F6 & N6 & B6). rewrite F6. cbn [bind].
  set (e0 := - E0 * h * coef + V0) in *. set (e1 := - E1 * h * coef + V1) in *.
  pose proof u_pos as U.
  assert (A2' : Rabs V2 <= Q2R 2 * M). { replace (Q2R 2) with 2 by (unfold Q2R; cbn; lra). lra. }
  assert (Z15 : Rabs (V2 - V2) <= 15 * u * M). { rewrite Rminus_diag_eq, Rabs_R0 by reflexivity. apply Rmult_le_pos; [|lra]. lra. }
  assert (Nt : near3 (9 * u) (t0, t1, t2) (b0 * h, b1 * h, b2 * h)). { unfold near3, sub3, all3. repeat split; apply rel_abs; auto; lra. }
  destruct (cross_stage 2 15 9 2 15 6 96 contract 3 M (e0, e1, V2) (b0 * h, b1 * h, b2 * h) (e0, e1, V2) (vm0, vm1, V2) (t0, t1, t2) (vm0, vm1, V2) HM' chk_vp
    (conj B5 (conj B6 A2')) (conj N5 (conj N6 Z15)) (conj T0 (conj T1 T2)) Nt (conj B5 (conj B6 A2')) (conj N5 (conj N6 Z15))) as (vp & F7 & N7 & B7). rewrite F7. cbn [bind].
  destruct (cross_stage 6 96 84 2 15 14 1255 contract 6 M _ _ (e0, e1, V2) vp s (vm0, vm1, V2) HM' chk_vq B7 N7 Bs Ns (conj B5 (conj B6 A2')) (conj N5 (conj N6 Z15))) as ([[q0 q1] q2] & F8 & N8 & B8). rewrite F8. cbn [bind].
  set (Sx := scal3 (2 / (1 + norm2 (b0 * h, b1 * h, b2 * h))) (b0 * h, b1 * h, b2 * h)) in *.
  assert (PE : push_exact dt (b0, b1, b2) coef {| cp_P := (P0, P1); cp_V := (V0, V1, V2); cp_E := (E0, E1); cp_Q := q; cp_M := m |} =
    push_vm h coef (E0, E1) (cross_add (cross_add (e0, e1, V2) (b0 * h, b1 * h, b2 * h) (e0, e1, V2)) Sx (e0, e1, V2))) by reflexivity.
  destruct (cross_add (cross_add (e0, e1, V2) (b0 * h, b1 * h, b2 * h) (e0, e1, V2)) Sx (e0, e1, V2)) as [[w0 w1] w2]. destruct N8 as (N80 & N81 & N82). destruct B8 as (B80 & B81 & B82).
  destruct (kick_ok (contract 9%nat []) a0 coef (- E0 * h) M w0 q0 14 1255 15 1300 HM' chk_W Ma0 Hco Ra0 G0 B80 N80) as (W0 & F9 & N9 & B9). rewrite F9. cbn [bind].
  destruct (kick_ok (contract 10%nat []) a1 coef (- E1 * h) M w1 q1 14 1255 15 1300 HM' chk_W Ma1 Hco Ra1 G1 B81 N81) as (W1 & F10 & N10 & B10). rewrite F10. cbn [bind].
  assert (C15 : Q2R 15 = 15) by (unfold Q2R; cbn; lra). rewrite C15 in B9, B10.
  destruct (position_ok (contract 11%nat []) dt P0 W0 _ M Hdt D0 Q0 HM B9 N9) as (X0 & F11 & N11). rewrite F11. cbn [bind].
  destruct (position_ok (contract 12%nat []) dt P1 W1 _ M Hdt D1 Q1 HM B10 N10) as (X1 & F12 & N12). rewrite F12. cbn [bind].
  rewrite PE. cbn [push_vm fst snd]. eexists. split; [reflexivity|]. cbn [cp_P cp_V cp_E cp_Q cp_M fst snd].
  split; [|split; [|split; [reflexivity|split; [reflexivity|split; [reflexivity|]]]]].
  - unfold near3, sub3, all3. split; [exact N9|]. split; [exact N10|]. eapply Rle_trans; [exact N82|]. apply Rmult_le_compat_r; lra.
  - intros x y z E. apply triple_eq in E as (<- & <- & <-). split; assumption.
  - assert (LF : forall f a b c r, mul_add f a b c = Some r -> is_double r).
    { intros f a b c r. unfold mul_add. destruct f; [apply fl_double|]. destruct (fl (a * b)); cbn [bind]; [apply fl_double|discriminate]. }
    split; [split; [eapply LF; eauto|split; [eapply LF; eauto|]]|split; eapply LF; eauto].
    unfold cross_add_d in F8. 
    destruct (deval (contract 6%nat) [] _ _); cbn [bind] in F8; [|discriminate]. destruct (deval (contract 7%nat) [] _ _); cbn [bind] in F8; [|discriminate].
    destruct (deval (contract 8%nat) [] _ (cross_add_e 2)) eqn:F82; cbn [bind] in F8; [|discriminate]. injection F8 as <- <- <-.
    eapply sum_double; exact F82.
Qed.
