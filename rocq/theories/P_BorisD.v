(** C109: the Boris push in double precision. *)
From Flocq Require Import Core.
From Verif Require Import M_RealBase L_RealBase M_Grid M_Double S_Double L_Double L_Double2 L_DoubleGrid M_DoubleExpr P_Double M_Pic S_Pic L_Coord L_Pic M_BorisD S_BorisD L_BorisD.
From Coq Require Import List Bool Lia Lra.
Import ListNotations.
Open Scope R_scope.
From Verif Require P_NewtonD.

(** Whatever the compiler contracts: no overflow, and the new velocity and position are those of the time-centred Lorentz force equation up to
    a stated number of roundings. *)
Theorem C109_push (contract : nat -> list bool -> bool) (dt : R) (B : v3) (coef : R) (p : cpart) (scale : R) (W : v3) : push_ok dt B coef p scale ->
  lorentz_step dt B coef (cp_M p) (cp_Q p) (cp_E p) (cp_V p) W ->
  exists p', boris_d contract dt B coef p = Some p' /\ near3 (1300 * unit_roundoff * scale) (cp_V p') W /\
    Rabs (fst (cp_P p') - (fst (cp_P p) + dt * fst (xy W))) <= 1400 * unit_roundoff * (Rabs (fst (cp_P p)) + Rabs dt * scale) /\
    Rabs (snd (cp_P p') - (snd (cp_P p) + dt * snd (xy W))) <= 1400 * unit_roundoff * (Rabs (snd (cp_P p)) + Rabs dt * scale) /\
    cp_E p' = cp_E p /\ cp_Q p' = cp_Q p /\ cp_M p' = cp_M p /\ all3 is_double (cp_V p') /\ both2 is_double (cp_P p').
Proof.
  intros Ok HW. rewrite u_eq. assert (Hm : cp_M p <> 0) by apply Ok.
  destruct (push_exact_kernel dt B coef p Hm) as (p0 & K & E). destruct (boris_eq _ _ _ _ _ K) as (_ & HL & _).
  assert (W = cp_V p0) by (eapply lorentz_unique; eauto). subst W. rewrite E.
  destruct (push_near contract dt B coef p scale Ok) as (p' & F & N & NP & R). exists p'. split; [auto|]. split; [auto|].
  destruct (push_exact dt B coef p) as [[x y] z]. cbn [xy fst snd]. destruct (NP x y z eq_refl) as [N1 N2]. split; [auto|]. split; [auto|]. exact R.
Qed.
Print Assumptions C109_push.

(** ** Speed *)
Lemma dot_close (V W D : v3) (e : R) : 0 <= e <= / 100 -> W = add3 V D -> speed2 D <= e * e * speed2 V -> 
  Rabs (speed2 W - speed2 V) <= (2 * e + e * e) * speed2 V.
Proof.
  intros He -> HD. destruct V as [[a b] c], D as [[x y] z]. unfold speed2, dot3, add3 in *. 
  set (s := a * a + b * b + c * c) in *. set (d := x * x + y * y + z * z) in *. set (m := a * x + b * y + c * z).
  assert (s0 : 0 <= s) by (unfold s; nra). assert (d0 : 0 <= d) by (unfold d; nra).
  assert (CS : m * m <= s * d).
  { pose proof (Rle_0_sqr (a * y - b * x)) as Q1. pose proof (Rle_0_sqr (a * z - c * x)) as Q2. pose proof (Rle_0_sqr (b * z - c * y)) as Q3. unfold Rsqr in *. unfold m, s, d. clear - Q1 Q2 Q3. lra. }
  assert (CM : m * m <= (e * s) * (e * s)). { assert (s * d <= s * (e * e * s)) by (apply Rmult_le_compat_l; auto). lra. }
  assert (es : 0 <= e * s) by (apply Rmult_le_pos; lra).
  assert (CM' : Rabs m <= e * s). { apply Rsqr_incr_0; [unfold Rsqr; rewrite <- Rabs_mult, Rabs_pos_eq by nra; lra|apply Rabs_pos|auto]. }
  apply rabs_le in CM'. apply Rabs_le. replace ((a + x) * (a + x) + (b + y) * (b + y) + (c + z) * (c + z) - s) with (2 * m + d) by (unfold m, s, d; ring). lra.
Qed.
Lemma near_speed V W e M : near3 (e * M) W V -> 0 <= e -> M * M <= speed2 V -> exists D, W = add3 V D /\ speed2 D <= 3 * (e * e) * speed2 V.
Proof.
  destruct V as [[a b] c], W as [[x y] z]. intros (H0 & H1 & H2) He HM. exists (x - a, y - b, z - c). split; [unfold add3; apply triple_eq; repeat split; ring|].
  assert (S : forall d, Rabs d <= e * M -> d * d <= (e * e) * (M * M)).
  { intros d Hd. replace (e * e * (M * M)) with ((e * M) * (e * M)) by ring. rewrite <- (Rabs_pos_eq (d * d)) by nra. rewrite Rabs_mult. apply Rmult_le_compat; auto; apply Rabs_pos. }
  pose proof (S _ H0). pose proof (S _ H1). pose proof (S _ H2).
  assert (e * e * (M * M) <= e * e * speed2 (a, b, c)) by (apply Rmult_le_compat_l; [apply Rmult_le_pos; auto|auto]).
  unfold speed2 at 1, dot3. lra.
Qed.
Definition rate : R := 4600 * unit_roundoff.
Lemma rate_small : 0 < rate <= / 100.
Proof. unfold rate. rewrite u_eq. pose proof u_pos. pose proof u_small. lra. Qed.
(** With no electric field one push changes the square of the speed by at most 4600 unit roundoffs relative to it. *)
Theorem C109_speed (contract : nat -> list bool -> bool) (dt : R) (B : v3) (coef : R) (p : cpart) (scale : R) : push_ok dt B coef p scale ->
  cp_E p = (0, 0) -> scale * scale <= speed2 (cp_V p) ->
  exists p', boris_d contract dt B coef p = Some p' /\ Rabs (speed2 (cp_V p') - speed2 (cp_V p)) <= 4600 * unit_roundoff * speed2 (cp_V p).
Proof.
  intros Ok HE Hs. assert (Hm : cp_M p <> 0) by apply Ok.
  destruct (push_exact_kernel dt B coef p Hm) as (p0 & K & E).
  assert (S0 : speed2 (cp_V p0) = speed2 (cp_V p)). { destruct (boris_steps dt B coef 1 p Hm HE) as (p1 & K1 & S1 & _). cbn [steps] in K1. rewrite K in K1. injection K1 as <-. exact S1. }
  destruct (push_near contract dt B coef p scale Ok) as (p' & F & N & _). exists p'. split; [auto|]. rewrite <- E in N. rewrite <- S0 in *. rewrite u_eq.
  pose proof u_pos. pose proof u_small.
  destruct (near_speed _ _ (1300 * u) scale N ltac:(lra) Hs) as (D & E1 & HD).
  assert (P : 0 <= speed2 (cp_V p0)). { destruct (cp_V p0) as [[a b] c]. unfold speed2, dot3. nra. }
  assert (Q : Rabs (speed2 (cp_V p') - speed2 (cp_V p0)) <= (2 * (2252 * u) + (2252 * u) * (2252 * u)) * speed2 (cp_V p0)).
  { apply (dot_close _ _ D); [lra|auto|]. eapply Rle_trans; [exact HD|]. apply Rmult_le_compat_r; [auto|]. assert (0 <= u * u) by (apply Rmult_le_pos; lra). lra. }
  eapply Rle_trans; [exact Q|]. apply Rmult_le_compat_r; [auto|].
  assert (u * u <= / 1000000 * u) by (apply Rmult_le_compat_r; lra). lra.
Qed.
Print Assumptions C109_speed.

(** the velocity does not depend on the position *)
Lemma velocity_only contract dt B coef p P p1 p2 : boris_d contract dt B coef p = Some p1 ->
  boris_d contract dt B coef {| cp_P := P; cp_V := cp_V p; cp_E := cp_E p; cp_Q := cp_Q p; cp_M := cp_M p |} = Some p2 ->
  cp_V p1 = cp_V p2 /\ cp_E p1 = cp_E p /\ cp_Q p1 = cp_Q p /\ cp_M p1 = cp_M p.
Proof.
  destruct p as [[P0 P1] [[V0 V1] V2] [E0 E1] q m], P as [X0 X1]. unfold boris_d. cbn [cp_V cp_E cp_P cp_Q cp_M].
  destruct (boris_t_d dt B q m) as [[st t]|]; cbn [bind]; [|discriminate].
  destruct (boris_s_d contract t) as [s|]; cbn [bind]; [|discriminate].
  destruct (fl (- E0 * st)) as [a0|]; cbn [bind]; [|discriminate]. destruct (fl (- E1 * st)) as [a1|]; cbn [bind]; [|discriminate].
  destruct (mul_add (contract 1%nat []) a0 coef V0) as [vm0|]; cbn [bind]; [|discriminate]. destruct (mul_add (contract 2%nat []) a1 coef V1) as [vm1|]; cbn [bind]; [|discriminate].
  destruct (cross_add_d contract 3 _ _ _) as [vp|]; cbn [bind]; [|discriminate]. destruct (cross_add_d contract 6 _ _ _) as [[[q0 q1] q2]|]; cbn [bind]; [|discriminate].
  destruct (mul_add (contract 9%nat []) a0 coef q0) as [W0|]; cbn [bind]; [|discriminate]. destruct (mul_add (contract 10%nat []) a1 coef q1) as [W1|]; cbn [bind]; [|discriminate].
  intros H1 H2.
  destruct (mul_add (contract 11%nat []) dt W0 P0); cbn [bind] in H1; [|discriminate]. destruct (mul_add (contract 12%nat []) dt W1 P1); cbn [bind] in H1; [|discriminate].
  destruct (mul_add (contract 11%nat []) dt W0 X0); cbn [bind] in H2; [|discriminate]. destruct (mul_add (contract 12%nat []) dt W1 X1); cbn [bind] in H2; [|discriminate].
  apply (f_equal (fun o => match o with Some v => v | None => {| cp_P := (0, 0); cp_V := (0, 0, 0); cp_E := (0, 0); cp_Q := 0; cp_M := 0 |} end)) in H1, H2. subst p1 p2. cbn [cp_V cp_E cp_Q cp_M]. auto.
Qed.
(** the largest component *)
Definition top (V : v3) : R := let '(a, b, c) := V in Rmax (Rabs a) (Rmax (Rabs b) (Rabs c)).
Lemma top_ok V : all3 (fun v => Rabs v <= top V) V /\ top V * top V <= speed2 V <= 3 * (top V * top V) /\ 0 <= top V.
Proof.
  destruct V as [[a b] c]. unfold top, all3, speed2, dot3. pose proof (Rabs_pos a) as A. pose proof (Rabs_pos b) as B. pose proof (Rabs_pos c) as C.
  assert (forall x, x * x = Rabs x * Rabs x) as Q. { intros x. rewrite <- Rabs_mult, Rabs_pos_eq by nra. ring. }
  rewrite (Q a), (Q b), (Q c).
  revert A B C. generalize (Rabs a), (Rabs b), (Rabs c). clear. intros a b c A B C.
  assert (G : exists m, Rmax a (Rmax b c) = m /\ a <= m /\ b <= m /\ c <= m /\ (m = a \/ m = b \/ m = c)).
  { eexists. split; [reflexivity|]. unfold Rmax. destruct (Rle_dec b c); destruct (Rle_dec a _); (split; [lra|split; [lra|split; [lra|auto]]]). }
  destruct G as (m & -> & Ha & Hb & Hc & Hm).
  assert (Mm : forall x, 0 <= x -> x <= m -> 0 <= x * x <= m * m) by (intros; split; [apply Rmult_le_pos; lra|apply Rmult_le_compat; lra]).
  pose proof (Mm a A Ha). pose proof (Mm b B Hb). pose proof (Mm c C Hc). split; [auto|]. split; [|lra]. split; [|lra]. destruct Hm as [->|[->| ->]]; lra.
Qed.
(** what must hold of a configuration for a whole run without electric field *)
Definition gyration_ok (dt : R) (B : v3) (coef : R) (p : cpart) : Prop :=
  (ordinary dt /\ all3 ordinary B /\ ordinary coef /\ ordinary (cp_Q p) /\ ordinary (cp_M p) /\ cp_M p <> 0) /\
  all3 is_double (cp_V p) /\ cp_E p = (0, 0) /\ all3 (fun b => Rabs (b * (cp_Q p / cp_M p * (dt / 2))) <= 1) B.
Lemma ordinary_0 : ordinary 0.
Proof. split; [dbl 0%Z 0%Z|auto]. Qed.
Lemma three_small : 3 * (/ 2 ^ 300 * / 2 ^ 300) < / 2 ^ 590.
Proof.
  assert (I : 0 < / 2 ^ 590) by (apply Rinv_0_lt_compat, pow_lt; lra).
  replace (/ 2 ^ 300 * / 2 ^ 300) with (/ 2 ^ 590 * / 2 ^ 10) by (rewrite <- !Rinv_mult, <- !pow_add; reflexivity).
  assert (/ 2 ^ 10 <= / 1000) by (apply Rinv_le_contravar; [lra|simpl; lra]).
  assert (/ 2 ^ 590 * / 2 ^ 10 <= / 2 ^ 590 * / 1000) by (apply Rmult_le_compat_l; lra). lra.
Qed.
Lemma run_speed contract bc dt B coef n : forall p p', gyration_ok dt B coef p -> / 2 ^ 590 <= (1 - rate) ^ n * speed2 (cp_V p) -> (1 + rate) ^ n * speed2 (cp_V p) <= 2 ^ 590 ->
  boris_run_d contract bc dt B coef n p = Some p' -> (1 - rate) ^ n * speed2 (cp_V p) <= speed2 (cp_V p') <= (1 + rate) ^ n * speed2 (cp_V p).
Proof.
  pose proof rate_small as RS.
  induction n as [|n IH]; intros p p' G L H R; cbn [boris_run_d] in R.
  { injection R as <-. cbn [pow]. lra. }
  destruct (boris_d (contract n) dt B coef p) as [p1|] eqn:F; cbn [bind] in R; [|discriminate].
  destruct G as (G1 & G2 & G3 & G4).
  set (pz := {| cp_P := (0, 0); cp_V := cp_V p; cp_E := cp_E p; cp_Q := cp_Q p; cp_M := cp_M p |}).
  destruct (top_ok (cp_V p)) as (T1 & [T2 T3] & T4). set (M := top (cp_V p)) in *. set (s := speed2 (cp_V p)) in *.
  assert (a1 : 0 < (1 - rate) ^ n <= 1). { split; [apply pow_lt; lra|]. apply Rle_trans with (1 ^ n); [apply pow_incr; lra|rewrite pow1; lra]. }
  assert (a2 : 1 <= (1 + rate) ^ n) by (apply pow_R1_Rle; lra).
  assert (I : 0 < / 2 ^ 590) by (apply Rinv_0_lt_compat, pow_lt; lra).
  cbn [pow] in L, H.
  assert (s0 : 0 <= s). { apply Rle_trans with (M * M); auto. apply Rmult_le_pos; auto. }
  assert (SL : / 2 ^ 590 <= s). { eapply Rle_trans; [exact L|]. rewrite <- (Rmult_1_l s) at 2. apply Rmult_le_compat_r; [auto|].
    assert (Z : (1 - rate) * (1 - rate) ^ n <= 1 * 1) by (apply Rmult_le_compat; lra). lra. }
  assert (SH : s <= 2 ^ 590). { eapply Rle_trans; [|exact H]. rewrite <- (Rmult_1_l s) at 1. apply Rmult_le_compat_r; [auto|].
    assert (Z : 1 * 1 <= (1 + rate) * (1 + rate) ^ n) by (apply Rmult_le_compat; lra). lra. }
  assert (MR : / 2 ^ 300 <= M <= 2 ^ 300).
  { split.
    - apply Rnot_lt_le. intros C. assert (M * M <= / 2 ^ 300 * / 2 ^ 300) by (apply Rmult_le_compat; lra).
      pose proof three_small. lra.
    - apply Rnot_lt_le. intros C. assert (2 ^ 300 * 2 ^ 300 <= M * M) by (apply Rmult_le_compat; try lra; apply pow_le; lra).
      rewrite <- pow_add in H0. assert (2 ^ 590 < 2 ^ (300 + 300)) by (apply Rlt_pow; [lra|lia]). lra. }
  assert (PO : push_ok dt B coef pz M).
  { split; cbn [pz cp_V cp_E cp_P cp_Q cp_M]; auto.
    - rewrite G3. split; split; cbn [fst snd]; try apply ordinary_0; rewrite Rmult_0_l, Rmult_0_r, Rabs_R0; auto.
    - split; cbn [fst snd]; (split; [apply ordinary_0|rewrite Rabs_R0; apply pow_le; lra]). }
  destruct (C109_speed (contract n) dt B coef pz M PO G3 T2) as (p2 & F2 & S2).
  destruct (velocity_only _ _ _ _ _ _ _ _ F F2) as (V1 & E1 & Q1 & M1). cbn [pz cp_V] in S2. fold s in S2. fold rate in S2. rewrite <- V1 in S2. apply rabs_le in S2.
  destruct (push_near (contract n) dt B coef pz M PO) as (p3 & F3 & _ & _ & _ & _ & _ & D3 & _). rewrite F2 in F3. injection F3 as <-.
  set (s1 := speed2 (cp_V p1)) in *.
  assert (X1 : (1 - rate) ^ n * ((1 - rate) * s) <= (1 - rate) ^ n * s1) by (apply Rmult_le_compat_l; lra).
  assert (X2 : (1 + rate) ^ n * s1 <= (1 + rate) ^ n * ((1 + rate) * s)) by (apply Rmult_le_compat_l; lra).
  destruct (IH (transfer (bc n) p1) p') as [Y1 Y2]; cbn [transfer cp_V cp_E cp_Q cp_M].
  - split; [|split; [|split]]; cbn [transfer cp_V cp_E cp_Q cp_M]; rewrite ?E1, ?Q1, ?M1, ?V1; auto.
  - fold s1. eapply Rle_trans; [|exact X1]. lra.
  - fold s1. eapply Rle_trans; [exact X2|]. lra.
  - exact R.
  - cbn [transfer cp_V] in Y1, Y2. fold s1 in Y1, Y2. cbn [pow]. lra.
Qed.
Lemma pow_lower x n : 0 <= x <= 1 -> 1 - INR n * x <= (1 - x) ^ n.
Proof.
  intros Hx. induction n as [|n IH]; [cbn; lra|]. rewrite S_INR. cbn [pow]. pose proof (pos_INR n). assert (0 <= (1 - x) ^ n) by (apply pow_le; lra).
  assert (P1 : (1 - x) ^ n <= 1). { apply Rle_trans with (1 ^ n); [apply pow_incr; lra|rewrite pow1; lra]. } assert (x * (1 - x) ^ n <= x * 1) by (apply Rmult_le_compat_l; lra). lra.
Qed.
Lemma pow_upper x n : 0 <= x -> INR n * x <= / 2 -> (1 + x) ^ n <= 1 + 2 * (INR n * x).
Proof.
  intros Hx. induction n as [|n IH]; intros H; [cbn; lra|]. rewrite S_INR in *. cbn [pow]. pose proof (pos_INR n). assert (0 <= INR n * x) by (apply Rmult_le_pos; lra).
  specialize (IH ltac:(lra)). assert (x * (1 + x) ^ n <= x * 2) by (apply Rmult_le_compat_l; lra). lra.
Qed.
(** Over any number of pushes (up to about 10^11), however the boundary conditions move the particle: the square of the speed has changed by at
    most 9200 unit roundoffs per push. *)
Theorem C109_run (contract : nat -> nat -> list bool -> bool) (bc : nat -> v2 -> v2) (dt : R) (B : v3) (coef : R) (n : nat) (p p' : cpart) :
  gyration_ok dt B coef p -> / 2 ^ 500 <= speed2 (cp_V p) <= 2 ^ 500 -> INR n * (4600 * unit_roundoff) <= / 2 -> boris_run_d contract bc dt B coef n p = Some p' ->
  Rabs (speed2 (cp_V p') - speed2 (cp_V p)) <= INR n * (9200 * unit_roundoff) * speed2 (cp_V p).
Proof.
  intros G [S1 S2] Hn R. change (4600 * unit_roundoff) with rate in Hn. pose proof rate_small as RS.
  pose proof (pow_lower rate n ltac:(lra)) as P1. pose proof (pow_upper rate n ltac:(lra) Hn) as P2.
  assert (I : 0 < / 2 ^ 500) by (apply Rinv_0_lt_compat, pow_lt; lra). set (s := speed2 (cp_V p)) in *.
  assert (Q1 : (1 - INR n * rate) * s <= (1 - rate) ^ n * s) by (apply Rmult_le_compat_r; lra).
  assert (Q2 : (1 + rate) ^ n * s <= (1 + 2 * (INR n * rate)) * s) by (apply Rmult_le_compat_r; lra).
  assert (nr : 0 <= INR n * rate) by (apply Rmult_le_pos; [apply pos_INR|lra]).
  assert (H1 : / 2 * s <= (1 - INR n * rate) * s) by (apply Rmult_le_compat_r; lra).
  assert (H2 : (1 + 2 * (INR n * rate)) * s <= 2 * s) by (apply Rmult_le_compat_r; lra).
  destruct (run_speed contract bc dt B coef n p p' G) as [Y1 Y2]; auto; try fold s.
  - apply Rle_trans with (/ 2 * s); [|lra]. apply Rle_trans with (/ 2 * / 2 ^ 500); [|lra]. rewrite <- Rinv_mult. change (2 * 2 ^ 500) with (2 ^ 501). apply Rinv_le_contravar; [apply pow_lt; lra|apply Rle_pow; [lra|lia]].
  - apply Rle_trans with (2 * s); [lra|]. apply Rle_trans with (2 ^ 501); [change (2 ^ 501) with (2 * 2 ^ 500); lra|apply Rle_pow; [lra|lia]].
  - fold s in Y1, Y2. replace (INR n * (9200 * unit_roundoff) * s) with (2 * (INR n * rate) * s) by (unfold rate; ring).
    assert (0 <= INR n * rate * s) by (apply Rmult_le_pos; lra). apply Rabs_le. lra.
Qed.
Print Assumptions C109_run.

(** Not exactly: a quarter turn about z of a particle with V = (1, 2^-60, 0) loses the small component. *)
Definition speck : R := / 1152921504606846976.
Definition gyrating : cpart := {| cp_P := (0, 0); cp_V := (1, speck, 0); cp_E := (0, 0); cp_Q := 1; cp_M := 1 |}.
Lemma big_1 k : 1 <= 2 ^ k. Proof. apply pow_R1_Rle. lra. Qed.
Lemma inv_big_1 k : 0 < / 2 ^ k <= 1.
Proof. pose proof (big_1 k). split; [apply Rinv_0_lt_compat; lra|]. rewrite <- Rinv_1. apply Rinv_le_contravar; lra. Qed.
Lemma ordinary_1 : ordinary 1.
Proof. split; [dbl 1%Z 0%Z|]. right. rewrite Rabs_R1. pose proof (big_1 200). pose proof (inv_big_1 200). lra. Qed.
Lemma ordinary_2 : ordinary 2.
Proof.
  split; [dbl 2%Z 0%Z|]. right. rewrite Rabs_pos_eq by lra. pose proof (inv_big_1 200). split; [lra|]. change (2 ^ 200) with (2 * 2 ^ 199). pose proof (big_1 199). lra.
Qed.
Lemma speck_double : is_double speck.
Proof. unfold speck. dbl 1%Z (-60)%Z. Qed.
Lemma gyrating_ok : push_ok 2 (0, 0, 1) 1 gyrating 1 /\ gyration_ok 2 (0, 0, 1) 1 gyrating /\ 1 * 1 <= speed2 (cp_V gyrating).
Proof.
  pose proof ordinary_0 as O0. pose proof ordinary_1 as O1. pose proof ordinary_2 as O2. pose proof speck_double as SD.
  assert (Z : forall b, Rabs b <= 1 -> Rabs (b * (1 / 1 * (2 / 2))) <= 1). { intros b Hb. replace (b * (1 / 1 * (2 / 2))) with b by field. auto. }
  assert (T : all3 (fun b => Rabs (b * (1 / 1 * (2 / 2))) <= 1) (0, 0, 1)). { unfold all3. repeat split; apply Z; rewrite ?Rabs_R0, ?Rabs_R1; lra. }
  assert (D : all3 is_double (1, speck, 0)) by (unfold all3; split; [apply O1|split; [auto|apply O0]]).
  assert (A : ordinary 2 /\ all3 ordinary (0, 0, 1) /\ ordinary 1 /\ ordinary 1 /\ ordinary 1 /\ 1 <> 0) by (unfold all3; split; [auto|split; [auto|split; [auto|split; [auto|split; [auto|lra]]]]]).
  split; [|split].
  - split; cbn [gyrating cp_V cp_E cp_P cp_Q cp_M]; auto.
    + split; [auto|]. unfold all3. rewrite Rabs_R1, Rabs_R0, Rabs_pos_eq by (unfold speck; lra). unfold speck. lra.
    + split; [split; auto|]. split; cbn [fst snd]; rewrite Rmult_0_l, Rmult_0_r, Rabs_R0; lra.
    + split; cbn [fst snd]; (split; [apply O0|rewrite Rabs_R0; apply pow_le; lra]).
    + pose proof (big_1 300). pose proof (inv_big_1 300). lra.
  - split; [|split; [|split]]; cbn [gyrating cp_V cp_E cp_P cp_Q cp_M]; auto.
  - cbn [gyrating cp_V]. unfold speed2, dot3. nra.
Qed.
Lemma fl_small_add : fl (speck + 1) = Some 1.
Proof.
  transitivity (Some (rnd (speck + 1))); [apply (fl_bpow _ 1); [lia|rewrite Rabs_pos_eq; unfold speck; cbn; lra]|]. f_equal.
  rewrite (rnd_val (speck + 1) (-52) 4503599627370496); [cbn; lra|unfold speck; cbn; lra|lia|]. apply Znearest_imp. apply Rabs_def1; unfold speck; cbn; lra.
Qed.
Lemma fl_small_sub : fl (-1 + speck) = Some (-1).
Proof.
  transitivity (Some (rnd (-1 + speck))); [apply (fl_bpow _ 1); [lia|rewrite Rabs_left; unfold speck; cbn; lra]|]. f_equal.
  replace (-1 + speck) with (- (1 - speck)) by ring. rewrite rnd_opp. replace (-1) with (- (1)) by ring. f_equal.
  rewrite (rnd_val (1 - speck) (-53) 9007199254740992); [cbn; lra|unfold speck; cbn; lra|lia|]. apply Znearest_imp. apply Rabs_def1; unfold speck; cbn; lra.
Qed.
Import P_NewtonD.
Ltac mulv x y z m k := eapply (ev_mul _ _ _ x y z m k); [|  |unfold speck; cbn; lra|unfold speck; cbn; lra|lia|lia].
Lemma ev_var env n v : env n = v -> ev env (EVar n) v. Proof. intros <- ct pl. reflexivity. Qed.
Lemma cross_vp contract at_ : cross_add_d contract at_ (1, speck, 0) (0, 0, 1) (1, speck, 0) = Some (1, -1, 0).
Proof.
  set (env := env3 (1, speck, 0) (0, 0, 1) (1, speck, 0)).
  assert (X : ev env (cross_add_e 0) 1).
  { eapply ev_add; [|apply ev_var; reflexivity|exact fl_small_add].
    eapply (ev_sub _ _ _ speck 0); [mulv speck 1 speck 1%Z (-60)%Z; apply ev_var; reflexivity|mulv 0 0 0 0%Z 0%Z; apply ev_var; reflexivity|].
    apply (fl_ex 1 (-60)); [ring|unfold speck; cbn; lra|lia|lia]. }
  assert (Y : ev env (cross_add_e 1) (-1)).
  { eapply ev_add; [|apply ev_var; reflexivity|exact fl_small_sub].
    eapply (ev_sub _ _ _ 0 1); [mulv 0 0 0 0%Z 0%Z; apply ev_var; reflexivity|mulv 1 1 1 1%Z 0%Z; apply ev_var; reflexivity|].
    apply (fl_ex (-1) 0); [ring|cbn; lra|lia|lia]. }
  assert (Z : ev env (cross_add_e 2) 0).
  { eapply (ev_add _ _ _ 0 0); [|apply ev_var; reflexivity|apply (fl_ex 0 0); [ring|cbn; lra|lia|lia]].
    eapply (ev_sub _ _ _ 0 0); [mulv 1 0 0 0%Z 0%Z; apply ev_var; reflexivity|mulv speck 0 0 0%Z 0%Z; apply ev_var; reflexivity|].
    apply (fl_ex 0 0); [ring|cbn; lra|lia|lia]. }
  unfold cross_add_d. fold env. rewrite X, Y, Z. reflexivity.
Qed.
Lemma cross_vq contract at_ : cross_add_d contract at_ (1, -1, 0) (0, 0, 1) (1, speck, 0) = Some (0, -1, 0).
Proof.
  set (env := env3 (1, -1, 0) (0, 0, 1) (1, speck, 0)).
  assert (X : ev env (cross_add_e 0) 0).
  { eapply (ev_add _ _ _ (-1) 1); [|apply ev_var; reflexivity|apply (fl_ex 0 0); [ring|cbn; lra|lia|lia]].
    eapply (ev_sub _ _ _ (-1) 0); [mulv (-1) 1 (-1) (-1)%Z 0%Z; apply ev_var; reflexivity|mulv 0 0 0 0%Z 0%Z; apply ev_var; reflexivity|].
    apply (fl_ex (-1) 0); [ring|cbn; lra|lia|lia]. }
  assert (Y : ev env (cross_add_e 1) (-1)).
  { eapply ev_add; [|apply ev_var; reflexivity|exact fl_small_sub].
    eapply (ev_sub _ _ _ 0 1); [mulv 0 0 0 0%Z 0%Z; apply ev_var; reflexivity|mulv 1 1 1 1%Z 0%Z; apply ev_var; reflexivity|].
    apply (fl_ex (-1) 0); [ring|cbn; lra|lia|lia]. }
  assert (Z : ev env (cross_add_e 2) 0).
  { eapply (ev_add _ _ _ 0 0); [|apply ev_var; reflexivity|apply (fl_ex 0 0); [ring|cbn; lra|lia|lia]].
    eapply (ev_sub _ _ _ 0 0); [mulv 1 0 0 0%Z 0%Z; apply ev_var; reflexivity|mulv (-1) 0 0 0%Z 0%Z; apply ev_var; reflexivity|].
    apply (fl_ex 0 0); [ring|cbn; lra|lia|lia]. }
  unfold cross_add_d. fold env. rewrite X, Y, Z. reflexivity.
Qed.
Lemma ma fused a b c z m k m' k' : a * b = IZR m * bpow radix2 k -> a * b + c = z -> z = IZR m' * bpow radix2 k' ->
  (Z.abs m <= 2 ^ 53)%Z -> (-1074 <= k <= 900)%Z -> (Z.abs m' <= 2 ^ 53)%Z -> (-1074 <= k' <= 900)%Z -> mul_add fused a b c = Some z.
Proof. intros E <- E'. apply mul_add_is; auto. Qed.
Theorem C109_exact_refuted : push_ok 2 (0, 0, 1) 1 gyrating 1 /\ forall contract, exists p', boris_d contract 2 (0, 0, 1) 1 gyrating = Some p' /\
  cp_V p' = (0, -1, 0) /\ speed2 (cp_V p') < speed2 (cp_V gyrating).
Proof.
  split; [apply gyrating_ok|]. intros contract. unfold boris_d. cbn [gyrating cp_V cp_E cp_P cp_Q cp_M].
  assert (T : boris_t_d 2 (0, 0, 1) 1 1 = Some (1, (0, 0, 1))).
  { unfold boris_t_d. rewrite (fl_ex 1 0 (2 * (1 / 2)) 1) by (try lia; cbn; lra). cbn [bind]. unfold div_d. rewrite Req_bool_false by lra.
    rewrite (fl_ex 1 0 (1 / 1) 1) by (try lia; cbn; lra). cbn [bind]. rewrite (fl_ex 1 0 (1 * 1) 1) by (try lia; cbn; lra). cbn [bind].
    rewrite (fl_ex 0 0 (0 * 1) 0) by (try lia; cbn; lra). cbn [bind]. rewrite (fl_ex 1 0 (1 * 1) 1) by (try lia; cbn; lra). reflexivity. }
  rewrite T. cbn [bind].
  assert (S : boris_s_d contract (0, 0, 1) = Some (0, 0, 1)).
  { unfold boris_s_d. set (env := env3 (0, 0, 1) (0, 0, 1) (0, 0, 1)).
    assert (D : ev env den_e 2).
    { eapply (ev_add _ _ _ 1 1); [intros ct pl; cbn; f_equal; lra| |apply (fl_ex 2 0); [ring|cbn; lra|lia|lia]].
      eapply (ev_add _ _ _ 0 1); [|mulv 1 1 1 1%Z 0%Z; apply ev_var; reflexivity|apply (fl_ex 1 0); [ring|cbn; lra|lia|lia]].
      eapply (ev_add _ _ _ 0 0); [mulv 0 0 0 0%Z 0%Z; apply ev_var; reflexivity|mulv 0 0 0 0%Z 0%Z; apply ev_var; reflexivity|apply (fl_ex 0 0); [ring|cbn; lra|lia|lia]]. }
    rewrite D. cbn [bind]. unfold div_d. rewrite Req_bool_false by lra. rewrite (fl_ex 1 0 (2 / 2) 1) by (try lia; cbn; lra). cbn [bind].
    rewrite (fl_ex 0 0 (1 * 0) 0) by (try lia; cbn; lra). cbn [bind]. rewrite (fl_ex 1 0 (1 * 1) 1) by (try lia; cbn; lra). reflexivity. }
  rewrite S. cbn [bind]. rewrite (fl_ex 0 0 (- 0 * 1) 0) by (try lia; cbn; lra). cbn [bind].
  rewrite (ma _ 0 1 1 1 0 0 1 0) by (try lia; cbn; lra). cbn [bind]. rewrite (ma _ 0 1 speck speck 0 0 1 (-60)) by (try lia; unfold speck; cbn; lra). cbn [bind].
  rewrite cross_vp. cbn [bind]. rewrite cross_vq. cbn [bind].
  rewrite (ma _ 0 1 0 0 0 0 0 0) by (try lia; cbn; lra). cbn [bind]. rewrite (ma _ 0 1 (-1) (-1) 0 0 (-1) 0) by (try lia; cbn; lra). cbn [bind].
  rewrite (ma _ 2 0 0 0 0 0 0 0) by (try lia; cbn; lra). cbn [bind]. rewrite (ma _ 2 (-1) 0 (-2) (-2) 0 (-2) 0) by (try lia; cbn; lra). cbn [bind].
  eexists. split; [reflexivity|]. cbn [cp_V]. split; [reflexivity|]. unfold speed2, dot3, speck. lra.
Qed.
Print Assumptions C109_exact_refuted.
(** A non-trivial case: this particle meets the hypotheses of the theorems above, and its exact push is a quarter turn. *)
Example C109_applied : push_ok 2 (0, 0, 1) 1 gyrating 1 /\ gyration_ok 2 (0, 0, 1) 1 gyrating /\ 1 * 1 <= speed2 (cp_V gyrating) /\ / 2 ^ 500 <= speed2 (cp_V gyrating) <= 2 ^ 500 /\
  INR 1000 * (4600 * unit_roundoff) <= / 2 /\ lorentz_step 2 (0, 0, 1) 1 1 1 (0, 0) (1, speck, 0) (speck, -1, 0).
Proof.
  destruct gyrating_ok as (A & B & C). split; [auto|]. split; [auto|]. split; [auto|]. split; [|split].
  - cbn [gyrating cp_V] in *. pose proof (inv_big_1 500). split; [lra|]. change (2 ^ 500) with (2 * 2 ^ 499). pose proof (big_1 499).
    unfold speed2, dot3, speck. lra.
  - rewrite u_eq. pose proof u_pos. assert (Y : INR 1000 <= 1000) by (rewrite INR_IZR_INZ; cbn; lra). pose proof (pos_INR 1000).
    assert (U : u <= / 1000000000) . { rewrite <- u_eq. unfold unit_roundoff. apply Rinv_le_contravar; [lra|]. cbn. lra. }
    assert (INR 1000 * (4600 * u) <= 1000 * (4600 * u)) by (apply Rmult_le_compat_r; lra). lra.
  - unfold lorentz_step, scal3, sub3, add3, cross3, up. cbn [fst snd]. apply triple_eq. repeat split; field.
Qed.
