(** Lemmas for C114: the table, the recurrence and the rows. *)
From Flocq Require Import Core.
From Verif Require Import M_RealBase L_RealBase M_Loop L_Loop M_Grid M_Double S_Double L_Double L_Double2 M_BorisD L_SumD L_BaryD P_BaryD S_Jacobi L_Jacobi L_Basis1 S_Basis M_BasisD S_BasisD L_BasisD.
From Coq Require Import Reals Lra Lia ZArith Bool List.
Import ListNotations.
Open Scope R_scope.

(** * Integers *)
Lemma dbl_Z z : (Z.abs z <= 2 ^ 53)%Z -> is_double (IZR z).
Proof.
  intros H. apply is_double_fmt. split; [apply fmt_Z; auto|]. rewrite <- abs_IZR. apply Rle_lt_trans with (bpow radix2 53); [|apply bpow_lt; lia].
  change (bpow radix2 53) with (IZR (2 ^ 53)). apply IZR_le. auto.
Qed.
Lemma fl_Z x z : x = IZR z -> (Z.abs z <= 2 ^ 53)%Z -> fl x = Some (IZR z).
Proof. intros -> H. apply fl_exact, dbl_Z; auto. Qed.
Lemma Z_le_abs a : (a <= Z.abs a)%Z. Proof. lia. Qed.
Lemma zmul a b A B : (Z.abs a <= A)%Z -> (Z.abs b <= B)%Z -> (Z.abs (a * b) <= A * B)%Z.
Proof. intros. rewrite Z.abs_mul. apply Z.mul_le_mono_nonneg; auto; apply Z.abs_nonneg. Qed.
Lemma okm_big m : / 2 ^ 100 <= m <= 2 ^ 800 -> okm m.
Proof. intros [A B]. split; [right; eapply Rle_trans; [apply (pw 100 900); lia|auto]|]. eapply Rle_trans; [exact B|]. apply Rle_pow; [lra|lia]. Qed.
Lemma okm_0 : okm 0. Proof. split; [left; auto|apply pow_le; lra]. Qed.
(** an integer times the rounded inverse of another *)
Lemma ratio_nd num den : (1 <= den <= 2 ^ 40)%Z -> (Z.abs num <= 2 ^ 40)%Z -> exists ic r,
  div_d 1 (IZR den) = Some ic /\ fl (ic * IZR num) = Some r /\ nd 4 r (IZR num / IZR den) (Rabs (IZR num / IZR den)) /\ okm (Rabs (IZR num / IZR den)).
Proof.
  intros HD HN. assert (D : 1 <= IZR den <= 2 ^ 40). { split; [apply IZR_le; lia|]. replace (2 ^ 40) with (IZR (2 ^ 40)) by (cbn; lra). apply IZR_le. lia. }
  assert (N : Rabs (IZR num) <= 2 ^ 40). { rewrite <- abs_IZR. replace (2 ^ 40) with (IZR (2 ^ 40)) by (cbn; lra). apply IZR_le. lia. }
  assert (I : / 2 ^ 40 <= / IZR den <= 1). { split; [apply Rinv_le_contravar; lra|]. rewrite <- Rinv_1. apply Rinv_le_contravar; lra. }
  assert (P40 : / 2 ^ 100 <= / 2 ^ 40) by (apply pw; lia). assert (p40 : 0 < / 2 ^ 40) by (apply Rinv_0_lt_compat, pow_lt; lra). assert (P80 : 1 <= 2 ^ 800) by (apply pow_R1_Rle; lra). assert (P48 : 2 ^ 40 <= 2 ^ 800) by (apply Rle_pow; [lra|lia]).
  assert (E : 1 / IZR den = / IZR den) by (unfold Rdiv; ring).
  destruct (rnd_nd 0 (/ IZR den) (/ IZR den) (/ IZR den)) as (ic & Ei & Ni); [pose proof (near_refl (g 0) (/ IZR den) (g_ge1 0)) as X; rewrite (Rabs_pos_eq (/ IZR den)) in X by lra; exact X|apply okm_big; lra|lia|].
  assert (OK : okm (Rabs (IZR num / IZR den))).
  { destruct (Z.eq_dec num 0) as [->|Z0]; [unfold Rdiv; rewrite Rmult_0_l, Rabs_R0; apply okm_0|]. apply okm_big. unfold Rdiv. rewrite Rabs_mult, (Rabs_pos_eq (/ IZR den)) by lra.
    assert (1 <= Rabs (IZR num)) by (rewrite <- abs_IZR; apply IZR_le; lia). split.
    - rewrite <- (Rmult_1_l (/ 2 ^ 100)). apply Rmult_le_compat; lra.
    - replace (2 ^ 800) with (2 ^ 800 * 1) by ring. apply Rmult_le_compat; lra. }
  assert (Em : Rabs (IZR num / IZR den) = / IZR den * Rabs (IZR num)) by (unfold Rdiv; rewrite Rabs_mult, (Rabs_pos_eq (/ IZR den)) by lra; ring).
  destruct (nd_mul _ _ _ _ _ _ _ _ Ni (nd_exact (IZR num) (Rabs (IZR num)) (dbl_Z num ltac:(lia)) ltac:(lra))) as (r & Er & Nr); [rewrite <- Em; auto|lia|].
  exists ic, r. split; [unfold div_d; rewrite Req_bool_false by lra; rewrite E; auto|]. split; [auto|]. split; [|auto].
  replace (IZR num / IZR den) with (/ IZR den * IZR num) at 1 by (unfold Rdiv; ring). rewrite Em. exact Nr.
Qed.
Lemma bind_to {A B} (o : option A) x (f : A -> option B) r : o = Some x -> f x = r -> bind o f = r.
Proof. intros -> H. exact H. Qed.
Ltac zeq := rewrite <- ?mult_IZR, <- ?plus_IZR, <- ?minus_IZR; first [reflexivity|apply f_equal; lia].
Ltac zle := lia.
Ltac zs v := eapply bind_to; [apply (fl_Z _ v)|cbv beta].
Lemma entry_d alpha n : (alpha <= 510)%nat -> (S (S n) <= 64)%nat -> let a := INR alpha in let m := INR (S (S n)) in exists k10 k11 k2,
  table_entry_d alpha (S (S n)) = Some (k10, k11, k2) /\
  nd 4 k10 (e10 a m) (e10 a m) /\ nd 4 k11 (e11 a m) (Rabs (e11 a m)) /\ nd 4 k2 (e2 a m) (Rabs (e2 a m)) /\
  okm (e10 a m) /\ okm (Rabs (e11 a m)) /\ okm (Rabs (e2 a m)).
Proof.
  intros HA HN a m. assert (Ha : a = INR alpha) by reflexivity. assert (Hm : m = INR (S (S n))) by reflexivity. clearbody a m.
  assert (X : exists A, INR alpha = IZR A /\ (0 <= A <= 510)%Z) by (exists (Z.of_nat alpha); split; [apply INR_IZR_INZ|lia]). destruct X as (A & EA & BA).
  assert (X : exists N, INR (S (S n)) = IZR N /\ (2 <= N <= 64)%Z) by (exists (Z.of_nat (S (S n))); split; [apply INR_IZR_INZ|lia]). destruct X as (N & EN & BN).
  assert (Ea : a = IZR A) by (rewrite Ha; exact EA). assert (Em : m = IZR N) by (rewrite Hm; exact EN).
  assert (X : exists c, c = (2 * N + A + 1)%Z) by eauto. destruct X as (c & Ec). assert (X : exists den, den = (2 * N * (c - N) * (c - 2))%Z) by eauto. destruct X as (den & Ed).
  assert (Bc : (5 <= c <= 639)%Z) by lia.
  assert (P2 : (1 <= 2 * N * (c - N) <= 128 * 575)%Z). { assert (3 <= c - N <= 575)%Z by lia. split; [nia|]. eapply Z.le_trans; [apply Z_le_abs|]. apply (zmul (2 * N) (c - N) 128 575); lia. }
  assert (Bden : (1 <= den <= 2 ^ 40)%Z). { assert (3 <= c - 2 <= 637)%Z by lia. rewrite Ed. split; [nia|]. transitivity (128 * 575 * 637)%Z; [apply Z.mul_le_mono_nonneg; lia|lia]. }
  assert (B10 : (Z.abs ((c - 1) * c * (c - 2)) <= 2 ^ 40)%Z). { transitivity (638 * 639 * 637)%Z; [|lia]. apply zmul; [apply zmul; lia|lia]. }
  assert (B11 : (Z.abs ((c - 1) * (A - 1) * (c - 2 * N)) <= 2 ^ 40)%Z). { transitivity (638 * 510 * 511)%Z; [|lia]. apply zmul; [apply zmul; lia|lia]. }
  assert (B2 : (Z.abs (-2 * (N + A - 1) * N * c) <= 2 ^ 40)%Z). { transitivity (2 * 574 * 64 * 639)%Z; [|lia]. apply zmul; [apply zmul; [apply zmul; lia|lia]|lia]. }
  destruct (ratio_nd _ _ Bden B10) as (ic & k10 & Ei & E10 & N10 & O10). destruct (ratio_nd _ _ Bden B11) as (ic' & k11 & Ei' & E11 & N11 & O11). destruct (ratio_nd _ _ Bden B2) as (ic'' & k2 & Ei'' & E2 & N2 & O2).
  rewrite Ei in Ei', Ei''. injection Ei' as <-. injection Ei'' as <-.
  assert (RA : 0 <= a) by (rewrite Ea; apply IZR_le; lia). assert (RM : 2 <= m) by (rewrite Em; apply IZR_le; lia).
  assert (F10 : IZR ((c - 1) * c * (c - 2)) / IZR den = e10 a m).
  { rewrite Ed, Ec; unfold e10. repeat rewrite ?mult_IZR, ?minus_IZR, ?plus_IZR. rewrite <- Ea, <- Em. field. repeat split; lra. }
  assert (F11 : IZR ((c - 1) * (A - 1) * (c - 2 * N)) / IZR den = e11 a m).
  { rewrite Ed, Ec; unfold e11. repeat rewrite ?mult_IZR, ?minus_IZR, ?plus_IZR. rewrite <- Ea, <- Em. field. repeat split; lra. }
  assert (F2 : IZR (-2 * (N + A - 1) * N * c) / IZR den = e2 a m).
  { rewrite Ed, Ec; unfold e2. repeat rewrite ?mult_IZR, ?minus_IZR, ?plus_IZR. rewrite <- Ea, <- Em. field. repeat split; lra. }
  rewrite F10 in N10, O10. rewrite F11 in N11, O11. rewrite F2 in N2, O2. pose proof (e10_range a m RA RM). rewrite (Rabs_pos_eq (e10 a m)) in N10, O10 by lra.
  exists k10, k11, k2. split; [|tauto].
  assert (C1 : (Z.abs ((c - 1) * c) <= 638 * 639)%Z) by (apply zmul; lia). assert (C2 : (Z.abs ((c - 1) * (A - 1)) <= 638 * 510)%Z) by (apply zmul; lia).
  assert (C3 : (Z.abs (-2 * (N + A - 1) * N) <= 2 * 574 * 64)%Z) by (apply zmul; [apply zmul; lia|lia]).
  unfold table_entry_d. cbv zeta. rewrite !plus_INR. rewrite EA, EN. change (INR 1) with (IZR 1). rewrite <- !plus_IZR.
  zs (c)%Z; [zeq|zle|].
  zs (2 * N)%Z; [zeq|zle|].
  zs (c - N)%Z; [zeq|zle|].
  zs (2 * N * (c - N))%Z; [zeq|zle|].
  zs (c - 2)%Z; [zeq|zle|].
  zs (den)%Z; [zeq|zle|].
  zs (c - 1)%Z; [zeq|zle|].
  zs ((c - 1) * c)%Z; [zeq|zle|].
  zs ((c - 1) * c * (c - 2))%Z; [zeq|zle|].
  zs (A - 1)%Z; [zeq|zle|].
  zs ((c - 1) * (A - 1))%Z; [zeq|zle|].
  zs (c - 2 * N)%Z; [zeq|zle|].
  zs ((c - 1) * (A - 1) * (c - 2 * N))%Z; [zeq|zle|].
  zs (N + A - 1)%Z; [zeq|zle|].
  zs (-2 * (N + A - 1))%Z; [zeq|zle|].
  zs (N)%Z; [zeq|zle|].
  zs (-2 * (N + A - 1) * N)%Z; [zeq|zle|].
  zs (-2 * (N + A - 1) * N * c)%Z; [zeq|zle|].
  do 3 (eapply bind_to; [eassumption|cbv beta]). eapply bind_to; [exact E2|]. reflexivity.
Qed.
Lemma jd_data_eq mn ma : jd_data (make_table_d mn ma) = flat_map (fun a => map (table_entry_d a) (seq 0 (mn + 1))) (seq 0 (ma + 1)).
Proof.
  unfold make_table_d. cbn [jd_data]. rewrite (forr_app (ma + 1) _ (fun a => map (table_entry_d a) (seq 0 (mn + 1)))); [auto|].
  intros a s _. rewrite (forr_app (mn + 1) _ (fun nx => [table_entry_d a nx])) by auto. rewrite flat_map_one. auto.
Qed.
Lemma jd_read mn ma alpha nx : (nx <= mn)%nat -> (alpha <= ma)%nat ->
  nth_error (jd_data (make_table_d mn ma)) (jd_stride (make_table_d mn ma) * alpha + nx) = Some (table_entry_d alpha nx).
Proof.
  intros H1 H2. rewrite jd_data_eq. cbn [jd_stride make_table_d].
  rewrite (nth_error_flat_map _ (mn + 1) _ alpha nx alpha).
  - apply nth_error_map_seq. lia.
  - intros. rewrite map_length, seq_length. auto.
  - apply nth_error_seq. lia.
  - lia.
Qed.

(** * The recurrence *)
Definition zok (z : R) : Prop := is_double z /\ -1 <= z <= 1.
Definition jac (K : nat) (v : option R) (alpha n : nat) (z : R) : Prop := exists p, v = Some p /\ nd K p (Jacobi alpha 1 n z) (growth alpha n).
Lemma mul_ge1 m G : small_or m -> 1 <= G -> small_or (m * G).
Proof.
  intros [->|H] HG; [left; ring|right]. apply Rle_trans with (m * 1); [lra|]. apply Rmult_le_compat_l; [|auto].
  apply Rle_trans with (/ 2 ^ 900); [left; apply Rinv_0_lt_compat, pow_lt; lra|auto].
Qed.
Lemma recur_nd F mn ma alpha n z K pnm1 pnm2 : zok z -> (S (S n) <= mn)%nat -> (alpha <= ma)%nat -> (S (S n) <= 64)%nat -> (alpha <= 510)%nat -> (K <= 3900)%nat ->
  jac K pnm1 alpha (S n) z -> jac K pnm2 alpha n z -> jac (K + 14) (recur_d F (make_table_d mn ma) alpha (S (S n)) z pnm1 pnm2) alpha (S (S n)) z.
Proof.
  intros [Dz Bz] Hn Ha HN HA HK (p & -> & Np) (q & -> & Nq). unfold recur_d. rewrite jd_read by auto.
  destruct (entry_d alpha n HA HN) as (k10 & k11 & k2 & -> & N10 & N11 & N2 & O10 & O11 & O2). set (a := INR alpha) in *. set (m := INR (S (S n))) in *.
  pose proof (growth_range alpha (S n)) as [G1 _]. pose proof (growth_range alpha n) as [G0 _]. pose proof (growth_SS alpha n) as GS. cbv zeta in GS. fold a m in GS.
  pose proof (growth_640 alpha (S (S n)) HA HN) as U. rewrite GS in U. pose proof (nd_pos _ _ _ _ N10) as P10. pose proof (nd_pos _ _ _ _ N11) as P11. pose proof (nd_pos _ _ _ _ N2) as P2.
  assert (U9 : 2 ^ 640 <= 2 ^ 900) by (apply Rle_pow; [lra|lia]).
  assert (Q10 : 0 <= e10 a m * growth alpha (S n)) by (apply Rmult_le_pos; lra). assert (Q11 : 0 <= Rabs (e11 a m) * growth alpha (S n)) by (apply Rmult_le_pos; lra).
  assert (Q2 : 0 <= Rabs (e2 a m) * growth alpha n) by (apply Rmult_le_pos; lra).
  assert (S10 : small_or (e10 a m * growth alpha (S n))) by (apply mul_ge1; [apply O10|auto]). assert (S11 : small_or (Rabs (e11 a m) * growth alpha (S n))) by (apply mul_ge1; [apply O11|auto]).
  assert (S2 : small_or (Rabs (e2 a m) * growth alpha n)) by (apply mul_ge1; [apply O2|auto]).
  cbn [bind]. destruct (nd_mul _ _ _ _ _ _ _ _ N10 Np) as (t & Et & Nt); [split; [auto|lra]|lia|]. rewrite Et. cbn [bind].
  assert (Nz : nd 0 z z 1) by (apply nd_exact; [auto|apply Rabs_le; lra]).
  destruct (nd_add2 (fst F) (K + 6) _ _ _ _ _ _ _ _ _ _ _ _ _ _ _ _ Nt Nz N11 Np) as (s & Es & Ns); [lia|lia|lia|rewrite Rmult_1_r; auto|auto|lra|]. rewrite Es. cbn [bind].
  assert (Ss : small_or (e10 a m * growth alpha (S n) * 1 + Rabs (e11 a m) * growth alpha (S n))) by (rewrite Rmult_1_r; apply small_sum; auto).
  destruct (nd_ma (snd F) _ _ _ _ _ _ _ _ _ _ _ _ N2 Nq Ns) as (r & Er & Nr); [lia|lia|auto|auto|lra|]. exists r. split; [auto|].
  replace (Jacobi alpha 1 (S (S n)) z) with (e2 a m * Jacobi alpha 1 n z + (e10 a m * Jacobi alpha 1 (S n) z * z + e11 a m * Jacobi alpha 1 (S n) z)) by (rewrite <- jac_rec; fold a m; ring).
  rewrite GS. apply (nd_m _ _ _ (Rabs (e2 a m) * growth alpha n + (e10 a m * growth alpha (S n) * 1 + Rabs (e11 a m) * growth alpha (S n)))); [right; ring|].
  eapply nd_le; [|exact Nr]. lia.
Qed.
Lemma dbl_INR n : (n <= 2000)%nat -> is_double (INR n).
Proof. intros H. rewrite INR_IZR_INZ. apply dbl_Z. lia. Qed.
Lemma jac_0 alpha z : jac 0 (Some 1) alpha 0 z.
Proof. exists 1. split; [auto|]. rewrite Jacobi_0. change (growth alpha 0) with 1. apply nd_exact; [apply (dbl_Z 1); lia|rewrite Rabs_pos_eq; lra]. Qed.
Lemma d_nd z : zok z -> exists d, fl (z - 1) = Some d /\ nd 2 d (z - 1) 2.
Proof.
  intros [D B]. apply (rnd_nd 0); [|apply okm_big; split|lia].
  - destruct (nd_m 0 0 0 0 2 ltac:(lra)) as [_ _]; [apply nd_exact; [apply dbl_0|rewrite Rabs_R0; lra]|]. split; [apply g_ge1|]. split; [apply Rabs_le; lra|].
    rewrite Rminus_diag_eq, Rabs_R0 by auto. pose proof (g_ge1 0). lra.
  - apply Rle_trans with (/ 2 ^ 0); [apply pw; lia|cbn; lra]. - apply Rle_trans with (2 ^ 1); [cbn; lra|apply Rle_pow; [lra|lia]].
Qed.
Lemma half_nd K x y m : nd K x y m -> okm (/ 2 * m) -> (K <= 3990)%nat -> exists r, fl (1 / 2 * x) = Some r /\ nd (K + 2) r (y / 2) (m / 2).
Proof.
  intros N O H. assert (D : is_double (1 / 2)). { apply is_double_fmt. split; [|rewrite Rabs_pos_eq by lra; apply Rlt_trans with (bpow radix2 0); [cbn; lra|apply bpow_lt; lia]].
    replace (1 / 2) with (bpow radix2 (-1)) by (cbn; lra). apply fmt_bpow. lia. }
  destruct (nd_mul 0 K _ _ (/ 2) _ _ _ (nd_exact (1 / 2) (/ 2) D ltac:(rewrite Rabs_pos_eq; lra)) N O) as (r & E & N'); [lia|]. exists r. split; [auto|].
  replace (y / 2) with (1 / 2 * y) by field. replace (m / 2) with (/ 2 * m) by field. auto.
Qed.
Lemma first_nd f alpha z : zok z -> (alpha <= 510)%nat -> jac 8 (first_d f alpha z) alpha 1 z.
Proof.
  intros Z HA. unfold first_d. destruct (d_nd z Z) as (d & -> & Nd). cbn [bind]. pose proof (pos_INR alpha) as A. assert (B : INR alpha <= 510). { apply le_INR in HA. replace 510 with (INR 510) by (rewrite INR_IZR_INZ; apply f_equal; reflexivity). auto. }
  assert (E : fl (2 * INR (alpha + 1)) = Some (INR (2 * (alpha + 1)))).
  { rewrite (mult_INR 2). change (INR 2) with (1 + 1). replace (1 + 1) with 2 by ring. apply fl_exact. replace 2 with (INR 2) by (cbn; lra). rewrite <- mult_INR. apply dbl_INR. lia. }
  rewrite E. cbn [bind]. assert (D3 : is_double (INR (alpha + 3))) by (apply dbl_INR; lia). assert (D2 : is_double (INR (2 * (alpha + 1)))) by (apply dbl_INR; lia).
  assert (E3 : INR (alpha + 3) = INR alpha + 3) by (rewrite plus_INR; cbn; lra). assert (E2 : INR (2 * (alpha + 1)) = 2 * (INR alpha + 1)) by (rewrite mult_INR, plus_INR; cbn; lra).
  assert (OK : forall x, 1 <= x <= 10000 -> okm x). { intros x Hx. apply okm_big. split; [apply Rle_trans with (/ 2 ^ 0); [apply pw; lia|cbn; lra]|apply Rle_trans with (2 ^ 20); [cbn; lra|apply Rle_pow; [lra|lia]]]. }
  destruct (nd_ma f 2 _ _ _ _ _ _ (INR alpha + 3) 2 (2 * (INR alpha + 1)) 0 2 (nd_exact _ (INR alpha + 3) D3 ltac:(rewrite E3, Rabs_pos_eq; lra)) Nd (nd_le 0 2 _ _ _ ltac:(lia) (nd_exact _ (2 * (INR alpha + 1)) D2 ltac:(rewrite E2, Rabs_pos_eq; lra))))
    as (s & Es & Ns); [lia|lia|apply OK; lra|apply OK; lra|apply OK; lra|]. rewrite Es. cbn [bind].
  destruct (half_nd _ _ _ _ Ns) as (r & Er & Nr); [apply OK; lra|lia|]. exists r. split; [auto|]. rewrite Jacobi_1. change (growth alpha 1) with (2 * INR alpha + 4). rewrite E3, E2 in Nr.
  match goal with |- nd _ _ ?y _ => replace y with (((INR alpha + 3) * (z - 1) + 2 * (INR alpha + 1)) / 2) by (cbn [INR]; field) end.
  apply (nd_m _ _ _ (((INR alpha + 3) * 2 + 2 * (INR alpha + 1)) / 2)); [right; field|auto].
Qed.
Lemma first_A_nd f z : zok z -> jac 8 (first_A_d f z) 1 1 z.
Proof.
  intros Z. unfold first_A_d. destruct (d_nd z Z) as (d & -> & Nd). cbn [bind]. assert (D2 : is_double 2) by (apply (dbl_Z 2); lia).
  assert (OK : forall x, 1 <= x <= 10000 -> okm x). { intros x Hx. apply okm_big. split; [apply Rle_trans with (/ 2 ^ 0); [apply pw; lia|cbn; lra]|apply Rle_trans with (2 ^ 20); [cbn; lra|apply Rle_pow; [lra|lia]]]. }
  pose proof (nd_exact 2 2 D2 ltac:(rewrite Rabs_pos_eq; lra)) as N2.
  destruct (nd_ma f 2 _ _ _ _ _ _ _ _ _ _ _ N2 Nd (nd_le 0 2 _ _ _ ltac:(lia) N2)) as (r & Er & Nr); [lia|lia|apply OK; lra|apply OK; lra|apply OK; lra|]. exists r. split; [auto|].
  rewrite Jacobi_1. change (growth 1 1) with (2 * 1 + 4). match goal with |- nd _ _ ?y _ => replace y with (2 * (z - 1) + 2) by (cbn [INR]; field) end. eapply nd_le; [|apply (nd_m _ _ _ (2 * 2 + 2)); [lra|exact Nr]]. lia.
Qed.
Lemma host_nd F mn ma n alpha z : zok z -> (n <= mn)%nat -> (alpha <= ma)%nat -> (n <= 64)%nat -> (alpha <= 510)%nat -> jac (14 * n) (host_evaluate_d F (make_table_d mn ma) n alpha z) alpha n z.
Proof.
  intros Z Hn Ha HN HA. unfold host_evaluate_d. destruct n as [|n]; [apply jac_0|]. cbn [Nat.eqb].
  pose proof (first_nd (snd (F 1%nat)) alpha z Z HA) as J1. assert (W : forall K K' v a m, (K <= K')%nat -> jac K v a m z -> jac K' v a m z) by (intros K K' v a m L (p & E & N); exists p; split; [auto|eapply nd_le; eauto]).
  destruct n as [|n]; [apply (W 8%nat); [lia|auto]|]. cbn [Nat.eqb]. replace (S (S n) - 1)%nat with (S n) by lia.
  match goal with |- jac _ (fst (forr _ ?b ?s)) _ _ _ => assert (G : forall k, (k <= S n)%nat -> jac (14 * S k) (fst (forr k b s)) alpha (S k) z /\ jac (14 * S k) (snd (forr k b s)) alpha k z) end.
  { intros k. induction k as [|k IH]; intros Hk.
    - split; [apply (W 8%nat); [lia|auto]|apply (W 0%nat); [lia|apply jac_0]].
    - destruct IH as [I1 I2]; [lia|]. rewrite forr_S. cbn [fst snd]. change (2 + k)%nat with (S (S k)). split.
      + apply (W (14 * S k + 14)%nat); [lia|]. apply recur_nd; auto; lia. + apply (W (14 * S k)%nat); [lia|auto]. }
  apply (G (S n)). lia.
Qed.
