(** The periodic boundary condition in double precision. *)
From Flocq Require Import Core Relative Plus_error Div_sqrt_error.
From Verif Require Import M_RealBase L_RealBase M_Grid M_Double S_Double L_Double.
Import ListNotations.
Open Scope R_scope.

Lemma rnd_twice x y : fmt x -> fmt y -> rnd (2 * (x - y)) = 2 * rnd (x - y).
Proof.
  intros Hx Hy. set (z := x - y).
  destruct (Rle_lt_dec (bpow radix2 (-1022)) (Rabs z)) as [B|B].
  - assert (Z0 : z <> 0). { intros E. rewrite E, Rabs_R0 in B. pose proof (bpow_gt_0 radix2 (-1022)). lra. }
    assert (T : 2 * z = z * bpow radix2 1) by (change (bpow radix2 1) with 2; ring).
    assert (Mz : (-1021 <= mag radix2 z)%Z).
    { apply mag_ge_bpow. exact B. }
    unfold rnd, round, scaled_mantissa, cexp. rewrite T, (mag_mult_bpow radix2 z 1 Z0).
    unfold dexp, FLT_exp. rewrite !Z.max_l by lia.
    replace (z * bpow radix2 1 * bpow radix2 (- (mag radix2 z + 1 - 53))) with (z * bpow radix2 (- (mag radix2 z - 53))).
    2:{ rewrite Rmult_assoc, <- bpow_plus. f_equal. f_equal. ring. }
    unfold F2R; cbn [Fnum Fexp].
    replace (mag radix2 z + 1 - 53)%Z with (mag radix2 z - 53 + 1)%Z by ring. rewrite bpow_plus. change (bpow radix2 1) with 2. ring.
  - assert (F : fmt z).
    { unfold z, Rminus. apply FLT_format_plus_small; [apply prec53|exact Hx|apply fmt_opp; exact Hy|].
      fold (x - y). fold z. left. eapply Rlt_trans; [exact B|]. apply bpow_lt. lia. }
    rewrite (rnd_id z F). apply rnd_id. apply fmt_double; auto.
    eapply Rlt_trans; [exact B|]. apply bpow_lt. lia.
Qed.

Definition period_ok (lo e x : R) : Prop := 1 <= e \/ - (2 * e) <= rnd (x - lo).
Lemma b62 : bpow radix2 62 = 4611686018427387904. Proof. cbn. lra. Qed.

(** every intermediate of one wrap *)
Lemma wrap_steps (fused : bool) lo e x : fmt x -> fmt lo -> fmt e -> 0 < e ->
  Rabs (x - lo) <= bpow radix2 62 -> Rabs lo <= bpow radix2 900 -> e <= bpow radix2 900 ->
  exists (n : Z) (t : R),
    let pos := rnd (x - lo) in let nd := rnd (IZR n) in
    n = Ztrunc (rnd (Rabs pos + 2)) /\ (2 <= n)%Z /\ Rabs pos <= IZR n /\ fmt t /\
    t = (if fused then rnd (nd * e + pos) else rnd (rnd (nd * e) + pos)) /\
    Rabs pos <= bpow radix2 62 /\
    periodic_d fused lo e x = Some (rnd (fmod t e + lo)) /\
    (period_ok lo e x -> 0 <= t) /\ Rabs t <= bpow radix2 966.
Proof.
  intros Fx Flo Fe He Bx Blo Be. set (pos := rnd (x - lo)).
  assert (E1 : fl (x - lo) = Some pos) by (apply (fl_bpow _ 62); [lia|auto]).
  assert (Fp : fmt pos) by apply rnd_fmt.
  assert (Bp : Rabs pos <= bpow radix2 62) by (apply rnd_abs_le; [apply fmt_bpow; lia|auto]).
  pose proof (Rabs_pos pos) as P0.
  set (a := rnd (Rabs pos + 2)).
  assert (L62 : Rabs pos + 2 <= IZR 3 * bpow radix2 61).
  { rewrite b62 in Bp. simpl. lra. }
  assert (Fm : fmt (IZR 3 * bpow radix2 61)) by (apply fmt_mul_bpow; lia).
  assert (E2 : fl (Rabs pos + 2) = Some a).
  { apply (fl_some _ _ Fm); [|rewrite Rabs_pos_eq by lra; auto].
    apply Rle_lt_trans with (bpow radix2 63); [simpl; lra|apply bpow_lt; lia]. }
  assert (A2 : 2 <= a). { apply rnd_ge; [apply (fmt_Z 2); lia|lra]. }
  assert (Aub : a <= IZR 3 * bpow radix2 61) by (apply rnd_le; auto).
  assert (Ac : IZR (Zceil (Rabs pos)) <= a).
  { apply rnd_ge; [apply fmt_ceil, fmt_abs; auto|]. pose proof (Zceil_lb (Rabs pos)). lra. }
  set (n := Ztrunc a).
  destruct (Ztrunc_nonneg_bounds a ltac:(lra)) as [N1 N2]. fold n in N1, N2.
  assert (Nn : (Zceil (Rabs pos) <= n)%Z).
  { unfold n. rewrite Ztrunc_floor by lra. apply Zfloor_lub. auto. }
  assert (Nlo : (2 <= n)%Z). { unfold n. rewrite Ztrunc_floor by lra. apply Zfloor_lub. auto. }
  assert (Nub : (n < 2 ^ 63)%Z).
  { apply lt_IZR. eapply Rle_lt_trans; [exact N1|]. eapply Rle_lt_trans; [exact Aub|]. simpl. lra. }
  assert (E3 : to_int 64 a = Some n).
  { unfold to_int. fold n. replace (Z.leb (- 2 ^ (64 - 1)) n) with true by (symmetry; apply Z.leb_le; lia).
    replace (Z.ltb n (2 ^ (64 - 1))) with true by (symmetry; apply Z.ltb_lt; lia). reflexivity. }
  assert (Pn : Rabs pos <= IZR n).
  { eapply Rle_trans; [apply Zceil_ub|]. apply IZR_le; auto. }
  set (nd := rnd (IZR n)).
  assert (N63 : IZR n <= bpow radix2 63).
  { change (bpow radix2 63) with (IZR (2 ^ 63)). apply IZR_le; lia. }
  assert (N0 : 2 <= IZR n) by (apply IZR_le; auto).
  assert (E4 : fl (IZR n) = Some nd).
  { apply (fl_bpow _ 63); [lia|]. rewrite Rabs_pos_eq by lra. auto. }
  assert (Nd63 : nd <= bpow radix2 63) by (apply rnd_le; [apply fmt_bpow; lia|auto]).
  assert (Nd2 : 2 <= nd) by (apply rnd_ge; [apply (fmt_Z 2); lia|auto]).
  assert (NdP : Rabs pos <= nd) by (apply rnd_ge; [apply fmt_abs; auto|auto]).
  assert (PB : 0 <= nd * e <= bpow radix2 963).
  { split; [nra|]. replace 963%Z with (63 + 900)%Z by reflexivity. rewrite bpow_plus.
    apply Rmult_le_compat; lra. }
  set (m := rnd (nd * e)).
  assert (MB : 0 <= m <= bpow radix2 963).
  { split; [apply rnd_abs; lra|apply rnd_le; [apply fmt_bpow; lia|lra]]. }
  assert (E5 : fl (nd * e) = Some m).
  { apply (fl_bpow _ 963); [lia|]. rewrite Rabs_pos_eq by lra. lra. }
  set (t := if fused then rnd (nd * e + pos) else rnd (m + pos)).
  assert (B964 : bpow radix2 963 + bpow radix2 62 <= bpow radix2 966).
  { assert (bpow radix2 62 <= bpow radix2 963) by (apply bpow_le; lia).
    replace 966%Z with (963 + 3)%Z by reflexivity. rewrite bpow_plus. change (bpow radix2 3) with 8. lra. }
  assert (T1 : Rabs (nd * e + pos) <= bpow radix2 966).
  { eapply Rle_trans; [apply Rabs_triang|]. rewrite (Rabs_pos_eq (nd * e)) by lra. lra. }
  assert (T2 : Rabs (m + pos) <= bpow radix2 966).
  { eapply Rle_trans; [apply Rabs_triang|]. rewrite (Rabs_pos_eq m) by lra. lra. }
  assert (E6 : mul_add fused nd e pos = Some t).
  { unfold mul_add, t. destruct fused.
    - apply (fl_bpow _ 966); [lia|auto].
    - rewrite E5. cbn [bind]. apply (fl_bpow _ 966); [lia|auto]. }
  assert (Ft : fmt t) by (unfold t; destruct fused; apply rnd_fmt).
  assert (TB : Rabs t <= bpow radix2 966).
  { unfold t; destruct fused; apply rnd_abs_le; auto; apply fmt_bpow; lia. }
  exists n, t. cbv zeta. fold pos. fold a. fold n. fold nd. fold m.
  split; [reflexivity|]. split; [auto|]. split; [auto|]. split; [auto|]. split; [reflexivity|]. split; [auto|].
  split; [|split; [|auto]].
  - unfold periodic_d. rewrite E1. cbn [bind]. rewrite E2. cbn [bind]. rewrite E3. cbn [bind]. rewrite E4. cbn [bind].
    rewrite E6. cbn [bind]. unfold fmod_d. rewrite Req_bool_false by lra. cbn [bind].
    apply (fl_bpow _ 966); [lia|].
    assert (Rabs (fmod t e) <= bpow radix2 900).
    { unfold fmod. set (q := t / e).
      replace (t - IZR (Ztrunc q) * e) with ((q - IZR (Ztrunc q)) * e) by (unfold q; field; lra).
      rewrite Rabs_mult, (Rabs_pos_eq e) by lra.
      assert (Rabs (q - IZR (Ztrunc q)) <= 1).
      { destruct (Rle_lt_dec 0 q).
        - destruct (Ztrunc_nonneg_bounds q r). apply Rabs_le. lra.
        - rewrite Ztrunc_ceil by lra. pose proof (Zceil_ub q). pose proof (Zceil_lb q). apply Rabs_le. lra. }
      pose proof (Rabs_pos (q - IZR (Ztrunc q))). nra. }
    assert (bpow radix2 900 <= bpow radix2 963) by (apply bpow_le; lia).
    assert (bpow radix2 900 * 2 <= bpow radix2 966).
    { replace 966%Z with (963 + 3)%Z by reflexivity. rewrite bpow_plus. change (bpow radix2 3) with 8. lra. }
    eapply Rle_trans; [apply Rabs_triang|]. lra.
  - intros OK. assert (Q : - pos <= nd * e).
    { destruct OK as [G|G].
      - pose proof (Rle_abs (- pos)). rewrite Rabs_Ropp in H. nra.
      - fold pos in G. nra. }
    unfold t. destruct fused; apply rnd_abs; [lra|].
    assert (- pos <= m) by (apply rnd_ge; [apply fmt_opp; auto|auto]). lra.
Qed.

(** where the result lies *)
Lemma wrap_inside fused lo hi e x : fmt x -> fmt lo -> fmt hi -> lo < hi -> e = rnd (hi - lo) ->
  Rabs (x - lo) <= bpow radix2 62 -> Rabs lo <= bpow radix2 899 -> Rabs hi <= bpow radix2 899 ->
  1 <= hi - lo \/ lo - 2 * (hi - lo) <= x ->
  exists r, extent_d lo hi = Some e /\ 0 < e /\ e <= bpow radix2 900 /\ period_ok lo e x /\ periodic_d fused lo e x = Some r /\ fmt r /\ lo <= r <= hi.
Proof.
  intros Fx Flo Fhi H Ee Bx Bl Bh OK.
  assert (B2 : hi - lo <= bpow radix2 900).
  { replace 900%Z with (899 + 1)%Z by reflexivity. rewrite bpow_plus. change (bpow radix2 1) with 2.
    apply Rabs_le_inv in Bl, Bh. lra. }
  assert (Fe : fmt e) by (rewrite Ee; apply rnd_fmt).
  assert (E0 : extent_d lo hi = Some e).
  { unfold extent_d. rewrite Ee. apply (fl_bpow _ 900); [lia|]. rewrite Rabs_pos_eq by lra. auto. }
  assert (Pe : 0 < e).
  { assert (0 <= e) by (rewrite Ee; apply rnd_abs; lra).
    destruct (Req_dec e 0) as [Z|Z]; [|lra]. exfalso.
    apply (round_plus_neq_0 radix2 dexp ZnearestE hi (- lo)); auto.
    - apply fmt_opp; auto.
    - intros A. lra.
    - fold (rnd (hi + - lo)). fold (hi - lo). rewrite <- Ee. auto. }
  assert (Be : e <= bpow radix2 900) by (rewrite Ee; apply rnd_le; [apply fmt_bpow; lia|auto]).
  assert (Bl' : Rabs lo <= bpow radix2 900) by (eapply Rle_trans; [exact Bl|apply bpow_le; lia]).
  destruct (wrap_steps fused lo e x Fx Flo Fe Pe Bx Bl' Be) as (n & t & _ & _ & _ & Ft & _ & _ & E & T0 & _).
  assert (PO : period_ok lo e x).
  { destruct OK as [G|G].
    - left. rewrite Ee. apply rnd_ge; [apply (fmt_Z 1); lia|auto].
    - right. rewrite Ee, <- rnd_twice by auto. rewrite <- rnd_opp. apply rnd_mono. lra. }
  specialize (T0 PO). destruct (fmod_spec t e T0 Pe) as [[F0 F1] _].
  pose proof (fmod_fmt t e Ft Fe) as Ff.
  exists (rnd (fmod t e + lo)). split; [auto|]. split; [auto|]. split; [auto|]. split; [auto|]. split; [exact E|]. split; [apply rnd_fmt|].
  split.
  - apply rnd_ge; auto. lra.
  - apply rnd_le; auto.
    destruct (Rle_lt_dec (hi - lo) (fmod t e)) as [G|G]; [|lra].
    exfalso. assert (e <= fmod t e) by (rewrite Ee at 1; apply rnd_le; auto). lra.
Qed.

Lemma rabs_le a b : Rabs a <= b -> - b <= a <= b.
Proof. apply Rabs_le_inv. Qed.
Lemma rnd_plus_err x y : fmt x -> fmt y -> Rabs (rnd (x + y) - (x + y)) <= u * Rabs (x + y).
Proof.
  intros Hx Hy. destruct (rnd_plus x y Hx Hy) as (d & Hd & ->).
  replace ((x + y) * (1 + d) - (x + y)) with (d * (x + y)) by ring. rewrite Rabs_mult.
  apply Rmult_le_compat_r; [apply Rabs_pos|auto].
Qed.
Lemma rnd_any_err x : Rabs (rnd x - x) <= u * Rabs x + bpow radix2 (-1075).
Proof.
  destruct (rnd_any x) as (d & n & Hd & Hn & ->).
  replace (x * (1 + d) + n - x) with (d * x + n) by ring. eapply Rle_trans; [apply Rabs_triang|].
  rewrite Rabs_mult. apply Rplus_le_compat; auto. apply Rmult_le_compat_r; [apply Rabs_pos|auto].
Qed.
Lemma eta_small : 0 < bpow radix2 (-1075) <= u * u.
Proof.
  split; [apply bpow_gt_0|]. Transparent u. unfold u. Opaque u. rewrite <- bpow_plus. apply bpow_le. lia.
Qed.
Lemma rnd_sub_err x y : fmt x -> fmt y -> Rabs (rnd (x - y) - (x - y)) <= u * Rabs (x - y).
Proof. intros. apply rnd_plus_err; auto. apply fmt_opp; auto. Qed.
Lemma rnd_int_err n : (1 <= n)%Z -> Rabs (rnd (IZR n) - IZR n) <= u * IZR n.
Proof.
  intros H. assert (1 <= IZR n) by (apply IZR_le; auto).
  destruct (rnd_normal (IZR n)) as (d & Hd & ->).
  { rewrite Rabs_pos_eq by lra. apply Rle_trans with (bpow radix2 0); [apply bpow_le; lia|exact H0]. }
  replace (IZR n * (1 + d) - IZR n) with (d * IZR n) by ring. rewrite Rabs_mult, (Rabs_pos_eq (IZR n)) by lra.
  apply Rmult_le_compat_r; lra.
Qed.

(** the result is the position moved by a whole number of periods, up to rounding *)
Lemma wrap_error fused lo hi e x : fmt x -> fmt lo -> fmt hi -> lo < hi -> e = rnd (hi - lo) -> 0 < e ->
  Rabs (x - lo) <= bpow radix2 62 -> Rabs lo <= bpow radix2 900 -> e <= bpow radix2 900 ->
  exists r (k : Z), periodic_d fused lo e x = Some r /\
    Rabs (r - (x + IZR k * (hi - lo))) <= 32 * u * ((Rabs (x - lo) + 1) * (hi - lo + 1) + Rabs lo).
Proof.
  intros Fx Flo Fhi H Ee Pe Bx Bl Be.
  assert (Fe : fmt e) by (rewrite Ee; apply rnd_fmt).
  destruct (wrap_steps fused lo e x Fx Flo Fe Pe Bx Bl Be) as (n & t & En & N2 & Pn & Ft & Et & _ & E & _ & _).
  set (pos := rnd (x - lo)) in *. set (nd := rnd (IZR n)) in *.
  set (q := Ztrunc (t / e)).
  exists (rnd (fmod t e + lo)), (n - q)%Z. split; [exact E|].
  pose proof u_pos as U0. pose proof u_small as U1. pose proof eta_small as [H0 H1].
  set (eta := bpow radix2 (-1075)) in *.
  set (L := hi - lo) in *. assert (HL : 0 < L) by (unfold L; lra).
  set (X := Rabs (x - lo)) in *. assert (HX : 0 <= X) by apply Rabs_pos.
  (* pos *)
  pose proof (rnd_sub_err x lo Fx Flo) as D1. fold pos in D1. fold X in D1.
  set (P := Rabs pos) in *.
  assert (HP0 : 0 <= P) by apply Rabs_pos.
  assert (HP : P <= X + u * X).
  { unfold P. replace pos with ((pos - (x - lo)) + (x - lo)) by ring. eapply Rle_trans; [apply Rabs_triang|].
    fold X. lra. }
  (* e *)
  assert (D0 : Rabs (e - L) <= u * L).
  { rewrite Ee. unfold L. replace (u * (hi - lo)) with (u * Rabs (hi - lo)) by (rewrite Rabs_pos_eq; [auto|fold L; lra]).
    apply rnd_sub_err; auto. }
  apply rabs_le in D0.
  (* n *)
  assert (Dn : IZR n <= P + 2 + u * (P + 2)).
  { assert (A : Rabs (rnd (P + 2) - (P + 2)) <= u * Rabs (P + 2)).
    { apply rnd_plus_err; [apply fmt_abs; apply rnd_fmt|apply (fmt_Z 2); lia]. }
    rewrite (Rabs_pos_eq (P + 2)) in A by lra. apply rabs_le in A.
    rewrite En. assert (0 <= rnd (P + 2)) by (apply rnd_abs; lra).
    destruct (Ztrunc_nonneg_bounds (rnd (P + 2)) H2). lra. }
  assert (Dnd : Rabs (nd - IZR n) <= u * IZR n) by (apply rnd_int_err; lia). apply rabs_le in Dnd.
  assert (N2' : 2 <= IZR n) by (apply IZR_le; auto).
  (* t *)
  assert (Pnde : 0 < nd * e) by (apply Rmult_lt_0_compat; nra).
  set (NE := nd * e) in *.
  assert (Dt : Rabs (t - (NE + pos)) <= 3 * u * (NE + P) + 3 * eta).
  { assert (T : Rabs (NE + pos) <= NE + P).
    { eapply Rle_trans; [apply Rabs_triang|]. rewrite (Rabs_pos_eq NE) by lra. unfold P. lra. }
    destruct fused; rewrite Et.
    - eapply Rle_trans; [apply rnd_any_err|]. fold eta. assert (u * Rabs (NE + pos) <= u * (NE + P)) by (apply Rmult_le_compat_l; lra).
      assert (0 <= u * NE) by (apply Rmult_le_pos; lra). assert (0 <= u * P) by (apply Rmult_le_pos; lra). lra.
    - pose proof (rnd_any_err NE) as A1. rewrite (Rabs_pos_eq NE) in A1 by lra. fold eta in A1.
      pose proof (rnd_plus_err (rnd NE) pos (rnd_fmt _) (rnd_fmt _)) as A2.
      apply rabs_le in A1.
      assert (A3 : Rabs (rnd NE + pos) <= NE + u * NE + eta + P).
      { eapply Rle_trans; [apply Rabs_triang|]. rewrite (Rabs_pos_eq (rnd NE)) by (apply rnd_abs; lra). unfold P in *. lra. }
      assert (A4 : u * Rabs (rnd NE + pos) <= u * (NE + u * NE + eta + P)) by (apply Rmult_le_compat_l; lra).
      replace (rnd (rnd NE + pos) - (NE + pos)) with ((rnd (rnd NE + pos) - (rnd NE + pos)) + (rnd NE - NE)) by ring.
      eapply Rle_trans; [apply Rabs_triang|]. assert (Rabs (rnd NE - NE) <= u * NE + eta) by (apply Rabs_le; lra).
      assert (0 <= u * NE) by (apply Rmult_le_pos; lra). assert (0 <= u * P) by (apply Rmult_le_pos; lra).
      assert (u * (u * NE) <= 1 * (u * NE)) by (apply Rmult_le_compat_r; lra). assert (u * eta <= 1 * eta) by (apply Rmult_le_compat_r; lra). lra. }
  (* fmod *)
  assert (Df : fmod t e = t - IZR q * e) by reflexivity.
  assert (Dq : Rabs (IZR q * e) <= Rabs t).
  { unfold q. replace t with (t / e * e) at 2 by (field; lra). rewrite !Rabs_mult.
    apply Rmult_le_compat_r; [apply Rabs_pos|]. destruct (Rle_lt_dec 0 (t / e)) as [G|G].
    - pose proof (Ztrunc_nonneg_bounds _ G). pose proof (IZR_le _ _ (Ztrunc_nonneg _ G)). rewrite !Rabs_pos_eq; lra.
    - pose proof (IZR_le _ _ (Ztrunc_nonpos (t / e) ltac:(lra))). rewrite !Rabs_left1; try lra.
      rewrite Ztrunc_ceil by lra. pose proof (Zceil_ub (t / e)). lra. }
  assert (Fb : Rabs (fmod t e) <= e).
  { unfold fmod. set (g := t / e).
    replace (t - IZR (Ztrunc g) * e) with ((g - IZR (Ztrunc g)) * e) by (unfold g; field; lra).
    rewrite Rabs_mult, (Rabs_pos_eq e) by lra.
    assert (Rabs (g - IZR (Ztrunc g)) <= 1).
    { destruct (Rle_lt_dec 0 g).
      - destruct (Ztrunc_nonneg_bounds g r). apply Rabs_le. lra.
      - rewrite Ztrunc_ceil by lra. pose proof (Zceil_ub g). pose proof (Zceil_lb g). apply Rabs_le. lra. }
    pose proof (Rabs_pos (g - IZR (Ztrunc g))). nra. }
  pose proof (rnd_plus_err (fmod t e) lo (fmod_fmt t e Ft Fe) Flo) as Dr.
  assert (Dr' : Rabs (fmod t e + lo) <= e + Rabs lo).
  { eapply Rle_trans; [apply Rabs_triang|]. lra. }
  (* collect *)
  set (Bd := (X + 1) * (L + 1)).
  assert (XL : 0 <= X * L) by (apply Rmult_le_pos; lra).
  assert (uX : 0 <= u * X <= / 1000000 * X) by (split; [apply Rmult_le_pos; lra|apply Rmult_le_compat_r; lra]).
  assert (uP : 0 <= u * P <= / 1000000 * P) by (split; [apply Rmult_le_pos; lra|apply Rmult_le_compat_r; lra]).
  assert (uL : 0 <= u * L <= / 1000000 * L) by (split; [apply Rmult_le_pos; lra|apply Rmult_le_compat_r; lra]).
  assert (B1 : 1 <= Bd /\ X <= Bd /\ L <= Bd /\ X * L <= Bd) by (unfold Bd; lra). destruct B1 as (B1 & B2 & B3 & B4).
  assert (P1 : P <= 1.01 * X) by lra.
  assert (n1 : IZR n <= 1.03 * X + 2.03) by lra.
  assert (nL : IZR n * L <= 2.1 * Bd).
  { apply Rle_trans with ((1.03 * X + 2.03) * L); [apply Rmult_le_compat_r; lra|]. unfold Bd. lra. }
  assert (nL0 : 0 < IZR n * L) by (apply Rmult_lt_0_compat; lra).
  assert (NE1 : Rabs (NE - IZR n * L) <= 2.1 * u * (IZR n * L)).
  { unfold NE. replace (nd * e - IZR n * L) with ((nd - IZR n) * e + IZR n * (e - L)) by ring.
    assert (A1 : Rabs ((nd - IZR n) * e) <= u * IZR n * (1.01 * L)).
    { rewrite Rabs_mult. apply Rmult_le_compat; try apply Rabs_pos; [apply Rabs_le; lra|]. rewrite Rabs_pos_eq by lra. lra. }
    assert (A2 : Rabs (IZR n * (e - L)) <= IZR n * (u * L)).
    { rewrite Rabs_mult, (Rabs_pos_eq (IZR n)) by lra. apply Rmult_le_compat_l; [lra|]. apply Rabs_le; lra. }
    eapply Rle_trans; [apply Rabs_triang|]. assert (0 < u * (IZR n * L)) by (apply Rmult_lt_0_compat; lra). lra. }
  assert (NE2 : NE <= 2.2 * Bd).
  { apply rabs_le in NE1. assert (u * (IZR n * L) <= / 1000000 * (2.1 * Bd)) by (apply Rmult_le_compat; lra). lra. }
  assert (uB : 0 < u * Bd) by (apply Rmult_lt_0_compat; lra).
  assert (et : 3 * eta <= u * Bd).
  { assert (u * u <= u * / 1000000) by (apply Rmult_le_compat_l; lra). assert (u * 1 <= u * Bd) by (apply Rmult_le_compat_l; lra). lra. }
  assert (Dt' : Rabs (t - (NE + pos)) <= 11 * (u * Bd)).
  { eapply Rle_trans; [exact Dt|]. assert (u * (NE + P) <= u * (3.3 * Bd)) by (apply Rmult_le_compat_l; lra). lra. }
  assert (Tb : Rabs t <= 3.4 * Bd).
  { replace t with ((t - (NE + pos)) + (NE + pos)) by ring. eapply Rle_trans; [apply Rabs_triang|].
    assert (Rabs (NE + pos) <= NE + P).
    { eapply Rle_trans; [apply Rabs_triang|]. rewrite (Rabs_pos_eq NE) by lra. unfold P. lra. }
    assert (u * Bd <= / 1000000 * Bd) by (apply Rmult_le_compat_r; lra). lra. }
  assert (Q1 : Rabs (IZR q * (e - L)) <= 3.5 * (u * Bd)).
  { rewrite Rabs_mult. assert (Rabs (e - L) <= u * (1.01 * e)).
    { apply Rle_trans with (u * L); [apply Rabs_le; lra|]. apply Rmult_le_compat_l; lra. }
    rewrite Rabs_mult, (Rabs_pos_eq e) in Dq by lra.
    pose proof (Rabs_pos (IZR q)).
    apply Rle_trans with (Rabs (IZR q) * (u * (1.01 * e))); [apply Rmult_le_compat_l; auto|].
    replace (Rabs (IZR q) * (u * (1.01 * e))) with (u * 1.01 * (Rabs (IZR q) * e)) by ring.
    apply Rle_trans with (u * 1.01 * (3.4 * Bd)); [apply Rmult_le_compat_l; lra|]. lra. }
  rewrite minus_IZR.
  replace (rnd (fmod t e + lo) - (x + (IZR n - IZR q) * L)) with
    ((rnd (fmod t e + lo) - (fmod t e + lo)) + (t - (NE + pos)) + (pos - (x - lo)) + (NE - IZR n * L) - IZR q * (e - L))
    by (rewrite Df; ring).
  assert (A1 : Rabs (rnd (fmod t e + lo) - (fmod t e + lo)) <= 1.01 * (u * Bd) + u * Rabs lo).
  { eapply Rle_trans; [exact Dr|]. apply Rle_trans with (u * (1.01 * Bd + Rabs lo)); [apply Rmult_le_compat_l; lra|lra]. }
  assert (A2 : u * X <= u * Bd) by (apply Rmult_le_compat_l; lra).
  assert (A3 : u * (IZR n * L) <= u * (2.1 * Bd)) by (apply Rmult_le_compat_l; lra).
  assert (A4 : 0 <= u * Rabs lo) by (apply Rmult_le_pos; [lra|apply Rabs_pos]).
  apply rabs_le in A1, Dt', D1, NE1, Q1.
  apply Rabs_le. replace (32 * u * (Bd + Rabs lo)) with (32 * (u * Bd) + 32 * (u * Rabs lo)) by ring.
  lra.
Qed.
