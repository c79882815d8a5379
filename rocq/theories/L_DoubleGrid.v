(** One dimension of the Cartesian overlay in double precision. *)
From Flocq Require Import Core.
From Verif Require Import M_RealBase L_RealBase M_Grid M_Double S_Double L_Double L_Double2 M_DoubleGrid S_DoubleGrid.
From Coq Require Import List.
Import ListNotations.
Open Scope R_scope.

Lemma inv_pow k : / 2 ^ k = bpow radix2 (- Z.of_nat k).
Proof. rewrite bpow_neg. reflexivity. Qed.
Lemma rnd_rel x : bpow radix2 (-1022) <= x -> Rabs (rnd x - x) <= u * x.
Proof.
  intros H. pose proof (bpow_gt_0 radix2 (-1022)). destruct (rnd_normal x) as (d & Hd & ->); [rewrite Rabs_pos_eq; lra|].
  replace (x * (1 + d) - x) with (d * x) by ring. rewrite Rabs_mult, (Rabs_pos_eq x) by lra. apply Rmult_le_compat_r; lra.
Qed.

Section Dim.
  Context (lo hi : R) (n : Z).
  Context (Ok : dim_ok (lo, hi) n).
  Let L := hi - lo.
  Let e := rnd L.
  Let w := rnd (e / IZR n).
  Let i := rnd (1 / w).
  Let m := mkDim lo e n w i.
  Let T := u * (L + Rabs lo).

  Lemma Flo : fmt lo. Proof. destruct Ok as (H & _). apply is_double_fmt in H. tauto. Qed.
  Lemma Fhi : fmt hi. Proof. destruct Ok as (_ & H & _). apply is_double_fmt in H. tauto. Qed.
  Lemma Lpos : bpow radix2 (-200) <= L <= bpow radix2 25.
  Proof.
    destruct Ok as (_ & _ & _ & B1 & B2 & B3 & _). cbn [fst snd] in *.
    apply Rabs_le_inv in B1, B2. rewrite inv_pow in B3. split; [exact B3|].
    unfold L. replace (bpow radix2 25) with (2 * 2 ^ 24) by (cbn; lra). lra.
  Qed.
  Lemma nb : 1 <= IZR n <= bpow radix2 29.
  Proof.
    destruct Ok as (_ & _ & _ & _ & _ & _ & H & _). split; [apply IZR_le; lia|].
    change (bpow radix2 29) with (IZR (2 ^ 29)). apply IZR_le; lia.
  Qed.
  Lemma wide : 1024 * T * IZR n <= L.
  Proof.
    destruct Ok as (_ & _ & _ & _ & _ & _ & _ & H). cbn [fst snd] in H. rewrite u_eq in H. unfold T, L in *.
    replace (2 ^ 10) with 1024 in H by (cbn; lra). lra.
  Qed.
  Lemma L0 : 0 < L. Proof. pose proof Lpos. pose proof (bpow_gt_0 radix2 (-200)). lra. Qed.
  Lemma e_err : Rabs (e - L) <= u * L.
  Proof. unfold e. apply rnd_rel. pose proof Lpos. apply Rle_trans with (bpow radix2 (-200)); [apply bpow_le; lia|lra]. Qed.
  Lemma e_bounds : L - u * L <= e <= L + u * L /\ 99 / 100 * L <= e <= 101 / 100 * L.
  Proof. pose proof e_err as H. apply rabs_le in H. pose proof u_small. pose proof u_pos. pose proof L0. split; [lra|]. nra. Qed.
  Lemma q_lb : bpow radix2 (-240) <= e / IZR n.
  Proof.
    pose proof e_bounds as [_ [H _]]. pose proof nb. pose proof Lpos. pose proof (bpow_gt_0 radix2 (-240)). pose proof (bpow_gt_0 radix2 29).
    apply Rmult_le_reg_r with (IZR n); [lra|]. unfold Rdiv. rewrite Rmult_assoc, Rinv_l, Rmult_1_r by lra.
    apply Rle_trans with (bpow radix2 (-240) * bpow radix2 29); [apply Rmult_le_compat_l; lra|].
    rewrite <- bpow_plus. apply Rle_trans with (bpow radix2 (-201)); [apply bpow_le; lia|].
    replace (-200)%Z with (-201 + 1)%Z in H1 by reflexivity. rewrite bpow_plus in H1. change (bpow radix2 1) with 2 in H1. pose proof (bpow_gt_0 radix2 (-201)). lra.
  Qed.
  Lemma w_err : Rabs (w - e / IZR n) <= u * (e / IZR n).
  Proof. unfold w. apply rnd_rel. apply Rle_trans with (bpow radix2 (-240)); [apply bpow_le; lia|apply q_lb]. Qed.
  Lemma nw : e - u * e <= IZR n * w <= e + u * e.
  Proof.
    pose proof w_err as H. apply rabs_le in H. pose proof nb.
    assert (E : IZR n * (e / IZR n) = e) by (field; lra).
    set (q := e / IZR n) in *.
    assert (A1 : IZR n * w <= IZR n * (q + u * q)) by (apply Rmult_le_compat_l; lra).
    assert (A2 : IZR n * (q - u * q) <= IZR n * w) by (apply Rmult_le_compat_l; lra).
    replace (IZR n * (q + u * q)) with (IZR n * q + u * (IZR n * q)) in A1 by ring.
    replace (IZR n * (q - u * q)) with (IZR n * q - u * (IZR n * q)) in A2 by ring. rewrite E in *. lra.
  Qed.
  Lemma w_bounds : bpow radix2 (-241) <= w <= bpow radix2 26 /\ 98 / 100 * L <= IZR n * w <= 102 / 100 * L.
  Proof.
    pose proof e_bounds as [_ H]. pose proof nw. pose proof u_small. pose proof u_pos. pose proof L0. pose proof nb.
    assert (u * e <= / 1000000 * (101 / 100 * L)) by (apply Rmult_le_compat; lra).
    assert (N : 98 / 100 * L <= IZR n * w <= 102 / 100 * L) by lra. split; [|exact N]. split.
    - unfold w. apply rnd_ge; [apply fmt_bpow; lia|]. eapply Rle_trans; [|apply q_lb]. apply bpow_le; lia.
    - pose proof Lpos. assert (w <= IZR n * w).
      { assert (0 <= w). { unfold w. apply rnd_abs. pose proof q_lb. pose proof (bpow_gt_0 radix2 (-240)). lra. }
        rewrite <- (Rmult_1_l w) at 1. apply Rmult_le_compat_r; lra. }
      replace 26%Z with (25 + 1)%Z by reflexivity. rewrite bpow_plus. change (bpow radix2 1) with 2. lra.
  Qed.
  Lemma w0 : 0 < w. Proof. pose proof w_bounds. pose proof (bpow_gt_0 radix2 (-241)). lra. Qed.
  Lemma inv_w : bpow radix2 (-26) <= 1 / w <= bpow radix2 241.
  Proof.
    pose proof w_bounds as [[A B] _]. pose proof (bpow_gt_0 radix2 (-241)). unfold Rdiv. rewrite Rmult_1_l.
    split; [change (-26)%Z with (- (26))%Z|change 241%Z with (- - 241)%Z]; rewrite bpow_opp; apply Rinv_le; auto. lra.
  Qed.
  Lemma i_err : Rabs (i - 1 / w) <= u * (1 / w).
  Proof. unfold i. apply rnd_rel. apply Rle_trans with (bpow radix2 (-26)); [apply bpow_le; lia|apply inv_w]. Qed.
  Lemma iw : 1 - u <= i * w <= 1 + u.
  Proof.
    pose proof i_err as H. apply rabs_le in H. pose proof w0. assert (E : 1 / w * w = 1) by (field; lra).
    assert (A1 : i * w <= (1 / w + u * (1 / w)) * w) by (apply Rmult_le_compat_r; lra).
    assert (A2 : (1 / w - u * (1 / w)) * w <= i * w) by (apply Rmult_le_compat_r; lra).
    replace ((1 / w + u * (1 / w)) * w) with (1 / w * w + u * (1 / w * w)) in A1 by ring.
    replace ((1 / w - u * (1 / w)) * w) with (1 / w * w - u * (1 / w * w)) in A2 by ring. rewrite E in *. lra.
  Qed.
  Lemma i0 : 0 < i. Proof. pose proof iw. pose proof w0. pose proof u_small. nra. Qed.

  Lemma dim_made : extent_d lo hi = Some e /\ make_dim_d lo e n = Some m.
  Proof.
    pose proof Lpos as [A B]. pose proof e_bounds as [_ E]. pose proof L0. pose proof nb. split.
    - unfold extent_d. fold L. apply (fl_bpow _ 25); [lia|]. rewrite Rabs_pos_eq by lra. lra.
    - unfold make_dim_d. rewrite Rlt_bool_true by lra. cbn [check].
      destruct Ok as (_ & _ & _ & _ & _ & _ & Hn & _).
      replace (Z.ltb 0 n) with true by (symmetry; apply Z.ltb_lt; lia). cbn [check].
      assert (Q : e / IZR n <= bpow radix2 26).
      { apply Rle_trans with e.
        - pose proof q_lb. pose proof (bpow_gt_0 radix2 (-240)).
          assert (E' : e / IZR n * IZR n = e) by (field; lra). nra.
        - replace 26%Z with (25 + 1)%Z by reflexivity. rewrite bpow_plus. change (bpow radix2 1) with 2. lra. }
      pose proof q_lb. pose proof (bpow_gt_0 radix2 (-240)).
      rewrite (fl_bpow _ 26) by (lia || (rewrite Rabs_pos_eq; lra)). cbn [bind]. fold w.
      pose proof w0. rewrite Req_bool_false by lra. cbn [negb check].
      pose proof inv_w. pose proof (bpow_gt_0 radix2 (-26)).
      rewrite (fl_bpow _ 241) by (lia || (rewrite Rabs_pos_eq; lra)). reflexivity.
  Qed.

  (** the cell of a point of the interval *)
  Lemma cell_steps x : fmt x -> lo <= x <= hi ->
    let s := rnd (x - lo) in let f := rnd (s * i) in
    0 <= f < 2 * IZR n + 1 /\ (x - lo) - 4 * u * L <= f * w <= (x - lo) + 4 * u * L /\
    cell_d m x = Some (clamp_cell (Ztrunc f) n) /\ (0 <= Ztrunc f)%Z.
  Proof.
    intros Fx [X1 X2]. cbv zeta. set (s := rnd (x - lo)). set (r := s * i). set (f := rnd r).
    pose proof u_pos as U0. pose proof u_small as U1. pose proof eta_small as [H0 H1]. set (eta := bpow radix2 (-1075)) in *.
    pose proof L0. pose proof w0. pose proof i0. pose proof iw as IW. pose proof nb as N. pose proof nw as NW.
    pose proof e_bounds as [E1 E2]. pose proof w_bounds as [WB1 WB2].
    assert (S1 : Rabs (s - (x - lo)) <= u * Rabs (x - lo)) by (apply rnd_sub_err; [auto|apply Flo]).
    rewrite (Rabs_pos_eq (x - lo)) in S1 by lra. apply rabs_le in S1.
    assert (S0 : 0 <= s <= e). { split; [apply rnd_abs; lra|apply rnd_mono; unfold L; lra]. }
    assert (R0 : 0 <= r) by (unfold r; nra).
    assert (RW : r * w = s * (i * w)) by (unfold r; ring).
    assert (Rn : r <= 3 / 2 * IZR n).
    { apply Rmult_le_reg_r with w; [auto|]. rewrite RW. nra. }
    assert (F1 : Rabs (f - r) <= u * r + eta).
    { pose proof (rnd_any_err r) as A. rewrite (Rabs_pos_eq r) in A by auto. exact A. }
    apply rabs_le in F1.
    assert (F0 : 0 <= f) by (apply rnd_abs; auto).
    assert (Fn : f < 2 * IZR n + 1).
    { assert (u * r <= / 1000000 * (3 / 2 * IZR n)) by (apply Rmult_le_compat; lra). nra. }
    split; [lra|]. split; [|split].
    - set (d := x - lo) in *. assert (D : 0 <= d <= L) by (unfold d, L; lra).
      assert (UL : u * d <= u * L) by (apply Rmult_le_compat_l; lra).
      assert (UL0 : 0 < u * L) by (apply Rmult_lt_0_compat; lra).
      assert (SL : s <= 101 / 100 * L) by lra.
      assert (SU : u * s <= 101 / 100 * (u * L)).
      { replace (101 / 100 * (u * L)) with (u * (101 / 100 * L)) by ring. apply Rmult_le_compat_l; lra. }
      assert (A1 : Rabs (r * w - s) <= 101 / 100 * (u * L)).
      { rewrite RW. replace (s * (i * w) - s) with (s * (i * w - 1)) by ring. rewrite Rabs_mult, (Rabs_pos_eq s) by lra.
        assert (Rabs (i * w - 1) <= u) by (apply Rabs_le; lra).
        apply Rle_trans with (s * u); [apply Rmult_le_compat_l; lra|]. lra. }
      apply rabs_le in A1.
      assert (A2 : Rabs (f * w - r * w) <= 105 / 100 * (u * L)).
      { replace (f * w - r * w) with ((f - r) * w) by ring. rewrite Rabs_mult, (Rabs_pos_eq w) by lra.
        apply Rle_trans with ((u * r + eta) * w); [apply Rmult_le_compat_r; [lra|apply Rabs_le; lra]|].
        assert (B1 : u * r * w <= 102 / 100 * (u * L)).
        { replace (u * r * w) with (u * (r * w)) by ring. replace (102 / 100 * (u * L)) with (u * (102 / 100 * L)) by ring.
          apply Rmult_le_compat_l; [lra|]. assert (u * L <= / 1000000 * L) by (apply Rmult_le_compat_r; lra). lra. }
        assert (B2 : eta * w <= u * u * (102 / 100 * L)).
        { apply Rmult_le_compat; try lra. assert (w <= IZR n * w) by nra. lra. }
        assert (B3 : u * u * (102 / 100 * L) <= 3 / 100 * (u * L)).
        { replace (u * u * (102 / 100 * L)) with (u * (u * L * (102 / 100))) by ring.
          apply Rle_trans with (/ 1000000 * (u * L * (102 / 100))); [apply Rmult_le_compat_r; lra|lra]. }
        lra. }
      apply rabs_le in A2. lra.
    - unfold cell_d. cbn [dd_origin dd_inv dd_count]. unfold m; cbn [dd_origin dd_inv dd_count].
      assert (B1 : Rabs (x - lo) <= bpow radix2 25).
      { rewrite Rabs_pos_eq by lra. pose proof Lpos. unfold L in *. lra. }
      rewrite (fl_bpow _ 25) by (lia || auto). cbn [bind]. fold s. fold r.
      assert (B2 : Rabs r <= bpow radix2 30).
      { rewrite Rabs_pos_eq by auto. replace 30%Z with (29 + 1)%Z by reflexivity. rewrite bpow_plus. change (bpow radix2 1) with 2. lra. }
      rewrite (fl_bpow _ 30) by (lia || auto). cbn [bind]. fold f.
      assert (FB : f <= bpow radix2 30). { unfold f. apply rnd_le; [apply fmt_bpow; lia|]. rewrite Rabs_pos_eq in B2; auto. }
      assert (ZF : (0 <= Ztrunc f)%Z) by (apply Ztrunc_nonneg; auto).
      assert (ZF2 : (Ztrunc f <= 2 ^ 30)%Z).
      { apply le_IZR. destruct (Ztrunc_nonneg_bounds f F0). change (IZR (2 ^ 30)) with (bpow radix2 30). lra. }
      unfold to_int. replace (Z.leb (- 2 ^ (32 - 1)) (Ztrunc f)) with true by (symmetry; apply Z.leb_le; lia).
      replace (Z.ltb (Ztrunc f) (2 ^ (32 - 1))) with true by (symmetry; apply Z.ltb_lt; lia). reflexivity.
    - apply Ztrunc_nonneg; auto.
  Qed.
  Lemma clamp_range c : (0 <= c)%Z -> (0 <= clamp_cell c n < n)%Z /\ (clamp_cell c n <= c)%Z.
  Proof.
    intros H. destruct Ok as (_ & _ & _ & _ & _ & _ & Hn & _). unfold clamp_cell.
    replace (Z.ltb c 0) with false by (symmetry; apply Z.ltb_ge; lia).
    destruct (Z.leb_spec n c); lia.
  Qed.
  Lemma clamp_mono c c' : (0 <= c <= c')%Z -> (clamp_cell c n <= clamp_cell c' n)%Z.
  Proof.
    intros H. unfold clamp_cell. replace (Z.ltb c 0) with false by (symmetry; apply Z.ltb_ge; lia).
    replace (Z.ltb c' 0) with false by (symmetry; apply Z.ltb_ge; lia).
    destruct (Z.leb_spec n c), (Z.leb_spec n c'); lia.
  Qed.
  Lemma cell_mono x y c c' : fmt x -> fmt y -> lo <= x -> x <= y -> y <= hi -> cell_d m x = Some c -> cell_d m y = Some c' -> (c <= c')%Z.
  Proof.
    intros Fx Fy H1 H2 H3 E E'.
    destruct (cell_steps x Fx ltac:(lra)) as ([F0 _] & _ & Ec & Z0). destruct (cell_steps y Fy ltac:(lra)) as ([F0' _] & _ & Ec' & Z0').
    rewrite Ec in E. injection E as <-. rewrite Ec' in E'. injection E' as <-.
    apply clamp_mono. split; [auto|]. apply Ztrunc_le. apply rnd_mono. apply Rmult_le_compat_r; [pose proof i0; lra|].
    apply rnd_mono. lra.
  Qed.
  Lemma cell_range x : fmt x -> lo <= x <= hi -> exists c, cell_d m x = Some c /\ (0 <= c < n)%Z.
  Proof.
    intros Fx H. destruct (cell_steps x Fx H) as (_ & _ & E & Z0). eexists. split; [exact E|]. apply clamp_range; auto.
  Qed.

  Lemma T0 : 0 < T. Proof. unfold T. pose proof u_pos. pose proof L0. pose proof (Rabs_pos lo). apply Rmult_lt_0_compat; lra. Qed.
  Lemma lo24 : Rabs lo <= bpow radix2 24.
  Proof. destruct Ok as (_ & _ & _ & B1 & _). cbn [fst] in B1. rewrite <- (bpow_nat 24) in B1. exact B1. Qed.
  (** a face of a cell *)
  Lemma face_err fused (c : Z) : (0 <= c <= n)%Z ->
    exists r, mul_add fused (IZR c) w lo = Some r /\ fmt r /\ Rabs r <= bpow radix2 27 /\ Rabs (r - (lo + IZR c * w)) <= 4 * T.
  Proof.
    intros [C0 C1]. apply IZR_le in C0, C1.
    pose proof u_pos as U0. pose proof u_small as U1. pose proof eta_small as [H0 H1]. set (eta := bpow radix2 (-1075)) in *.
    pose proof w0. pose proof w_bounds as [_ WB]. pose proof L0. pose proof Lpos as [_ LB]. pose proof lo24 as LO. pose proof (Rabs_pos lo) as A0.
    set (a := IZR c * w). assert (AB : 0 <= a <= 102 / 100 * L) by (unfold a; nra).
    assert (UL0 : 0 < u * L) by (apply Rmult_lt_0_compat; lra).
    assert (UA : u * a <= 102 / 100 * (u * L)).
    { replace (102 / 100 * (u * L)) with (u * (102 / 100 * L)) by ring. apply Rmult_le_compat_l; lra. }
    assert (ET : eta <= / 100 * (u * L)).
    { unfold eta. assert (bpow radix2 (-1075) <= u * u * bpow radix2 (-200)).
      { Transparent u. unfold u. Opaque u. rewrite <- !bpow_plus. apply bpow_le. lia. }
      pose proof Lpos as [L1 _].
      apply Rle_trans with (u * u * L); [eapply Rle_trans; [exact H3|apply Rmult_le_compat_l; nra]|].
      replace (u * u * L) with (u * (u * L)) by ring. apply Rmult_le_compat_r; lra. }
    assert (B26 : 102 / 100 * L + Rabs lo <= bpow radix2 27).
    { replace (bpow radix2 27) with (8 * bpow radix2 24) by (cbn; lra). replace (bpow radix2 25) with (2 * bpow radix2 24) in LB by (cbn; lra).
      pose proof (bpow_gt_0 radix2 24). lra. }
    assert (TA : Rabs (a + lo) <= a + Rabs lo).
    { eapply Rle_trans; [apply Rabs_triang|]. rewrite (Rabs_pos_eq a) by lra. lra. }
    unfold T. replace (4 * (u * (L + Rabs lo))) with (4 * (u * L) + 4 * (u * Rabs lo)) by ring.
    assert (UR : 0 <= u * Rabs lo) by (apply Rmult_le_pos; lra).
    unfold mul_add. fold a. destruct fused.
    - exists (rnd (a + lo)). split; [apply (fl_bpow _ 27); [lia|lra]|]. split; [apply rnd_fmt|].
      split; [apply rnd_abs_le; [apply fmt_bpow; lia|lra]|].
      pose proof (rnd_any_err (a + lo)) as A. fold eta in A. rewrite (Rplus_comm lo a). eapply Rle_trans; [exact A|].
      assert (u * Rabs (a + lo) <= u * (a + Rabs lo)) by (apply Rmult_le_compat_l; lra). lra.
    - assert (AE : Rabs (rnd a - a) <= u * a + eta).
      { pose proof (rnd_any_err a) as A. rewrite (Rabs_pos_eq a) in A by lra. exact A. }
      apply rabs_le in AE.
      rewrite (fl_bpow a 27) by (lia || (rewrite Rabs_pos_eq; lra)). cbn [bind].
      assert (RA : 0 <= rnd a) by (apply rnd_abs; lra).
      assert (RL : rnd a <= 103 / 100 * L).
      { assert (u * L <= / 1000000 * L) by (apply Rmult_le_compat_r; lra). lra. }
      assert (TA2 : Rabs (rnd a + lo) <= rnd a + Rabs lo).
      { eapply Rle_trans; [apply Rabs_triang|]. rewrite (Rabs_pos_eq (rnd a)) by lra. lra. }
      assert (B27 : 103 / 100 * L + Rabs lo <= bpow radix2 27).
      { replace (bpow radix2 27) with (8 * bpow radix2 24) by (cbn; lra). replace (bpow radix2 25) with (2 * bpow radix2 24) in LB by (cbn; lra).
        pose proof (bpow_gt_0 radix2 24). lra. }
      exists (rnd (rnd a + lo)). split; [apply (fl_bpow _ 27); [lia|lra]|]. split; [apply rnd_fmt|].
      split; [apply rnd_abs_le; [apply fmt_bpow; lia|lra]|].
      pose proof (rnd_plus_err (rnd a) lo (rnd_fmt _) Flo) as A.
      assert (u * Rabs (rnd a + lo) <= u * (103 / 100 * L + Rabs lo)) by (apply Rmult_le_compat_l; lra).
      apply rabs_le in A. apply Rabs_le. lra.
  Qed.
  (** the box of the cell of a point contains the point up to rounding *)
  Lemma cell_box_contains fused x c : fmt x -> lo <= x <= hi -> cell_d m x = Some c ->
    exists lb ub, cell_box_d fused m c = Some (lb, ub) /\ fmt lb /\ fmt ub /\ Rabs lb <= bpow radix2 27 /\ Rabs ub <= bpow radix2 27 /\
      lb <= x + 8 * T /\ x - 8 * T <= ub /\ 900 * T <= ub - lb.
  Proof.
    intros Fx Hx E. destruct (cell_steps x Fx Hx) as ([F0 _] & FW & Ec & Z0). rewrite Ec in E. injection E as Ec'.
    set (f := rnd (rnd (x - lo) * i)) in *.
    destruct (clamp_range _ Z0) as [[C0 C1] C2]. rewrite Ec' in *.
    destruct (face_err fused c ltac:(lia)) as (lb & E1 & F1 & B1 & D1).
    destruct (face_err fused (c + 1) ltac:(lia)) as (ub & E2 & F2 & B2 & D2).
    exists lb, ub. split.
    { unfold cell_box_d, m. cbn [dd_count dd_width dd_origin]. replace (Z.leb 0 c) with true by (symmetry; apply Z.leb_le; lia).
      replace (Z.ltb c n) with true by (symmetry; apply Z.ltb_lt; lia). cbn [check]. rewrite E1. cbn [bind]. rewrite E2. reflexivity. }
    split; [auto|]. split; [auto|]. split; [auto|]. split; [auto|].
    apply rabs_le in D1, D2. destruct (Ztrunc_nonneg_bounds f F0) as [N1 N2].
    pose proof u_pos. pose proof w0. pose proof L0. pose proof T0. pose proof nw. pose proof e_bounds as [EB _]. pose proof u_small.
    assert (UL0 : 0 < u * L) by (apply Rmult_lt_0_compat; lra).
    assert (UT : u * L <= T). { unfold T. apply Rmult_le_compat_l; [lra|]. pose proof (Rabs_pos lo). lra. }
    assert (CF : IZR c <= f). { apply IZR_le in C2. lra. }
    assert (CFW : IZR c * w <= f * w) by (apply Rmult_le_compat_r; lra).
    rewrite plus_IZR in D2.
    split; [lra|]. split.
    - assert (G : x - lo - 4 * u * L <= (IZR c + 1) * w).
      { unfold clamp_cell in Ec'. replace (Z.ltb (Ztrunc f) 0) with false in Ec' by (symmetry; apply Z.ltb_ge; lia).
        destruct (Z.leb_spec n (Ztrunc f)) as [K|K].
        - subst c. rewrite minus_IZR. replace (IZR n - 1 + 1) with (IZR n) by ring.
          assert (u * e <= 101 / 100 * (u * L)).
          { pose proof e_bounds as [_ [_ E3]]. replace (101 / 100 * (u * L)) with (u * (101 / 100 * L)) by ring. apply Rmult_le_compat_l; lra. }
          unfold L in *. lra.
        - subst c. assert (f * w <= (IZR (Ztrunc f) + 1) * w) by (apply Rmult_le_compat_r; lra). lra. }
      lra.
    - assert (W : 1000 * T <= w).
      { pose proof wide as Wd. pose proof w_bounds as [_ [WB _]]. pose proof nb.
        apply Rmult_le_reg_r with (IZR n); [lra|]. nra. }
      lra.
  Qed.
  (** the assertions hold for every double of the interval *)
  Lemma accepted x : lo <= x <= hi -> in_bounds_d m x = Some true.
  Proof.
    intros Hx. unfold in_bounds_d, m. cbn [dd_origin dd_extent].
    pose proof lo24 as LO. pose proof Lpos as [_ LB]. pose proof e_bounds as [EB EB2]. pose proof L0. pose proof u_pos. pose proof u_small.
    assert (TL : 9 / 10 ^ 9 <= TOL_d <= 11 / 10 ^ 9).
    { unfold TOL_d. destruct (rnd_normal (/ 10 ^ 8)) as (d & Hd & ->).
      { rewrite Rabs_pos_eq by (cbn; lra). apply Rle_trans with (bpow radix2 (-60)); [apply bpow_le; lia|cbn; lra]. }
      apply rabs_le in Hd. cbn. lra. }
    assert (TL' : 9 / 1000000000 <= TOL_d <= 11 / 1000000000) by (cbn in TL; lra).
    assert (V24 : bpow radix2 24 = 16777216) by (cbn; lra). assert (V25 : bpow radix2 25 = 33554432) by (cbn; lra).
    rewrite V24 in LO. rewrite V25 in LB. apply Rabs_le_inv in LO.
    rewrite (fl_bpow _ 30) by (lia || (apply Rabs_le; cbn; lra)). cbn [bind].
    rewrite (fl_bpow (lo + e) 30) by (lia || (apply Rabs_le; cbn; lra)). cbn [bind].
    set (b := rnd (lo + e)).
    assert (U : u <= 12 / 10 ^ 17).
    { Transparent u. unfold u. Opaque u. cbn. lra. }
    assert (U' : u <= 12 / 100000000000000000) by (cbn in U; lra).
    assert (HI : hi <= 16777216 /\ -16777216 <= hi).
    { destruct Ok as (_ & _ & _ & _ & B2 & _). cbn [snd] in B2. rewrite <- (bpow_nat 24) in B2. change (Z.of_nat 24) with 24%Z in B2. rewrite V24 in B2.
      apply Rabs_le_inv in B2. lra. }
    assert (UL : u * L <= 12 / 100000000000000000 * 33554432) by (apply Rmult_le_compat; lra).
    assert (BE : Rabs (b - (lo + e)) <= u * 16777217).
    { unfold b. eapply Rle_trans; [apply rnd_plus_err; [apply Flo|apply rnd_fmt]|].
      apply Rmult_le_compat_l; [lra|]. apply Rabs_le. unfold L in *. lra. }
    apply rabs_le in BE. assert (UB : u * 16777217 <= 12 / 100000000000000000 * 16777217) by (apply Rmult_le_compat_r; lra).
    assert (BH : hi <= b + TOL_d) by (unfold L in *; lra).
    rewrite (fl_bpow (b + TOL_d) 30) by (lia || (apply Rabs_le; unfold L in *; cbn; lra)). cbn [bind].
    rewrite Rle_bool_true. 2:{ apply Rle_trans with lo; [|lra]. apply rnd_le; [apply Flo|lra]. }
    rewrite Rle_bool_true; [reflexivity|]. apply Rle_trans with hi; [lra|]. apply rnd_ge; [apply Fhi|auto].
  Qed.
  Lemma get_cell_eq x : lo <= x <= hi -> get_cell_d m x = cell_d m x.
  Proof. intros H. unfold get_cell_d. rewrite accepted by auto. reflexivity. Qed.
  (** overlap of an element's interval with the cell of a point well inside it *)
  Lemma overlap_pos fused x c gl gu : fmt x -> fmt gl -> fmt gu -> lo <= gl -> gu <= hi -> gl + 16 * T <= x <= gu - 16 * T ->
    cell_d m x = Some c ->
    exists lb ub o, cell_box_d fused m c = Some (lb, ub) /\ interval_overlap_d gl gu lb ub = Some o /\ bpow radix2 (-250) <= o <= bpow radix2 28.
  Proof.
    intros Fx Fl Fu H1 H2 Hx E. pose proof T0.
    destruct (cell_box_contains fused x c Fx ltac:(lra) E) as (lb & ub & E1 & F1 & F2 & B1 & B2 & D1 & D2 & D3).
    exists lb, ub. unfold interval_overlap_d.
    rewrite Rle_bool_false by lra. rewrite Rle_bool_false by lra.
    set (d := fmin ub gu - fmax lb gl).
    assert (D : 8 * T <= d).
    { unfold d. destruct (fmin_cases ub gu) as [[-> _]|[-> _]], (fmax_cases lb gl) as [[-> _]|[-> _]]; lra. }
    assert (TB : bpow radix2 (-253) <= T).
    { unfold T. pose proof Lpos as [A _]. pose proof (Rabs_pos lo). pose proof u_pos.
      apply Rle_trans with (u * bpow radix2 (-200)); [|apply Rmult_le_compat_l; lra].
      Transparent u. unfold u. Opaque u. rewrite <- bpow_plus. apply bpow_le. lia. }
    assert (D8 : bpow radix2 (-250) <= d).
    { replace (-250)%Z with (3 + -253)%Z by reflexivity. rewrite bpow_plus. change (bpow radix2 3) with 8. lra. }
    assert (DU : d <= bpow radix2 28).
    { assert (d <= ub - lb). { unfold d. pose proof (fmin_le_l ub gu). pose proof (fmax_ge_l lb gl). lra. }
      apply Rabs_le_inv in B1, B2. replace 28%Z with (27 + 1)%Z by reflexivity. rewrite bpow_plus. change (bpow radix2 1) with 2. lra. }
    pose proof (bpow_gt_0 radix2 (-250)).
    exists (rnd d). split; [auto|]. split; [apply (fl_bpow _ 28); [lia|rewrite Rabs_pos_eq; lra]|].
    split; [apply rnd_ge; [apply fmt_bpow; lia|auto]|apply rnd_le; [apply fmt_bpow; lia|auto]].
  Qed.
End Dim.
