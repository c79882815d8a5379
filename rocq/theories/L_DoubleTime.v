(** Lemmas for C107. *)
From Flocq Require Import Core.
From Flocq Require Import Sterbenz.
From Verif Require Import M_RealBase L_RealBase M_Grid M_Double S_Double L_Double L_Double2 L_DoubleGrid M_DoubleTime S_DoubleTime.
From Coq Require Import List.
Import ListNotations.
Open Scope R_scope.

Lemma fmt_sub x y : fmt x -> fmt y -> y / 2 <= x <= 2 * y -> fmt (x - y).
Proof. intros. apply sterbenz; auto; typeclasses eauto. Qed.
Lemma min_l a b : a <= b -> min_d a b = a.
Proof. intros. unfold min_d. rewrite Rlt_bool_false; auto. Qed.
Lemma min_r a b : b < a -> min_d a b = b.
Proof. intros. unfold min_d. rewrite Rlt_bool_true; auto. Qed.
Lemma loop_done fuel s te dt : te <= s -> int_loop_d fuel s te dt = Some ([], s).
Proof. intros H. destruct fuel; cbn [int_loop_d]; rewrite Rlt_bool_false; auto. Qed.
Lemma loop_step fuel s te dt : s < te -> int_loop_d (S fuel) s te dt =
  do remaining <- fl (te - s); do time' <- fl (s + min_d dt remaining); do r <- int_loop_d fuel time' te dt; Some (min_d dt remaining :: fst r, snd r).
Proof. intros H. cbn [int_loop_d]. rewrite Rlt_bool_true by auto. reflexivity. Qed.

Section Step.
  Context (t T : R) (k : Z).
  Context (Ok : step_ok t T k).
  Let W := t + T.
  Let te := rnd W.
  Let K := IZR k.
  Let q := T / K.
  Let dt := rnd q.
  Let v := u * W.

  Lemma facts : fmt t /\ fmt T /\ 0 <= t /\ 0 < T /\ bpow radix2 (-500) <= T /\ W <= bpow radix2 500 /\ 1 <= K /\ K <= bpow radix2 20 /\
    K * q = T /\ 0 < q /\ q <= T /\ 8 * (K * v) <= q /\ 0 < v /\ v <= / 1000000 * W /\ u * q <= v /\ u * q <= / 1000000 * q /\ v <= K * v.
  Proof.
    destruct Ok as (D1 & D2 & H0 & H1 & H2 & [H3 H3'] & H4). apply is_double_fmt in D1 as [F1 _], D2 as [F2 _].
    rewrite u_eq in H4. pose proof u_pos as U0. pose proof u_small as U1. rewrite inv_pow in H1. rewrite <- (bpow_nat 500) in H2.
    change (Z.of_nat 500) with 500%Z in *. pose proof (bpow_gt_0 radix2 (-500)) as B. change (- (500))%Z with (-500)%Z in *.
    assert (K1 : 1 <= K) by (unfold K; apply IZR_le; auto).
    assert (K2 : K <= bpow radix2 20). { unfold K. apply IZR_le in H3'. replace (bpow radix2 20) with (IZR (2 ^ 20)) by (cbn; lra). auto. }
    assert (Kq : K * q = T) by (unfold q; field; lra).
    assert (Q0 : 0 < q). { unfold q. apply Rdiv_lt_0_compat; lra. }
    assert (QT : q <= T). { rewrite <- Kq. rewrite <- (Rmult_1_l q) at 1. apply Rmult_le_compat_r; lra. }
    assert (WT : T <= W) by (unfold W; lra).
    assert (V0 : 0 < v) by (unfold v; apply Rmult_lt_0_compat; lra).
    assert (X1 : 8 * (K * v) <= q). { apply Rmult_le_reg_l with K; [lra|]. rewrite Kq. unfold v, W, K in *. lra. }
    assert (X2 : v <= / 1000000 * W) by (unfold v; apply Rmult_le_compat_r; lra).
    assert (X3 : u * q <= v) by (unfold v; apply Rmult_le_compat_l; lra).
    assert (X4 : u * q <= / 1000000 * q) by (apply Rmult_le_compat_r; lra).
    assert (X5 : v <= K * v). { rewrite <- (Rmult_1_l v) at 1. apply Rmult_le_compat_r; lra. }
    repeat (split; [first [assumption|lra]|]). assumption.
  Qed.
  Lemma te_err : Rabs (te - W) <= v.
  Proof.
    destruct facts as (F1 & F2 & H0 & H1 & _). unfold te, v. rewrite <- (Rabs_pos_eq W) at 3 by (unfold W; lra). apply rnd_plus_err; auto.
  Qed.
  Lemma dt_err : Rabs (dt - q) <= u * q.
  Proof.
    destruct facts as (_ & _ & _ & _ & HT & _ & K1 & K2 & Kq & Q0 & _). apply rnd_rel.
    apply Rle_trans with (bpow radix2 (-520)); [apply bpow_le; lia|].
    apply Rmult_le_reg_l with K; [lra|]. rewrite Kq. eapply Rle_trans; [|exact HT].
    replace (-500)%Z with (20 + -520)%Z by reflexivity. rewrite bpow_plus. apply Rmult_le_compat_r; [apply bpow_ge_0|auto].
  Qed.
  Lemma fl_ok x : Rabs x <= 2 * W -> fl x = Some (rnd x).
  Proof.
    intros H. destruct facts as (_ & _ & _ & _ & _ & HW & _). apply (fl_bpow x 501); [lia|]. replace 501%Z with (1 + 500)%Z by reflexivity. rewrite bpow_plus.
    change (bpow radix2 1) with 2. lra.
  Qed.
  Definition tail_ok (rest : list R) : Prop := rest = [] \/ exists e, rest = [e] /\ 0 < e <= dt /\ e <= 4 * (K * v).
  (** the last of the k steps, and the possible extra one *)
  Lemma last_step fuel s : fmt s -> Rabs (s - (t + (K - 1) * q)) <= 3 * ((K - 1) * v) ->
    exists d rest s', int_loop_d (S (S fuel)) s te dt = Some (d :: rest, s') /\ 0 < d <= dt /\ tail_ok rest /\ te <= s' /\
      Rabs (total (d :: rest) - (te - s)) <= 7 / 2 * (K * v) + 3 / 2 * v.
  Proof.
    intros Fs Es. destruct facts as (Ft & FT & T0 & TP & _ & _ & K1 & _ & Kq & Q0 & QT & KV & V0 & VW & UQ & UQ' & VK).
    pose proof te_err as E1. pose proof dt_err as E2. pose proof u_pos as U0. pose proof u_small as U1.
    assert (X1 : (K - 1) * (8 * (K * v)) <= (K - 1) * q) by (apply Rmult_le_compat_l; lra).
    assert (X2 : (K - 1) * v <= (K - 1) * (K * v)) by (apply Rmult_le_compat_l; lra).
    assert (X3 : 3 * ((K - 1) * v) <= (K - 1) * q) by (assert (0 <= (K - 1) * v) by (apply Rmult_le_pos; lra); lra). clear X1 X2.
    rewrite !Rmult_minus_distr_r, !Rmult_1_l, Kq in Es, X3.
    apply rabs_le in Es, E1, E2. assert (WE : W = t + T) by reflexivity.
    set (kv := K * v) in *. assert (KVE : kv = K * v) by reflexivity. clearbody kv.
    assert (Hs : s < te) by lra. assert (S0 : 0 <= s) by lra. assert (SW : s <= W) by lra. assert (TW : te <= W + v) by lra.
    assert (Fte : fmt te) by apply rnd_fmt. assert (Fdt : fmt dt) by apply rnd_fmt.
    rewrite loop_step by auto. rewrite (fl_ok (te - s)) by (rewrite Rabs_pos_eq; lra). cbn [bind].
    set (rem := rnd (te - s)). assert (ER : Rabs (rem - (te - s)) <= u * (te - s)).
    { rewrite <- (Rabs_pos_eq (te - s)) at 2 by lra. apply rnd_sub_err; auto. }
    assert (UR : u * (te - s) <= u * (2 * W)) by (apply Rmult_le_compat_l; lra).
    assert (UR1 : u * (te - s) <= / 1000000 * (te - s)) by (apply Rmult_le_compat_r; lra).
    assert (UR2 : u * (te - s) <= 3 / 2 * v). { unfold v. replace (3 / 2 * (u * W)) with (u * (3 / 2 * W)) by ring. apply Rmult_le_compat_l; lra. }
    apply rabs_le in ER.
    set (d := min_d dt rem).
    assert (D : 0 < d <= dt /\ (d = dt \/ d = rem)). { unfold d. destruct (Rle_lt_dec dt rem); [rewrite min_l by auto; lra|rewrite min_r by auto; lra]. }
    destruct D as [D0 D].
    assert (Fd : fmt d) by (destruct D as [-> | ->]; [auto|apply rnd_fmt]).
    assert (SD : Rabs (s + d) <= 3 / 2 * W) by (rewrite Rabs_pos_eq; lra).
    rewrite (fl_ok (s + d)) by lra. cbn [bind]. set (s1 := rnd (s + d)).
    assert (E3 : Rabs (s1 - (s + d)) <= 3 / 2 * v).
    { eapply Rle_trans; [apply rnd_plus_err; auto|]. unfold v. replace (3 / 2 * (u * W)) with (u * (3 / 2 * W)) by ring. apply Rmult_le_compat_l; lra. }
    apply rabs_le in E3.
    assert (E4 : Rabs (s1 - te) <= 7 / 2 * kv). { apply Rabs_le. destruct D as [D | D]; rewrite D in *; lra. }
    apply rabs_le in E4.
    destruct (Rle_lt_dec te s1) as [G|G].
    - rewrite loop_done by auto. cbn [bind fst snd]. exists d, [], s1. split; [reflexivity|]. split; [auto|]. split; [left; auto|]. split; [auto|].
      cbn [total fold_right]. apply Rabs_le. lra.
    - assert (Fr : fmt (te - s1)). { replace (te - s1) with (- (s1 - te)) by ring. apply fmt_opp. apply fmt_sub; [apply rnd_fmt|auto|lra]. }
      rewrite loop_step by auto. rewrite (fl_ok (te - s1)) by (rewrite Rabs_pos_eq; lra). cbn [bind]. rewrite (rnd_id (te - s1)) by auto.
      rewrite min_r by lra. replace (s1 + (te - s1)) with te by ring. rewrite (fl_ok te) by (rewrite Rabs_pos_eq; lra). cbn [bind]. rewrite (rnd_id te) by auto.
      rewrite loop_done by lra. cbn [bind fst snd]. exists d, [te - s1], te. split; [reflexivity|]. split; [auto|].
      split. { right. exists (te - s1). split; [auto|]. rewrite <- KVE. lra. }
      split; [lra|]. cbn [total fold_right]. apply Rabs_le. lra.
  Qed.
  Lemma main_steps : forall (j : nat) (i : Z) fuel s, (1 <= j)%nat -> (Z.of_nat j + i = k)%Z -> (0 <= i)%Z -> fmt s ->
    Rabs (s - (t + IZR i * q)) <= 3 * (IZR i * v) -> (j <= fuel)%nat ->
    exists d rest s', int_loop_d (S fuel) s te dt = Some (repeat dt (j - 1) ++ d :: rest, s') /\ 0 < d <= dt /\ tail_ok rest /\ te <= s' /\
      Rabs (total (repeat dt (j - 1) ++ d :: rest) - (te - s)) <= 7 / 2 * (K * v) + 3 / 2 * (INR j * v).
  Proof.
    induction j as [|j IH]; intros i fuel s Hj Hi Hi0 Fs Es Hf; [lia|].
    destruct (Nat.eq_dec j 0) as [->|Nj].
    - destruct fuel as [|fuel]; [lia|]. assert (EK : IZR i = K - 1). { unfold K. rewrite <- minus_IZR. f_equal. lia. } rewrite EK in Es.
      destruct (last_step fuel s Fs Es) as (d & rest & s' & A). exists d, rest, s'. cbn [Nat.sub repeat app INR]. rewrite Rmult_1_l. exact A.
    - destruct facts as (Ft & FT & T0 & TP & _ & _ & K1 & _ & Kq & Q0 & QT & KV & V0 & VW & UQ & UQ' & VK).
      pose proof te_err as E1. pose proof dt_err as E2. pose proof u_pos as U0. pose proof u_small as U1.
      assert (I0 : 0 <= IZR i) by (apply IZR_le; auto). assert (I2 : IZR i + 2 <= K). { unfold K. rewrite <- plus_IZR. apply IZR_le. lia. }
      assert (IQ : (IZR i + 2) * q <= T) by (rewrite <- Kq; apply Rmult_le_compat_r; lra).
      assert (IV : IZR i * (8 * (K * v)) <= IZR i * q) by (apply Rmult_le_compat_l; lra).
      assert (IV2 : IZR i * v <= IZR i * (K * v)) by (apply Rmult_le_compat_l; lra).
      assert (IV3 : (IZR i + 2) * v <= K * v) by (apply Rmult_le_compat_r; lra).
      assert (IV0 : 0 <= IZR i * v) by (apply Rmult_le_pos; lra).
      assert (ID1 : IZR (i + 1) * q = IZR i * q + q) by (rewrite plus_IZR; ring). assert (ID2 : IZR (i + 1) * v = IZR i * v + v) by (rewrite plus_IZR; ring).
      set (iq := IZR i * q) in *. set (iv := IZR i * v) in *. rewrite Rmult_plus_distr_r in IQ, IV3. fold iq in IQ. fold iv in IV3.
      assert (WE : W = t + T) by reflexivity. apply rabs_le in Es, E1, E2.
      assert (S0 : 0 <= s) by lra. assert (Hs : s < te) by lra.
      assert (Fte : fmt te) by apply rnd_fmt. assert (Fdt : fmt dt) by apply rnd_fmt.
      rewrite loop_step by auto. rewrite (fl_ok (te - s)) by (rewrite Rabs_pos_eq; lra). cbn [bind].
      rewrite min_l by (apply rnd_ge; [auto|lra]).
      assert (SD : Rabs (s + dt) <= 3 / 2 * W) by (rewrite Rabs_pos_eq; lra).
      rewrite (fl_ok (s + dt)) by lra. cbn [bind]. set (s1 := rnd (s + dt)).
      assert (E3 : Rabs (s1 - (s + dt)) <= 3 / 2 * v).
      { eapply Rle_trans; [apply rnd_plus_err; auto|]. unfold v. replace (3 / 2 * (u * W)) with (u * (3 / 2 * W)) by ring. apply Rmult_le_compat_l; lra. }
      apply rabs_le in E3. destruct fuel as [|fuel]; [lia|].
      destruct (IH (i + 1)%Z fuel s1) as (d & rest & s' & A1 & A2 & A3 & A4 & A5); [lia|lia|lia|apply rnd_fmt| |lia|].
      { rewrite ID1, ID2. apply Rabs_le. lra. }
      rewrite A1. cbn [bind fst snd]. exists d, rest, s'. replace (S j - 1)%nat with (S (j - 1)) by lia. cbn [repeat app].
      split; [reflexivity|]. split; [auto|]. split; [auto|]. split; [auto|]. cbn [total fold_right]. fold (total (repeat dt (j - 1) ++ d :: rest)).
      apply rabs_le in A5. rewrite S_INR. rewrite (Rmult_plus_distr_r (INR j)), Rmult_1_l. apply Rabs_le. lra.
  Qed.
  Lemma dt_made : part_timestep_d T k = Some dt.
  Proof.
    destruct facts as (Ft & FT & T0 & TP & _ & _ & K1 & _ & Kq & Q0 & QT & _). unfold part_timestep_d. destruct (Z.eqb_spec k 0) as [->|N].
    - unfold K in K1. lra.
    - fold K. fold q. apply fl_ok. rewrite Rabs_pos_eq by lra. unfold W. lra.
  Qed.
  Lemma te_made : fl (t + T) = Some te /\ t < te.
  Proof.
    destruct facts as (Ft & FT & T0 & TP & _ & _ & K1 & _ & Kq & Q0 & QT & KV & V0 & VW & UQ & UQ' & VK). fold W. split; [apply fl_ok; rewrite Rabs_pos_eq; unfold W; lra|].
    pose proof te_err as E. apply rabs_le in E. assert (WE : W = t + T) by reflexivity. lra.
  Qed.
  Lemma whole_step fuel : (Z.to_nat k < fuel)%nat -> exists ds, integrate_d fuel t te dt = Some (ds, te) /\ substeps t T dt k ds /\ (length ds = Z.to_nat k \/ length ds = S (Z.to_nat k)).
  Proof.
    intros Hf. destruct facts as (Ft & FT & T0 & TP & _ & _ & K1 & _ & Kq & Q0 & QT & KV & V0 & VW & UQ & UQ' & VK). destruct te_made as [_ H].
    assert (K1' : (1 <= k)%Z) by (destruct Ok as (_ & _ & _ & _ & _ & [A _] & _); auto).
    destruct fuel as [|fuel]; [lia|].
    destruct (main_steps (Z.to_nat k) 0 fuel t) as (d & rest & s' & A1 & A2 & A3 & A4 & A5); [lia|lia|lia|auto| |lia|].
    { rewrite !Rmult_0_l, Rplus_0_r, Rminus_diag_eq, Rabs_R0 by reflexivity. lra. }
    unfold integrate_d. rewrite Rle_bool_true by lra. cbn [check]. rewrite Req_bool_false by lra. rewrite A1. cbn [bind fst snd].
    eexists. split; [reflexivity|]. split.
    - split.
      + exists d, rest. split; [reflexivity|]. split; [auto|]. destruct A3 as [A3|(e & B1 & B2 & B3)]; [left; auto|right]. exists e. split; [auto|]. split; [auto|].
        rewrite u_eq. unfold K, v, W in B3. lra.
      + rewrite u_eq. pose proof te_err as E. apply rabs_le in A5, E. rewrite INR_IZR_INZ, Z2Nat.id in A5 by lia. fold K in A5 |- *. fold W.
        replace (6 * K * u * W) with (6 * (K * v)) by (unfold v; ring). apply Rabs_le. unfold W in *. lra.
    - rewrite app_length, repeat_length. cbn [length]. destruct A3 as [->|(e & -> & _)]; cbn [length]; lia.
  Qed.
End Step.
