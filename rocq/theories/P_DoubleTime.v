(** C107: particle sub-stepping in double precision. *)
From Flocq Require Import Core.
From Verif Require Import M_RealBase L_RealBase M_Grid M_Double S_Double L_Double L_Double2 L_DoubleGrid M_DoubleTime S_DoubleTime L_DoubleTime P_Double.
From Coq Require Import List.
Import ListNotations.
Open Scope R_scope.

(** One fluid step: the particles are integrated to exactly the fluid's new time in k or k + 1 substeps of at most the particle time
    step, lasting together the fluid step up to rounding. *)
Theorem C107_substeps (t T : R) (k : Z) (fuel : nat) : step_ok t T k -> (Z.to_nat k < fuel)%nat ->
  exists dt te ds, part_timestep_d T k = Some dt /\ fl (t + T) = Some te /\ integrate_d fuel t te dt = Some (ds, te) /\
    substeps t T dt k ds /\ (length ds = Z.to_nat k \/ length ds = S (Z.to_nat k)).
Proof.
  intros Ok Hf. destruct (whole_step t T k Ok fuel Hf) as (ds & A & B & C). eexists _, _, ds.
  split; [apply (dt_made t T k Ok)|]. split; [apply (te_made t T k Ok)|]. auto.
Qed.
Print Assumptions C107_substeps.

(** Any number of fluid steps: no call integrates backwards in time, the particles' time is the fluid's after each, and every fluid step
    has k or k + 1 substeps. *)
Lemma step_ok_later t t' T k : step_ok t T k -> is_double t' -> 0 <= t' -> t' + T <= 2 ^ 500 -> 8 * IZR k * IZR k * unit_roundoff * (t' + T) <= T -> step_ok t' T k.
Proof. intros (_ & H1 & _ & H3 & _ & H5 & _) A B C D. unfold step_ok. auto 10. Qed.
Lemma run_steps (T : R) (k : Z) (fuel : nat) (H : R) : (Z.to_nat k < fuel)%nat -> H <= 2 ^ 500 -> 8 * IZR k * IZR k * unit_roundoff * H <= T ->
  forall n t, step_ok t T k -> t + 2 * INR n * T <= H ->
  exists dss m, fluid_steps_d n fuel T (rnd (T / IZR k)) (t, t) = Some (dss, (m, m)) /\ length dss = n /\
    Forall (fun ds => length ds = Z.to_nat k \/ length ds = S (Z.to_nat k)) dss /\ Rabs (m - (t + INR n * T)) <= INR n * (unit_roundoff * H).
Proof.
  intros Hf HB HK. induction n as [|n IH]; intros t Ok HH.
  - exists [], t. cbn [fluid_steps_d length INR]. split; [reflexivity|]. split; [reflexivity|]. split; [constructor|]. rewrite !Rmult_0_l, Rplus_0_r, Rminus_diag_eq, Rabs_R0; [lra|reflexivity].
  - destruct (facts t T k Ok) as (Ft & FT & T0 & TP & _ & _ & K1 & _ & Kq & Q0 & QT & KV & V0 & VW & UQ & UQ' & VK).
    pose proof (te_err t T k Ok) as E. rewrite S_INR in HH |- *. pose proof (pos_INR n) as N0.
    assert (NT : 0 <= INR n * T) by (apply Rmult_le_pos; lra).
    rewrite u_eq in *. pose proof u_pos as U0. pose proof u_small as U1.
    assert (UH : u * (t + T) <= u * H) by (apply Rmult_le_compat_l; lra).
    assert (TU : u * H <= / 8 * T).
    { assert (0 <= u * H) by (apply Rmult_le_pos; lra). assert (1 <= IZR k * IZR k) by (rewrite <- (Rmult_1_l 1); apply Rmult_le_compat; lra).
      assert (1 * (u * H) <= IZR k * IZR k * (u * H)) by (apply Rmult_le_compat_r; lra). lra. }
    apply rabs_le in E. destruct (te_made t T k Ok) as [E1 E2]. set (te := rnd (t + T)) in *.
    destruct (whole_step t T k Ok fuel Hf) as (ds & A1 & _ & A2). fold te in A1.
    assert (D : is_double te) by (apply (fl_double _ _ E1)).
    destruct Ok as (_ & D2 & _ & G1 & G2 & G3 & G4).
    assert (B1 : te + 2 * INR n * T <= H) by lra.
    assert (KK : 0 <= IZR k * IZR k * u) by (apply Rmult_le_pos; [apply Rmult_le_pos; lra|lra]).
    destruct n as [|n].
    + exists [ds], te. cbn [fluid_steps_d fluid_step_d]. rewrite E1. cbn [bind]. rewrite A1. cbn [bind fst snd]. split; [reflexivity|]. split; [reflexivity|].
      split; [constructor; [auto|constructor]|]. cbn [INR]. apply Rabs_le. lra.
    + destruct (IH te) as (dss & m & I1 & I2 & I3 & I4).
      { unfold step_ok. rewrite u_eq. split; [auto|]. split; [auto|]. split; [lra|]. split; [auto|].
        rewrite S_INR in B1. pose proof (pos_INR n). assert (0 <= INR n * T) by (apply Rmult_le_pos; lra).
        split; [lra|]. split; [auto|]. apply Rle_trans with (8 * IZR k * IZR k * u * H); [|auto]. apply Rmult_le_compat_l; lra. }
      { auto. }
      exists (ds :: dss), m. change (fluid_steps_d (S (S n)) fuel T (rnd (T / IZR k)) (t, t)) with
        (do r <- fluid_step_d fuel T (rnd (T / IZR k)) (t, t); do q <- fluid_steps_d (S n) fuel T (rnd (T / IZR k)) (snd r); Some (fst r :: fst q, snd q)).
      unfold fluid_step_d. rewrite E1. cbn [bind]. rewrite A1. cbn [bind fst snd]. rewrite I1. cbn [bind fst snd].
      split; [reflexivity|]. split; [cbn [length]; auto|]. split; [constructor; auto|]. apply rabs_le in I4. apply Rabs_le.
      set (N := INR (S n)) in *. set (uh := u * H) in *. lra.
Qed.
Theorem C107_run (t0 T : R) (k : Z) (n fuel : nat) : step_ok t0 T k -> (Z.to_nat k < fuel)%nat ->
  t0 + 2 * INR n * T <= 2 ^ 500 -> 8 * IZR k * IZR k * unit_roundoff * (t0 + 2 * INR n * T) <= T ->
  exists dt dss m, part_timestep_d T k = Some dt /\ fluid_steps_d n fuel T dt (t0, t0) = Some (dss, (m, m)) /\ length dss = n /\
    Forall (fun ds => length ds = Z.to_nat k \/ length ds = S (Z.to_nat k)) dss /\
    Rabs (m - (t0 + INR n * T)) <= INR n * (unit_roundoff * (t0 + 2 * INR n * T)).
Proof.
  intros Ok Hf H1 H2. destruct (run_steps T k fuel (t0 + 2 * INR n * T) Hf H1 H2 n t0 Ok ltac:(lra)) as (dss & m & A).
  exists (rnd (T / IZR k)), dss, m. split; [apply (dt_made t0 T k Ok)|exact A].
Qed.
Print Assumptions C107_run.

Lemma fmt_twice x : fmt x -> fmt (2 * x).
Proof.
  intros H. apply FLT_format_generic in H; [|apply prec53]. destruct H as [[m e] E Hm He]. cbn [Fnum Fexp] in *.
  apply generic_format_FLT. apply FLT_spec with (Float radix2 m (e + 1)); cbn [Fnum Fexp]; auto; try lia.
  rewrite E. unfold F2R; cbn [Fnum Fexp]. rewrite bpow_plus. change (bpow radix2 1) with 2. ring.
Qed.
(** One particle step per fluid step: exactly one substep, under no condition on the sizes but that the time is zero or at least one
    step (and that adding the step changes it). *)
Theorem C107_one (t T te : R) (fuel : nat) : is_double t -> is_double T -> 0 < T -> (t = 0 \/ T <= t) -> fl (t + T) = Some te -> t < te ->
  exists d, part_timestep_d T 1 = Some T /\ integrate_d (S fuel) t te T = Some ([d], te) /\ 0 < d <= T /\ Rabs (d - T) <= unit_roundoff * (t + T).
Proof.
  intros Dt DT HT Ht Ete Hte. assert (t0 : 0 <= t) by lra.
  apply is_double_fmt in Dt as [Ft Bt]. pose proof DT as DT'. apply is_double_fmt in DT' as [FT BT].
  pose proof (fl_double _ _ Ete) as Dte. apply is_double_fmt in Dte as [Fte Bte]. pose proof (fl_eq _ _ Ete) as [Ee _].
  assert (P : part_timestep_d T 1 = Some T). { unfold part_timestep_d. cbn [Z.eqb]. unfold Rdiv. rewrite Rinv_1, Rmult_1_r. apply fl_exact. auto. }
  assert (M : Rabs (te - (t + T)) <= u * (t + T)). { rewrite <- (Rabs_pos_eq (t + T)) at 2 by lra. rewrite Ee. apply rnd_plus_err; auto. } apply rabs_le in M.
  assert (Fr : fmt (te - t)).
  { destruct Ht as [->|Ht]; [rewrite Rminus_0_r; auto|]. apply fmt_sub; auto. split; [lra|]. rewrite Ee.
    apply rnd_le; [apply fmt_twice; auto|lra]. }
  assert (Dr : is_double (te - t)). { apply is_double_fmt. split; [auto|]. rewrite Rabs_pos_eq in Bte |- * by lra. lra. }
  assert (Q : exists d, integrate_d (S fuel) t te T = Some ([d], te) /\ ((d = T /\ T <= te - t) \/ (d = te - t /\ te - t < T))).
  { unfold integrate_d. rewrite Rle_bool_true by lra. cbn [check]. rewrite Req_bool_false by lra. rewrite loop_step by auto.
    rewrite (fl_exact _ Dr). cbn [bind]. destruct (Rle_lt_dec T (te - t)) as [C|C].
    - rewrite min_l by auto. rewrite Ete. cbn [bind]. rewrite loop_done by lra. cbn [bind fst snd]. exists T. auto.
    - rewrite min_r by auto. replace (t + (te - t)) with te by ring. rewrite (fl_exact te) by (apply is_double_fmt; auto). cbn [bind].
      rewrite loop_done by lra. cbn [bind fst snd]. exists (te - t). auto. }
  destruct Q as (d & Q1 & Q2). exists d. split; [auto|]. split; [auto|]. rewrite u_eq. pose proof u_pos.
  assert (0 <= u * (t + T)) by (apply Rmult_le_pos; lra).
  split; [lra|]. apply Rabs_le. destruct Q2 as [[-> Q2]|[-> Q2]]; lra.
Qed.
Print Assumptions C107_one.

(** The number of substeps is not always the configured one: from time 1, a step of length 1 in 3 substeps takes 4, the last of
    length 2^-52. *)
Lemma near x n : IZR n - / 2 < x < IZR n + / 2 -> ZnearestE x = n.
Proof. intros H. apply Znearest_imp. apply Rabs_def1; lra. Qed.
Definition third := 6004799503160661 / 18014398509481984.
Definition third1 := 6004799503160661 / 4503599627370496.
Definition third2 := 7505999378950826 / 4503599627370496.
Definition third3 := 9007199254740991 / 4503599627370496.
Ltac near_fl e n := match goal with |- fl ?x = Some ?y =>
  let A := fresh in assert (A : rnd x = y);
  [rewrite (rnd_val x e n); [cbn; lra|split; cbn; lra|lia|apply near; cbn; lra]|];
  transitivity (Some (rnd x)); [apply (fl_bpow x 10); [lia|rewrite Rabs_pos_eq; cbn; lra]|rewrite A; reflexivity] end.
Theorem C107_extra_refuted : exists t T k dt te ds, step_ok t T k /\ part_timestep_d T k = Some dt /\ fl (t + T) = Some te /\
  (forall fuel, integrate_d (4 + fuel) t te dt = Some (ds, te)) /\ k = 3%Z /\ length ds = 4%nat /\ nth 3 ds 0 = / 2 ^ 52.
Proof.
  exists 1, 1, 3%Z, third, 2, [third; third; third; / 2 ^ 52].
  assert (U : unit_roundoff = / 2 ^ 53) by reflexivity.
  split. { unfold step_ok. split; [dbl 1%Z 0%Z|]. split; [dbl 1%Z 0%Z|]. split; [lra|].
    split; [rewrite <- Rinv_1; apply Rinv_le_contravar; [lra|apply pow_R1_Rle; lra]|]. split.
    - rewrite <- (bpow_nat 500). apply Rle_trans with (bpow radix2 1); [cbn; lra|apply bpow_le; lia].
    - split; [lia|]. rewrite U. lra. }
  assert (E0 : forall x, x = 2 -> fl x = Some x) by (intros x ->; apply (fl_is 1 1); [cbn; lra|lia|lia]).
  split. { unfold part_timestep_d. cbn [Z.eqb]. unfold third. near_fl (-54)%Z 6004799503160661%Z. }
  split. { replace (1 + 1) with 2 by lra. apply E0; auto. }
  split; [|split; [reflexivity|split; [reflexivity|reflexivity]]].
  intros fuel. unfold integrate_d. rewrite Rle_bool_true by lra. cbn [check]. rewrite Req_bool_false by lra.
  cbn [Nat.add]. assert (B : third = 6004799503160661 / 18014398509481984) by reflexivity.
  assert (S1 : fl (1 + third) = Some third1) by (unfold third, third1; near_fl (-52)%Z 6004799503160661%Z).
  assert (S2 : fl (third1 + third) = Some third2) by (unfold third, third1, third2; near_fl (-52)%Z 7505999378950826%Z).
  assert (S3 : fl (third2 + third) = Some third3) by (unfold third, third2, third3; near_fl (-52)%Z 9007199254740991%Z).
  assert (R0 : fl (2 - 1) = Some (2 - 1)) by (apply (fl_is 1 0); [cbn; lra|lia|lia]).
  assert (R1 : fl (2 - third1) = Some (2 - third1)) by (apply (fl_is 3002399751580331 (-52)); [unfold third1; cbn; lra|lia|lia]).
  assert (R2 : fl (2 - third2) = Some (2 - third2)) by (apply (fl_is 1501199875790166 (-52)); [unfold third2; cbn; lra|lia|lia]).
  assert (R3 : fl (2 - third3) = Some (/ 2 ^ 52)).
  { replace (/ 2 ^ 52) with (2 - third3) by (unfold third3; lra). apply (fl_is 1 (-52)); [unfold third3; cbn; lra|lia|lia]. }
  assert (S4 : fl (third3 + / 2 ^ 52) = Some 2). { replace (third3 + / 2 ^ 52) with 2 by (unfold third3; lra). apply E0; auto. }
  rewrite loop_step by lra. rewrite R0. cbn [bind]. rewrite min_l by (unfold third; lra). rewrite S1. cbn [bind].
  rewrite loop_step by (unfold third1; lra). rewrite R1. cbn [bind]. rewrite min_l by (unfold third, third1; lra). rewrite S2. cbn [bind].
  rewrite loop_step by (unfold third2; lra). rewrite R2. cbn [bind]. rewrite min_l by (unfold third, third2; lra). rewrite S3. cbn [bind].
  rewrite loop_step by (unfold third3; lra). rewrite R3. cbn [bind]. rewrite min_r by (unfold third; lra). rewrite S4. cbn [bind].
  rewrite loop_done by lra. reflexivity.
Qed.
Print Assumptions C107_extra_refuted.

(** Outside the condition on the step lengths the loop need not end: from time 1 a step of length 1 in 2^54 substeps never advances. *)
Theorem C107_stall_refuted : exists t T k dt te, is_double t /\ is_double T /\ 0 < T /\ (0 < k)%Z /\ part_timestep_d T k = Some dt /\ 0 < dt /\
  fl (t + T) = Some te /\ t < te /\ forall fuel, integrate_d fuel t te dt = None.
Proof.
  exists 1, 1, (2 ^ 54)%Z, (/ 18014398509481984), 2. split; [dbl 1%Z 0%Z|]. split; [dbl 1%Z 0%Z|]. split; [lra|]. split; [lia|].
  split. { unfold part_timestep_d. replace (2 ^ 54 =? 0)%Z with false by reflexivity. replace (1 / IZR (2 ^ 54)) with (/ 18014398509481984) by (cbn; lra).
    apply (fl_is 1 (-54)); [cbn; lra|lia|lia]. }
  split; [lra|]. split. { replace (1 + 1) with 2 by lra. apply (fl_is 1 1); [cbn; lra|lia|lia]. } split; [lra|].
  intros fuel. unfold integrate_d. rewrite Rle_bool_true by lra. cbn [check]. rewrite Req_bool_false by lra.
  enough (int_loop_d fuel 1 2 (/ 18014398509481984) = None) as -> by reflexivity.
  induction fuel as [|fuel IH]; [cbn [int_loop_d]; rewrite Rlt_bool_true by lra; reflexivity|].
  rewrite loop_step by lra. assert (R0 : fl (2 - 1) = Some (2 - 1)) by (apply (fl_is 1 0); [cbn; lra|lia|lia]). rewrite R0. cbn [bind].
  rewrite min_l by lra. assert (S : fl (1 + / 18014398509481984) = Some 1) by (near_fl (-52)%Z 4503599627370496%Z). rewrite S. cbn [bind]. rewrite IH. reflexivity.
Qed.
Print Assumptions C107_stall_refuted.

(** A non-trivial case: two steps of length 3/1024 from time 5/8, in five substeps each. *)
Example C107_applied : step_ok (5 / 8) (3 / 1024) 5 /\
  (exists dt dss m, part_timestep_d (3 / 1024) 5 = Some dt /\ fluid_steps_d 2 6 (3 / 1024) dt (5 / 8, 5 / 8) = Some (dss, (m, m)) /\ length dss = 2%nat) /\
  (exists d, integrate_d 1 (5 / 8) (643 / 1024) (3 / 1024) = Some ([d], 643 / 1024)).
Proof.
  assert (U : unit_roundoff = / 2 ^ 53) by reflexivity.
  assert (P5 : 1024 <= 2 ^ 500). { rewrite <- (bpow_nat 500). apply Rle_trans with (bpow radix2 10); [cbn; lra|apply bpow_le; lia]. }
  assert (Ok : step_ok (5 / 8) (3 / 1024) 5).
  { unfold step_ok. split; [dbl 5%Z (-3)%Z|]. split; [dbl 3%Z (-10)%Z|]. split; [lra|].
    split; [apply Rle_trans with (/ 1024); [apply Rinv_le_contravar; lra|lra]|]. split; [lra|]. split; [lia|]. rewrite U. lra. }
  split; [auto|]. split.
  - destruct (C107_run (5 / 8) (3 / 1024) 5 2 6 Ok) as (dt & dss & m & A & B & C & _); [lia|cbn [INR]; lra|cbn [INR]; rewrite U; lra|]. exists dt, dss, m. auto.
  - destruct (C107_one (5 / 8) (3 / 1024) (643 / 1024) 0) as (d & _ & A & _); [dbl 5%Z (-3)%Z|dbl 3%Z (-10)%Z|lra|right; lra| |lra|exists d; auto].
    replace (5 / 8 + 3 / 1024) with (643 / 1024) by lra. apply (fl_is 643 (-10)); [cbn; lra|lia|lia].
Qed.
Print Assumptions C107_applied.
