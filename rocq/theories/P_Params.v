(** C84: what the session's parameters mean to the DriftReduced solvers. *)
From Verif Require Import S_Params L_Params L_RealBase.
From Flocq Require Import Core.Raux.
From Coq Require Import Lra Lia List ZArith Bool.
Import ListNotations.
Open Scope string_scope.
Open Scope R_scope.
Open Scope list_scope.

(** The common parameters, in three space dimensions: the documented value or default of each, the field strength |Bxy| along z, and a particle step of
    which the given number make up one fluid step. *)
Theorem C84_common : forall s ps dt, fs_space s = 3%nat -> exists b, dr_params s ps dt = FOk b /\
  (exists Bxy, value_or ps "Bxy" (1 / 10) Bxy /\ bf_vec (dr_B b) = [0; 0; Bxy] /\ bf_mag (dr_B b) = Rabs Bxy) /\
  value_or ps "d00" 1 (df_00 (dr_d b)) /\ value_or ps "d11" 1 (df_11 (dr_d b)) /\ value_or ps "d22" 1 (df_22 (dr_d b)) /\
  value_or ps "n_floor_fac" (1 / 100000) (dr_floor b) /\ value_or ps "nRef" 1 (dr_nref b) /\
  (ps "num_particle_steps_per_fluid_step" = None -> dr_part_dt b = Some dt) /\
  (forall k, ps "num_particle_steps_per_fluid_step" = Some (IZR k) -> k <> 0%Z -> exists h, dr_part_dt b = Some h /\ IZR k * h = dt) /\
  (ps "num_particle_steps_per_fluid_step" = Some 0 -> dr_part_dt b = None).
Proof.
  intros s ps dt H. unfold dr_params. rewrite (load_B_any s _ H). cbn [fbind]. eexists. split; [reflexivity|]. cbn.
  split; [exists (sparam ps "Bxy" (1 / 10)); split; [apply sparam_spec|split; reflexivity]|]. do 3 (split; [apply sparam_spec|]).
  replace (1 / 100000) with (1 / (10 * (10 * (10 * (10 * (10 * 1)))))) by lra. do 2 (split; [apply sparam_spec|]). unfold iparam. split; [|split].
  - intros ->. rewrite rdiv_ok' by lra. f_equal. field.
  - intros k -> Hk. rewrite Ztrunc_IZR. rewrite rdiv_ok' by (apply not_0_IZR; exact Hk). eexists. split; [reflexivity|]. field. apply not_0_IZR, Hk.
  - intros ->. rewrite Ztrunc_IZR. apply rdiv_0.
Qed.
Print Assumptions C84_common.
(** In two space dimensions every one of the solvers writes past the end of its field vector. *)
Theorem C84_2d_refuted : forall s ps dt, (fs_space s <= 2)%nat -> dr_params s ps dt = FUB /\ hw2d_params s ps dt = FUB /\ hw3d_params s ps dt = FUB /\ lapd_params s ps dt = FUB /\ rr_params s ps dt = FUB.
Proof. intros s ps dt H. unfold hw2d_params, hw3d_params, lapd_params, rr_params. rewrite (dr_2d s ps dt H). repeat split. Qed.
Print Assumptions C84_2d_refuted.
(** 2D-in-3D Hasegawa-Wakatani: both coefficients come from the session, and it is refused without them. *)
Theorem C84_hw2d : forall s ps dt, fs_space s = 3%nat ->
  (forall p, hw2d_params s ps dt = FOk p -> ps "HW_alpha" = Some (hw_alpha p) /\ ps "HW_kappa" = Some (hw_kappa p) /\ exists b, dr_params s ps dt = FOk b /\ hw_B p = dr_B b /\ hw_d p = dr_d b) /\
  (hw2d_params s ps dt = FThrow <-> ~ (defines ps "HW_alpha" /\ defines ps "HW_kappa")) /\
  (defines ps "HW_alpha" -> defines ps "HW_kappa" -> exists p, hw2d_params s ps dt = FOk p).
Proof.
  intros s ps dt H. destruct (dr_ok s ps dt H) as (b & E & _ & _). unfold hw2d_params, defines, rparam. rewrite E. cbn [fbind]. destruct (ps "HW_alpha") as [a|]; cbn [fbind]; [destruct (ps "HW_kappa") as [k|]; cbn [fbind]|].
  - split; [|split; [split; [discriminate|intros N; exfalso; apply N; split; discriminate]|intros _ _; eexists; reflexivity]]. intros p [= <-]. cbn. do 2 (split; [reflexivity|]). exists b. auto.
  - split; [discriminate|]. split; [split; [intros _ [_ N]; apply N; reflexivity|reflexivity]|]. intros _ N. exfalso. apply N. reflexivity.
  - split; [discriminate|]. split; [split; [intros _ [N _]; apply N; reflexivity|reflexivity]|]. intros N. exfalso. apply N. reflexivity.
Qed.
Print Assumptions C84_hw2d.
(** 3D Hasegawa-Wakatani is refused exactly when a coefficient is neither given nor derivable. *)
Theorem C84_hw3d_refused : forall s ps dt, fs_space s = 3%nat ->
  (hw3d_params s ps dt = FThrow <->
     (~ defines ps "HW_alpha" /\ ~ (defines ps "HW_omega_ce" /\ defines ps "HW_nu_ei") /\ ~ (defines ps "n0" /\ defines ps "T0" /\ defines ps "Z")) \/
     (~ defines ps "HW_kappa" /\ ~ (defines ps "lambda_n" /\ defines ps "n0" /\ defines ps "T0"))) /\
  hw3d_params s ps dt <> FUB.
Proof.
  intros s ps dt H. destruct (dr_ok s ps dt H) as (b & E & _ & _). unfold hw3d_params. rewrite E. cbn [fbind]. set (B := bf_mag (dr_B b)). clearbody B.
  assert (D : forall n, ~ defines ps n <-> ps n = None) by (intros n; unfold defines; destruct (ps n); split; intros; try congruence; exfalso; apply H0; discriminate).
  assert (Da : hw3d_alpha ps B = FThrow <-> ~ defines ps "HW_alpha" /\ ~ (defines ps "HW_omega_ce" /\ defines ps "HW_nu_ei") /\ ~ (defines ps "n0" /\ defines ps "T0" /\ defines ps "Z")).
  { rewrite hw3d_alpha_throw, D. unfold defines. destruct (ps "HW_alpha"), (ps "HW_omega_ce"), (ps "HW_nu_ei"), (ps "n0"), (ps "T0"), (ps "Z"); split; intros (A1 & A2 & A3); repeat split; try congruence; try (destruct A2; congruence); try (destruct A3 as [|[|]]; congruence); try (intros F; decompose [and] F; congruence); auto; try (exfalso; apply A2; split; discriminate); try (exfalso; apply A3; repeat split; discriminate). }
  assert (Dk : hw3d_kappa ps B = FThrow <-> ~ defines ps "HW_kappa" /\ ~ (defines ps "lambda_n" /\ defines ps "n0" /\ defines ps "T0")).
  { rewrite hw3d_kappa_throw, D. unfold defines. destruct (ps "HW_kappa"), (ps "lambda_n"), (ps "n0"), (ps "T0"); split; intros (A1 & A2); repeat split; try congruence; try (destruct A2 as [|[|]]; congruence); try (intros F; decompose [and] F; congruence); auto; try (exfalso; apply A2; repeat split; discriminate). }
  rewrite <- Da, <- Dk. pose proof (hw3d_alpha_ub ps B) as U1. pose proof (hw3d_kappa_ub ps B) as U2. unfold then_also.
  destruct (hw3d_alpha ps B), (hw3d_kappa ps B); cbn [fbind]; split; try congruence; split; intros; try congruence; auto; match goal with H : _ \/ _ |- _ => destruct H; congruence end.
Qed.
Print Assumptions C84_hw3d_refused.
(** Where alpha comes from: the given value; else the ratio of the given frequencies; else the documented formula, positive for positive parameters and Coulomb logarithm.
    The session's loaded coefficients are these. *)
Theorem C84_hw3d_alpha : forall s ps dt p, fs_space s = 3%nat -> hw3d_params s ps dt = FOk p ->
  (forall a, ps "HW_alpha" = Some a -> hw_alpha p = a) /\
  (forall w nu, ps "HW_alpha" = None -> ps "HW_omega_ce" = Some w -> ps "HW_nu_ei" = Some nu -> nu <> 0 /\ hw_alpha p * nu = w) /\
  (forall Bxy mi n0 T0 Z, ps "HW_alpha" = None -> (ps "HW_omega_ce" = None \/ ps "HW_nu_ei" = None) -> value_or ps "Bxy" (1 / 10) Bxy -> value_or ps "mi" (334 / 10 ^ 29) mi ->
     ps "n0" = Some n0 -> ps "T0" = Some T0 -> ps "Z" = Some Z -> 0 < n0 -> 0 < T0 -> Z <> 0 -> coulomb_log_ei n0 T0 <> 0 -> Bxy <> 0 -> mi <> 0 ->
     hw_alpha p = T0 / (n0 * q_e * spitzer Z n0 T0 * gyro_freq q_e (Rabs Bxy) mi) /\
     (0 < Z -> 0 < mi -> (0 < hw_alpha p <-> 0 < coulomb_log_ei n0 T0))).
Proof.
  intros s ps dt p H. destruct (dr_ok s ps dt H) as (b & E & _ & EB). unfold hw3d_params. rewrite E. cbn [fbind]. rewrite EB. intros Hp.
  set (B := Rabs (sparam ps "Bxy" (1 / 10))) in *.
  assert (Ha : hw3d_alpha ps B = FOk (hw_alpha p)).
  { unfold then_also in Hp. destruct (hw3d_alpha ps B); cbn [fbind] in Hp; try discriminate; [|destruct (hw3d_kappa ps B); discriminate]. destruct (hw3d_kappa ps B); cbn [fbind] in Hp; try discriminate. injection Hp as <-. reflexivity. }
  clear Hp. unfold hw3d_alpha in Ha. split; [|split].
  - intros a Ea. rewrite Ea in Ha. congruence.
  - intros w nu Ea Ew En. rewrite Ea, Ew, En in Ha. destruct (Req_dec nu 0) as [->|Hn]; [rewrite rdiv_0 in Ha; discriminate|]. rewrite rdiv_ok' in Ha by exact Hn. cbn in Ha. injection Ha as Ha. split; [exact Hn|]. rewrite <- Ha. field. exact Hn.
  - intros Bxy mi n0 T0 Z Ea Ef VB Vm En ET EZ Hn HT HZ HL HB Hm. rewrite Ea in Ha.
    assert (Ha' : alpha_phys ps B = FOk (hw_alpha p)) by (destruct Ef as [F|F]; rewrite F in Ha; [exact Ha|destruct (ps "HW_omega_ce"); exact Ha]). clear Ha.
    assert (Em : sparam ps "mi" (2 * m_prot) = mi) by (unfold sparam; destruct Vm as [->|[-> ->]]; [reflexivity|unfold m_prot; field; apply pow_nonzero; lra]).
    assert (E2 : B = Rabs Bxy) by (unfold B, sparam; destruct VB as [->|[-> ->]]; reflexivity).
    rewrite (alpha_phys_ok ps B n0 T0 Z) in Ha'; try assumption; [|rewrite E2; apply Rabs_no_R0, HB|rewrite Em; exact Hm]. rewrite Em, E2 in Ha'. injection Ha' as Ha. split; [symmetry; exact Ha|]. intros Z0 M0. rewrite <- Ha.
    pose proof qe_pos. pose proof (sqrt_lt_R0 T0 HT). pose proof (Rabs_pos_lt Bxy HB). assert (Hg : 0 < gyro_freq q_e (Rabs Bxy) mi) by (unfold gyro_freq; apply Rdiv_lt_0_compat; [apply Rmult_lt_0_compat; assumption|exact M0]).
    set (L := coulomb_log_ei n0 T0) in *. assert (Hc : exists c, 0 < c /\ T0 / (n0 * q_e * spitzer Z n0 T0 * gyro_freq q_e (Rabs Bxy) mi) = c / L).
    { exists (T0 * (T0 * sqrt T0) / (n0 * q_e * (52 / 10 ^ 6 * Z) * gyro_freq q_e (Rabs Bxy) mi)). split.
      - assert (H52 : 0 < 52 / 10 ^ 6 * Z) by (apply Rmult_lt_0_compat; lra). set (z := 52 / 10 ^ 6 * Z) in *. set (g := gyro_freq _ _ _) in *. clearbody z g. assert (0 < q_e) by assumption. set (q := q_e) in *. clearbody q. apply Rdiv_lt_0_compat; repeat apply Rmult_lt_0_compat; try assumption; lra.
      - unfold spitzer. fold L. field. repeat split; first [assumption | lra]. }
    destruct Hc as (c & Hc & ->). split; intros F; [|apply Rdiv_lt_0_compat; assumption]. destruct (Rlt_or_le 0 L) as [|HL0]; [assumption|exfalso]. assert (H3 : L < 0) by (destruct HL0; [assumption|congruence]). assert (c / L < 0) by (pose proof (Rinv_lt_0_compat L H3) as Hi; unfold Rdiv; nra). lra.
Qed.
Print Assumptions C84_hw3d_alpha.
(** A vanishing Coulomb logarithm or charge state, or a density or temperature that is not positive, gives a coefficient that is not finite, and no error. *)
Theorem C84_hw3d_alpha_nonfinite_refuted : forall s ps dt n0 T0 Z, fs_space s = 3%nat -> ps "HW_alpha" = None -> ps "HW_omega_ce" = None -> ps "n0" = Some n0 -> ps "T0" = Some T0 -> ps "Z" = Some Z -> defines ps "HW_kappa" ->
  (n0 <= 0 \/ T0 <= 0 \/ Z = 0 \/ (0 < n0 /\ 0 < T0 /\ coulomb_log_ei n0 T0 = 0)) -> hw3d_params s ps dt = FNan.
Proof.
  intros s ps dt n0 T0 Z H Ea Ew En ET EZ Hk Hbad. destruct (dr_ok s ps dt H) as (b & E & _ & _). unfold hw3d_params. rewrite E. cbn [fbind]. set (B := bf_mag (dr_B b)). clearbody B.
  assert (Ha : hw3d_alpha ps B = FNan); [|rewrite Ha; unfold then_also; pose proof (hw3d_kappa_throw ps B) as [K _]; destruct (hw3d_kappa ps B); try reflexivity; destruct (K eq_refl) as [K' _]; contradiction].
  unfold hw3d_alpha. rewrite Ea, Ew. unfold alpha_phys, rparam. rewrite En, ET, EZ. cbn [fbind]. destruct (Rle_or_lt n0 0) as [Hn|Hn]; [rewrite (dlog_bad n0 Hn); reflexivity|]. rewrite (dlog_ok n0 Hn). cbn [fnan fbind].
  destruct (Rle_or_lt T0 0) as [HT|HT]; [rewrite (dlog_bad T0 HT); reflexivity|]. rewrite (dlog_ok T0 HT), (pow32 T0 HT). cbn [fnan fbind]. replace (31 - 5 / 10 * ln n0 + ln T0) with (coulomb_log_ei n0 T0) by (unfold coulomb_log_ei; lra).
  assert (Hz : 52 / 10 ^ 6 * Z * coulomb_log_ei n0 T0 = 0) by (destruct Hbad as [|[|[->|(_ & _ & ->)]]]; try lra; ring).
  rewrite Hz, rdiv_ok' by (apply Rgt_not_eq, Rmult_lt_0_compat; [exact HT|apply sqrt_lt_R0, HT]). cbn [fnan fbind]. set (e0 := 0 / (T0 * sqrt T0)). assert (He0 : e0 = 0) by (unfold e0, Rdiv; ring). clearbody e0. subst e0.
  destruct (rdiv (q_e * B) _) as [w|]; cbn [fnan fbind]; [|reflexivity]. rewrite rdiv_ok' by lra. cbn [fnan fbind]. rewrite rdiv_ok' by (pose proof qe_pos; lra). cbn [fnan fbind]. rewrite rdiv_0. reflexivity.
Qed.
Print Assumptions C84_hw3d_alpha_nonfinite_refuted.
(** Where kappa comes from: the given value; else sqrt (mi T0 / (e B)) / lambda_n, which does not depend on the density although that is required. *)
Theorem C84_hw3d_kappa : forall s ps dt p, fs_space s = 3%nat -> hw3d_params s ps dt = FOk p ->
  (forall k, ps "HW_kappa" = Some k -> hw_kappa p = k) /\
  (forall Bxy mi T0 l, ps "HW_kappa" = None -> value_or ps "Bxy" (1 / 10) Bxy -> value_or ps "mi" (334 / 10 ^ 29) mi -> ps "T0" = Some T0 -> ps "lambda_n" = Some l ->
     Bxy <> 0 /\ l <> 0 /\ 0 <= mi * T0 /\ hw_kappa p * l = sqrt (mi * T0 / (q_e * Rabs Bxy))).
Proof.
  intros s ps dt p H. destruct (dr_ok s ps dt H) as (b & E & _ & EB). unfold hw3d_params. rewrite E. cbn [fbind]. rewrite EB. intros Hp. set (B := Rabs (sparam ps "Bxy" (1 / 10))) in *.
  assert (Hk : hw3d_kappa ps B = FOk (hw_kappa p)).
  { unfold then_also in Hp. destruct (hw3d_alpha ps B); cbn [fbind] in Hp; try discriminate; [|destruct (hw3d_kappa ps B); discriminate]. destruct (hw3d_kappa ps B); cbn [fbind] in Hp; try discriminate. injection Hp as <-. reflexivity. }
  clear Hp. unfold hw3d_kappa in Hk. split; [intros k Ek; rewrite Ek in Hk; congruence|]. intros Bxy mi T0 l Ek VB Vm ET El. rewrite Ek in Hk. unfold rparam in Hk. rewrite El, ET in Hk. cbn [fbind] in Hk. destruct (ps "n0"); cbn [fbind] in Hk; [|discriminate].
  assert (Em : sparam ps "mi" (2 * (167 / 10 ^ 29)) = mi) by (unfold sparam; destruct Vm as [->|[-> ->]]; [reflexivity|field; apply pow_nonzero; lra]).
  assert (E2 : B = Rabs Bxy) by (unfold B, sparam; destruct VB as [->|[-> ->]]; reflexivity). rewrite Em, E2 in Hk. clear Em E2 B EB E.
  destruct (Req_dec Bxy 0) as [->|HB]; [rewrite Rabs_R0, rdiv_0 in Hk; discriminate|]. pose proof (Rabs_pos_lt Bxy HB) as HB'. rewrite rdiv_ok' in Hk by lra. cbn [fnan fbind] in Hk. pose proof qe_pos.
  assert (Eq : mi * T0 / q_e / Rabs Bxy = mi * T0 / (q_e * Rabs Bxy)) by (field; split; lra). rewrite Eq in Hk. destruct (Rlt_or_le (mi * T0 / (q_e * Rabs Bxy)) 0) as [Hn|Hn]; [unfold dsqrt in Hk; rewrite Rlt_bool_true in Hk by exact Hn; discriminate|].
  rewrite dsqrt_ok in Hk by exact Hn. cbn [fnan fbind] in Hk. destruct (Req_dec l 0) as [->|Hl]; [rewrite rdiv_0 in Hk; discriminate|]. rewrite rdiv_ok' in Hk by exact Hl. cbn in Hk. injection Hk as Hk. split; [exact HB|]. split; [exact Hl|]. split.
  - assert (0 < q_e * Rabs Bxy) by (apply Rmult_lt_0_compat; assumption). replace (mi * T0) with (mi * T0 / (q_e * Rabs Bxy) * (q_e * Rabs Bxy)) by (field; split; lra). apply Rmult_le_pos; lra.
  - rewrite <- Hk. field. exact Hl.
Qed.
Print Assumptions C84_hw3d_kappa.
(** The README calls this length the ion gyro-radius. It is the gyro-radius times sqrt B: equal for B = 1 only. *)
Theorem C84_gyro_radius_refuted : forall mi T0 B, 0 < mi -> 0 < T0 -> 0 < B ->
  sqrt (mi * T0 / (q_e * B)) = sqrt B * gyro_radius q_e B mi T0 /\ (sqrt (mi * T0 / (q_e * B)) = gyro_radius q_e B mi T0 <-> B = 1).
Proof.
  intros mi T0 B Hm HT HB. pose proof qe_pos as Hq.
  assert (Hpos : 0 < gyro_radius q_e B mi T0).
  { unfold gyro_radius, gyro_freq. apply Rdiv_lt_0_compat; [apply sqrt_lt_R0, Rdiv_lt_0_compat; [apply Rmult_lt_0_compat; assumption|exact Hm]|apply Rdiv_lt_0_compat; [apply Rmult_lt_0_compat; assumption|exact Hm]]. }
  assert (Hsb := sqrt_lt_R0 B HB).
  assert (E : sqrt (mi * T0 / (q_e * B)) = sqrt B * gyro_radius q_e B mi T0).
  { apply sqrt_lem_1; [apply Rlt_le, Rdiv_lt_0_compat; apply Rmult_lt_0_compat; assumption|apply Rmult_le_pos; lra|].
    unfold gyro_radius, gyro_freq. set (u := sqrt (q_e * T0 / mi)). assert (Hu : u * u = q_e * T0 / mi) by (apply sqrt_sqrt, Rlt_le, Rdiv_lt_0_compat; [apply Rmult_lt_0_compat; assumption|exact Hm]).
    assert (Hb : sqrt B * sqrt B = B) by (apply sqrt_sqrt; lra). transitivity ((sqrt B * sqrt B) * (u * u) / ((q_e * B / mi) * (q_e * B / mi))); [field; repeat split; lra|]. rewrite Hu, Hb. field. repeat split; lra. }
  split; [exact E|]. rewrite E. split; intros K.
  - assert (sqrt B = 1) by (apply (Rmult_eq_reg_r (gyro_radius q_e B mi T0)); [lra|lra]). rewrite <- (sqrt_sqrt B) by lra. rewrite H. ring.
  - rewrite K, sqrt_1. ring.
Qed.
Print Assumptions C84_gyro_radius_refuted.
(** A session using the label the README gives for the density width, lambda_q, is refused. *)
Theorem C84_lambda_q_refuted : forall s ps dt, fs_space s = 3%nat -> defines ps "lambda_q" -> ~ defines ps "lambda_n" -> ~ defines ps "HW_kappa" -> hw3d_params s ps dt = FThrow.
Proof. intros s ps dt H _ Hl Hk. apply C84_hw3d_refused; [exact H|]. right. split; [exact Hk|]. intros (A & _). contradiction. Qed.
Print Assumptions C84_lambda_q_refuted.
(** LAPD: the two collision parameters are required; the others have their defaults. *)
Theorem C84_lapd : forall s ps dt, fs_space s = 3%nat ->
  (lapd_params s ps dt = FThrow <-> ~ (defines ps "logLambda_const" /\ defines ps "nu_ei_const")) /\
  (forall l nu, ps "logLambda_const" = Some l -> ps "nu_ei_const" = Some nu -> exists p b, lapd_params s ps dt = FOk p /\ dr_params s ps dt = FOk b /\ lp_coulomb p = l /\ lp_nu p = nu /\
     value_or ps "ns" 1 (lp_n_to_SI p) /\ value_or ps "e" 1 (lp_e p) /\ value_or ps "md" 2 (lp_md p) /\ value_or ps "me" (60 / 1836) (lp_me p) /\ value_or ps "Te" 5 (lp_Te p) /\ value_or ps "Td" (1 / 10) (lp_Td p) /\
     lp_B p = dr_B b /\ lp_d p = dr_d b /\ lp_nref p = dr_nref b /\ lp_floor p = dr_floor b).
Proof.
  intros s ps dt H. destruct (dr_ok s ps dt H) as (b & E & _ & _). unfold lapd_params, rparam, defines. rewrite E. cbn [fbind]. split.
  - destruct (ps "logLambda_const"); cbn [fbind]; [destruct (ps "nu_ei_const"); cbn [fbind]|]; split; try discriminate; intros N; try reflexivity; try (intros [A1 A2]; congruence). exfalso. apply N. split; discriminate.
  - intros l nu -> ->. cbn [fbind]. eexists _, b. split; [reflexivity|]. split; [reflexivity|]. cbn [lp_coulomb lp_nu lp_n_to_SI lp_e lp_md lp_me lp_Te lp_Td lp_B lp_d lp_nref lp_floor]. do 2 (split; [reflexivity|]). do 6 (split; [apply sparam_spec|]). repeat split.
Qed.
Print Assumptions C84_lapd.
(** Rogers-Ricci: nothing is required. *)
Theorem C84_rr : forall s ps dt, fs_space s = 3%nat -> exists p b, rr_params s ps dt = FOk p /\ dr_params s ps dt = FOk b /\ rr_B p = dr_B b /\ rr_d p = dr_d b /\
  value_or ps "coulomb_log" 3 (rr_coulomb p) /\ value_or ps "T_eps" (1 / 10000) (rr_T_eps p) /\ value_or ps "rho_s0" (12 / 1000) (rr_rho p) /\
  (exists boost, value_or ps "Ls_boost" 2 boost /\ rr_Ls p = rr_rho p * boost / 2) /\ (exists k, value_or ps "rs_norm" 20 k /\ rr_rs p = k * rr_rho p).
Proof.
  intros s ps dt H. destruct (dr_ok s ps dt H) as (b & E & _ & _). unfold rr_params. rewrite E. cbn [fbind]. eexists _, b. split; [reflexivity|]. split; [reflexivity|]. unfold rr_Ls, rr_rs. cbn [rr_B rr_d rr_coulomb rr_T_eps rr_rho rr_Ls_boost rr_rs_norm]. do 2 (split; [reflexivity|]). split; [apply sparam_spec|].
  replace (1 / 10000) with (1 / 10 ^ 4) by lra. replace (12 / 1000) with (12 / 10 ^ 3) by lra. do 2 (split; [apply sparam_spec|]). split; [exists (sparam ps "Ls_boost" 2)|exists (sparam ps "rs_norm" 20)]; (split; [apply sparam_spec|lra]).
Qed.
Print Assumptions C84_rr.
(** The README's table has the source width 0.5 rho_s0 = 6 mm; a session with no parameters gets 12 mm. *)
Theorem C84_source_width_refuted : forall s dt, fs_space s = 3%nat -> exists p, rr_params s (fun _ => None) dt = FOk p /\ rr_Ls p = rr_rho p /\ rr_Ls p = 12 / 1000 /\ rr_rs p = 24 / 100.
Proof.
  intros s dt H. destruct (C84_rr s (fun _ => None) dt H) as (p & b & E & _ & _ & _ & _ & _ & V1 & (bo & V2 & E2) & k & V3 & E3). exists p. destruct V1 as [V1|[_ V1]]; [discriminate|]. destruct V2 as [V2|[_ V2]]; [discriminate|]. destruct V3 as [V3|[_ V3]]; [discriminate|]. rewrite E2, E3, V1, V2, V3. repeat split; [exact E|lra|lra|lra].
Qed.
Print Assumptions C84_source_width_refuted.
(** Parameters the solver does not list have no effect. *)
Theorem C84_frame : forall s ps ps' dt,
  ((forall n, In n hw2d_names -> ps n = ps' n) -> hw2d_params s ps dt = hw2d_params s ps' dt) /\
  ((forall n, In n hw3d_names -> ps n = ps' n) -> hw3d_params s ps dt = hw3d_params s ps' dt) /\
  ((forall n, In n lapd_pnames -> ps n = ps' n) -> lapd_params s ps dt = lapd_params s ps' dt) /\
  ((forall n, In n rr_pnames -> ps n = ps' n) -> rr_params s ps dt = rr_params s ps' dt).
Proof.
  intros s ps ps' dt.
  assert (D : (forall n, In n dr_names -> ps n = ps' n) -> dr_params s ps dt = dr_params s ps' dt).
  { intros H. unfold dr_params, sparam, iparam. rewrite (H "Bxy"), (H "d00"), (H "d11"), (H "d22"), (H "n_floor_fac"), (H "nRef"), (H "num_particle_steps_per_fluid_step") by (cbn; tauto). reflexivity. }
  split; [|split; [|split]]; intros H; assert (H0 := D (fun n K => H n (in_or_app _ _ _ (or_introl K)))); assert (H1 := fun n K => H n (in_or_app _ _ _ (or_intror K))); clear D H.
  - unfold hw2d_params, rparam. rewrite H0, (H1 "HW_alpha"), (H1 "HW_kappa") by (cbn; tauto). reflexivity.
  - unfold hw3d_params, hw3d_alpha, hw3d_kappa, alpha_phys, rparam, sparam. rewrite H0, (H1 "HW_alpha"), (H1 "HW_kappa"), (H1 "HW_omega_ce"), (H1 "HW_nu_ei"), (H1 "mi"), (H1 "n0"), (H1 "T0"), (H1 "Z"), (H1 "lambda_n") by (cbn; tauto). reflexivity.
  - unfold lapd_params, rparam, sparam. rewrite H0, (H1 "ns"), (H1 "e"), (H1 "md"), (H1 "me"), (H1 "Te"), (H1 "Td"), (H1 "logLambda_const"), (H1 "nu_ei_const") by (cbn; tauto). reflexivity.
  - unfold rr_params, sparam. rewrite H0, (H1 "coulomb_log"), (H1 "Ls_boost"), (H1 "rho_s0"), (H1 "rs_norm"), (H1 "T_eps") by (cbn; tauto). reflexivity.
Qed.
Print Assumptions C84_frame.

(** A session with n0 = 1, T0 = 1, Z = 1, lambda_n = 2, B = 4: the Coulomb logarithm is 31. *)
Definition ex_ps : string -> option R := fun n => if String.eqb n "n0" then Some 1 else if String.eqb n "T0" then Some 1 else if String.eqb n "Z" then Some 1 else
  if String.eqb n "lambda_n" then Some 2 else if String.eqb n "Bxy" then Some 4 else if String.eqb n "mi" then Some (q_e * 16) else None.
Definition ex_s : fsess := {| fs_vars := ["ne"; "w"; "phi"]; fs_mesh := 3; fs_space := 3; fs_part := false; fs_npts := 8 |}.
Example C84_nonvacuous : exists p, hw3d_params ex_s ex_ps (1 / 2) = FOk p /\ hw_kappa p = 1 /\ 0 < hw_alpha p.
Proof.
  pose proof qe_pos as Hq. assert (L : coulomb_log_ei 1 1 = 31) by (unfold coulomb_log_ei; rewrite ln_1; lra).
  assert (Ha : exists a, hw3d_alpha ex_ps 4 = FOk a).
  { change (hw3d_alpha ex_ps 4) with (alpha_phys ex_ps 4). rewrite (alpha_phys_ok ex_ps 4 1 1 1); try reflexivity; try lra. - eexists. reflexivity. - cbn. lra. }
  assert (Hk : exists k, hw3d_kappa ex_ps 4 = FOk k).
  { unfold hw3d_kappa, rparam. cbn. rewrite rdiv_ok' by lra. cbn. rewrite dsqrt_ok; [|apply Rmult_le_pos; [apply Rmult_le_pos; [nra|apply Rlt_le, Rinv_0_lt_compat; lra]|lra]]. cbn. rewrite rdiv_ok' by lra. eexists. reflexivity. }
  assert (E : exists p, hw3d_params ex_s ex_ps (1 / 2) = FOk p).
  { destruct (dr_ok ex_s ex_ps (1 / 2) eq_refl) as (b & E & _ & EB). unfold hw3d_params. rewrite E. cbn [fbind]. rewrite EB. change (sparam ex_ps "Bxy" (1 / 10)) with 4. rewrite (Rabs_pos_eq 4) by lra. destruct Ha as [a ->], Hk as [k ->]. eexists. reflexivity. }
  destruct E as [p E]. exists p. split; [exact E|]. split.
  - destruct (C84_hw3d_kappa ex_s ex_ps (1 / 2) p eq_refl E) as [_ K]. destruct (K 4 (q_e * 16) 1 2 eq_refl (or_introl eq_refl) (or_introl eq_refl) eq_refl eq_refl) as (_ & _ & _ & K').
    rewrite (Rabs_pos_eq 4) in K' by lra. replace (q_e * 16 * 1 / (q_e * 4)) with (2 * 2) in K' by (field; lra). rewrite sqrt_square in K' by lra. lra.
  - destruct (C84_hw3d_alpha ex_s ex_ps (1 / 2) p eq_refl E) as (_ & _ & K). destruct (K 4 (q_e * 16) 1 1 1) as [_ K']; try reflexivity; try (left; reflexivity); try lra; apply K'; lra.
Qed.
