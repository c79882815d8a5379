(** Lemmas for the parameter loading. *)
From Verif Require Import S_Params L_Fluid L_Coord L_RealBase.
From Flocq Require Import Core.Raux.
From Coq Require Import Lra Lia List ZArith Bool.
Import ListNotations.
Open Scope string_scope.
Open Scope R_scope.
Open Scope list_scope.

Lemma load_B_any s B : fs_space s = 3%nat -> load_B s B = FOk {| bf_vec := [0; 0; B]; bf_mag := Rabs B; bf_unit := [0; 0; if Rlt_bool 0 (Rabs B) then B / Rabs B else 0] |}.
Proof.
  intros H. destruct (Req_dec B 0) as [->|HB].
  - unfold load_B. rewrite H. change (repeat 0 3) with [0; 0; 0]. change (aset [0; 0; 0] 2 0) with (FOk [0; 0; 0]). cbn [fbind].
    change (aget [0; 0; 0] 0) with (FOk 0). change (aget [0; 0; 0] 1) with (FOk 0). change (aget [0; 0; 0] 2) with (FOk 0). cbn [fbind map].
    replace (0 * 0 + 0 * 0 + 0 * 0) with 0 by ring. rewrite sqrt_0, Rabs_R0, Rlt_bool_false by lra. reflexivity.
  - rewrite (load_B_ok s B H HB). rewrite Rlt_bool_true by (apply Rabs_pos_lt; exact HB). reflexivity.
Qed.
Lemma sparam_spec ps n d : value_or ps n d (sparam ps n d).
Proof. unfold value_or, sparam. destruct (ps n); auto. Qed.
Lemma dr_ok s ps dt : fs_space s = 3%nat -> exists b, dr_params s ps dt = FOk b /\ bf_vec (dr_B b) = [0; 0; sparam ps "Bxy" (1 / 10)] /\ bf_mag (dr_B b) = Rabs (sparam ps "Bxy" (1 / 10)).
Proof. intros H. unfold dr_params. rewrite (load_B_any s _ H). cbn [fbind]. eexists. split; [reflexivity|]. split; reflexivity. Qed.
Lemma dr_2d s ps dt : (fs_space s <= 2)%nat -> dr_params s ps dt = FUB.
Proof. intros H. unfold dr_params. rewrite (load_B_UB s _ H). reflexivity. Qed.
Lemma rdiv_ok' x y : y <> 0 -> rdiv x y = Some (x / y).
Proof. intros H. unfold rdiv. rewrite Req_bool_false by exact H. reflexivity. Qed.
Lemma rdiv_0 x : rdiv x 0 = None.
Proof. unfold rdiv. rewrite Req_bool_true by reflexivity. reflexivity. Qed.
Lemma qe_pos : 0 < q_e.
Proof. unfold q_e. apply Rdiv_lt_0_compat; [lra|apply pow_lt; lra]. Qed.
Lemma mp_pos : 0 < m_prot.
Proof. unfold m_prot. apply Rdiv_lt_0_compat; [lra|apply pow_lt; lra]. Qed.
Lemma pow32 T : 0 < T -> dpow T (3 / 2) = Some (T * sqrt T).
Proof.
  intros H. unfold dpow. rewrite Rlt_bool_false by lra. rewrite Req_bool_false by lra. f_equal.
  replace (3 / 2) with (1 + / 2) by lra. rewrite Rpower_plus, Rpower_1, Rpower_sqrt by exact H. reflexivity.
Qed.
Lemma dlog_ok x : 0 < x -> dlog x = Some (ln x).
Proof. intros H. unfold dlog. rewrite Rle_bool_false by exact H. reflexivity. Qed.
Lemma dlog_bad x : x <= 0 -> dlog x = None.
Proof. intros H. unfold dlog. rewrite Rle_bool_true by exact H. reflexivity. Qed.
Lemma dsqrt_ok x : 0 <= x -> dsqrt x = Some (sqrt x).
Proof. intros H. unfold dsqrt. rewrite Rlt_bool_false by exact H. reflexivity. Qed.
(** alpha from the physical parameters, where every quantity is meaningful *)
Lemma alpha_phys_ok ps B n0 T0 Z : ps "n0" = Some n0 -> ps "T0" = Some T0 -> ps "Z" = Some Z -> 0 < n0 -> 0 < T0 -> Z <> 0 -> coulomb_log_ei n0 T0 <> 0 -> B <> 0 -> sparam ps "mi" (2 * m_prot) <> 0 ->
  alpha_phys ps B = FOk (T0 / (n0 * q_e * spitzer Z n0 T0 * gyro_freq q_e B (sparam ps "mi" (2 * m_prot)))).
Proof.
  intros E1 E2 E3 Hn HT HZ HL HB Hm. unfold alpha_phys, rparam. rewrite E1, E2, E3. cbn [fbind]. rewrite (dlog_ok n0 Hn), (dlog_ok T0 HT), (pow32 T0 HT). cbn [fnan fbind].
  replace (31 - 5 / 10 * ln n0 + ln T0) with (coulomb_log_ei n0 T0) by (unfold coulomb_log_ei; lra).
  pose proof (sqrt_lt_R0 T0 HT) as HS. set (mi := sparam _ _ _) in *. clearbody mi. pose proof qe_pos as Hq. set (L := coulomb_log_ei n0 T0) in *.
  assert (HL' : 52 / 10 ^ 6 <> 0) by lra.
  rewrite (rdiv_ok' (52 / 10 ^ 6 * Z * L)) by (apply Rgt_not_eq, Rmult_lt_0_compat; lra). cbn [fnan fbind]. rewrite (rdiv_ok' (q_e * B)) by exact Hm. cbn [fnan fbind]. rewrite (rdiv_ok' T0) by lra. cbn [fnan fbind]. rewrite (rdiv_ok' (T0 / n0)) by lra. cbn [fnan fbind].
  assert (HE : 52 / 10 ^ 6 * Z * L / (T0 * sqrt T0) <> 0).
  { unfold Rdiv at 1. apply Rmult_integral_contrapositive_currified; [repeat (apply Rmult_integral_contrapositive_currified; try assumption)|apply Rinv_neq_0_compat, Rgt_not_eq, Rmult_lt_0_compat; assumption]. }
  assert (HW : q_e * B / mi <> 0).
  { unfold Rdiv. apply Rmult_integral_contrapositive_currified; [apply Rmult_integral_contrapositive_currified; [lra|exact HB]|apply Rinv_neq_0_compat, Hm]. }
  rewrite (rdiv_ok' (T0 / n0 / q_e)) by exact HE. cbn [fnan fbind]. rewrite rdiv_ok' by exact HW. cbn [fnan]. f_equal. unfold spitzer, gyro_freq. fold L. set (eta := 52 / 10 ^ 6 * Z * L / (T0 * sqrt T0)) in *. set (w := q_e * B / mi) in *. clearbody eta w. field. repeat split; try assumption; lra.
Qed.
(** It never throws once the three parameters are there, and always otherwise *)
Lemma alpha_phys_throw ps B : alpha_phys ps B = FThrow <-> ps "n0" = None \/ ps "T0" = None \/ ps "Z" = None.
Proof.
  unfold alpha_phys, rparam. destruct (ps "n0") as [n0|]; cbn [fbind]; [|split; auto]. destruct (ps "T0") as [T0|]; cbn [fbind]; [|split; auto]. destruct (ps "Z") as [Z|]; cbn [fbind]; [|split; auto].
  split; [|intros [H|[H|H]]; discriminate]. intros H. exfalso. revert H.
  repeat match goal with |- context [fnan ?x] => destruct x; cbn [fnan fbind]; try discriminate end.
Qed.
Lemma alpha_phys_ub ps B : alpha_phys ps B <> FUB.
Proof.
  unfold alpha_phys, rparam. destruct (ps "n0"), (ps "T0"), (ps "Z"); cbn [fbind]; try discriminate.
  repeat match goal with |- context [fnan ?x] => destruct x; cbn [fnan fbind]; try discriminate end.
Qed.
Lemma hw3d_kappa_throw ps B : hw3d_kappa ps B = FThrow <-> ps "HW_kappa" = None /\ (ps "lambda_n" = None \/ ps "n0" = None \/ ps "T0" = None).
Proof.
  unfold hw3d_kappa, rparam. destruct (ps "HW_kappa") as [k|]; [split; [discriminate|intros [H _]; discriminate]|]. destruct (ps "lambda_n") as [l|]; cbn [fbind]; [|split; auto]. destruct (ps "n0") as [n0|]; cbn [fbind]; [|split; auto]. destruct (ps "T0") as [T0|]; cbn [fbind]; [|split; auto].
  split; [|intros [_ [H|[H|H]]]; discriminate]. intros H. exfalso. revert H.
  repeat match goal with |- context [fnan ?x] => destruct x; cbn [fnan fbind]; try discriminate end.
Qed.
Lemma hw3d_kappa_ub ps B : hw3d_kappa ps B <> FUB.
Proof.
  unfold hw3d_kappa, rparam. destruct (ps "HW_kappa"), (ps "lambda_n"), (ps "n0"), (ps "T0"); cbn [fbind]; try discriminate.
  repeat match goal with |- context [fnan ?x] => destruct x; cbn [fnan fbind]; try discriminate end.
Qed.
Lemma hw3d_alpha_throw ps B : hw3d_alpha ps B = FThrow <-> ps "HW_alpha" = None /\ (ps "HW_omega_ce" = None \/ ps "HW_nu_ei" = None) /\ (ps "n0" = None \/ ps "T0" = None \/ ps "Z" = None).
Proof.
  unfold hw3d_alpha. destruct (ps "HW_alpha") as [a|]; [split; [discriminate|intros [H _]; discriminate]|].
  destruct (ps "HW_omega_ce") as [w|] eqn:E1; [destruct (ps "HW_nu_ei") as [nu|] eqn:E2|].
  - split; [|intros (_ & [H|H] & _); discriminate]. destruct (rdiv w nu); discriminate.
  - rewrite alpha_phys_throw. split; [auto|intros (_ & _ & H); exact H].
  - rewrite alpha_phys_throw. split; [auto|intros (_ & _ & H); exact H].
Qed.
Lemma hw3d_alpha_ub ps B : hw3d_alpha ps B <> FUB.
Proof.
  unfold hw3d_alpha. destruct (ps "HW_alpha"); [discriminate|]. destruct (ps "HW_omega_ce") as [w|]; [destruct (ps "HW_nu_ei") as [nu|]|]; try apply alpha_phys_ub. destruct (rdiv w nu); discriminate.
Qed.
