(** C114: the modal basis in double precision. Model: M_BasisD. Specification: S_BasisD (sizes and errors), S_Basis (the exact modes). *)
From Flocq Require Import Core.
From Verif Require Import M_RealBase L_RealBase M_Loop L_Loop M_Grid M_Double S_Double L_Double L_Double2 M_BorisD L_SumD L_BaryD P_Double P_BaryD S_Jacobi L_Jacobi L_Basis1 S_Basis M_BasisD S_BasisD L_BasisD L_BasisD2 L_BasisD3.
From Coq Require Import Reals Lra Lia ZArith Bool Arith List.
Import ListNotations.
Open Scope R_scope.

(** a coordinate of the collapsed cell *)
Definition coordinate (z : R) : Prop := is_double z /\ -1 <= z <= 1.

(** The Jacobi polynomials of the table: no overflow, error of 14 (n + 1) roundings relative to the size of the recurrence, fused or not. *)
Theorem C114_jacobi F max_n max_alpha n alpha z : coordinate z -> (n <= max_n)%nat -> (alpha <= max_alpha)%nat -> (n <= 64)%nat -> (alpha <= 510)%nat ->
  exists p, host_evaluate_d F (make_table_d max_n max_alpha) n alpha z = Some p /\ is_double p /\
    Rabs (p - Jacobi alpha 1 n z) <= 28 * INR n * unit_roundoff * growth alpha n.
Proof.
  intros Z Hn Ha HN HA. destruct (host_nd F max_n max_alpha n alpha z Z Hn Ha HN HA) as (p & E & N). exists p. split; [auto|]. split; [apply N|].
  eapply Rle_trans; [eapply nd_within; [exact N|lia]|]. rewrite u_eq, mult_INR. replace (INR 14) with 14 by (rewrite INR_IZR_INZ; reflexivity). right. ring.
Qed.
(** The size: between 1 and (2 alpha + 4)^n. *)
Theorem C114_size alpha n : 1 <= growth alpha n <= (2 * INR alpha + 4) ^ n.
Proof. exact (growth_range alpha n). Qed.
(** The exact polynomial is not larger than the size. *)
Theorem C114_size_bounds alpha n z : -1 <= z <= 1 -> Rabs (Jacobi alpha 1 n z) <= growth alpha n.
Proof.
  intros H. assert (G : Rabs (Jacobi alpha 1 n z) <= growth alpha n /\ Rabs (Jacobi alpha 1 (S n) z) <= growth alpha (S n)); [|tauto].
  assert (AZ : Rabs z <= 1) by (apply Rabs_le; lra). pose proof (pos_INR alpha) as A0.
  induction n as [|n [I1 I2]].
  - rewrite Jacobi_0, Jacobi_1. change (growth alpha 0) with 1. change (growth alpha 1) with (2 * INR alpha + 4). split; [rewrite Rabs_pos_eq; lra|]. cbn [INR].
    apply Rabs_le. assert (0 <= (INR alpha + 3) * (1 - z) <= (INR alpha + 3) * 2) by (split; [apply Rmult_le_pos; lra|apply Rmult_le_compat_l; lra]). lra.
  - split; [auto|]. rewrite <- jac_rec, growth_SS. set (a := INR alpha) in *. set (m := INR (S (S n))). assert (M : 2 <= m) by (unfold m; rewrite !S_INR; pose proof (pos_INR n); lra).
    pose proof (e10_range a m A0 M). set (p := Jacobi alpha 1 (S n) z) in *. set (q := Jacobi alpha 1 n z) in *.
    eapply Rle_trans; [apply Rabs_triang|]. rewrite Rabs_mult. apply Rplus_le_compat; [|apply Rmult_le_compat_l; [apply Rabs_pos|auto]].
    eapply Rle_trans; [apply Rabs_triang|]. rewrite !Rabs_mult, (Rabs_pos_eq (e10 a m)) by lra. rewrite Rmult_plus_distr_r. apply Rplus_le_compat; [|apply Rmult_le_compat_l; [apply Rabs_pos|auto]].
    rewrite <- (Rmult_1_r (e10 a m * growth alpha (S n))). apply Rmult_le_compat; [apply Rmult_le_pos; [lra|apply Rabs_pos]|apply Rabs_pos|apply Rmult_le_compat_l; [lra|auto]|auto].
Qed.
(** The kernels: every mode is computed without overflow, within the error; mod_A on the whole interval ... *)
Theorem C114_mod_A F max_n max_alpha P z : coordinate z -> (2 <= P <= max_n + 2)%nat -> (1 <= max_alpha)%nat -> (P <= 64)%nat ->
  Forall2 (mode_within (basis_error P)) (mod_A_d F (make_table_d max_n max_alpha) P z) (sized_A P z).
Proof. exact (modes_A F max_n max_alpha P z). Qed.
(** ... mod_B and mod_C on every double below 1, however close. *)
Theorem C114_mod_B F max_n max_alpha P z : coordinate z -> z < 1 -> (P <= max_n + 2)%nat -> (1 <= max_alpha)%nat -> (2 * P <= max_alpha + 3)%nat -> (P <= 64)%nat ->
  Forall2 (mode_within (basis_error P)) (mod_B_d F (make_table_d max_n max_alpha) P z) (sized_B P z).
Proof. exact (rows_B F max_n max_alpha P z). Qed.
Theorem C114_mod_C F max_n max_alpha P z : coordinate z -> z < 1 -> (P <= max_n + 2)%nat -> (1 <= max_alpha)%nat -> (2 * P <= max_alpha + 3)%nat -> (P <= 64)%nat ->
  Forall2 (mode_within (basis_error P)) (mod_C_d F (make_table_d max_n max_alpha) P z) (sized_C P z).
Proof. exact (rows_C F max_n max_alpha P z). Qed.
(** The lists are the exact lists with the sizes added. *)
Theorem C114_lists P z : map fst (sized_A P z) = listA P z /\ map fst (sized_B P z) = listB P z /\ map fst (sized_C P z) = listC P z.
Proof.
  unfold sized_A, sized_B, sized_C, listA, listB, listC. rewrite !map_map. split; [|split]; apply map_ext; [intros p|intros [p q]|intros [[p q] r]]; reflexivity.
Qed.
Print Assumptions C114_jacobi.
Print Assumptions C114_mod_A.
Print Assumptions C114_mod_B.
Print Assumptions C114_mod_C.

(** ** The ends of the element *)
Lemma end_A F mn ma P z : coordinate z -> (2 <= P <= mn + 2)%nat -> (1 <= ma)%nat -> (P <= 64)%nat -> fmul_d (b0_d z) (b1_d z) = Some 0 ->
  mod_A_d F (make_table_d mn ma) P z = [b0_d z; b1_d z] ++ repeat (Some 0) (P - 2).
Proof.
  intros Z HP Ha1 H64 E0. unfold mod_A_d. cbv zeta. rewrite E0. set (T := make_table_d mn ma). set (p1 := first_A_d _ z). assert (J : jac 8 p1 1 1 z) by apply (first_A_nd _ _ Z).
  assert (V : forall K v n, jac K v 1 n z -> fmul_d (Some 0) v = Some 0).
  { intros K v n (r & -> & _). unfold fmul_d. cbn [bind]. rewrite Rmult_0_l. apply fl_exact, dbl_0. }
  rewrite (V _ _ _ J). destruct P as [|[|[|[|P]]]]; try lia; cbn [Nat.ltb Nat.leb]; [reflexivity|reflexivity|].
  replace (S (S (S (S P))) - 4)%nat with P by lia. replace (S (S (S (S P))) - 2)%nat with (2 + P)%nat by lia.
  match goal with |- snd (forr P ?b ?s) = _ => assert (G : forall k, (k <= P)%nat -> exists a c, forr k b s = (a, c, [b0_d z; b1_d z] ++ repeat (Some 0) (2 + k)) /\ jac (14 * (k + 1)) a 1 (S k) z /\ jac (14 * (k + 1)) c 1 k z) end.
  { intros k. induction k as [|k IH]; intros Hk.
    - do 2 eexists. split; [reflexivity|]. split; [eapply md_le; [|exact J]; lia|eapply md_le; [|apply jac_0]; lia].
    - destruct IH as (a & c & E & Ja & Jc); [lia|]. rewrite forr_S, E. replace (4 + k - 2)%nat with (S (S k)) by lia.
      assert (JN : jac (14 * (S (S k))) (recur_d (F (4 + k)%nat) T 1 (S (S k)) z a c) 1 (S (S k)) z).
      { eapply md_le; [|unfold T; apply (recur_nd _ _ _ _ _ _ (14 * (k + 1))); auto; lia]. lia. }
      do 2 eexists. split; [|split; [eapply md_le; [|exact JN]; lia|eapply md_le; [|exact Ja]; lia]].
      rewrite (V _ _ _ JN), <- app_assoc. do 2 f_equal. change [Some 0] with (repeat (Some 0) 1). rewrite <- repeat_app. f_equal. lia. }
  destruct (G P) as (a & c & E & _); [lia|]. rewrite E. reflexivity.
Qed.
Lemma fl_to x y : is_double y -> x = y -> fl x = Some y. Proof. intros D ->. apply fl_exact; auto. Qed.
(** At the ends every mode of mod_A has its exact value: the mode of that end is 1, every other mode is 0. *)
Theorem C114_ends F max_n max_alpha P : (2 <= P <= max_n + 2)%nat -> (1 <= max_alpha)%nat -> (P <= 64)%nat ->
  mod_A_d F (make_table_d max_n max_alpha) P (-1) = [Some 1; Some 0] ++ repeat (Some 0) (P - 2) /\
  mod_A_d F (make_table_d max_n max_alpha) P 1 = [Some 0; Some 1] ++ repeat (Some 0) (P - 2).
Proof.
  intros HP Ha1 H64. assert (D1 : is_double 1) by (apply (dbl_Z 1); lia). assert (Dm : is_double (-1)) by (apply (dbl_Z (-1)); lia). assert (D2 : is_double 2) by (apply (dbl_Z 2); lia).
  assert (A0 : b0_d (-1) = Some 1) by (unfold b0_d; rewrite (fl_to _ 2) by (auto; ring); cbn [bind]; apply fl_to; [auto|field]).
  assert (A1 : b1_d (-1) = Some 0) by (unfold b1_d; rewrite (fl_to _ 0) by (try apply dbl_0; ring); cbn [bind]; apply fl_to; [apply dbl_0|field]).
  assert (B0 : b0_d 1 = Some 0) by (unfold b0_d; rewrite (fl_to _ 0) by (try apply dbl_0; ring); cbn [bind]; apply fl_to; [apply dbl_0|field]).
  assert (B1 : b1_d 1 = Some 1) by (unfold b1_d; rewrite (fl_to _ 2) by (auto; ring); cbn [bind]; apply fl_to; [auto|field]).
  split; rewrite end_A; auto; try (split; [auto|lra]).
  - rewrite A0, A1. reflexivity.
  - rewrite A0, A1. unfold fmul_d. cbn [bind]. apply fl_to; [apply dbl_0|ring].
  - rewrite B0, B1. reflexivity.
  - rewrite B0, B1. unfold fmul_d. cbn [bind]. apply fl_to; [apply dbl_0|ring].
Qed.
Lemma row_app F T z b0 b1 px bp n out : exists new, mod_row_d F T z b0 b1 px bp n out = out ++ new /\ length new = n /\ (px <> O -> (1 <= n)%nat -> nth_error new 0 = Some bp).
Proof.
  unfold mod_row_d. assert (G : exists p1 p2 new, forr n (row_step_d F T z b0 b1 px bp) (None, None, out) = (p1, p2, out ++ new) /\ length new = n /\ (px <> O -> (1 <= n)%nat -> nth_error new 0 = Some bp)).
  { induction n as [|n (p1 & p2 & new & E & L & H)].
    - exists None, None, []. rewrite app_nil_r. split; [reflexivity|]. split; [auto|lia].
    - rewrite forr_S, E.
      assert (FIN : forall (P1 P2 : option R) (v : option R), (px <> O -> n = O -> v = bp) -> exists (p1 p2 : option R) (new' : list (option R)), (P1, P2, (out ++ new) ++ [v]) = (p1, p2, out ++ new') /\ length new' = S n /\ (px <> O -> (1 <= S n)%nat -> nth_error new' 0 = Some bp)).
      { intros P1 P2 v Hv. exists P1, P2, (new ++ [v]). rewrite app_assoc. split; [auto|]. split; [rewrite app_length, L; cbn; lia|]. intros Hp _.
        destruct n; [destruct new; [|discriminate]; cbn; f_equal; auto|]. rewrite nth_error_app1 by lia. apply H; [auto|lia]. }
      unfold row_step_d. cbv zeta. repeat match goal with |- context [Nat.eqb ?a ?b] => destruct (Nat.eqb_spec a b) end; apply FIN; intros; subst; auto; try lia; congruence. }
  destruct G as (p1 & p2 & new & E & R). rewrite E. exists new. auto.
Qed.
(** At the collapsed end itself every mode after the first row that should be 0 is not finite: 1 / b0 is infinite. *)
Theorem C114_collapsed_end_refuted F T P : (2 <= P)%nat -> nth_error (mod_B_d F T P 1) P = Some None /\ modB 1 0 1 = 0.
Proof.
  intros HP. split; [|cbn; field]. unfold mod_B_d. cbv zeta.
  assert (B0 : b0_d 1 = Some 0) by (unfold b0_d; rewrite (fl_to _ 0) by (try apply dbl_0; ring); cbn [bind]; apply fl_to; [apply dbl_0|field]).
  rewrite B0. cbn [bind]. assert (D0 : div_d 1 0 = None) by (unfold div_d; rewrite Req_bool_true; auto). rewrite D0.
  match goal with |- nth_error (snd (forr P ?b ?s)) _ = _ => assert (G : forall k, fst (forr k b s) = None /\ (k = 1%nat -> length (snd (forr k b s)) = P) /\ ((2 <= k)%nat -> nth_error (snd (forr k b s)) P = Some None)) end.
  { intros k. induction k as [|k (I0 & I1 & I2)]; [split; [reflexivity|split; lia]|]. rewrite forr_S. cbn [fst snd]. rewrite I0. split; [reflexivity|].
    match goal with |- context [mod_row_d ?F ?T ?z ?a ?b ?px ?bp ?n ?out] => destruct (row_app F T z a b px bp n out) as (new & E & L & H) end. rewrite E. split.
    - intros K. assert (k = O) by lia. subst k. cbn [forr seq fold_left snd]. cbn in L |- *. rewrite L. lia.
    - intros K. destruct (Nat.eq_dec k 1) as [->|Hk]; [|rewrite nth_error_app1 by (apply nth_error_Some; rewrite I2 by lia; discriminate); apply I2; lia].
      specialize (I1 eq_refl). rewrite nth_error_app2 by lia. rewrite I1, Nat.sub_diag. rewrite H by lia. reflexivity. }
  apply (G P). auto.
Qed.
Print Assumptions C114_collapsed_end_refuted.
Print Assumptions C114_ends.
Print Assumptions C114_size_bounds.
(** A case: order 7, the last double before the collapsed end. *)
Example C114_applied : coordinate (1 - / 2 ^ 53) /\ 1 - / 2 ^ 53 < 1 /\
  Forall2 (mode_within (basis_error 8)) (mod_B_d (fun _ _ => (Some true, false)) (make_table_d 6 13) 8 (1 - / 2 ^ 53)) (sized_B 8 (1 - / 2 ^ 53)) /\
  length (sized_B 8 (1 - / 2 ^ 53)) = 36%nat /\ basis_error 8 <= / 2 ^ 40 /\ growth 1 2 = 12.
Proof.
  assert (P : 0 < / 2 ^ 53 <= / 2). { split; [apply Rinv_0_lt_compat, pow_lt; lra|]. apply Rle_trans with (/ 2 ^ 1); [apply pw; lia|cbn; lra]. }
  assert (C : coordinate (1 - / 2 ^ 53)).
  { split; [|lra]. apply is_double_fmt. split; [|rewrite Rabs_pos_eq by lra; apply Rlt_trans with (bpow radix2 1); [cbn; lra|apply bpow_lt; lia]].
    replace (1 - / 2 ^ 53) with (IZR (2 ^ 53 - 1) * bpow radix2 (-53)) by (cbn; lra). apply fmt_mul_bpow; lia. }
  split; [auto|]. split; [lra|]. split; [apply C114_mod_B; auto; try lia; lra|]. split; [reflexivity|]. split.
  - unfold basis_error, unit_roundoff. replace (INR 8) with 8 by (rewrite INR_IZR_INZ; reflexivity). assert (/ 2 ^ 53 = / 2 ^ 13 * / 2 ^ 40) by (rewrite <- Rinv_mult; f_equal; rewrite <- pow_add; reflexivity).
    rewrite H. rewrite <- (Rmult_1_l (/ 2 ^ 40)) at 2. rewrite <- Rmult_assoc. apply Rmult_le_compat_r; [left; apply Rinv_0_lt_compat, pow_lt; lra|cbn; lra].
  - unfold growth. cbn [INR]. replace (1 + 1) with 2 by ring. rewrite (Rabs_pos_eq (1 - 1)), (Rabs_pos_eq (2 + 1 - 1)) by lra. field.
Qed.
(** A polynomial whose weight is outside the table has no value: nothing is made up for it. *)
Theorem C114_outside_table F max_n max_alpha n alpha z : (2 <= n)%nat -> (max_alpha < alpha)%nat -> host_evaluate_d F (make_table_d max_n max_alpha) n alpha z = None.
Proof.
  intros Hn Ha. unfold host_evaluate_d. destruct (Nat.eqb_spec n 0); [lia|]. destruct (Nat.eqb_spec n 1); [lia|]. replace (n - 1)%nat with (S (n - 2)) by lia. rewrite forr_S. cbn [fst].
  unfold recur_d. rewrite jd_data_eq. rewrite (proj2 (nth_error_None _ _)); [reflexivity|]. cbn [jd_stride make_table_d].
  assert (L : forall l, length (flat_map (fun a => map (table_entry_d a) (seq 0 (max_n + 1))) l) = (length l * (max_n + 1))%nat) by (induction l as [|x l IH]; [reflexivity|cbn [flat_map length]; rewrite app_length, map_length, seq_length, IH; lia]). rewrite L, seq_length. nia.
Qed.
Print Assumptions C114_outside_table.
