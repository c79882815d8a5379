(** Lemmas for C69 and C71: a fluid step completes; identifiers are not unique. *)
From Verif Require Import M_Sol S_Sol L_RealBase L_Coord L_Sol L_Sol2 L_Sol3 L_Sol4.
From Coq Require Import Lra Lia Psatz List.
Import ListNotations.

Lemma pre_defined E F dt s new : params_ok (se_P E) -> fields_ok F -> 0 < dt -> good_state s ->
  add_particles (se_P E) (se_num E) (se_lines E) 1 (se_draw E (ps_calls s)) = Some new ->
  exists src s', pre_integrate E F 2 (ps_time s) dt 1 s = Some (src, s').
Proof.
  intros HP HF Hd Hg En. unfold pre_integrate. rewrite rdiv_ok by lra. cbn [bind]. replace (dt / 1) with dt by field. unfold integrate_sol.
  rewrite Rlt_bool_false, Req_bool_false by lra. cbn [int_loop]. rewrite Rlt_bool_true by lra. cbv zeta. rewrite fmin_Rmin, Rmin_left by lra.
  unfold substep_sol. rewrite rdiv_ok by lra. cbn [bind]. replace (dt / dt) with 1 by (field; lra). rewrite En. cbn [bind].
  rewrite Rlt_bool_false by lra. cbn [ps_parts].
  set (l2 := transfer_sol _ _ _ _).
  assert (Hl2 : forall p, In p l2 -> good_weight p /\ (0 <= fst (np_id p))%Z).
  { intros p Hp. apply transfer_in in Hp as (q & Hq & ->). apply in_map_iff in Hq as (q0 & <- & Hq).
    destruct (wt_euler dt q0) as (_ & Ei & Ew). assert (G : good_weight q0 /\ (0 <= fst (np_id q0))%Z).
    { apply in_app_or in Hq as [Hq|Hq]; [now apply Hg|]. destruct (in_added _ _ _ _ _ _ _ En Hq) as [H1 H2]. split; auto. exists (sp_weight (se_P E)). split; auto. apply HP. }
    unfold good_weight, periodic_bc. cbn [np_w np_id]. rewrite Ei, Ew. exact G. }
  destruct (ionise_list (se_P E) F dt l2 HP HF Hd Hl2) as (rho & _ & _ & Ef & _). rewrite Ef. do 2 eexists. reflexivity.
Qed.

Definition two_lines_draw : nat -> Z -> list (list (R * R * R * (R * R * R))) := fun line _ => [[((INR line, 0, 0), (0, 0, 0))]].
Lemma ids_clash P : exists p q, add_particles P 2 2 1 two_lines_draw = Some [p; q] /\ np_pos p <> np_pos q /\ np_id p = np_id q.
Proof.
  unfold add_particles, per_line. rewrite rdiv_ok by (simpl; lra). cbn [bind]. replace (1 * (2 / INR 2)) with 1 by (simpl; field).
  rewrite Ztrunc_IZR. cbn [Z.leb Z.ltb Z.compare Z.opp Z.pow Z.pow_pos Pos.iter Z.mul Pos.mul Pos.compare Pos.compare_cont andb bind].
  unfold two_lines_draw. cbn [seq flat_map length combine map concat app new_parts]. do 2 eexists. split; [reflexivity|]. cbn [np_pos np_id].
  split; [|reflexivity]. intros H. assert (H' := f_equal (fun x : R * R * R => fst (fst x)) H). cbn [fst INR] in H'. lra.
Qed.
Lemma per_line_ex : per_line 1 10 4 = Some 2%Z.
Proof.
  unfold per_line. rewrite rdiv_ok by (simpl; lra). cbn [bind]. replace (1 * (10 / INR 4)) with (5/2) by (simpl; field).
  rewrite Ztrunc_floor by lra. rewrite (Zfloor_imp 2) by (simpl; lra). reflexivity.
Qed.
Lemma per_line_exact (lines : nat) (k : Z) : (0 < lines)%nat -> (0 <= k < 2 ^ 31)%Z -> per_line 1 (Z.of_nat lines * k) lines = Some k.
Proof.
  intros Hl Hk. assert (HL : 0 < INR lines) by (apply lt_0_INR; auto). unfold per_line. rewrite rdiv_ok by lra. cbn [bind].
  rewrite mult_IZR, <- INR_IZR_INZ. replace (1 * (INR lines * IZR k / INR lines)) with (IZR k) by (field; lra). rewrite Ztrunc_IZR.
  destruct (Z.leb_spec (- 2 ^ 31) k); [|lia]. destruct (Z.ltb_spec k (2 ^ 31)); [|lia]. reflexivity.
Qed.
