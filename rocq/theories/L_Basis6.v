(** The theorems of P_Basis from the lemmas of L_Basis1-5, on the tables the constructor builds. *)
From Verif Require Import M_Basis S_Basis S_Basis2 L_Coord L_Jacobi L_Basis1 L_Basis2 L_Basis3 L_Basis4 L_Basis5.
From Coq Require Import Permutation Lia Lra List.
Import ListNotations.

Lemma handled_tab exps st e : handled exps st e -> tab_ok (cs_n st) (cs_alpha st) (ex_shape e) (cell_P e).
Proof.
  intros (H & Hin & HP). unfold ctor_loop in H. destruct (ctor_loop_ok _ _ _ H) as (_ & Ha & _ & _ & HF). cbn in Ha.
  rewrite Forall_forall in HF. destruct (HF e Hin) as [G1 G2].
  destruct (ex_base e) as [|[nm tnm] bs] eqn:E. { unfold cell_P in HP. rewrite E in HP. lia. }
  destruct (G1 O nm tnm eq_refl) as (-> & G & _).
  split; [lia|]. split; [lia|]. apply G2. lia.
Qed.
Lemma reference_ok b P z : reference b P z = map Some (listb b P z).
Proof. destruct b; [apply eval_modA_list|apply eval_modB_list|apply eval_modC_list|apply eval_modPyrC_list]. Qed.
Lemma kernel_defined exps st e b z : handled exps st e -> In b (shape_bases (ex_shape e)) ->
  exists out, eval_b (ctor_table st) b (cell_P e) z = Some out /\ length out = total_modes_b b (cell_P e).
Proof.
  intros H Hb. destruct (handled_tab _ _ _ H) as (H1 & H2 & H3). exists (blist b (cell_P e) z). split.
  - apply (eval_b_gen _ _ (ex_shape e)); auto.
  - rewrite blist_length, total_modes_b_ok. auto.
Qed.
Lemma kernel_ref exps st e b z : handled exps st e -> In b (shape_bases (ex_shape e)) -> b = ModA \/ z <> 1 ->
  eval_b (ctor_table st) b (cell_P e) z = Some (reference b (cell_P e) z).
Proof.
  intros H Hb Hz. destruct (handled_tab _ _ _ H) as (H1 & H2 & H3). rewrite reference_ok, <- blist_ok by auto.
  apply (eval_b_gen _ _ (ex_shape e)); auto.
Qed.
Lemma nth_error_app_l {A} (a b : list A) i : (i < length a)%nat -> nth_error (a ++ b) i = nth_error a i.
Proof. intros. apply nth_error_app1. auto. Qed.
Lemma at1_none b P : b <> ModA -> (2 <= P)%nat -> nth_error (blist b P 1) P = Some None.
Proof.
  intros Hb HP.
  assert (S2 : seq 0 P = [O; 1%nat] ++ seq 2 (P - 2)) by (replace P with (2 + (P - 2))%nat at 1 by lia; reflexivity).
  assert (R : forall tl, nth_error ((map (Bval 1 0) (seq 0 P) ++ map (Bval 1 1) (seq 0 (P - 1))) ++ tl) P = Some None).
  { intros tl. rewrite <- app_assoc. rewrite nth_error_app2 by (rewrite map_length, seq_length; lia).
    rewrite map_length, seq_length, Nat.sub_diag. replace (P - 1)%nat with (S (P - 2)) by lia. cbn [seq map app nth_error]. rewrite Bval_1. auto. }
  destruct b; [congruence| | |]; cbn [blist].
  - unfold Blist, Brow. rewrite S2. cbn [app flat_map]. rewrite Nat.sub_0_r, app_assoc. apply R.
  - unfold Clist. rewrite S2 at 1. cbn [app flat_map]. rewrite Nat.sub_0_r. rewrite S2 at 1. cbn [app flat_map]. rewrite Nat.sub_0_r.
    replace (0 + 0)%nat with O by lia. replace (0 + 1)%nat with 1%nat by lia. rewrite (app_assoc (map (Bval 1 0) (seq 0 P))), <- app_assoc. apply R.
  - unfold Pyrlist. rewrite S2 at 1. cbn [app flat_map]. unfold Pyrrow at 1. rewrite S2 at 1. cbn [app flat_map]. rewrite Nat.max_0_r, Nat.sub_0_r.
    change (Nat.max 0 1) with 1%nat. cbn [Pyrval].
    rewrite (app_assoc (map _ (seq 0 P))), <- app_assoc. apply R.
Qed.
Lemma kernel_at_1 exps st e b : handled exps st e -> In b (shape_bases (ex_shape e)) -> b <> ModA ->
  exists out, eval_b (ctor_table st) b (cell_P e) 1 = Some out /\ nth_error out (cell_P e) = Some None /\
    exists v, nth_error (reference b (cell_P e) 1) (cell_P e) = Some (Some v).
Proof.
  intros H Hb Hn. destruct (handled_tab _ _ _ H) as (H1 & H2 & H3). exists (blist b (cell_P e) 1). split; [|split].
  - apply (eval_b_gen _ _ (ex_shape e)); auto.
  - apply at1_none; auto; lia.
  - rewrite reference_ok, nth_error_map. pose proof (at1_none b (cell_P e) Hn ltac:(lia)) as E.
    assert (L : (cell_P e < length (listb b (cell_P e) 1))%nat).
    { assert (length (listb b (cell_P e) 1) = length (blist b (cell_P e) 1)) as ->.
      { rewrite blist_length. destruct (eval_lists_length (cell_P e) 1) as (A & B & C & D). destruct b; auto. }
      apply nth_error_Some. congruence. }
    apply nth_error_Some in L. destruct (nth_error (listb b (cell_P e) 1) (cell_P e)) as [v|]; [|congruence]. exists v. auto.
Qed.
Lemma mod_A_one mn ma z : exists v0 v1, mod_A (make_table mn ma) 1 z = Some [v0; v1] /\ length (eval_modA 1 z) = 1%nat.
Proof. eexists. eexists. split; reflexivity. Qed.

(** ** C53 *)
Lemma count_b b P : closed_b b P (total_modes_b b P).
Proof. rewrite total_modes_b_ok. destruct b; cbn [closed_b blen]; [auto|apply tri_num|apply tet_num|apply pyr_num]. Qed.
Lemma count_s s P : closed_s s P (snd (total_modes_s s P)).
Proof.
  change (closed_s s P (ms (total_modes_s s P))). rewrite total_modes_s_count.
  destruct s; cbn [closed_s snum]; [apply tri_num|auto|auto|apply pyr_num|apply prism_num|apply tet_num].
Qed.
Lemma count_smodes s P e0 e1 e2 : length (smodes s P e0 e1 e2) = snd (total_modes_s s P).
Proof. change (snd (total_modes_s s P)) with (ms (total_modes_s s P)). rewrite total_modes_s_count. apply smodes_length. Qed.
Lemma ctor_accepts exps : (exists st, ctor_loop exps = Some st) <->
  (forall e d nm tnm, In e exps -> nth_error (ex_base e) d = Some (nm, tnm) -> nm = cell_P e).
Proof.
  split.
  - intros [st H] e d nm tnm Hin E. unfold ctor_loop in H. destruct (ctor_loop_ok _ _ _ H) as (_ & _ & _ & _ & HF).
    rewrite Forall_forall in HF. apply (proj1 (HF e Hin) d nm tnm E).
  - intros H. apply ctor_loop_some. auto.
Qed.
Lemma ctor_sizes exps st : ctor_loop exps = Some st -> cs_nummodes st = map cell_P exps /\
  forall e d nm tnm, In e exps -> nth_error (ex_base e) d = Some (nm, tnm) -> (tnm <= cs_tot st (ex_shape e) d)%nat.
Proof.
  intros H. unfold ctor_loop in H. destruct (ctor_loop_ok _ _ _ H) as (_ & _ & _ & HN & HF). split; [exact HN|].
  intros e d nm tnm Hin E. rewrite Forall_forall in HF. apply (proj1 (HF e Hin) d nm tnm E).
Qed.
Lemma project_modes exps st e xi v eta : handled exps st e -> collapse (ex_shape e) xi = Some eta -> regular (ex_shape e) eta ->
  exists adds, project_particle (ctor_table st) (ex_shape e) (cell_P e) xi v = Some adds /\ map fst adds = seq 0 (snd (total_modes_s (ex_shape e) (cell_P e))).
Proof.
  destruct eta as [[e0 e1] e2]. intros H Hc Hr. exists (addsof v (smodes (ex_shape e) (cell_P e) e0 e1 e2)). split.
  - apply project_particle_ok; auto. apply handled_tab with (1 := H).
  - rewrite <- (count_smodes _ _ e0 e1 e2). unfold addsof. set (l := smodes _ _ _ _ _).
    generalize O. induction l as [|x l IH]; cbn; auto. intros. f_equal. apply IH.
Qed.
(** too few dofs: the loop reads past the end *)
Lemma collapse_total s xi : exists eta, collapse s xi = Some eta.
Proof.
  destruct xi as [[x0 x1] x2]. destruct s; cbn [collapse];
  unfold tet_to_collapsed, pyr_to_collapsed, prism_to_collapsed, hex_to_collapsed, tri_to_collapsed, quad_to_collapsed;
    rewrite ?rdiv_ok by apply guard_nonzero; eexists; reflexivity.
Qed.

(** ** C54 *)
Lemma collapse_values : forall x0 x1 x2,
  (exists c, collapse Quad (x0, x1, x2) = Some (x0, x1, c)) /\
  collapse Hex (x0, x1, x2) = Some (x0, x1, x2) /\
  (/ 10 ^ 12 <= 1 - x1 -> exists c, collapse Tri (x0, x1, x2) = Some (2 * (1 + x0) / (1 - x1) - 1, x1, c)) /\
  (/ 10 ^ 12 <= 1 - x2 ->
     collapse Prism (x0, x1, x2) = Some (2 * (1 + x0) / (1 - x2) - 1, x1, x2) /\
     collapse Pyr (x0, x1, x2) = Some (2 * (1 + x0) / (1 - x2) - 1, 2 * (1 + x1) / (1 - x2) - 1, x2) /\
     (/ 10 ^ 12 <= - x1 - x2 ->
        collapse Tet (x0, x1, x2) = Some (2 * (1 + x0) / (- x1 - x2) - 1, 2 * (1 + x1) / (1 - x2) - 1, x2))).
Proof.
  intros. cbn [collapse]. unfold tet_to_collapsed, pyr_to_collapsed, prism_to_collapsed, hex_to_collapsed, tri_to_collapsed, quad_to_collapsed.
  rewrite !rdiv_ok by apply guard_nonzero.
  split; [eexists; reflexivity|]. split; [reflexivity|]. split.
  - intros H. rewrite (guard_far (1 - x1)) by exact H. eexists; reflexivity.
  - intros H. rewrite (guard_far (1 - x2)) by exact H. split; [reflexivity|]. split; [reflexivity|].
    intros H'. rewrite guard_far by exact H'. reflexivity.
Qed.
Lemma eval_sum exps st e dofs xi e0 e1 e2 : handled exps st e -> collapse (ex_shape e) xi = Some (e0, e1, e2) -> regular (ex_shape e) (e0, e1, e2) ->
  (snd (total_modes_s (ex_shape e) (cell_P e)) <= length dofs)%nat ->
  evaluate_particle (ctor_table st) (ex_shape e) (cell_P e) dofs xi = Some (Some (dot dofs (smodes (ex_shape e) (cell_P e) e0 e1 e2))).
Proof.
  intros H Hc Hr Hd. apply evaluate_particle_ok; auto. apply handled_tab with (1 := H).
  change (snd (total_modes_s (ex_shape e) (cell_P e))) with (ms (total_modes_s (ex_shape e) (cell_P e))) in Hd. rewrite total_modes_s_count in Hd. auto.
Qed.
Lemma cell_of_ok exps st n c : cell_of exps st n c -> cell_ok (cs_n st) (cs_alpha st) n c.
Proof.
  intros ((e & H & E1 & E2) & Ho & Hp). unfold cell_ok. rewrite <- E1, <- E2 in *. split; [|split].
  - apply handled_tab with (1 := H).
  - change (snd (total_modes_s (ex_shape e) (cell_P e))) with (ms (total_modes_s (ex_shape e) (cell_P e))) in Ho. rewrite total_modes_s_count in Ho. auto.
  - auto.
Qed.
Lemma project_all exps st n ndim cells : (forall c, In c cells -> cell_of exps st n c /\ In (pc_shape c) (ndim_shapes ndim)) ->
  exists adds, adds_all (ctor_table st) ndim cells = Some adds /\
  forall order, Permutation order adds -> project_run n order = Some (map (fun k => Some (projected cells k)) (seq 0 n)).
Proof.
  intros H. assert (H' : forall c, In c cells -> cell_ok (cs_n st) (cs_alpha st) n c /\ In (pc_shape c) (ndim_shapes ndim)).
  { intros c Hc. destruct (H c Hc). split; auto. apply cell_of_ok with (1 := H0). }
  assert (E := adds_all_ok (cs_n st) (cs_alpha st) n ndim cells).
  assert (E' : forall c, In c (launched ndim cells) -> cell_ok (cs_n st) (cs_alpha st) n c).
  { intros c Hc. apply H'. eapply Permutation_in; [|exact Hc]. apply launched_perm. intros c' Hc'. apply H'. auto. }
  specialize (E E'). eexists. split; [exact E|]. intros order Ho.
  rewrite (project_ok (cs_n st) (cs_alpha st) n ndim cells order H'); [|eexists; split; [exact E|exact Ho]].
  rewrite map_map. reflexivity.
Qed.
Lemma adjoint_all exps st n cells (dofs : list R) (ev : pcell -> R * R * R -> R) :
  length dofs = n -> (forall c, In c cells -> cell_of exps st n c) ->
  (forall c xi v, In c cells -> In (xi, v) (pc_parts c) ->
     evaluate_particle (ctor_table st) (pc_shape c) (pc_P c) (skipn (pc_off c) dofs) xi = Some (Some (ev c xi))) ->
  dot dofs (map (projected cells) (seq 0 n)) = Lsum (fun c => Lsum (fun pv => snd pv * ev c (fst pv)) (pc_parts c)) cells.
Proof.
  intros Hl Hc He. apply (adjoint_ok (cs_n st) (cs_alpha st) n cells dofs ev Hl); auto.
  intros c Hin. apply cell_of_ok with (1 := Hc c Hin).
Qed.
Lemma evaluable exps st n cells (dofs : list R) c xi v : length dofs = n -> (forall c, In c cells -> cell_of exps st n c) -> In c cells -> In (xi, v) (pc_parts c) ->
  exists y, evaluate_particle (ctor_table st) (pc_shape c) (pc_P c) (skipn (pc_off c) dofs) xi = Some (Some y).
Proof.
  intros Hl Hc Hin Hp. destruct (Hc c Hin) as ((e & H & E1 & E2) & Ho & Hq). destruct (Hq xi v Hp) as ([[e0 e1] e2] & Hcl & Hr).
  rewrite <- E1, <- E2 in *. eexists. apply eval_sum with (1 := H) (2 := Hcl); auto. rewrite skipn_length. lia.
Qed.
