(** C51-C54: modal bases, Jacobi polynomials, numbers of modes, evaluation and projection of fields at particles. *)
From Verif Require Import M_Basis S_Basis S_Basis2 L_Coord L_Jacobi L_Basis1 L_Basis2 L_Basis3 L_Basis4 L_Basis5 L_Basis6.
From Coq Require Import Permutation Lia Lra List.
Import ListNotations.

(** A mesh with a triangle of 3 modes and a quadrilateral of 4, and the constructor's result on it. *)
Definition ex_exps : list expansion := [ {| ex_shape := Tri; ex_base := [(3, 3); (3, 6)] |}; {| ex_shape := Quad; ex_base := [(4, 4); (4, 4)] |} ]%nat.
Definition ex_exps3 : list expansion := [ {| ex_shape := Pyr; ex_base := [(4, 4); (4, 4); (4, 30)] |}; {| ex_shape := Tet; ex_base := [(3, 3); (3, 6); (3, 10)] |} ]%nat.
Lemma ex_ctor : exists st, ctor_loop ex_exps = Some st.
Proof. eexists. reflexivity. Qed.
Lemma ex_ctor3 : exists st, ctor_loop ex_exps3 = Some st.
Proof. eexists. reflexivity. Qed.
Lemma ex_handled : exists st e, handled ex_exps st e /\ ex_shape e = Tri /\ cell_P e = 3%nat.
Proof. eexists. eexists. split. split; [reflexivity|]. split; [left; reflexivity|cbn; lia]. cbn. auto. Qed.
Lemma ex_handled3 : exists st e, handled ex_exps3 st e /\ ex_shape e = Pyr /\ cell_P e = 4%nat.
Proof. eexists. eexists. split. split; [reflexivity|]. split; [left; reflexivity|cbn; lia]. cbn. auto. Qed.

(** * C52 *)
(** jacobi(p, z, alpha, beta) is the Jacobi polynomial for every order. *)
Theorem C52_jacobi_function : forall p z alpha beta, jacobi_c p z alpha beta = Some (Jacobi alpha beta p z).
Proof. exact jacobi_ok. Qed.
(** The evaluation with precomputed coefficients is the Jacobi polynomial within the limits given at construction ... *)
Theorem C52_precomputed : forall max_n max_alpha n alpha z, (n <= max_n)%nat -> (alpha <= max_alpha)%nat ->
  host_evaluate (make_table max_n max_alpha) n alpha z = HVal (Some (Jacobi alpha 1 n z)).
Proof. exact host_ok. Qed.
(** ... and is rejected outside them. *)
Theorem C52_outside_limits_rejected : forall max_n max_alpha n alpha z, (max_n < n)%nat \/ (max_alpha < alpha)%nat ->
  host_evaluate (make_table max_n max_alpha) n alpha z = HBad.
Proof. exact host_bad. Qed.
(** The coefficient table has (max_n + 1) (max_alpha + 1) entries and the entry at stride * alpha + n holds finite
    coefficients of the recurrence for P_n^(alpha,1), for every argument z. *)
Theorem C52_table_entries : forall max_n max_alpha n alpha, (S (S n) <= max_n)%nat -> (alpha <= max_alpha)%nat ->
  let T := make_table max_n max_alpha in
  length (jt_data T) = ((max_n + 1) * (max_alpha + 1))%nat /\
  exists c10 c11 c2, nth_error (jt_data T) (jt_stride T * alpha + S (S n)) = Some (Some (c10, c11, c2)) /\
  forall z, c10 * Jacobi alpha 1 (S n) z * z + c11 * Jacobi alpha 1 (S n) z + c2 * Jacobi alpha 1 n z = Jacobi alpha 1 (S (S n)) z.
Proof.
  intros mn ma n alpha H1 H2 T. split; [apply jt_length|]. destruct (table_entry_indep alpha n) as (a & b & c & E & R).
  exists a, b, c. split; [|exact R]. rewrite <- E. apply jt_read; auto.
Qed.
(** The specification's polynomial, on low orders and on the textbook three-term recurrence. *)
Theorem C52_spec_low_orders : forall a b z, Jacobi a b 0 z = 1 /\ Jacobi a b 1 z = (INR a + 1) + (INR a + INR b + 2) * ((z - 1) / 2).
Proof. intros. split; [apply Jacobi_0|]. rewrite Jacobi_1. field. Qed.
Theorem C52_spec_recurrence : forall a b m z, let n := INR m + 2 in let s := INR a + INR b in
  2 * n * (n + s) * (2 * n + s - 2) * Jacobi a b (S (S m)) z =
  (2 * n + s - 1) * ((2 * n + s) * (2 * n + s - 2) * z + INR a * INR a - INR b * INR b) * Jacobi a b (S m) z
  - 2 * (n + INR a - 1) * (n + INR b - 1) * (2 * n + s) * Jacobi a b m z.
Proof.
  intros. rewrite Jacobi_SS. pose proof (recA_pos a b m) as H. unfold recA, recB, recC, recD in *. cbv zeta in *.
  fold n in H. fold s in H. fold n s. match type of H with 0 < ?d => assert (Hd : d <> 0) by lra end.
  rewrite <- Rmult_assoc, Rinv_r by exact Hd. unfold s. ring.
Qed.
Print Assumptions C52_jacobi_function.
Print Assumptions C52_precomputed.
Print Assumptions C52_table_entries.
Example C52_legendre : host_evaluate (make_table 5 3) 2 1 (1/2) = HVal (Some (3/16)).
Proof. rewrite host_ok by lia. do 2 f_equal. unfold Jacobi, jcoef. cbn -[INR Rdiv]. cbn [INR]. field_simplify. lra. Qed.

(** * C51 *)
(** The reference implementation computes the specified bases, for every number of modes and coordinate. *)
Theorem C51_reference_values : forall P z,
  eval_modA P z = map Some (listA P z) /\ eval_modB P z = map Some (listB P z) /\
  eval_modC P z = map Some (listC P z) /\ eval_modPyrC P z = map Some (listPyrC P z).
Proof. intros. split; [apply eval_modA_list|]. split; [apply eval_modB_list|]. split; [apply eval_modC_list|apply eval_modPyrC_list]. Qed.
Theorem C51_reference_shape_modes : forall s P e0 e1 e2, (2 <= P)%nat ->
  eval_modes s P e0 e1 e2 = map Some (smodes s P e0 e1 e2).
Proof. exact eval_modes_ok. Qed.
(** The kernels run with the table of the constructor equal the reference, away from the collapsed end z = 1. *)
Theorem C51_kernels_equal_reference : forall exps st e b z, handled exps st e -> In b (shape_bases (ex_shape e)) -> b = ModA \/ z <> 1 ->
  eval_b (ctor_table st) b (cell_P e) z = Some (reference b (cell_P e) z).
Proof. exact kernel_ref. Qed.
(** At z = 1 the kernels of the collapsed bases give a non-finite value where the reference is finite: the English claim
    fails there. *)
Theorem C51_collapsed_end_refuted : forall exps st e b, handled exps st e -> In b (shape_bases (ex_shape e)) -> b <> ModA ->
  exists out, eval_b (ctor_table st) b (cell_P e) 1 = Some out /\ nth_error out (cell_P e) = Some None /\
    exists v, nth_error (reference b (cell_P e) 1) (cell_P e) = Some (Some v).
Proof. exact kernel_at_1. Qed.
(** With one mode the kernel writes two values, the reference one. *)
Theorem C51_one_mode_refuted : forall max_n max_alpha z, exists v0 v1,
  mod_A (make_table max_n max_alpha) 1 z = Some [v0; v1] /\ length (eval_modA 1 z) = 1%nat.
Proof. exact mod_A_one. Qed.
Print Assumptions C51_reference_values.
Print Assumptions C51_kernels_equal_reference.
Print Assumptions C51_collapsed_end_refuted.
Example C51_case : exists st, eval_b (ctor_table st) ModPyrC 4 (1/2) = Some (reference ModPyrC 4 (1/2)) /\ length (reference ModPyrC 4 (1/2)) = 30%nat.
Proof.
  destruct ex_handled3 as (st & e & H & Es & EP). exists st. split; [|reflexivity]. rewrite <- EP. apply (C51_kernels_equal_reference _ _ _ _ _ H).
  - rewrite Es. cbn. auto.
  - right. lra.
Qed.

(** * C53 *)
(** The advertised totals are the closed forms ... *)
Theorem C53_total_modes_basis : forall b P, closed_b b P (total_modes_b b P).
Proof. exact count_b. Qed.
Theorem C53_total_modes_shape : forall s P, closed_s s P (snd (total_modes_s s P)).
Proof. exact count_s. Qed.
(** ... the number of values the kernels write, for every coordinate (no read outside the tables or of an unset value) ... *)
Theorem C53_kernel_output_length : forall exps st e b z, handled exps st e -> In b (shape_bases (ex_shape e)) ->
  exists out, eval_b (ctor_table st) b (cell_P e) z = Some out /\ length out = total_modes_b b (cell_P e).
Proof. exact kernel_defined. Qed.
(** ... the number of modes of the reference ... *)
Theorem C53_reference_length : forall s P e0 e1 e2, (2 <= P)%nat -> length (eval_modes s P e0 e1 e2) = snd (total_modes_s s P).
Proof. intros. rewrite eval_modes_ok by auto. rewrite map_length. apply count_smodes. Qed.
(** ... and the dofs the loops touch, each once and in order. *)
Theorem C53_loops_touch_all_dofs_once : forall exps st e xi v eta, handled exps st e -> collapse (ex_shape e) xi = Some eta -> regular (ex_shape e) eta ->
  exists adds, project_particle (ctor_table st) (ex_shape e) (cell_P e) xi v = Some adds /\
    map fst adds = seq 0 (snd (total_modes_s (ex_shape e) (cell_P e))).
Proof. exact project_modes. Qed.
(** The constructor accepts exactly the expansions with the same number of modes in each direction; it records that
    number per cell and local spaces of at least each direction's GetTotNumModes. *)
Theorem C53_constructor_accepts : forall exps, (exists st, ctor_loop exps = Some st) <->
  (forall e d nm tnm, In e exps -> nth_error (ex_base e) d = Some (nm, tnm) -> nm = cell_P e).
Proof. exact ctor_accepts. Qed.
Theorem C53_constructor_sizes : forall exps st, ctor_loop exps = Some st -> cs_nummodes st = map cell_P exps /\
  forall e d nm tnm, In e exps -> nth_error (ex_base e) d = Some (nm, tnm) -> (tnm <= cs_tot st (ex_shape e) d)%nat.
Proof. exact ctor_sizes. Qed.
Print Assumptions C53_total_modes_shape.
Print Assumptions C53_kernel_output_length.
Print Assumptions C53_loops_touch_all_dofs_once.
Print Assumptions C53_constructor_accepts.
Example C53_numbers : snd (total_modes_s Tet 4) = 20%nat /\ snd (total_modes_s Pyr 4) = 30%nat /\ snd (total_modes_s Prism 4) = 40%nat /\ total_modes_b ModB 4 = 10%nat.
Proof. vm_compute. auto. Qed.

(** * C54 *)
Theorem C54_collapse_total : forall s xi, exists eta, collapse s xi = Some eta.
Proof. exact collapse_total. Qed.
(** The collapsed coordinates, away from the collapsed edges and vertices by the zero tolerance. *)
Theorem C54_collapse_values : forall x0 x1 x2,
  (exists c, collapse Quad (x0, x1, x2) = Some (x0, x1, c)) /\
  collapse Hex (x0, x1, x2) = Some (x0, x1, x2) /\
  (/ 10 ^ 12 <= 1 - x1 -> exists c, collapse Tri (x0, x1, x2) = Some (2 * (1 + x0) / (1 - x1) - 1, x1, c)) /\
  (/ 10 ^ 12 <= 1 - x2 ->
     collapse Prism (x0, x1, x2) = Some (2 * (1 + x0) / (1 - x2) - 1, x1, x2) /\
     collapse Pyr (x0, x1, x2) = Some (2 * (1 + x0) / (1 - x2) - 1, 2 * (1 + x1) / (1 - x2) - 1, x2) /\
     (/ 10 ^ 12 <= - x1 - x2 ->
        collapse Tet (x0, x1, x2) = Some (2 * (1 + x0) / (- x1 - x2) - 1, 2 * (1 + x1) / (1 - x2) - 1, x2))).
Proof. exact collapse_values. Qed.
Print Assumptions C54_collapse_values.
(** Evaluating at a particle is the sum of dof times mode. *)
Theorem C54_evaluation_is_modal_sum : forall exps st e dofs xi e0 e1 e2, handled exps st e ->
  collapse (ex_shape e) xi = Some (e0, e1, e2) -> regular (ex_shape e) (e0, e1, e2) ->
  (snd (total_modes_s (ex_shape e) (cell_P e)) <= length dofs)%nat ->
  evaluate_particle (ctor_table st) (ex_shape e) (cell_P e) dofs xi = Some (Some (dot dofs (smodes (ex_shape e) (cell_P e) e0 e1 e2))).
Proof. exact eval_sum. Qed.
(** Projecting adds, to coefficient k, the sum over particles of quantity times mode, whatever the order in which the
    atomic adds happen. *)
Theorem C54_projection_any_order : forall exps st n ndim cells,
  (forall c, In c cells -> cell_of exps st n c /\ In (pc_shape c) (ndim_shapes ndim)) ->
  exists adds, adds_all (ctor_table st) ndim cells = Some adds /\
  forall order, Permutation order adds -> project_run n order = Some (map (fun k => Some (projected cells k)) (seq 0 n)).
Proof. exact project_all. Qed.
(** The particles of the projection can be evaluated, and the two are adjoint. *)
Theorem C54_particles_evaluable : forall exps st n cells (dofs : list R) c xi v, length dofs = n -> (forall c, In c cells -> cell_of exps st n c) ->
  In c cells -> In (xi, v) (pc_parts c) ->
  exists y, evaluate_particle (ctor_table st) (pc_shape c) (pc_P c) (skipn (pc_off c) dofs) xi = Some (Some y).
Proof. exact evaluable. Qed.
Theorem C54_adjoint : forall exps st n cells (dofs : list R) (ev : pcell -> R * R * R -> R),
  length dofs = n -> (forall c, In c cells -> cell_of exps st n c) ->
  (forall c xi v, In c cells -> In (xi, v) (pc_parts c) ->
     evaluate_particle (ctor_table st) (pc_shape c) (pc_P c) (skipn (pc_off c) dofs) xi = Some (Some (ev c xi))) ->
  dot dofs (map (projected cells) (seq 0 n)) = Lsum (fun c => Lsum (fun pv => snd pv * ev c (fst pv)) (pc_parts c)) cells.
Proof. exact adjoint_all. Qed.
(** At a collapsed vertex the evaluated field is not finite: a particle at the top vertex of a triangle. *)
Theorem C54_collapsed_vertex_refuted : forall max_n max_alpha (dofs : list R), (1 <= max_n)%nat -> (1 <= max_alpha)%nat -> (3 <= length dofs)%nat ->
  evaluate_particle (make_table max_n max_alpha) Tri 2 dofs (-1, 1, 0) = Some None.
Proof.
  intros mn ma dofs H1 H2 Hd. unfold evaluate_particle. destruct (collapse_total Tri (-1, 1, 0)) as [[[e0 e1] e2] E]. rewrite E.
  assert (e1 = 1) as ->.
  { unfold collapse, tri_to_collapsed in E. rewrite rdiv_ok in E by apply guard_nonzero. injection E. auto. }
  rewrite prepare_gen by (split; [lia|split; [auto|cbn; lia]]).
  destruct dofs as [|d0 [|d1 [|d2 dofs]]]; cbn [length] in Hd; try lia.
  cbn [shape_bases nth blist]. unfold Blist, Brow. cbn [seq Nat.sub map flat_map app]. rewrite !Bval_1.
  unfold listA. cbn [seq map loop_evaluate]. reflexivity.
Qed.
Print Assumptions C54_evaluation_is_modal_sum.
Print Assumptions C54_projection_any_order.
Print Assumptions C54_adjoint.
Print Assumptions C54_collapsed_vertex_refuted.
(** One triangle cell with two particles, the second at a point of the interior. *)
Definition ex_cell : pcell := {| pc_shape := Tri; pc_P := 3; pc_off := 2; pc_parts := [((0, -1/2, 0), 3); ((-1/2, 0, 0), -2)] |}.
Example C54_case : exists st, cell_of ex_exps st 10 ex_cell /\ In (pc_shape ex_cell) (ndim_shapes 2).
Proof.
  destruct ex_handled as (st & e & H & Es & EP). exists st. split; [|cbn; auto]. split; [|split].
  - exists e. auto.
  - cbn. lia.
  - intros xi v Hin. cbn [ex_cell pc_shape pc_parts In] in *.
    destruct Hin as [Hin|[Hin|[]]]; injection Hin as <- <-; unfold collapse, tri_to_collapsed; rewrite rdiv_ok by apply guard_nonzero;
      eexists; (split; [reflexivity|cbn [regular]; lra]).
Qed.
