(** C97: the device launches that evaluate and project fields at particles. *)
From Verif Require Import M_Launch S_Launch S_Basis S_Basis2 L_Basis1 L_Basis6 P_Basis L_Launch.
From Coq Require Import Arith Lia Lra ZArith List.
Import ListNotations.

(** Every particle of every cell is handled by exactly one work item, whatever the local size; the number of items per cell
    is a multiple of the local size, as the device requires. *)
Theorem C97_every_particle_once : forall shapes npart L ndim, (0 < L)%nat -> Forall (fun s => In s (ndim_shapes ndim)) shapes ->
  NoDup (launches shapes npart L ndim) /\
  (forall c j, In (c, j) (launches shapes npart L ndim) <-> (c < List.length shapes)%nat /\ (j < nth c npart 0)%nat) /\
  exists q, outer_size npart L = (q * L)%nat.
Proof.
  intros shapes npart L ndim HL HF. split; [|split].
  - unfold launches. apply nodup_flat_map.
    + unfold ndim_shapes. destruct (Nat.eqb ndim 2); repeat constructor; cbn; intuition discriminate.
    + intros s _. apply nodup_launch.
    + intros s t [c j] _ _ H K. apply (in_launch _ _ _ _ _ _ HL) in H. apply (in_launch _ _ _ _ _ _ HL) in K. destruct H, K. congruence.
  - intros c j. unfold launches. rewrite in_flat_map. split.
    + intros (s & _ & H). apply (in_launch _ _ _ _ _ _ HL) in H. destruct H as [H K]. split; [|exact K].
      apply nth_error_Some. rewrite H. discriminate.
    + intros [H K]. destruct (nth_error shapes c) as [s|] eqn:E; [|apply nth_error_None in E; lia]. exists s.
      split; [|apply (in_launch _ _ _ _ _ _ HL); auto]. rewrite Forall_forall in HF. apply HF. apply (nth_error_In _ _ E).
  - apply outer_ge. exact HL.
Qed.

Lemma group_lists exps st e L xi : handled exps st e -> nektar_totals e ->
  let prog := group_program (ctor_table st) st (ex_shape e) L (cell_P e) xi in
  exists ls : nat -> option (list fl * list fl * list fl),
    (forall k, prog k = match ls k with Some x => item_writes st (ex_shape e) k x | None => [] end) /\
    (forall k x, ls k = Some x -> fits st (ex_shape e) x /\ (k < L)%nat) /\
    (forall k x eta, (k < L)%nat -> xi k = Some x -> collapse (ex_shape e) x = Some eta -> 
       exists l, ls k = Some l /\ prepare (ctor_table st) (ex_shape e) (cell_P e) eta = Some l).
Proof.
  intros H N prog.
  exists (fun k => if Nat.ltb k L then match xi k with Some x => match collapse (ex_shape e) x with
            Some eta => prepare (ctor_table st) (ex_shape e) (cell_P e) eta | None => None end | None => None end else None).
  split; [|split].
  - intros k. unfold prog, group_program. destruct (Nat.ltb k L); [|reflexivity]. destruct (xi k) as [x|]; [|reflexivity].
    destruct (collapse (ex_shape e) x) as [eta|]; reflexivity.
  - intros k x. destruct (Nat.ltb k L) eqn:E; [|discriminate]. apply Nat.ltb_lt in E. destruct (xi k) as [y|]; [|discriminate].
    destruct (collapse (ex_shape e) y) as [eta|]; [|discriminate]. intros P.
    destruct (prepare_fits exps st e eta H N) as (l & Q & F). rewrite P in Q. injection Q as ->. auto.
  - intros k x eta K X C. replace (Nat.ltb k L) with true by (symmetry; apply Nat.ltb_lt; exact K). rewrite X, C.
    destruct (prepare_fits exps st e eta H N) as (l & Q & F). exists l. auto.
Qed.

(** All writes of a work-group are inside its local memory. *)
Theorem C97_local_memory_in_bounds : forall exps st e L xi lid a v, handled exps st e -> nektar_totals e ->
  In (a, v) (group_program (ctor_table st) st (ex_shape e) L (cell_P e) xi lid) -> (a < mem_size st (ex_shape e) L)%nat.
Proof.
  intros exps st e L xi lid a v H N I. destruct (group_lists exps st e L xi H N) as (ls & P & F & _). rewrite P in I.
  destruct (ls lid) as [x|] eqn:E; [|destruct I]. destruct (F lid x E) as [F1 F2].
  apply (slab_in st _ L lid); [exact F2|]. apply (item_write_addr st _ lid x a v F1 I).
Qed.

Lemma finished_spaces exps st e L xi m0 tr lid x eta : handled exps st e -> nektar_totals e ->
  let prog := group_program (ctor_table st) st (ex_shape e) L (cell_P e) xi in
  execution prog tr -> finished prog tr lid -> (lid < L)%nat -> xi lid = Some x -> collapse (ex_shape e) x = Some eta ->
  exists l, prepare (ctor_table st) (ex_shape e) (cell_P e) eta = Some l /\
    forall d, (d < 3)%nat -> pre (list_d l d) (seen st (ex_shape e) L (after m0 tr) lid d).
Proof.
  intros H N prog Ex Fin Hl Hx Hc. destruct (group_lists exps st e L xi H N) as (ls & P & F & G).
  destruct (G lid x eta Hl Hx Hc) as (l & E & Q). exists l. split; [exact Q|]. intros d Hd.
  apply (spaces_private st (ex_shape e) L ls m0 tr lid l F E); [| |exact Hd].
  - intros k. destruct (Ex k) as [rest R]. exists rest. rewrite <- P. exact R.
  - unfold finished. rewrite <- P. exact Fin.
Qed.

(** At every moment of every concurrent execution of the group, and whatever the local memory held before, an item that has
    finished preparing its bases evaluates to the field at its own particle: the other items cannot disturb it. *)
Theorem C97_evaluation_undisturbed : forall exps st e L xi m0 tr lid x dofs e0 e1 e2, handled exps st e -> nektar_totals e ->
  let prog := group_program (ctor_table st) st (ex_shape e) L (cell_P e) xi in
  execution prog tr -> finished prog tr lid -> (lid < L)%nat -> xi lid = Some x ->
  collapse (ex_shape e) x = Some (e0, e1, e2) -> regular (ex_shape e) (e0, e1, e2) ->
  (snd (total_modes_s (ex_shape e) (cell_P e)) <= length dofs)%nat ->
  evaluate_from st (ex_shape e) L (cell_P e) dofs (after m0 tr) lid = Some (Some (dot dofs (smodes (ex_shape e) (cell_P e) e0 e1 e2))).
Proof.
  intros exps st e L xi m0 tr lid x dofs e0 e1 e2 H N prog Ex Fin Hl Hx Hc Hr Hd.
  destruct (finished_spaces exps st e L xi m0 tr lid x (e0, e1, e2) H N Ex Fin Hl Hx Hc) as (l & Q & S).
  pose proof (C54_evaluation_is_modal_sum exps st e dofs x e0 e1 e2 H Hc Hr Hd) as V. unfold evaluate_particle in V. rewrite Hc, Q in V.
  destruct l as [[l0 l1] l2]. revert V. unfold evaluate_from. apply le_evaluate; [exact (S 0%nat ltac:(lia)) | exact (S 1%nat ltac:(lia)) | exact (S 2%nat ltac:(lia))].
Qed.
(** Likewise the additions it makes to the coefficients are those of its own particle. *)
Theorem C97_projection_undisturbed : forall exps st e L xi m0 tr lid x v eta, handled exps st e -> nektar_totals e ->
  let prog := group_program (ctor_table st) st (ex_shape e) L (cell_P e) xi in
  execution prog tr -> finished prog tr lid -> (lid < L)%nat -> xi lid = Some x ->
  collapse (ex_shape e) x = Some eta -> regular (ex_shape e) eta ->
  exists adds, project_particle (ctor_table st) (ex_shape e) (cell_P e) x v = Some adds /\
    project_from st (ex_shape e) L (cell_P e) v (after m0 tr) lid = Some adds.
Proof.
  intros exps st e L xi m0 tr lid x v eta H N prog Ex Fin Hl Hx Hc Hr.
  destruct (finished_spaces exps st e L xi m0 tr lid x eta H N Ex Fin Hl Hx Hc) as (l & Q & S).
  destruct (C53_loops_touch_all_dofs_once exps st e x v eta H Hc Hr) as (adds & V & _). exists adds. split; [exact V|].
  unfold project_particle in V. rewrite Hc, Q in V.
  destruct l as [[l0 l1] l2]. revert V. unfold project_from. apply le_project; [exact (S 0%nat ltac:(lia)) | exact (S 1%nat ltac:(lia)) | exact (S 2%nat ltac:(lia))].
Qed.

(** With one mode per direction (constant elements) the kernel writes two values into a space for one: the last item of
    the group writes past the end of the local memory, the others into their neighbour's space. *)
Definition const_quad : expansion := {| ex_shape := Quad; ex_base := [(1, 1); (1, 1)]%nat |}.
Theorem C97_one_mode_refuted : exists st, ctor_loop [const_quad] = Some st /\ nektar_totals const_quad /\
  forall L xi lid x, (lid < L)%nat -> xi lid = Some x ->
  exists v, In (slab st Quad (S lid), v) (group_program (ctor_table st) st Quad L 1 xi lid) /\
    (S lid = L -> slab st Quad (S lid) = mem_size st Quad L).
Proof.
  eexists. split; [reflexivity|]. split.
  { split; [reflexivity|]. intros d b nm tnm H K. destruct d as [|[|[|d]]]; cbn in H, K; try discriminate;
      injection H as <-; injection K as <- <-; reflexivity. }
  match goal with |- context [ctor_table ?s] => set (st := s) end.
  intros L xi lid x HL Hx. unfold group_program. replace (Nat.ltb lid L) with true by (symmetry; apply Nat.ltb_lt; exact HL). rewrite Hx.
  destruct (C54_collapse_total Quad x) as [[[e0 e1] e2] ->]. unfold prepare. cbn [shape_bases eval_b].
  destruct (C51_one_mode_refuted (cs_n st) (cs_alpha st) e0) as (a0 & a1 & E0 & _).
  destruct (C51_one_mode_refuted (cs_n st) (cs_alpha st) e1) as (b0 & b1 & E1 & _).
  unfold ctor_table. rewrite E0, E1. exists b1. split.
  - unfold item_writes. rewrite !in_app_iff. right. left. unfold writes_at, space. cbn [List.length seq combine].
    right. left. f_equal. unfold slab, msum, msize. cbn. lia.
  - intros <-. unfold slab, mem_size, msum, msize. cbn. lia.
Qed.

(** Non-vacuity: the pyramid of 4 modes (with a tetrahedron of 3) of C51, totals 4, 4 and 30: groups of 3 items of 38 values. *)
Example C97_case : exists st e, handled ex_exps3 st e /\ nektar_totals e /\ ex_shape e = Pyr /\ msum st Pyr = 38%nat /\ mem_size st Pyr 3 = 114%nat /\
  space st Pyr 2 2 = 84%nat.
Proof.
  eexists. exists {| ex_shape := Pyr; ex_base := [(4, 4); (4, 4); (4, 30)]%nat |}. split; [split; [reflexivity|split; [left; reflexivity|cbn; lia]]|].
  split; [|vm_compute; auto]. split; [reflexivity|]. intros d b nm tnm H K. destruct d as [|[|[|d]]]; cbn in H, K; try discriminate;
    try (injection H as <-; injection K as <- <-; vm_compute; reflexivity). destruct d; discriminate.
Qed.
(** Two cells with 5 and 2 particles, local size 4: 8 items per cell, 7 do work. *)
Example C97_case_launch : launches [Tri; Quad] [5; 2]%nat 4 2 = [(1,0); (1,1); (0,0); (0,1); (0,2); (0,3); (0,4)]%nat.
Proof. vm_compute. reflexivity. Qed.

Print Assumptions C97_every_particle_once.
Print Assumptions C97_local_memory_in_bounds.
Print Assumptions C97_evaluation_undisturbed.
Print Assumptions C97_projection_undisturbed.
Print Assumptions C97_one_mode_refuted.
