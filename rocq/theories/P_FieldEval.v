(** C99: setup and evaluation of a field at particles. *)
From Verif Require Import M_Bytes M_FieldEval S_FieldEval S_Basis S_Basis2 L_Basis1 L_Basis6 P_Basis L_Launch P_Launch L_FieldEval M_RealBase M_Coord L_RealBase L_Coord.
From Coq Require Import Arith Lia Lra ZArith Permutation List.
Import ListNotations.

Lemma ctor_accepts_cells n exps cells : field_good n exps -> (forall e, In e cells -> In e exps) -> exists st, ctor_loop (map fe_exp cells) = Some st.
Proof.
  intros (_ & _ & G) H. apply C53_constructor_accepts. intros e d nm tnm He Hd. apply in_map_iff in He as (x & <- & Hx).
  destruct (G x (H x Hx)) as (_ & G1 & _). exact (G1 d nm tnm Hd).
Qed.

(** Building the evaluator. On a field with one expansion per element of this rank (cell [k] of the particles is the element
    with global id [nth k gids]), the constructor succeeds; every cell gets the expansion of its own element with its number
    of modes. *)
Theorem C99_setup : forall n exps gids, field_good n exps -> (forall g, In g gids -> exists e, expansion_of exps g e) ->
  exists z, basis_setup exps gids = Ok z /\ length (bz_cells z) = length gids /\
    cs_nummodes (bz_st z) = map (fun e => cell_P (fe_exp e)) (bz_cells z) /\
    ctor_loop (map fe_exp (bz_cells z)) = Some (bz_st z) /\
    forall cell g, nth_error gids cell = Some g -> exists e, nth_error (bz_cells z) cell = Some e /\ expansion_of exps g e.
Proof.
  intros n exps gids G H. pose proof G as (G1 & G2 & G3). unfold basis_setup.
  destruct (geom_map_ok exps 0 [] G1) as (m & Em & Dm). rewrite Em. cbn [obind].
  assert (X : forall g, In g gids -> exists e, nth_error exps (exp_id m g) = Some e /\ expansion_of exps g e).
  { intros g Hg. destruct (H g Hg) as (e & He & Hid). apply In_nth_error in He as (i & Hi). exists e. split.
    - rewrite Dm, <- Hid, (exp_id_ok exps i e G2 Hi). exact Hi.
    - split; [eapply nth_error_In; eauto|exact Hid]. }
  destruct (cell_exps_ok exps m gids) as (cells & Ec & Lc & Hc). { intros g Hg. destruct (X g Hg) as (e & E & _). eauto. }
  rewrite Ec. cbn [obind].
  assert (In1 : forall e, In e cells -> In e exps).
  { intros e He. apply In_nth_error in He as (k & Hk). assert (k < length gids)%nat by (rewrite <- Lc; apply nth_error_Some; congruence).
    destruct (nth_error gids k) as [g|] eqn:Eg; [|apply nth_error_None in Eg; lia]. rewrite (Hc k g Eg) in Hk. eapply nth_error_In; eauto. }
  destruct (ctor_accepts_cells n exps cells G In1) as (st & Est). rewrite Est.
  assert (Cn : expansion_count cells = length gids).
  { unfold expansion_count. rewrite cells_of_count. unfold cell_shapes. rewrite map_length. exact Lc. }
  rewrite Cn, Nat.eqb_refl. eexists. split; [reflexivity|]. cbn [bz_cells bz_st]. split; [exact Lc|]. split.
  - rewrite (ctor_nummodes _ _ Est), map_map. reflexivity.
  - split; [exact Est|]. intros cell g Hg. destruct (X g (nth_error_In _ _ Hg)) as (e & E1 & E2). exists e. rewrite (Hc cell g Hg). auto.
Qed.
(** It refuses fields whose element ids are not their positions and expansions with unequal numbers of modes. *)
Theorem C99_setup_rejects : forall exps gids,
  ((exists i e, nth_error exps i = Some e /\ fe_elmt e <> Z.of_nat i) -> basis_setup exps gids = AssertFail) /\
  ((forall i e, nth_error exps i = Some e -> fe_elmt e = Z.of_nat i) -> NoDup (map fe_gid exps) ->
   (forall g, In g gids -> exists e, expansion_of exps g e) ->
   (exists g e d nm tnm, In g gids /\ expansion_of exps g e /\ nth_error (ex_base (fe_exp e)) d = Some (nm, tnm) /\ nm <> cell_P (fe_exp e)) ->
   basis_setup exps gids = AssertFail).
Proof.
  intros exps gids. split.
  - intros (i & e & H & K). unfold basis_setup. rewrite (geom_map_bad exps 0 [] i e H K). reflexivity.
  - intros G1 G2 H (g & e & d & nm & tnm & Hg & (He & Hid) & Hd & Hn). unfold basis_setup.
    destruct (geom_map_ok exps 0 [] G1) as (m & Em & Dm). rewrite Em. cbn [obind].
    assert (X : forall e', In e' exps -> nth_error exps (exp_id m (fe_gid e')) = Some e').
    { intros e' He'. apply In_nth_error in He' as (i & Hi). rewrite Dm, (exp_id_ok exps i e' G2 Hi). exact Hi. }
    destruct (cell_exps_ok exps m gids) as (cells & Ec & Lc & Hc).
    { intros g' Hg'. destruct (H g' Hg') as (e' & He' & <-). exists e'. apply X. exact He'. }
    rewrite Ec. cbn [obind]. destruct (ctor_loop (map fe_exp cells)) as [st|] eqn:Est; [|reflexivity]. exfalso.
    assert (A : exists st, ctor_loop (map fe_exp cells) = Some st) by eauto. rewrite C53_constructor_accepts in A.
    apply Hn. apply (A (fe_exp e) d nm tnm); [|exact Hd]. apply in_map. apply In_nth_error in Hg as (k & Hk).
    specialize (Hc k g Hk). rewrite <- Hid, (X e He) in Hc. eapply nth_error_In; eauto.
Qed.
(** An element without an expansion is not noticed: it gets the first expansion of the field. *)
Theorem C99_missing_expansion_refuted : exists n exps gids z e g, field_good n exps /\ In g gids /\ (forall e', ~ expansion_of exps g e') /\
  basis_setup exps gids = Ok z /\ In e (bz_cells z) /\ fe_gid e <> g /\ length (bz_cells z) = 1%nat.
Proof.
  set (e := {| fe_gid := 5; fe_elmt := 0; fe_exp := {| ex_shape := Quad; ex_base := [(3, 3); (3, 3)]%nat |}; fe_off := 0 |}).
  exists 9%nat, [e], [7%Z]. eexists. exists e, 7%Z. split; [|split; [|split; [|split; [reflexivity|]]]].
  - split; [|split].
    + intros [|[|i]] e' H; cbn in H; try discriminate. injection H as <-. reflexivity.
    + cbn. repeat constructor. intros [].
    + intros e' [<-|[]]. split; [cbn; lia|]. split; [|cbn; lia]. intros [|[|[|d]]] nm tnm H; cbn in H; try discriminate; injection H as <- _; reflexivity.
  - left. reflexivity.
  - intros e' [[<-|[]] H]. cbn in H. discriminate.
  - split; [left; reflexivity|]. split; [cbn; discriminate|reflexivity].
Qed.

(** evaluate, for a group or a sub group, in whatever order the device runs the work items or the loop runs the particles:
    each particle of the call gets the value, at its own reference position, of the function of its own cell's expansion;
    nothing else changes. *)
Theorem C99_evaluate : forall n exps gids z c g L ndim order d,
  field_good n exps -> basis_setup exps gids = Ok z -> (forall x, In x gids -> exists e, expansion_of exps x e) ->
  (0 < L)%nat -> Forall (fun s => In s (ndim_shapes ndim)) (cell_shapes (bz_cells z)) ->
  (0 <= ec_comp c < Z.of_nat (ec_ncomp c))%Z -> length (ec_coeffs c) = n ->
  (forall cell e layer, nth_error (bz_cells z) cell = Some e -> member g cell layer ->
     clear (ex_shape (fe_exp e)) (ref_position (ex_shape (fe_exp e)) (fun k => ec_ref c cell k layer))) ->
  Permutation order (items (cell_shapes (bz_cells z)) L ndim g) ->
  exists d', run_items z c order d = Ok d' /\
    (forall cell layer x, nth_error gids cell = Some x -> member g cell layer -> exists e v, expansion_of exps x e /\
       d' (ec_sym c) cell (Z.to_nat (ec_comp c)) layer = Some v /\
       value_at e (ec_coeffs c) (ref_position (ex_shape (fe_exp e)) (fun k => ec_ref c cell k layer)) v) /\
    forall s cell k layer, ~ (s = ec_sym c /\ k = Z.to_nat (ec_comp c) /\ (cell < length gids)%nat /\ member g cell layer) -> d' s cell k layer = d s cell k layer.
Proof.
  intros n exps gids z c g L ndim order d G Ez Hex HL HF Hc Hn Hcl HP.
  destruct (C99_setup n exps gids G Hex) as (z0 & Ez0 & Lz & Nm & Ct & Hz). rewrite Ez in Ez0. injection Ez0 as <-.
  assert (In1 : forall cell e, nth_error (bz_cells z) cell = Some e -> In e exps).
  { intros cell e H. assert (cell < length gids)%nat by (rewrite <- Lz; apply nth_error_Some; congruence).
    destruct (nth_error gids cell) as [x|] eqn:Ex; [|apply nth_error_None in Ex; lia]. destruct (Hz cell x Ex) as (e' & E' & (I & _)). congruence. }
  assert (Lsh : length (cell_shapes (bz_cells z)) = length gids) by (unfold cell_shapes; rewrite map_length; exact Lz).
  assert (V : forall cell e layer, nth_error (bz_cells z) cell = Some e -> member g cell layer -> exists v,
    item_value z c cell layer = Some (Some v) /\ value_at e (ec_coeffs c) (ref_position (ex_shape (fe_exp e)) (fun k => ec_ref c cell k layer)) v).
  { intros cell e layer He Hm. destruct (Hcl cell e layer He Hm) as ([[e0 e1] e2] & Hco & Hre). destruct G as (_ & _ & G3).
    destruct (G3 e (In1 cell e He)) as (P2 & _ & Off). eexists. split.
    - unfold item_value. rewrite He, Nm, nth_error_map, He. cbn [option_map].
      apply (C54_evaluation_is_modal_sum (map fe_exp (bz_cells z)) (bz_st z) (fe_exp e)) with (e0 := e0) (e1 := e1) (e2 := e2); auto.
      + split; [exact Ct|]. split; [apply in_map; eapply nth_error_In; eauto|exact P2].
      + rewrite skipn_length. lia.
    - exists e0, e1, e2. auto. }
  set (val := fun cell layer => match item_value z c cell layer with Some v => v | None => None end).
  destruct (run_values z c val order Hc) with (d := d) as (d' & E & V1 & V2).
  { intros cell layer Hin. apply (Permutation_in _ HP) in Hin. apply (items_spec _ _ _ _ _ _ HL HF) in Hin as [Hin Hm].
    rewrite Lsh, <- Lz in Hin. apply nth_error_Some in Hin. destruct (nth_error (bz_cells z) cell) as [e|] eqn:He; [|contradiction].
    destruct (V cell e layer He Hm) as (v & Ev & _). unfold val. rewrite Ev. reflexivity. }
  assert (Mem : forall cell layer, In (cell, layer) order <-> (cell < length gids)%nat /\ member g cell layer).
  { intros cell layer. rewrite <- Lsh, <- (items_spec _ L ndim g cell layer HL HF). split; intros H; [eapply Permutation_in; eauto|].
    eapply Permutation_in; [apply Permutation_sym; exact HP|exact H]. }
  exists d'. split; [exact E|]. split.
  - intros cell layer x Hx Hm. destruct (Hz cell x Hx) as (e & He & Hex'). destruct (V cell e layer He Hm) as (v & Ev & Hv).
    exists e, v. split; [exact Hex'|]. split; [|exact Hv].
    rewrite V1; [unfold val; rewrite Ev; reflexivity|]. apply Mem. split; [apply nth_error_Some; congruence|exact Hm].
  - intros s cell k layer N. apply V2. intros (A & B & C). apply N. apply Mem in C. auto.
Qed.
(** A component the output dat does not have is a write outside it. *)
Theorem C99_component_unchecked_refuted : forall z c g L ndim d, (0 < L)%nat -> Forall (fun s => In s (ndim_shapes ndim)) (cell_shapes (bz_cells z)) ->
  (Z.of_nat (ec_ncomp c) <= ec_comp c)%Z -> (exists cell layer, (cell < length (bz_cells z))%nat /\ member g cell layer) ->
  run_items z c (items (cell_shapes (bz_cells z)) L ndim g) d = UB.
Proof.
  intros z c g L ndim d HL HF Hc (cell & layer & Hcell & Hm).
  assert (Hin : In (cell, layer) (items (cell_shapes (bz_cells z)) L ndim g)).
  { apply (items_spec _ _ _ _ _ _ HL HF). split; [unfold cell_shapes; rewrite map_length; exact Hcell|exact Hm]. }
  destruct (items _ _ _ _) as [|it l] eqn:E; [contradiction|]. clear Hin.
  assert (B : forall it a, eval_item z c it a = UB).
  { intros [c0 l0] a. unfold eval_item. destruct (nth_error _ c0); [|reflexivity]. destruct (nth_error _ c0); [|reflexivity].
    destruct (evaluate_particle _ _ _ _ _); [|reflexivity]. destruct (Z.ltb_spec (ec_comp c) (Z.of_nat (ec_ncomp c))); [lia|].
    destruct (Z.leb 0 (ec_comp c)); reflexivity. }
  unfold run_items. cbn [fold_left obind]. rewrite B. clear. induction l; cbn; auto.
Qed.
(** FieldEvaluate (not derivative) writes component 0 of the dat: dats with at least one component. *)
Theorem C99_field_evaluate_call : forall sym ncomp coeffs ref, (0 < ncomp)%nat ->
  let c := value_call sym ncomp coeffs ref in (0 <= ec_comp c < Z.of_nat (ec_ncomp c))%Z /\ ec_sym c = sym /\ ec_coeffs c = coeffs /\ ec_ref c = ref.
Proof. intros sym ncomp coeffs ref H c. cbn. repeat split; lia. Qed.

(** A field on a triangle (3 modes, id 11) and a quadrilateral (4 modes, id 4), cells in the other order, two particles in
    the quadrilateral's cell of which the sub group has one. *)
Definition fx_tri := {| fe_gid := 11; fe_elmt := 0; fe_exp := {| ex_shape := Tri; ex_base := [(3, 3); (3, 6)]%nat |}; fe_off := 0 |}.
Definition fx_quad := {| fe_gid := 4; fe_elmt := 1; fe_exp := {| ex_shape := Quad; ex_base := [(4, 4); (4, 4)]%nat |}; fe_off := 6 |}.
Lemma fx_good : field_good 22 [fx_tri; fx_quad].
Proof.
  split; [|split].
  - intros [|[|[|i]]] e' H; cbn in H; try discriminate; injection H as <-; reflexivity.
  - cbn. repeat constructor; cbn; intuition discriminate.
  - intros e' [<-|[<-|[]]]; (split; [cbn; lia|]); (split; [|vm_compute; lia]); intros [|[|[|d]]] nm tnm H; cbn in H; try discriminate; injection H as <- _; reflexivity.
Qed.
Example C99_hypotheses_met : exists z, basis_setup [fx_tri; fx_quad] [4; 11]%Z = Ok z /\ bz_cells z = [fx_quad; fx_tri] /\
  Forall (fun s => In s (ndim_shapes 2)) (cell_shapes (bz_cells z)) /\
  items (cell_shapes (bz_cells z)) 2 2 (Group [2; 1]%nat) = [(0, 0); (0, 1); (1, 0)]%nat /\
  items (cell_shapes (bz_cells z)) 2 2 (SubGroup false [2; 1]%nat (fun cell => if Nat.eqb cell 0 then [1] else [0])%nat) = [(0, 1); (1, 0)]%nat.
Proof.
  eexists. split; [reflexivity|]. split; [reflexivity|]. split; [cbn; apply Forall_cons; [cbn; auto|apply Forall_cons; [cbn; auto|apply Forall_nil]]|]. split; vm_compute; reflexivity.
Qed.
(** Where the kernels are clear of their divisions: everywhere in quadrilaterals and hexahedra, off the collapsed vertex of
    triangles and the collapsed edge or face of prisms and pyramids. *)
Theorem C99_clear_positions : forall x0 x1 x2, clear Quad (x0, x1, x2) /\ clear Hex (x0, x1, x2) /\
  (x1 <> 1 -> clear Tri (x0, x1, x2)) /\ (x2 <> 1 -> clear Prism (x0, x1, x2)) /\ (x2 <> 1 -> clear Pyr (x0, x1, x2)).
Proof.
  intros. unfold clear. cbn. unfold tri_to_collapsed, quad_to_collapsed, hex_to_collapsed, prism_to_collapsed, pyr_to_collapsed.
  rewrite ?rdiv_ok by apply guard_nonzero. cbn.
  split; [eexists; split; [reflexivity|exact I]|]. split; [eexists; split; [reflexivity|exact I]|].
  split; [|split]; intros H; (eexists; split; [reflexivity|]); cbn; exact H.
Qed.
Print Assumptions C99_setup.
Print Assumptions C99_setup_rejects.
Print Assumptions C99_missing_expansion_refuted.
Print Assumptions C99_evaluate.
Print Assumptions C99_component_unchecked_refuted.
Print Assumptions C99_clear_positions.
