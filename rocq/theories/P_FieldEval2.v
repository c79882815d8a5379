(** C99: a field evaluated at mapped particles has its value at their physical positions. *)
From Verif Require M_Generic3D S_Generic3D L_Generic3D3 P_NewtonBind P_Regular P_Journey P_Journey2.
From Verif Require Import M_RealBase M_Grid M_Coord M_NewtonMap M_NewtonBind M_Regular.
From Verif Require Import S_NewtonM S_NewtonBind S_Regular.
From Coq Require Import ZArith Reals Lra Lia Permutation Sorting.Sorted.
From Verif Require Import M_Bytes M_Pack2D M_RemoteGeom M_Transport M_Exchange M_Halo3D M_Util M_Journey.
From Verif Require Import S_Journey M_FieldEval S_FieldEval L_FieldEval P_FieldEval S_Newton S_FieldEval2.
From Coq Require Import List.
Import ListNotations.
Local Open Scope R_scope.

(** Reference coordinates at which an element accepts a particle map back to its position: exactly in regular elements,
    within the Newton tolerance in others. *)
Theorem C99_reference_position : forall n conf g q xi X acc, (n = 2 \/ n = 3)%nat -> element_map n conf g X acc -> accepted n conf g q xi ->
  (n = 2%nat -> comp xi 2 = 0) /\ ((forall a, (a < n)%nat -> Rabs (X xi a - comp (kernel_pos n q) a) <= acc a) \/ at_apex g (kernel_pos n q)).
Proof.
  intros n conf g q xi X acc Hn HE HA. unfold accepted in HA. destruct HE as [s A b Hcf Hd Hs Haf Hdet Ht|e c sc Hcf Hd Hgs Hnt Hct Hsc Hhex|s x Hn3 Hcf Hnt Hct Hsc]; rewrite Hcf in HA.
  - subst n. apply (P_Regular.C48_accepts_exactly s g A b _ _ xi Hs Haf Hdet Ht) in HA as (H1 & H2 & _). split; [exact H1|].
    left. intros a Ha. rewrite (H2 a Ha), Rminus_diag_eq, Rabs_R0 by reflexivity. lra.
  - destruct HA as (_ & HA).
    assert (T : forall start over, try_cell (g_newton g) (kernel_pos n q) start (newton_max_iteration (read_config conf)) (newton_tol (read_config conf))
        (contained_tol (read_config conf)) over = Some xi ->
      (n = 2%nat -> comp xi 2 = 0) /\ ((forall a, (a < n)%nat -> Rabs (Xmap e c xi a - comp (kernel_pos n q) a) <= newton_tol (read_config conf) / scale_of e sc a) \/ at_apex g (kernel_pos n q))).
    { intros start over H. rewrite Hnt in H. apply P_NewtonBind.C46_accepted_is_close in H as ((eta & Exi & _) & H); [|exact Hhex|exact Hct]. split.
      - intros E2. rewrite Exi. rewrite E2 in Hd. destruct e; cbn in Hd; try discriminate. reflexivity.
      - destruct H as [H|[H _]].
        + left. intros a Ha. rewrite Hd in H. specialize (H a Ha). apply Rmult_le_reg_r with (scale_of e sc a); [auto|].
          unfold Rdiv. rewrite Rmult_assoc, Rinv_l, Rmult_1_r; [exact H|]. specialize (Hsc a Ha). lra.
        + right. pose proof H as (He & _). subst e. split; [exact Hgs|]. exists c, sc. auto. }
    destruct HA as [HA|(grid & HA)].
    + eapply T. exact HA.
    + unfold accepts_final in HA. induction (grid_starts n grid) as [|st l IH]; cbn in HA; [discriminate|].
      destruct (try_cell _ _ st _ _ _ true) eqn:E; [injection HA as ->; eapply T; exact E|auto].
  - split; [intros ->; discriminate|]. left. destruct HA as (_ & HA). subst n.
    assert (T : forall start over, try_cell (g_newton g) (kernel_pos 3 q) start (newton_max_iteration (read_config conf)) (newton_tol (read_config conf))
        (contained_tol (read_config conf)) over = Some xi ->
      forall a, (a < 3)%nat -> Rabs (S_Generic3D.elem_X s x xi a - comp (kernel_pos 3 q) a) <= newton_tol (read_config conf) / comp (M_Generic3D.xm_scale x) a).
    { intros start over H a Ha. rewrite Hnt in H. apply L_Generic3D3.accepted in H as (_ & H); [|exact Hct]. specialize (H a Ha). specialize (Hsc a Ha).
      apply Rmult_le_reg_r with (comp (M_Generic3D.xm_scale x) a); [exact Hsc|]. unfold Rdiv. rewrite Rmult_assoc, Rinv_l, Rmult_1_r; [exact H|]. lra. }
    destruct HA as [HA|(grid & HA)].
    + eapply T. exact HA.
    + unfold accepts_final in HA. induction (grid_starts 3 grid) as [|st l IH]; cbn in HA; [discriminate|].
      destruct (try_cell _ _ st _ _ _ true) eqn:E; [injection HA as ->; eapply T; exact E|auto].
Qed.

Lemma phys_kernel_pos n q : (n = 2 \/ n = 3)%nat -> phys n (comp (kernel_pos n q)) = kernel_pos n q.
Proof. intros [->| ->]; reflexivity. Qed.
Lemma bound_le n K x acc : (forall a, 0 <= K a) -> (forall a, (a < n)%nat -> x a <= acc a) ->
  fold_right (fun a s => K a * x a + s) 0 (seq 0 n) <= bound n K acc.
Proof.
  intros HK H. unfold bound. assert (G : forall a, In a (seq 0 n) -> x a <= acc a) by (intros a Ha; apply in_seq in Ha; apply H; lia).
  induction (seq 0 n) as [|a l IH]; cbn; [lra|]. assert (K a * x a <= K a * acc a) by (apply Rmult_le_compat_l; [auto|apply G; left; auto]).
  assert (fold_right (fun a s => K a * x a + s) 0 l <= fold_right (fun a s => K a * acc a + s) 0 l) by (apply IH; intros; apply G; right; auto). lra.
Qed.
(** The field's value at accepted reference coordinates. *)
Theorem C99_value_at_accepted : forall n conf g q xi X acc D e coeffs f K v, (n = 2 \/ n = 3)%nat ->
  element_map n conf g X acc -> accepted n conf g q xi -> ~ at_apex g (kernel_pos n q) ->
  represents n D e coeffs X f -> D xi -> value_at e coeffs xi v ->
  (lipschitz n K f -> Rabs (v - f (kernel_pos n q)) <= bound n K acc) /\ (closed_form n conf g = true -> v = f (kernel_pos n q)).
Proof.
  intros n conf g q xi X acc D e coeffs f K v Hn HE HA Hap HR HD HV.
  destruct (C99_reference_position n conf g q xi X acc Hn HE HA) as (H2 & [H|H]); [|contradiction].
  rewrite (HR xi v H2 HD HV). rewrite <- (phys_kernel_pos n q Hn) at 1 2. split.
  - intros (HK & L). eapply Rle_trans; [apply L|]. apply bound_le; auto.
  - intros Hcf. destruct HE as [s A b _ _ _ _ _ _| |]; [|congruence|congruence].
    assert (E : forall a, (a < n)%nat -> affine_coeffs n A b xi a = comp (kernel_pos n q) a).
    { intros a Ha. specialize (H a Ha). cbv beta in H. destruct (Req_dec (affine_coeffs n A b xi a - comp (kernel_pos n q) a) 0) as [E|E]; [lra|].
      apply Rabs_pos_lt in E. lra. }
    f_equal. unfold phys. rewrite !E by lia. destruct Hn as [-> | ->]; [reflexivity|]. cbn [Nat.eqb]. rewrite E by lia. reflexivity.
Qed.

(** The particle data of a call on rank [me] holds the placed particles: the particle of cell [cell] and layer [layer] was [q]
    before and is [q'] after the mapping call (and lives in the cell its element is translated to). *)
Definition holds {E} (n : nat) (conf : store) (size me : Z) (elems : Z -> list (Z * E)) (mk : Z -> Z -> E -> mgeom) (ct : cell_ids)
    (ref : nat -> nat -> nat -> R) (cell layer : nat) (q q' : M_NewtonBind.particle) : Prop :=
  placed n conf size elems mk q q' /\ q_rank q' = me /\ translate ct (q_cell q') = Some (Z.of_nat cell) /\
  forall d, (d < n)%nat -> ref cell d layer = nthR (q_ref q') d.
(** What is asked of every element of this rank: its inverse map is understood, no particle is at a pyramid's apex, and the
    field is [f] there. *)
Definition field_is {E} (n : nat) (conf : store) (me : Z) (own : list (Z * E)) (mk : Z -> Z -> E -> mgeom) (exps : list fexp) (coeffs : list R)
    (D : Z -> pt3 -> Prop) (f : pt3 -> R) (acc : nat -> R) : Prop :=
  forall i el e, In (i, el) own -> expansion_of exps i e ->
    exists X a, element_map n conf (mk me i el) X a /\ represents n (D i) e coeffs X f /\ forall k, (k < n)%nat -> a k <= acc k.

Lemma landing_value {E} n conf size me (elems : Z -> list (Z * E)) mk ct exps gids z c g L order d D f K acc :
  (n = 2 \/ n = 3)%nat ->
  (forall q q', placed n conf size elems mk q q' -> q_rank q' = me -> forall cell, translate ct (q_cell q') = Some (Z.of_nat cell) ->
     exists i e xi, In (i, e) (elems me) /\ nth_error gids cell = Some i /\ accepted n conf (mk me i e) q xi /\
       q_pos q' = q_pos q /\ forall d, (d < n)%nat -> nthR (q_ref q') d = comp xi d) ->
  forall nn, field_good nn exps -> basis_setup exps gids = Ok z -> (forall x, In x gids -> exists e, expansion_of exps x e) ->
  (0 < L)%nat -> Forall (fun s => In s (ndim_shapes n)) (cell_shapes (bz_cells z)) ->
  (0 <= ec_comp c < Z.of_nat (ec_ncomp c))%Z -> length (ec_coeffs c) = nn ->
  (forall cell e layer, nth_error (bz_cells z) cell = Some e -> member g cell layer ->
     clear (ex_shape (fe_exp e)) (ref_position (ex_shape (fe_exp e)) (fun k => ec_ref c cell k layer))) ->
  Permutation order (items (cell_shapes (bz_cells z)) L n g) ->
  field_is n conf me (elems me) mk exps (ec_coeffs c) D f acc ->
  exists d', run_items z c order d = Ok d' /\ forall cell layer q q', member g cell layer -> holds n conf size me elems mk ct (ec_ref c) cell layer q q' ->
    (forall gm, In gm (map (fun kv => mk me (fst kv) (snd kv)) (elems me)) -> ~ at_apex gm (kernel_pos n q)) ->
    (forall i xi, nth_error gids cell = Some i -> (forall d, (d < n)%nat -> comp xi d = nthR (q_ref q') d) -> D i xi) ->
    exists v, d' (ec_sym c) cell (Z.to_nat (ec_comp c)) layer = Some v /\
      (lipschitz n K f -> Rabs (v - f (kernel_pos n q')) <= bound n K acc) /\
      ((forall i el, In (i, el) (elems me) -> closed_form n conf (mk me i el) = true) -> v = f (kernel_pos n q')).
Proof.
  intros Hn Hland nn G Ez Hex HL HF Hc Hl Hcl HP HFI.
  destruct (C99_evaluate nn exps gids z c g L n order d G Ez Hex HL HF Hc Hl Hcl HP) as (d' & Er & V & _). exists d'. split; [exact Er|].
  intros cell layer q q' Hm (Hpl & Hr & Ht & Href) Hap HD.
  destruct (Hland q q' Hpl Hr cell Ht) as (i & el & xi & Hin & Hg & HA & Hpos & Hxi).
  destruct (V cell layer i Hg Hm) as (e & v & He & Hv & Hval). exists v. split; [exact Hv|].
  assert (Hk : kernel_pos n q' = kernel_pos n q) by (unfold kernel_pos; rewrite Hpos; reflexivity). rewrite Hk.
  destruct (HFI i el e Hin He) as (X & a & HE & HR & Ha).
  assert (Exi : ref_position (ex_shape (fe_exp e)) (fun k => ec_ref c cell k layer) = xi).
  { destruct (C99_reference_position n conf _ q xi X a Hn HE HA) as (H2 & _).
    assert (Sn : shape_ndim (ex_shape (fe_exp e)) = n).
    { destruct (C99_setup nn exps gids G Hex) as (z0 & Ez0 & _ & _ & _ & Hz). rewrite Ez in Ez0. injection Ez0 as <-.
      destruct (Hz cell i Hg) as (e' & He' & Hei). assert (e' = e).
      { destruct He as (I1 & J1), Hei as (I2 & J2). destruct G as (_ & ND & _). apply In_nth_error in I1 as (k1 & K1). apply In_nth_error in I2 as (k2 & K2).
        assert (k1 = k2); [|subst; congruence]. rewrite NoDup_nth_error in ND. apply ND.
        - apply nth_error_Some. rewrite nth_error_map, K1. discriminate.
        - rewrite !nth_error_map, K1, K2. cbn. congruence. }
      subst e'. rewrite Forall_forall in HF. specialize (HF (ex_shape (fe_exp e))).
      assert (In (ex_shape (fe_exp e)) (cell_shapes (bz_cells z))) by (unfold cell_shapes; apply (in_map (fun e => ex_shape (fe_exp e))); eapply nth_error_In; eauto).
      specialize (HF H). unfold ndim_shapes in HF. destruct Hn as [-> | ->]; cbn in HF.
      - destruct HF as [<-|[<-|[]]]; reflexivity.
      - destruct HF as [<-|[<-|[<-|[<-|[]]]]]; reflexivity. }
    unfold ref_position. rewrite Sn. destruct xi as [[x0 x1] x2]. destruct Hn as [-> | ->]; cbn [Nat.eqb].
    - rewrite (Href 0%nat), (Href 1%nat), (Hxi 0%nat), (Hxi 1%nat) by lia. specialize (H2 eq_refl). cbn in *. rewrite H2. reflexivity.
    - rewrite (Href 0%nat), (Href 1%nat), (Href 2%nat), (Hxi 0%nat), (Hxi 1%nat), (Hxi 2%nat) by lia. reflexivity. }
  rewrite Exi in Hval.
  assert (DX : D i xi) by (apply HD; [exact Hg|]; intros dd Hdd; symmetry; apply Hxi; exact Hdd).
  destruct (C99_value_at_accepted n conf (mk me i el) q xi X a (D i) e (ec_coeffs c) f K v Hn HE HA) as (B1 & B2); auto.
  - apply Hap. apply in_map_iff. exists (i, el). auto.
  - split.
    + intros HL'. eapply Rle_trans; [apply B1; exact HL'|]. destruct HL' as (HK & _). unfold bound at 1. apply (bound_le n K a acc HK Ha).
    + intros Hall. apply B2. apply Hall. exact Hin.
Qed.

(** C99 in 3D. On rank [me] of a distributed mesh, evaluate a field at particles that map_particles placed there: every
    particle gets the value of the function the field represents, at the particle's own position -- up to the Newton
    tolerance times the function's rate of change, and exactly if every element of the rank has the closed form inverse. *)
Theorem C99_value_at_position_3d : forall nn size me elems mk conf ct exps z c g L order d D f K acc,
  (0 <= me < size)%Z ->
  (forall a, (0 <= a < size)%Z -> StronglySorted Z.lt (map fst (elems a)) /\ Forall (fun kv : Z * elem3d => (0 <= fst kv < INT_MAX)%Z) (elems a)) ->
  rank_translation_3d (elems me) = Some ct -> field_good nn exps -> basis_setup exps (map_to_nektar ct) = Ok z ->
  (forall x, In x (map_to_nektar ct) -> exists e, expansion_of exps x e) ->
  (0 < L)%nat -> Forall (fun s => In s (ndim_shapes 3)) (cell_shapes (bz_cells z)) ->
  (0 <= ec_comp c < Z.of_nat (ec_ncomp c))%Z -> length (ec_coeffs c) = nn ->
  (forall cell e layer, nth_error (bz_cells z) cell = Some e -> member g cell layer ->
     clear (ex_shape (fe_exp e)) (ref_position (ex_shape (fe_exp e)) (fun k => ec_ref c cell k layer))) ->
  Permutation order (items (cell_shapes (bz_cells z)) L 3 g) ->
  field_is 3 conf me (elems me) mk exps (ec_coeffs c) D f acc ->
  exists d', run_items z c order d = Ok d' /\ forall cell layer q q', member g cell layer -> holds 3 conf size me elems mk ct (ec_ref c) cell layer q q' ->
    (forall gm, In gm (map (fun kv => mk me (fst kv) (snd kv)) (elems me)) -> ~ at_apex gm (kernel_pos 3 q)) ->
    (forall i xi, nth_error (map_to_nektar ct) cell = Some i -> (forall d, (d < 3)%nat -> comp xi d = nthR (q_ref q') d) -> D i xi) ->
    exists v, d' (ec_sym c) cell (Z.to_nat (ec_comp c)) layer = Some v /\
      (lipschitz 3 K f -> Rabs (v - f (kernel_pos 3 q')) <= bound 3 K acc) /\
      ((forall i el, In (i, el) (elems me) -> closed_form 3 conf (mk me i el) = true) -> v = f (kernel_pos 3 q')).
Proof.
  intros nn size me elems mk conf ct exps z c g L order d D f K acc Hme Hok Hct G Ez Hex HL HF Hc Hl Hcl HP HFI.
  apply (landing_value 3 conf size me elems mk ct exps (map_to_nektar ct) z c g L order d D f K acc (or_intror eq_refl)) with (nn := nn); auto.
  intros q q' Hpl Hr cell Ht. destruct (P_Journey.C98_landing_3d size elems mk conf q q' Hpl Hok) as (i & e & ct' & k & _ & Hin & Hct' & Ht' & Hk & xi & HA & Hpos & Hxi).
  rewrite Hr in *. rewrite Hct in Hct'. injection Hct' as <-. rewrite Ht in Ht'. injection Ht' as Ht'. apply Nat2Z.inj in Ht'. subst k.
  exists i, e, xi. auto.
Qed.
(** C99 in 2D. *)
Theorem C99_value_at_position_2d : forall nn size me tris quads mk conf ct exps z c g L order d D f K acc,
  (0 <= me < size)%Z ->
  (forall a, (0 <= a < size)%Z -> NoDup (map fst (tris a ++ quads a)) /\ Forall (fun kv : Z * geom2d => (0 <= fst kv < INT_MAX)%Z) (tris a ++ quads a)) ->
  rank_translation_2d (tris me) (quads me) = Some ct -> field_good nn exps -> basis_setup exps (map_to_nektar ct) = Ok z ->
  (forall x, In x (map_to_nektar ct) -> exists e, expansion_of exps x e) ->
  (0 < L)%nat -> Forall (fun s => In s (ndim_shapes 2)) (cell_shapes (bz_cells z)) ->
  (0 <= ec_comp c < Z.of_nat (ec_ncomp c))%Z -> length (ec_coeffs c) = nn ->
  (forall cell e layer, nth_error (bz_cells z) cell = Some e -> member g cell layer ->
     clear (ex_shape (fe_exp e)) (ref_position (ex_shape (fe_exp e)) (fun k => ec_ref c cell k layer))) ->
  Permutation order (items (cell_shapes (bz_cells z)) L 2 g) ->
  field_is 2 conf me (tris me ++ quads me) mk exps (ec_coeffs c) D f acc ->
  exists d', run_items z c order d = Ok d' /\
    forall cell layer q q', member g cell layer -> holds 2 conf size me (fun a => tris a ++ quads a) mk ct (ec_ref c) cell layer q q' ->
    (forall gm, In gm (map (fun kv => mk me (fst kv) (snd kv)) (tris me ++ quads me)) -> ~ at_apex gm (kernel_pos 2 q)) ->
    (forall i xi, nth_error (map_to_nektar ct) cell = Some i -> (forall d, (d < 2)%nat -> comp xi d = nthR (q_ref q') d) -> D i xi) ->
    exists v, d' (ec_sym c) cell (Z.to_nat (ec_comp c)) layer = Some v /\
      (lipschitz 2 K f -> Rabs (v - f (kernel_pos 2 q')) <= bound 2 K acc) /\
      ((forall i el, In (i, el) (tris me ++ quads me) -> closed_form 2 conf (mk me i el) = true) -> v = f (kernel_pos 2 q')).
Proof.
  intros nn size me tris quads mk conf ct exps z c g L order d D f K acc Hme Hok Hct G Ez Hex HL HF Hc Hl Hcl HP HFI.
  apply (landing_value 2 conf size me (fun a => tris a ++ quads a) mk ct exps (map_to_nektar ct) z c g L order d D f K acc (or_introl eq_refl)) with (nn := nn); auto.
  intros q q' Hpl Hr cell Ht. destruct (P_Journey2.C98_landing_2d size tris quads mk conf q q' Hpl Hok) as (i & e & ct' & k & _ & Hin & Hct' & Ht' & Hk & xi & HA & Hpos & Hxi).
  rewrite Hr in *. rewrite Hct in Hct'. injection Hct' as <-. rewrite Ht in Ht'. injection Ht' as Ht'. apply Nat2Z.inj in Ht'. subst k.
  exists i, e, xi. auto.
Qed.
