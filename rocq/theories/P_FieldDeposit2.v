(** C101: what deposits of mapped particles are in terms of the particles' positions. *)
From Verif Require P_NewtonBind P_Regular P_Journey P_Journey2.
From Verif Require Import M_RealBase M_Grid M_Coord M_NewtonMap M_NewtonBind M_Regular.
From Verif Require Import S_NewtonM S_NewtonBind S_Regular.
From Coq Require Import ZArith Reals Lra Lia Permutation Sorting.Sorted.
From Verif Require Import M_Bytes M_Pack2D M_RemoteGeom M_Transport M_Exchange M_Halo3D M_Util M_Journey L_RealBase L_Coord.
From Verif Require Import L_Basis5 L_Basis6 L_FieldProject M_FieldDeposit S_FieldDeposit L_FieldDeposit P_FieldDeposit.
From Verif Require Import S_Journey M_FieldEval S_FieldEval L_FieldEval P_FieldEval S_Newton S_FieldEval2 P_FieldEval2.
From Coq Require Import List.
Import ListNotations.
Local Open Scope R_scope.

Lemma expansion_unique n exps x e e' : field_good n exps -> expansion_of exps x e -> expansion_of exps x e' -> e = e'.
Proof.
  intros (_ & ND & _) (I1 & J1) (I2 & J2). apply In_nth_error in I1 as (k1 & K1). apply In_nth_error in I2 as (k2 & K2).
  assert (k1 = k2); [|subst; congruence]. rewrite NoDup_nth_error in ND. apply ND.
  - apply nth_error_Some. rewrite nth_error_map, K1. discriminate.
  - rewrite !nth_error_map, K1, K2. cbn. congruence.
Qed.
(** The value of a function with coefficients u at the reference position of a placed particle. *)
Lemma placed_value {E} n conf size me (elems : Z -> list (Z * E)) mk ct exps gids z ref D f K acc u :
  (n = 2 \/ n = 3)%nat ->
  (forall q q', placed n conf size elems mk q q' -> q_rank q' = me -> forall cell, translate ct (q_cell q') = Some (Z.of_nat cell) ->
     exists i e xi, In (i, e) (elems me) /\ nth_error gids cell = Some i /\ accepted n conf (mk me i e) q xi /\
       q_pos q' = q_pos q /\ forall d, (d < n)%nat -> nthR (q_ref q') d = comp xi d) ->
  forall nn, field_good nn exps -> basis_setup exps gids = Ok z -> (forall x, In x gids -> exists e, expansion_of exps x e) ->
  Forall (fun s => In s (ndim_shapes n)) (cell_shapes (bz_cells z)) ->
  field_is n conf me (elems me) mk exps u D f acc ->
  forall cell layer q q', holds n conf size me elems mk ct ref cell layer q q' ->
    (forall gm, In gm (map (fun kv => mk me (fst kv) (snd kv)) (elems me)) -> ~ at_apex gm (kernel_pos n q)) ->
    (forall i xi, nth_error gids cell = Some i -> (forall d, (d < n)%nat -> comp xi d = nthR (q_ref q') d) -> D i xi) ->
    forall x e v, nth_error gids cell = Some x -> expansion_of exps x e -> value_at e u (ref_position (M_Basis.ex_shape (fe_exp e)) (fun k => ref cell k layer)) v ->
      (lipschitz n K f -> Rabs (v - f (kernel_pos n q')) <= bound n K acc) /\
      ((forall i el, In (i, el) (elems me) -> closed_form n conf (mk me i el) = true) -> v = f (kernel_pos n q')).
Proof.
  intros Hn Hland nn G Ez Hex HF HFI cell layer q q' (Hpl & Hr & Ht & Href) Hap HD x e v Hx He Hval.
  destruct (Hland q q' Hpl Hr cell Ht) as (i & el & xi & Hin & Hg & HA & Hpos & Hxi).
  rewrite Hx in Hg. injection Hg as <-.
  assert (Hk : kernel_pos n q' = kernel_pos n q) by (unfold kernel_pos; rewrite Hpos; reflexivity). rewrite Hk.
  destruct (HFI x el e Hin He) as (X & a & HE & HR & Ha).
  assert (Exi : ref_position (M_Basis.ex_shape (fe_exp e)) (fun k => ref cell k layer) = xi).
  { destruct (C99_reference_position n conf _ q xi X a Hn HE HA) as (H2 & _).
    assert (Sn : shape_ndim (M_Basis.ex_shape (fe_exp e)) = n).
    { destruct (C99_setup nn exps gids G Hex) as (z0 & Ez0 & _ & _ & _ & Hz). rewrite Ez in Ez0. injection Ez0 as <-.
      destruct (Hz cell x Hx) as (e' & He' & Hei). pose proof (expansion_unique nn exps x e e' G He Hei). subst e'.
      rewrite Forall_forall in HF. specialize (HF (M_Basis.ex_shape (fe_exp e))).
      assert (In (M_Basis.ex_shape (fe_exp e)) (cell_shapes (bz_cells z))) by (unfold cell_shapes; apply (in_map (fun e => M_Basis.ex_shape (fe_exp e))); eapply nth_error_In; eauto).
      specialize (HF H). unfold ndim_shapes in HF. destruct Hn as [-> | ->]; cbn in HF.
      - destruct HF as [<-|[<-|[]]]; reflexivity.
      - destruct HF as [<-|[<-|[<-|[<-|[]]]]]; reflexivity. }
    unfold ref_position. rewrite Sn. destruct xi as [[x0 x1] x2]. destruct Hn as [-> | ->]; cbn [Nat.eqb].
    - rewrite (Href 0%nat), (Href 1%nat), (Hxi 0%nat), (Hxi 1%nat) by lia. specialize (H2 eq_refl). cbn in *. rewrite H2. reflexivity.
    - rewrite (Href 0%nat), (Href 1%nat), (Href 2%nat), (Hxi 0%nat), (Hxi 1%nat), (Hxi 2%nat) by lia. reflexivity. }
  rewrite Exi in Hval.
  assert (DX : D x xi) by (apply HD; [exact Hx|]; intros dd Hdd; symmetry; apply Hxi; exact Hdd).
  destruct (C99_value_at_accepted n conf (mk me x el) q xi X a (D x) e u f K v Hn HE HA) as (B1 & B2); auto.
  - apply Hap. apply in_map_iff. exists (x, el). auto.
  - split.
    + intros HL'. eapply Rle_trans; [apply B1; exact HL'|]. destruct HL' as (HK & _). unfold bound at 1. apply (bound_le n K a acc HK Ha).
    + intros Hall. apply B2. apply (Hall x el). exact Hin.
Qed.
Lemma over_bound ms (w a b : nat -> nat -> R) B : (forall cell layer, In (cell, layer) ms -> Rabs (a cell layer - b cell layer) <= B) ->
  Rabs (over_particles ms (fun c l => w c l * a c l) - over_particles ms (fun c l => w c l * b c l)) <= over_particles ms (fun c l => Rabs (w c l)) * B.
Proof.
  unfold over_particles. induction ms as [|[c l] ms IH]; intros H; cbn [S_Basis2.Lsum fold_right fst snd].
  - rewrite Rminus_0_r, Rabs_R0. lra.
  - specialize (IH ltac:(intros; apply H; right; auto)). specialize (H c l (or_introl eq_refl)). unfold S_Basis2.Lsum in IH.
    match goal with |- Rabs (w c l * a c l + ?p - (w c l * b c l + ?q)) <= _ => replace (w c l * a c l + p - (w c l * b c l + q)) with (w c l * (a c l - b c l) + (p - q)) by ring end.
    eapply Rle_trans; [apply Rabs_triang|]. rewrite Rabs_mult, Rmult_plus_distr_r. apply Rplus_le_compat; [|exact IH]. apply Rmult_le_compat_l; [apply Rabs_pos|exact H].
Qed.
(** The particles of the call hold what the mapping placed: [part cell layer] is the particle before and after the call of the mapper, it
    is not at an apex, and its reference position is where the field's function is known ([D]). *)
Definition all_placed {E} (n : nat) (conf : store) (size me : Z) (elems : Z -> list (Z * E)) (mk : Z -> Z -> E -> mgeom) (ct : cell_ids)
    (ref : nat -> nat -> nat -> R) (D : Z -> pt3 -> Prop) (ms : list (nat * nat)) (part : nat -> nat -> M_NewtonBind.particle * M_NewtonBind.particle) : Prop :=
  forall cell layer, In (cell, layer) ms -> let '(q, q') := part cell layer in
    holds n conf size me elems mk ct ref cell layer q q' /\
    (forall gm, In gm (map (fun kv => mk me (fst kv) (snd kv)) (elems me)) -> ~ at_apex gm (kernel_pos n q)) /\
    (forall i xi, nth_error (map_to_nektar ct) cell = Some i -> (forall d, (d < n)%nat -> comp xi d = nthR (q_ref q') d) -> D i xi).
Definition position (n : nat) (part : nat -> nat -> M_NewtonBind.particle * M_NewtonBind.particle) (cell layer : nat) : pt3 := kernel_pos n (snd (part cell layer)).

Lemma deposit_positions {E} n conf size me (elems : Z -> list (Z * E)) mk ct exps z L nfields ncomp d g sched invmass bwd V form syms comps nn :
  (n = 2 \/ n = 3)%nat ->
  (forall q q', placed n conf size elems mk q q' -> q_rank q' = me -> forall cell, translate ct (q_cell q') = Some (Z.of_nat cell) ->
     exists i e xi, In (i, e) (elems me) /\ nth_error (map_to_nektar ct) cell = Some i /\ accepted n conf (mk me i e) q xi /\
       q_pos q' = q_pos q /\ forall d, (d < n)%nat -> nthR (q_ref q') d = comp xi d) ->
  field_good nn exps -> basis_setup exps (map_to_nektar ct) = Ok z -> (forall x, In x (map_to_nektar ct) -> exists e, expansion_of exps x e) ->
  (0 < L)%nat -> Forall (fun s => In s (ndim_shapes n)) (cell_shapes (bz_cells z)) -> distinct g ->
  (forall cell e layer, nth_error (bz_cells z) cell = Some e -> member g cell layer ->
     clear (M_Basis.ex_shape (fe_exp e)) (ref_position (M_Basis.ex_shape (fe_exp e)) (fun k => pd_ref d cell k layer))) ->
  (forall s, pd_ncomp d s = ncomp s) -> S_FieldProject.schedule sched -> (forall i, (i < nfields)%nat -> solves_mass (V i) (form i) nn (invmass i)) ->
  valid_args nfields ncomp syms comps ->
  exists fields, field_project z nn L n nfields ncomp d g sched invmass bwd syms comps = PSet fields /\ length fields = nfields /\
    forall i s c x ph ms part u f D K acc, nth_error syms i = Some s -> nth_error comps i = Some c -> nth_error fields i = Some (x, ph) ->
      V i u -> lists_particles (length (map_to_nektar ct)) g ms -> all_placed n conf size me elems mk ct (pd_ref d) D ms part ->
      field_is n conf me (elems me) mk exps u D f acc ->
      let total := over_particles ms (fun cell layer => pd_in d s cell (Z.to_nat c) layer * f (position n part cell layer)) in
      (lipschitz n K f -> Rabs (form i u x - total) <= over_particles ms (fun cell layer => Rabs (pd_in d s cell (Z.to_nat c) layer)) * bound n K acc) /\
      ((forall j el, In (j, el) (elems me) -> closed_form n conf (mk me j el) = true) -> form i u x = total).
Proof.
  intros Hn Hland G Ez Hex HL HF HD Hcl Hnc HS HM HA.
  destruct (C101_project nn exps (map_to_nektar ct) z L n nfields ncomp d g sched invmass bwd V form syms comps G Ez Hex HL HF HD Hcl Hnc HS HM HA) as (fs & Ef & Lf & Hf).
  exists fs. split; [exact Ef|]. split; [exact Lf|]. intros i s c x ph ms part u f D K acc E1 E2 E3 HV Hms Hpl HFI total.
  destruct (Hf i s c x ph E1 E2 E3) as (_ & _ & Hsum).
  destruct (all_items_good nn exps (map_to_nektar ct) z g L n d G Ez Hex HL HF Hcl) as (Lz & Hz & HI).
  set (val := fun cell layer => S_Basis.dot (skipn (item_off z cell) u) (item_modes z d cell layer)).
  assert (HVal : values_of exps (map_to_nektar ct) (pd_ref d) u ms val).
  { intros cell layer y e Hin Hy He. destruct (Hz cell y Hy) as (e' & He' & Hei). pose proof (expansion_unique nn exps y e e' G He Hei). subst e'.
    destruct (collapse_total (M_Basis.ex_shape (fe_exp e)) (ref_position (M_Basis.ex_shape (fe_exp e)) (fun k => pd_ref d cell k layer))) as ([[e0 e1] e2] & Hc).
    exists e0, e1, e2. split; [exact Hc|]. unfold val, item_off, item_modes. rewrite He', Hc. reflexivity. }
  rewrite (Hsum ms u val HV Hms HVal).
  assert (P : forall cell layer, In (cell, layer) ms ->
     (lipschitz n K f -> Rabs (val cell layer - f (position n part cell layer)) <= bound n K acc) /\
     ((forall j el, In (j, el) (elems me) -> closed_form n conf (mk me j el) = true) -> val cell layer = f (position n part cell layer))).
  { intros cell layer Hin. specialize (Hpl cell layer Hin). unfold position. destruct (part cell layer) as [q q']. destruct Hpl as (P1 & P2 & P3). cbn [snd].
    destruct Hms as (_ & Hms). pose proof (proj1 (Hms cell layer) Hin) as (Hcell & _).
    destruct (nth_error (map_to_nektar ct) cell) as [y|] eqn:Ey; [|apply nth_error_None in Ey; lia]. destruct (Hz cell y Ey) as (e & _ & He).
    apply (placed_value n conf size me elems mk ct exps (map_to_nektar ct) z (pd_ref d) D f K acc u Hn Hland nn G Ez Hex HF HFI cell layer q q' P1 P2) with (x := y) (e := e); auto.
    - rewrite Ey. exact P3.
    - apply (HVal cell layer y e Hin Ey He). }
  split.
  - intros Hlip. unfold total. apply over_bound. intros cell layer Hin. apply (P cell layer Hin). exact Hlip.
  - intros Hcf. unfold total, over_particles. apply Lsum_ext. intros [cell layer] Hin. cbn [fst snd]. f_equal. apply (P cell layer Hin). exact Hcf.
Qed.

(** C101 in 3D. On rank [me] of a distributed mesh, project the data of particles the mapping placed there: for every function of the
    field's space that is a function f of the position, the integral of the field times it is the sum over the particles of quantity times
    f at the particle's own position -- up to the Newton tolerance, and exactly if every element of the rank has the closed form inverse. *)
Theorem C101_projected_at_positions_3d : forall size me elems mk conf ct exps z L nfields ncomp d g sched invmass bwd V form syms comps nn,
  (0 <= me < size)%Z ->
  (forall a, (0 <= a < size)%Z -> StronglySorted Z.lt (map fst (elems a)) /\ Forall (fun kv : Z * elem3d => (0 <= fst kv < INT_MAX)%Z) (elems a)) ->
  rank_translation_3d (elems me) = Some ct ->
  field_good nn exps -> basis_setup exps (map_to_nektar ct) = Ok z -> (forall x, In x (map_to_nektar ct) -> exists e, expansion_of exps x e) ->
  (0 < L)%nat -> Forall (fun s => In s (ndim_shapes 3)) (cell_shapes (bz_cells z)) -> distinct g ->
  (forall cell e layer, nth_error (bz_cells z) cell = Some e -> member g cell layer ->
     clear (M_Basis.ex_shape (fe_exp e)) (ref_position (M_Basis.ex_shape (fe_exp e)) (fun k => pd_ref d cell k layer))) ->
  (forall s, pd_ncomp d s = ncomp s) -> S_FieldProject.schedule sched -> (forall i, (i < nfields)%nat -> solves_mass (V i) (form i) nn (invmass i)) ->
  valid_args nfields ncomp syms comps ->
  exists fields, field_project z nn L 3 nfields ncomp d g sched invmass bwd syms comps = PSet fields /\ length fields = nfields /\
    forall i s c x ph ms part u f D K acc, nth_error syms i = Some s -> nth_error comps i = Some c -> nth_error fields i = Some (x, ph) ->
      V i u -> lists_particles (length (map_to_nektar ct)) g ms -> all_placed 3 conf size me elems mk ct (pd_ref d) D ms part ->
      field_is 3 conf me (elems me) mk exps u D f acc ->
      let total := over_particles ms (fun cell layer => pd_in d s cell (Z.to_nat c) layer * f (position 3 part cell layer)) in
      (lipschitz 3 K f -> Rabs (form i u x - total) <= over_particles ms (fun cell layer => Rabs (pd_in d s cell (Z.to_nat c) layer)) * bound 3 K acc) /\
      ((forall j el, In (j, el) (elems me) -> closed_form 3 conf (mk me j el) = true) -> form i u x = total).
Proof.
  intros size me elems mk conf ct exps z L nfields ncomp d g sched invmass bwd V form syms comps nn Hme Hok Hct G Ez Hex HL HF HD Hcl Hnc HS HM HA.
  apply (deposit_positions 3 conf size me elems mk ct exps z L nfields ncomp d g sched invmass bwd V form syms comps nn (or_intror eq_refl)); auto.
  intros q q' Hpl Hr cell Ht. destruct (P_Journey.C98_landing_3d size elems mk conf q q' Hpl Hok) as (i & e & ct' & k & _ & Hin & Hct' & Ht' & Hk & xi & HA' & Hpos & Hxi).
  rewrite Hr in *. rewrite Hct in Hct'. injection Hct' as <-. rewrite Ht in Ht'. injection Ht' as Ht'. apply Nat2Z.inj in Ht'. subst k.
  exists i, e, xi. auto.
Qed.
(** C101 in 2D. *)
Theorem C101_projected_at_positions_2d : forall size me tris quads mk conf ct exps z L nfields ncomp d g sched invmass bwd V form syms comps nn,
  (0 <= me < size)%Z ->
  (forall a, (0 <= a < size)%Z -> NoDup (map fst (tris a ++ quads a)) /\ Forall (fun kv : Z * geom2d => (0 <= fst kv < INT_MAX)%Z) (tris a ++ quads a)) ->
  rank_translation_2d (tris me) (quads me) = Some ct ->
  field_good nn exps -> basis_setup exps (map_to_nektar ct) = Ok z -> (forall x, In x (map_to_nektar ct) -> exists e, expansion_of exps x e) ->
  (0 < L)%nat -> Forall (fun s => In s (ndim_shapes 2)) (cell_shapes (bz_cells z)) -> distinct g ->
  (forall cell e layer, nth_error (bz_cells z) cell = Some e -> member g cell layer ->
     clear (M_Basis.ex_shape (fe_exp e)) (ref_position (M_Basis.ex_shape (fe_exp e)) (fun k => pd_ref d cell k layer))) ->
  (forall s, pd_ncomp d s = ncomp s) -> S_FieldProject.schedule sched -> (forall i, (i < nfields)%nat -> solves_mass (V i) (form i) nn (invmass i)) ->
  valid_args nfields ncomp syms comps ->
  exists fields, field_project z nn L 2 nfields ncomp d g sched invmass bwd syms comps = PSet fields /\ length fields = nfields /\
    forall i s c x ph ms part u f D K acc, nth_error syms i = Some s -> nth_error comps i = Some c -> nth_error fields i = Some (x, ph) ->
      V i u -> lists_particles (length (map_to_nektar ct)) g ms -> all_placed 2 conf size me (fun a => tris a ++ quads a) mk ct (pd_ref d) D ms part ->
      field_is 2 conf me (tris me ++ quads me) mk exps u D f acc ->
      let total := over_particles ms (fun cell layer => pd_in d s cell (Z.to_nat c) layer * f (position 2 part cell layer)) in
      (lipschitz 2 K f -> Rabs (form i u x - total) <= over_particles ms (fun cell layer => Rabs (pd_in d s cell (Z.to_nat c) layer)) * bound 2 K acc) /\
      ((forall j el, In (j, el) (tris me ++ quads me) -> closed_form 2 conf (mk me j el) = true) -> form i u x = total).
Proof.
  intros size me tris quads mk conf ct exps z L nfields ncomp d g sched invmass bwd V form syms comps nn Hme Hok Hct G Ez Hex HL HF HD Hcl Hnc HS HM HA.
  apply (deposit_positions 2 conf size me (fun a => tris a ++ quads a) mk ct exps z L nfields ncomp d g sched invmass bwd V form syms comps nn (or_introl eq_refl)); auto.
  intros q q' Hpl Hr cell Ht. destruct (P_Journey2.C98_landing_2d size tris quads mk conf q q' Hpl Hok) as (i & e & ct' & k & _ & Hin & Hct' & Ht' & Hk & xi & HA' & Hpos & Hxi).
  rewrite Hr in *. rewrite Hct in Hct'. injection Hct' as <-. rewrite Ht in Ht'. injection Ht' as Ht'. apply Nat2Z.inj in Ht'. subst k.
  exists i, e, xi. auto.
Qed.

(** Affine functions are in the space at every number of modes: the coefficients are the values at the vertices on the vertex modes and
    0 elsewhere. *)
Theorem C101_affine_functions : forall e coeffs u0 u1 u2 u3 xi v, (2 <= cell_P (fe_exp e))%nat ->
  dofs_of e coeffs = vertex_dofs (M_Basis.ex_shape (fe_exp e)) (cell_P (fe_exp e)) (affine u0 u1 u2 u3) ->
  off_collapse (M_Basis.ex_shape (fe_exp e)) xi -> (shape_ndim (M_Basis.ex_shape (fe_exp e)) = 2%nat -> comp xi 2 = 0) ->
  value_at e coeffs xi v -> v = affine u0 u1 u2 u3 xi.
Proof.
  intros e coeffs u0 u1 u2 u3 xi v HP HC HO H2 (e0 & e1 & e2 & Hc & ->). unfold dofs_of in HC. rewrite dot_firstn, count_smodes, HC, affine_all by exact HP.
  f_equal. pose proof tol_pos as KP. clear HC HP. destruct xi as [[x0 x1] x2].
  destruct (M_Basis.ex_shape (fe_exp e)); cbn in *; unfold tri_to_collapsed, quad_to_collapsed, hex_to_collapsed, pyr_to_collapsed, prism_to_collapsed, tet_to_collapsed in Hc;
    rewrite ?guard_far in Hc by lra; rewrite ?rdiv_ok in Hc by lra; cbn in Hc; injection Hc as <- <- <-; try (rewrite (H2 eq_refl)); try reflexivity;
    (apply f_equal2; [apply f_equal2|]); try reflexivity; try (field; lra); try lra.
Qed.
Theorem C101_affine_represents : forall n e coeffs A b f0 f1 f2 f3, (n = 2 \/ n = 3)%nat -> shape_ndim (M_Basis.ex_shape (fe_exp e)) = n ->
  (2 <= cell_P (fe_exp e))%nat ->
  dofs_of e coeffs = vertex_dofs (M_Basis.ex_shape (fe_exp e)) (cell_P (fe_exp e)) (fun xi => affine f0 f1 f2 f3 (phys n (affine_coeffs n A b xi))) ->
  represents n (off_collapse (M_Basis.ex_shape (fe_exp e))) e coeffs (affine_coeffs n A b) (affine f0 f1 f2 f3).
Proof.
  intros n e coeffs A b f0 f1 f2 f3 Hn Hs HP HC xi v H2 HO HV.
  set (k3 := if Nat.eqb n 3 then 1 else 0).
  set (w := fun k : nat => f1 * A 0%nat k + f2 * A 1%nat k + k3 * (f3 * A 2%nat k)).
  assert (W : forall x : pt3, affine f0 f1 f2 f3 (phys n (affine_coeffs n A b x)) = affine (f0 + f1 * b 0%nat + f2 * b 1%nat + k3 * (f3 * b 2%nat)) (w 0%nat) (w 1%nat) (k3 * w 2%nat) x).
  { intros [[x0 x1] x2]. unfold affine, phys, affine_coeffs, w, k3. destruct Hn as [-> | ->]; cbn; ring. }
  rewrite W. apply (C101_affine_functions e coeffs _ _ _ _ xi v HP); auto.
  - rewrite HC. unfold vertex_dofs. destruct (M_Basis.ex_shape (fe_exp e)); apply map_ext; [intros [p q]|intros [p q]|intros [[p q] r]..]; rewrite W; reflexivity.
  - intros E'. apply H2. congruence.
Qed.
Print Assumptions C101_projected_at_positions_3d.
Print Assumptions C101_affine_represents.

(** The hypotheses are met: the triangle (id 7) of C98's 2D example on rank 0, three modes per direction, the particle of weight 3 that
    mapping placed at (-1/2, -1/2): against the function 3 + 2 x - y of the position the projection has 3 (3 - 1 + 1/2) = 15/2. The mass
    matrix is taken to be the identity. A second field of the same space is accepted, one with another number of modes is not. *)
Definition dx_exp := {| fe_gid := 7; fe_elmt := 0; fe_exp := {| M_Basis.ex_shape := M_Basis.Tri; M_Basis.ex_base := [(3, 3); (3, 6)]%nat |}; fe_off := 0 |}.
Definition dx_field (m : nat) : pfield :=
  {| pf_exps := [{| fe_gid := 7; fe_elmt := 0; fe_exp := {| M_Basis.ex_shape := M_Basis.Tri; M_Basis.ex_base := [(m, m); (m, (m * (m + 1) / 2)%nat)] |}; fe_off := 0 |}];
     pf_types := [[4; 5]%Z]; pf_coordim := 2; pf_ncoeffs := 6; pf_npoints := 16 |}.
Definition dx_u : list R := vertex_dofs M_Basis.Tri 3 (fun xi => affine 3 2 (-1) 0 (phys 2 (affine_coeffs 2 P_Regular.delta (fun _ => 0) xi))).
Definition dx_data : pdats := {| pd_ref := fun _ _ _ => -1/2; pd_ncomp := fun _ => 1%nat; pd_in := fun _ _ _ _ => 3 |}.
Definition dx_q' := bind_particle 2 7 0 (-1/2, -1/2, 0) P_Journey2.k_q.
Lemma dx_good : field_good 6 [dx_exp].
Proof.
  split; [|split].
  - intros [|[|i]] e H; cbn in H; try discriminate. injection H as <-. reflexivity.
  - cbn. repeat constructor. intros [].
  - intros e [<-|[]]. split; [cbn; lia|]. split; [|vm_compute; lia]. intros [|[|[|dd]]] nm tnm H; cbn in H; try discriminate; injection H as <- _; reflexivity.
Qed.
Example C101_constructor_applied : exists z, make_field_project [dx_field 3; dx_field 3] [7%Z] = Ok z /\ bz_cells z = [dx_exp] /\
  make_field_project [dx_field 3; dx_field 4] [7%Z] = AssertFail.
Proof. eexists. split; [reflexivity|]. split; reflexivity. Qed.
Example C101_applied : forall conf, 0 <= regular_tol_2d conf ->
  exists ct z x, rank_translation_2d (P_Journey2.k_tris 0) (P_Journey2.k_none 0) = Some ct /\ make_field_project [dx_field 3] (map_to_nektar ct) = Ok z /\
    holds 2 conf 2 0 (fun a => P_Journey2.k_tris a ++ P_Journey2.k_none a) P_Journey2.k_mk ct (pd_ref dx_data) 0 0 P_Journey2.k_q dx_q' /\
    field_project z 6 4 2 1 (fun _ => 1%nat) dx_data (Group [1%nat]) (fun _ l => l) (fun _ => map Some) (fun _ x => x) [0%nat] [0%Z] = PSet [(x, x)] /\
    S_Basis.dot dx_u x = 15 / 2.
Proof.
  intros conf Ht. pose proof tol_lt1 as T1.
  destruct P_Journey2.C98_nonvacuous_2d as (_ & _ & _ & _ & _ & Hin & Haf & Hint & Hat & _ & _).
  set (ct := {| map_to_nektar := [7%Z]; map_to_geom_type := [3%Z]; id_map := [Some 0%Z]; id_shift := 7%Z |}).
  assert (Ect : rank_translation_2d (P_Journey2.k_tris 0) (P_Journey2.k_none 0) = Some ct) by reflexivity.
  assert (Hcf : closed_form 2 conf (P_Journey2.k_mk 0 7 (P_Halo3D.ex_tri 7)) = true) by reflexivity.
  destruct (P_Regular.C48_not_vacuous ATri) as (Af & Dt).
  assert (HA : accepted 2 conf (P_Journey2.k_mk 0 7 (P_Halo3D.ex_tri 7)) P_Journey2.k_q (-1/2, -1/2, 0)).
  { unfold accepted. rewrite Hcf. apply (P_Regular.C48_accepts_exactly ATri _ P_Regular.delta (fun _ => 0)); auto; try reflexivity.
    split; [intros; reflexivity|]. split; [exact Hat|]. cbn. unfold tri_to_collapsed. rewrite guard_far by lra. rewrite rdiv_ok by lra. cbn.
    eexists. split; [reflexivity|]. intros [|[|]] Ha; [| |cbn in Ha; lia]; cbn; apply Rabs_le; cbn in Ht; lra. }
  assert (HP : placed 2 conf 2 (fun a => P_Journey2.k_tris a ++ P_Journey2.k_none a) P_Journey2.k_mk P_Journey2.k_q dx_q').
  { exists 0%Z, 7%Z, (P_Halo3D.ex_tri 7), (-1/2, -1/2, 0). split; [lia|]. split; [exact Hin|]. split; [exact HA|].
    split; [reflexivity|]. split; [reflexivity|]. split; [reflexivity|]. split; [reflexivity|]. intros [|[|dd]]; try reflexivity. }
  assert (HH : holds 2 conf 2 0 (fun a => P_Journey2.k_tris a ++ P_Journey2.k_none a) P_Journey2.k_mk ct (pd_ref dx_data) 0 0 P_Journey2.k_q dx_q').
  { split; [exact HP|]. split; [reflexivity|]. split; [reflexivity|]. intros [|[|dd]] Hd; [reflexivity..|lia]. }
  assert (EX : forall x, In x (map_to_nektar ct) -> exists e, expansion_of [dx_exp] x e).
  { intros x [<-|[]]. exists dx_exp. split; [left; reflexivity|reflexivity]. }
  destruct (C99_setup 6 [dx_exp] (map_to_nektar ct) dx_good EX) as (z & Ez & Lz & _ & _ & Hz).
  assert (Cz : bz_cells z = [dx_exp]).
  { destruct (Hz 0%nat 7%Z eq_refl) as (e & He & ([<-|[]] & _)). destruct (bz_cells z) as [|x [|]]; try discriminate. cbn in He. congruence. }
  destruct (C101_projected_at_positions_2d 2 0 P_Journey2.k_tris P_Journey2.k_none P_Journey2.k_mk conf ct [dx_exp] z 4 1 (fun _ => 1%nat) dx_data (Group [1%nat])
     (fun _ l => l) (fun _ => map Some) (fun _ x => x) (fun _ _ => True) (fun _ => S_Basis.dot) [0%nat] [0%Z] 6) as (fs & Ef & Lf & Hf); auto using dx_good; try lia.
  - intros a Ha. unfold P_Journey2.k_tris, P_Journey2.k_none. destruct (Z.eqb a 0); cbn; (split; [repeat constructor; intros []|]).
    + constructor; [|constructor]. cbn. unfold INT_MAX. lia.
    + constructor.
  - rewrite Cz. cbn. constructor; [cbn; auto|constructor].
  - cbn. exact I.
  - rewrite Cz. intros [|[|cell]] e layer He _; cbn in He; try discriminate. injection He as <-. cbn. apply C99_clear_positions. lra.
  - intros i l. apply Permutation_refl.
  - intros i Hi b Hb. exists b. auto.
  - split; [reflexivity|]. split; [reflexivity|]. intros [|[|i]] s c H1 H2; cbn in H1, H2; try discriminate. injection H2 as <-. lia.
  - destruct fs as [|[x ph] [|]]; try discriminate Lf. exists ct, z, x. split; [exact Ect|]. split; [cbn [make_field_project]; change (pf_exps (dx_field 3)) with [dx_exp]; rewrite Ez; reflexivity|].
    split; [exact HH|].
    destruct (Hf 0%nat 0%nat 0%Z x ph [(0, 0)%nat] (fun _ _ => (P_Journey2.k_q, dx_q')) dx_u (affine 3 2 (-1) 0) (fun _ => off_collapse M_Basis.Tri) (fun _ => 0) (fun _ => 0)) as (_ & Hx); auto.
    + split; [repeat constructor; intros []|]. intros cell layer. cbn. split; [intros [E|[]]; injection E as <- <-; lia|]. intros (A & B). left. destruct cell; [|lia]. f_equal. cbn in B. lia.
    + intros cell layer [E|[]]. injection E as <- <-. split; [exact HH|]. split.
      * intros gm [<-|[]]. intros (E & _). cbn in E. discriminate.
      * intros i xi _ H. assert (comp xi 1 = -1/2) by (rewrite (H 1%nat) by lia; reflexivity). destruct xi as [[x0 x1] x2]. cbn in *. lra.
    + intros i el e Hi [[<-|[]] He]. cbn in Hi. destruct Hi as [Hi|[]]. injection Hi as <- <-.
      exists (affine_coeffs 2 P_Regular.delta (fun _ => 0)), (fun _ => 0). split; [|split; [|intros; lra]].
      * apply (em_closed 2 conf _ ATri); auto.
      * apply (C101_affine_represents 2 dx_exp dx_u P_Regular.delta (fun _ => 0) 3 2 (-1) 0); auto; cbn; lia.
    + assert (Eph : ph = x).
      { revert Ef. unfold field_project. destruct (args_ok _ _ _ _); [|discriminate]. unfold solve_all. destruct (all_rhs _) as [l|]; [|discriminate].
        destruct l as [|r [|]]; cbn [solve_each]; [discriminate| |].
        - unfold solve_one. destruct (all_finite r); [|discriminate]. destruct (all_finite _); [|discriminate]. congruence.
        - destruct (solve_one _ _ _); [|discriminate]. destruct (solve_one _ _ _); [|discriminate]. destruct (solve_each _ _ _ _); discriminate || congruence. }
      subst ph. split; [exact Ef|]. rewrite Hx.
      * unfold over_particles, position, affine, dx_data, dx_q'. cbn. lra.
      * intros j el [Hi|[]]. injection Hi as <- <-. reflexivity.
Qed.
Print Assumptions C101_constructor.
Print Assumptions C101_same_layout.
Print Assumptions C101_deposit.
Print Assumptions C101_project.
Print Assumptions C101_conserves.
Print Assumptions C101_other_group_refuted.
Print Assumptions C101_projected_at_positions_2d.
Print Assumptions C101_affine_functions.
