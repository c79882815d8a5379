(** C101: fields accepted for projection, deposits of groups and sub groups. *)
From Verif Require Import M_Bytes M_FieldDeposit S_FieldEval S_Basis S_Basis2 S_FieldDeposit L_Basis1 L_Basis5 L_Basis6 P_Basis L_Launch P_Launch L_FieldEval P_FieldEval L_FieldProject L_FieldDeposit.
From Coq Require Import Arith Lia Lra ZArith Permutation List.
Import ListNotations.

(** The constructor. One field is taken when the setup over it succeeds (C99_setup); several fields (with a basis in every
    coordinate direction) are taken exactly when, besides, all agree with the first; otherwise an assertion fails. No fields are
    never accepted. *)
Theorem C101_constructor : forall gids, make_field_project [] gids = AssertFail /\
  forall n f0 rest z, field_good n (pf_exps f0) -> basis_setup (pf_exps f0) gids = Ok z ->
    (rest = [] -> make_field_project [f0] gids = Ok z) /\
    ((forall f, In f (f0 :: rest) -> has_bases (pf_coordim f0) f) ->
     ((forall f, In f rest -> same_space f0 f) -> make_field_project (f0 :: rest) gids = Ok z) /\
     (rest <> [] -> (exists f, In f rest /\ ~ same_space f0 f) -> make_field_project (f0 :: rest) gids = AssertFail)).
Proof.
  intros gids. split; [reflexivity|]. intros n f0 rest z (G1 & _) Ez.
  destruct (geom_map_ok (pf_exps f0) 0 [] G1) as (m & Em & _). unfold make_field_project. rewrite Ez. cbn [obind]. rewrite Em. cbn [obind]. split; [reflexivity|].
  intros HB. destruct (check_fields_ok f0 (HB f0 (or_introl eq_refl)) (f0 :: rest) HB) as (C1 & C2). split.
  - intros HS. destruct rest as [|f1 rest]; [reflexivity|]. rewrite (proj2 C2); [reflexivity|]. intros f [<-|Hf]; [apply same_space_refl|auto].
  - intros HN (f & Hf & HS). destruct rest as [|f1 rest]; [contradiction|]. destruct C1 as [C1|C1]; rewrite C1; [|reflexivity].
    exfalso. apply HS. apply C2; [exact C1|]. right. exact Hf.
Qed.
(** Fields that agree lay out their coefficients the same way, so what is deposited with the first field's offsets is right for
    each of them: with the shape of an element given by its geometry, bases in every direction of the first, and coefficients
    of consecutive expansions one after the other. *)
Theorem C101_same_layout : forall f0 f (shape_of : Z -> shape), same_space f0 f -> (0 < pf_coordim f0)%nat -> has_bases (pf_coordim f0) f0 -> has_bases (pf_coordim f0) f ->
  (forall e, In e (pf_exps f0 ++ pf_exps f) -> ex_shape (fe_exp e) = shape_of (fe_gid e)) -> consecutive (pf_exps f0) -> consecutive (pf_exps f) ->
  forall k e0 e, nth_error (pf_exps f0) k = Some e0 -> nth_error (pf_exps f) k = Some e ->
    fe_gid e = fe_gid e0 /\ ex_shape (fe_exp e) = ex_shape (fe_exp e0) /\ cell_P (fe_exp e) = cell_P (fe_exp e0) /\ fe_off e = fe_off e0.
Proof.
  intros f0 f shape_of (_ & _ & Ll & HS) Hd (T0 & B0 & _) (T & B & _) Hsh C0 C.
  assert (K : forall k e0 e, nth_error (pf_exps f0) k = Some e0 -> nth_error (pf_exps f) k = Some e ->
    fe_gid e = fe_gid e0 /\ ex_shape (fe_exp e) = ex_shape (fe_exp e0) /\ cell_P (fe_exp e) = cell_P (fe_exp e0)).
  { intros k e0 e E0 E. assert (k < length (pf_exps f0))%nat by (apply nth_error_Some; congruence).
    destruct (nth_error (pf_types f0) k) as [t0|] eqn:Et0; [|apply nth_error_None in Et0; lia].
    destruct (nth_error (pf_types f) k) as [t|] eqn:Et; [|apply nth_error_None in Et; lia].
    destruct (HS k e0 e t0 t E0 E Et0 Et) as (_ & Hg & Hb). split; [exact Hg|].
    split; [rewrite !Hsh by (apply in_or_app; eauto using nth_error_In); congruence|].
    destruct (Hb 0%nat Hd) as (Hm & _). specialize (B0 e0 (nth_error_In _ _ E0)). specialize (B e (nth_error_In _ _ E)). unfold cell_P.
    destruct (ex_base (fe_exp e)) as [|[m x] l]; [cbn in B; lia|]. destruct (ex_base (fe_exp e0)) as [|[m0 x0] l0]; [cbn in B0; lia|]. cbn in Hm. congruence. }
  intros k e0 e E0 E. destruct (K k e0 e E0 E) as (K1 & K2 & K3). split; [auto|]. split; [auto|]. split; [auto|]. rewrite (C0 k e0 E0), (C k e E).
  clear - K Ll. revert k Ll K. generalize (pf_exps f0) as a, (pf_exps f) as b. induction a as [|x a IH]; intros [|y b] k Ll K; try discriminate; [reflexivity|].
  destruct k as [|k]; [reflexivity|]. cbn [firstn fold_right]. rewrite (IH b k).
  - destruct (K 0%nat x y eq_refl eq_refl) as (_ & -> & ->). reflexivity.
  - cbn in Ll. lia.
  - intros j e0 e H1 H2. apply (K (S j) e0 e); auto.
Qed.

Lemma all_items_good n exps gids z g L ndim d : field_good n exps -> basis_setup exps gids = Ok z -> (forall x, In x gids -> exists e, expansion_of exps x e) ->
  (0 < L)%nat -> Forall (fun s => In s (ndim_shapes ndim)) (cell_shapes (bz_cells z)) ->
  (forall cell e layer, nth_error (bz_cells z) cell = Some e -> member g cell layer ->
     clear (ex_shape (fe_exp e)) (ref_position (ex_shape (fe_exp e)) (fun k => pd_ref d cell k layer))) ->
  length (bz_cells z) = length gids /\ (forall cell g, nth_error gids cell = Some g -> exists e, nth_error (bz_cells z) cell = Some e /\ expansion_of exps g e) /\
  forall it, In it (items (cell_shapes (bz_cells z)) L ndim g) -> item_good z n d it.
Proof.
  intros G Ez Hex HL HF Hcl. destruct (C99_setup n exps gids G Hex) as (z0 & Ez0 & Lz & Nm & Ct & Hz). rewrite Ez in Ez0. injection Ez0 as <-.
  split; [exact Lz|]. split; [exact Hz|]. intros [cell layer] Hin. apply (items_spec _ _ _ _ _ _ HL HF) in Hin as [Hc Hm].
  unfold cell_shapes in Hc. rewrite map_length in Hc. destruct (nth_error (bz_cells z) cell) as [e|] eqn:He; [|apply nth_error_None in He; lia].
  assert (In e exps).
  { rewrite Lz in Hc. destruct (nth_error gids cell) as [x|] eqn:Ex; [|apply nth_error_None in Ex; lia]. destruct (Hz cell x Ex) as (e' & E' & (I & _)). congruence. }
  destruct G as (_ & _ & G3). destruct (G3 e H) as (P2 & _ & Off). exists e. cbn [fst snd]. split; [exact He|]. split; [rewrite Nm, nth_error_map, He; reflexivity|].
  split; [split; [exact Ct|]; split; [apply in_map; eapply nth_error_In; eauto|exact P2]|]. split; [exact Off|]. apply (Hcl cell e layer He Hm).
Qed.
Lemma value_item exps gids z n d cell layer u val ms : field_good n exps ->
  (forall cell g, nth_error gids cell = Some g -> exists e, nth_error (bz_cells z) cell = Some e /\ expansion_of exps g e) ->
  length (bz_cells z) = length gids -> item_good z n d (cell, layer) -> values_of exps gids (pd_ref d) u ms val -> In (cell, layer) ms ->
  dot (skipn (item_off z cell) u) (item_modes z d cell layer) = val cell layer.
Proof.
  intros G Hz Lz (e & He & _) HV Hin. cbn [fst snd] in *. assert (cell < length gids)%nat by (rewrite <- Lz; apply nth_error_Some; congruence).
  destruct (nth_error gids cell) as [x|] eqn:Ex; [|apply nth_error_None in Ex; lia]. destruct (Hz cell x Ex) as (e' & E' & Hx). rewrite He in E'. injection E' as <-.
  destruct (HV cell layer x e Hin Ex Hx) as (e0 & e1 & e2 & Hc & ->). unfold item_off, item_modes. rewrite He, Hc. reflexivity.
Qed.
(** A deposit, of a group or a sub group, in whatever order the device makes its atomic adds: the result b has, against the
    coefficients u of any function, the sum over the particles of the call of the particle's quantity times the value of the
    function at the particle. *)
Theorem C101_deposit : forall n exps gids z L ndim d g sched sym comp,
  field_good n exps -> basis_setup exps gids = Ok z -> (forall x, In x gids -> exists e, expansion_of exps x e) ->
  (0 < L)%nat -> Forall (fun s => In s (ndim_shapes ndim)) (cell_shapes (bz_cells z)) ->
  (0 <= comp < Z.of_nat (pd_ncomp d sym))%Z -> distinct g ->
  (forall cell e layer, nth_error (bz_cells z) cell = Some e -> member g cell layer ->
     clear (ex_shape (fe_exp e)) (ref_position (ex_shape (fe_exp e)) (fun k => pd_ref d cell k layer))) ->
  (forall l, Permutation (sched l) l) ->
  exists b, deposit z n L ndim d g sched sym comp = Some (map Some b) /\ length b = n /\
    forall ms u val, lists_particles (length gids) g ms -> values_of exps gids (pd_ref d) u ms val ->
      dot u b = over_particles ms (fun cell layer => pd_in d sym cell (Z.to_nat comp) layer * val cell layer).
Proof.
  intros n exps gids z L ndim d g sched sym comp G Ez Hex HL HF Hc HD Hcl HS.
  destruct (all_items_good n exps gids z g L ndim d G Ez Hex HL HF Hcl) as (Lz & Hz & HI).
  eexists. split; [apply deposit_ok; auto|]. split; [rewrite map_length, seq_length; reflexivity|]. intros ms u val HM HV.
  assert (Ls : length (cell_shapes (bz_cells z)) = length gids) by (unfold cell_shapes; rewrite map_length; exact Lz).
  pose proof (items_lists (cell_shapes (bz_cells z)) L ndim g ms HL HF HD) as HP. rewrite Ls in HP. specialize (HP HM).
  rewrite dot_deposited by exact HI. unfold over_particles. rewrite (Lsum_perm _ _ _ HP). apply Lsum_ext. intros [cell layer] Hin. cbn [fst snd]. f_equal.
  apply (value_item exps gids z n d cell layer u val ms); auto. apply HI. apply (Permutation_in _ (Permutation_sym HP)). exact Hin.
Qed.
(** FieldProject::project. Each field becomes the L2 projection of the particles of the call: for every function u of its
    space, the integral of the field times u is the sum over the particles of quantity times u at the particle. *)
Theorem C101_project : forall n exps gids z L ndim nfields ncomp d g sched invmass bwd V form syms comps,
  field_good n exps -> basis_setup exps gids = Ok z -> (forall x, In x gids -> exists e, expansion_of exps x e) ->
  (0 < L)%nat -> Forall (fun s => In s (ndim_shapes ndim)) (cell_shapes (bz_cells z)) -> distinct g ->
  (forall cell e layer, nth_error (bz_cells z) cell = Some e -> member g cell layer ->
     clear (ex_shape (fe_exp e)) (ref_position (ex_shape (fe_exp e)) (fun k => pd_ref d cell k layer))) ->
  (forall s, pd_ncomp d s = ncomp s) -> schedule sched -> (forall i, (i < nfields)%nat -> solves_mass (V i) (form i) n (invmass i)) ->
  valid_args nfields ncomp syms comps ->
  exists fields, field_project z n L ndim nfields ncomp d g sched invmass bwd syms comps = PSet fields /\ length fields = nfields /\
    forall i s c x phys, nth_error syms i = Some s -> nth_error comps i = Some c -> nth_error fields i = Some (x, phys) ->
      phys = bwd i x /\ length x = n /\
      forall ms u val, V i u -> lists_particles (length gids) g ms -> values_of exps gids (pd_ref d) u ms val ->
        form i u x = over_particles ms (fun cell layer => pd_in d s cell (Z.to_nat c) layer * val cell layer).
Proof.
  intros n exps gids z L ndim nfields ncomp d g sched invmass bwd V form syms comps G Ez Hex HL HF HD Hcl Hnc HS HM HA.
  destruct (all_items_good n exps gids z g L ndim d G Ez Hex HL HF Hcl) as (Lz & Hz & HI).
  set (B := fun sc : nat * Z => map (deposited z d (fst sc) (Z.to_nat (snd sc)) (items (cell_shapes (bz_cells z)) L ndim g)) (seq 0 n)).
  unfold field_project. rewrite (proj2 (args_iff _ _ _ _) HA). pose proof HA as (H1 & H2 & HR).
  assert (Lc : length (combine syms comps) = nfields) by (rewrite combine_length; lia).
  assert (E : map (fun '(i, (s, c)) => deposit z n L ndim d g (sched i) s c) (combine (seq 0 nfields) (combine syms comps)) =
     map (fun b => Some (map Some b)) (map B (combine syms comps))).
  { rewrite <- Lc at 1. rewrite map_map. rewrite <- (map_combine_seq (fun i sc => deposit z n L ndim d g (sched i) (fst sc) (snd sc)) (fun sc => Some (map Some (B sc))) (combine syms comps)) with (i0 := O).
    - apply map_ext. intros (i & s & c). reflexivity.
    - intros i [s c] Hin. cbn [fst snd]. apply deposit_ok; auto. apply In_nth_error in Hin as (k & Hk). rewrite nth_error_combine in Hk.
      destruct (nth_error syms k) eqn:E1; [|discriminate]. destruct (nth_error comps k) eqn:E2; [|discriminate]. injection Hk as -> ->. rewrite Hnc. eauto. }
  rewrite E. destruct (solve_all_ok n invmass bwd V form (map B (combine syms comps)) 0) as (fs & Ef & Lf & Hf).
  { intros i Hi. apply HM. rewrite map_length in Hi. lia. }
  { intros b Hb. apply in_map_iff in Hb as (sc & <- & _). unfold B. rewrite map_length, seq_length. reflexivity. }
  exists fs. split; [exact Ef|]. split; [rewrite Lf, map_length; exact Lc|]. intros i s c x phys E1 E2 E3.
  destruct (Hf i (B (s, c)) x phys) as (G1 & G2 & G3). { rewrite nth_error_map, nth_error_combine, E1, E2. reflexivity. } { exact E3. }
  split; [exact G1|]. split; [exact G2|]. intros ms u val HV Hms Hval. cbn [Nat.add] in G3. rewrite G3 by exact HV.
  assert (Hr : (0 <= c < Z.of_nat (pd_ncomp d s))%Z) by (rewrite Hnc; eauto).
  destruct (C101_deposit n exps gids z L ndim d g (sched i) s c G Ez Hex HL HF Hr HD Hcl (HS i)) as (b & Eb & _ & Hb).
  rewrite deposit_ok in Eb by auto. injection Eb as Eb. rewrite <- (Hb ms u val Hms Hval). f_equal. unfold B. cbn [fst snd].
  assert (Inj : forall p q : list R, map (@Some R) p = map Some q -> p = q).
  { clear. induction p as [|a p IH]; intros [|a' q] Hq; cbn in Hq; try discriminate; [reflexivity|]. injection Hq as -> Hq. f_equal. auto. }
  apply Inj. exact Eb.
Qed.
(** Depositing conserves the quantity: the integral of the field is the sum over the particles of the call. *)
Theorem C101_conserves : forall n exps gids z L ndim nfields ncomp d g sched invmass bwd V form syms comps one,
  field_good n exps -> basis_setup exps gids = Ok z -> (forall x, In x gids -> exists e, expansion_of exps x e) ->
  (0 < L)%nat -> Forall (fun s => In s (ndim_shapes ndim)) (cell_shapes (bz_cells z)) -> distinct g ->
  (forall cell e layer, nth_error (bz_cells z) cell = Some e -> member g cell layer ->
     clear (ex_shape (fe_exp e)) (ref_position (ex_shape (fe_exp e)) (fun k => pd_ref d cell k layer))) ->
  (forall s, pd_ncomp d s = ncomp s) -> schedule sched -> (forall i, (i < nfields)%nat -> solves_mass (V i) (form i) n (invmass i)) ->
  valid_args nfields ncomp syms comps ->
  (forall e, In e exps -> dofs_of e one = unit_dofs (ex_shape (fe_exp e)) (cell_P (fe_exp e))) -> (forall i, V i one) ->
  exists fields, field_project z n L ndim nfields ncomp d g sched invmass bwd syms comps = PSet fields /\ length fields = nfields /\
    forall i s c x phys ms, nth_error syms i = Some s -> nth_error comps i = Some c -> nth_error fields i = Some (x, phys) -> lists_particles (length gids) g ms ->
      form i one x = over_particles ms (fun cell layer => pd_in d s cell (Z.to_nat c) layer).
Proof.
  intros n exps gids z L ndim nfields ncomp d g sched invmass bwd V form syms comps one G Ez Hex HL HF HD Hcl Hnc HS HM HA H1 HV.
  destruct (C101_project n exps gids z L ndim nfields ncomp d g sched invmass bwd V form syms comps G Ez Hex HL HF HD Hcl Hnc HS HM HA) as (fs & Ef & Lf & Hf).
  exists fs. split; [exact Ef|]. split; [exact Lf|]. intros i s c x phys ms E1 E2 E3 Hms. destruct (Hf i s c x phys E1 E2 E3) as (_ & _ & K).
  rewrite (K ms one (fun _ _ => 1) (HV i) Hms).
  - unfold over_particles. apply Lsum_ext. intros. lra.
  - intros cell layer y e Hin Hy (He & _). destruct (collapse_total (ex_shape (fe_exp e)) (ref_position (ex_shape (fe_exp e)) (fun k => pd_ref d cell k layer))) as ([[e0 e1] e2] & Hc).
    exists e0, e1, e2. split; [exact Hc|]. destruct G as (_ & _ & G3). destruct (G3 e He) as (P2 & _).
    rewrite dot_firstn, count_smodes. specialize (H1 e He). unfold dofs_of in H1. rewrite H1. symmetry. apply unity. exact P2.
Qed.
(** The component is checked against the group the object was made with: a group with fewer components is read out of bounds. *)
Theorem C101_other_group_refuted : forall z n L ndim nfields ncomp d g sched invmass bwd syms comps, (0 < L)%nat ->
  Forall (fun s => In s (ndim_shapes ndim)) (cell_shapes (bz_cells z)) -> (exists cell layer, (cell < length (bz_cells z))%nat /\ member g cell layer) ->
  valid_args nfields ncomp syms comps -> (exists i s c, nth_error syms i = Some s /\ nth_error comps i = Some c /\ (Z.of_nat (pd_ncomp d s) <= c)%Z) ->
  field_project z n L ndim nfields ncomp d g sched invmass bwd syms comps = POob.
Proof.
  intros z n L ndim nfields ncomp d g sched invmass bwd syms comps HL HF (cell & layer & Hc & Hm) HA (i & s & c & E1 & E2 & Hn).
  unfold field_project. rewrite (proj2 (args_iff _ _ _ _) HA). destruct HA as (H1 & H2 & _).
  assert (D : forall sched, deposit z n L ndim d g sched s c = None).
  { intros sc. unfold deposit. assert (Hin : In (cell, layer) (items (cell_shapes (bz_cells z)) L ndim g)).
    { apply (items_spec _ _ _ _ _ _ HL HF). split; [unfold cell_shapes; rewrite map_length; exact Hc|exact Hm]. }
    destruct (items _ _ _ _) as [|[c0 l0] its]; [contradiction|]. cbn [deposit_items]. unfold deposit_item.
    destruct (nth_error (bz_cells z) c0); [|reflexivity]. destruct (nth_error (cs_nummodes (bz_st z)) c0); [|reflexivity].
    destruct (Z.ltb_spec c (Z.of_nat (pd_ncomp d s))); [lia|]. rewrite Bool.andb_false_r. reflexivity. }
  unfold solve_all. match goal with |- context [all_rhs ?l] => assert (N : all_rhs l = None) end; [|rewrite N; reflexivity].
  assert (Hi : (i < nfields)%nat) by (rewrite <- H1; apply nth_error_Some; congruence).
  assert (K : In None (map (fun '(i, (s, c)) => deposit z n L ndim d g (sched i) s c) (combine (seq 0 nfields) (combine syms comps)))).
  { apply in_map_iff. exists (i, (s, c)). split; [apply D|]. apply nth_error_In with i. rewrite !nth_error_combine, E1, E2.
    rewrite (nth_error_nth' _ O) by (rewrite seq_length; exact Hi). rewrite seq_nth by exact Hi. reflexivity. }
  revert K. generalize (map (fun '(i, (s, c)) => deposit z n L ndim d g (sched i) s c) (combine (seq 0 nfields) (combine syms comps))). clear.
  induction l as [|[r|] l IH]; cbn; intros K; [destruct K| |reflexivity]. destruct K as [K|K]; [discriminate|]. rewrite (IH K). reflexivity.
Qed.
