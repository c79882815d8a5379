(** Lemmas for C63: partition of unity and the projection of a particle group onto fields. *)
From Verif Require Import M_FieldProject S_FieldProject L_Coord L_Jacobi L_Basis1 L_Basis2 L_Basis3 L_Basis4 L_Basis5 L_Basis6.
From Coq Require Import Permutation Lia Lra List.
Import ListNotations.

(** * Partition of unity *)
Lemma dot_map_map {A} (f g : A -> R) l : dot (map f l) (map g l) = Lsum (fun x => f x * g x) l.
Proof. induction l; cbn; auto. rewrite IHl. auto. Qed.
Lemma Lsum_map {A B} (f : B -> R) (g : A -> B) l : Lsum f (map g l) = Lsum (fun x => f (g x)) l.
Proof. induction l; cbn; auto. unfold Lsum in IHl. rewrite IHl. auto. Qed.
Lemma Lsum_flat {A B} (f : B -> R) (g : A -> list B) l : Lsum f (flat_map g l) = Lsum (fun x => Lsum f (g x)) l.
Proof. induction l; auto. cbn [flat_map]. rewrite Lsum_app, IHl. auto. Qed.
Lemma Lsum_seq f n : Lsum f (seq 0 n) = rsum n f.
Proof. induction n; auto. rewrite seq_S, Lsum_app, IHn. cbn. lra. Qed.
Lemma Lsum_idx2 f P n1 : Lsum f (idx2 P n1) = rsum P (fun p => rsum (n1 p) (fun q => f (p, q))).
Proof. unfold idx2. rewrite Lsum_flat, Lsum_seq. apply rsum_ext. intros. rewrite Lsum_map, Lsum_seq. auto. Qed.
Lemma Lsum_idx3 f P n1 n2 : Lsum f (idx3 P n1 n2) = rsum P (fun p => rsum (n1 p) (fun q => rsum (n2 p q) (fun r => f (p, q, r)))).
Proof.
  unfold idx3. rewrite Lsum_flat, Lsum_seq. apply rsum_ext. intros. rewrite Lsum_flat, Lsum_seq. apply rsum_ext. intros.
  rewrite Lsum_map, Lsum_seq. auto.
Qed.
Lemma rs2 n f : (2 <= n)%nat -> (forall i, (2 <= i)%nat -> f i = 0) -> rsum n f = f O + f 1%nat.
Proof. intros H Z. replace n with (2 + (n - 2))%nat by lia. rewrite rsum_split, (rsum_zero (n - 2)). cbn. lra. intros. apply Z. lia. Qed.
Lemma rs1 n f : (1 <= n)%nat -> (forall i, (1 <= i)%nat -> f i = 0) -> rsum n f = f O.
Proof. intros H Z. replace n with (1 + (n - 1))%nat by lia. rewrite rsum_split, (rsum_zero (n - 1)). cbn. lra. intros. apply Z. lia. Qed.
Ltac kill := intros; repeat (first [apply rsum_zero; intros]); cbn [b2r];
  match goal with |- b2r ?b * _ = 0 => replace b with false by (symmetry; repeat first [rewrite andb_false_iff|rewrite orb_false_iff|rewrite Nat.ltb_ge|rewrite Nat.eqb_neq]; lia) end; cbn [b2r]; lra.
Lemma unity s P e0 e1 e2 : (2 <= P)%nat -> dot (unit_dofs s P) (smodes s P e0 e1 e2) = 1.
Proof.
  intros HP. destruct s; cbn [unit_dofs smodes]; unfold modes_tri, modes_quad, modes_hex, modes_pyr, modes_prism, modes_tet;
    rewrite dot_map_map; rewrite ?Lsum_idx2, ?Lsum_idx3; rewrite (rs2 P) by (try lia; kill).
  - rewrite (rs2 (P - 0)), (rs1 (P - 1)) by (try lia; kill). cbn -[Rdiv Jacobi]. lra.
  - rewrite !(rs2 P) by (try lia; kill). cbn -[Rdiv Jacobi]. lra.
  - rewrite !(rs2 P) by (try lia; kill). cbn -[Rdiv Jacobi]. lra.
  - rewrite !(rs2 P) by (try lia; kill). cbn [Nat.max]. rewrite (rs2 (P - 0)), !(rs1 (P - 1)) by (try lia; kill). cbn -[Rdiv Jacobi]. lra.
  - rewrite !(rs2 P) by (try lia; kill). rewrite !(rs2 (P - 0)), !(rs1 (P - 1)) by (try lia; kill). cbn -[Rdiv Jacobi]. lra.
  - rewrite (rs2 (P - 0)), (rs1 (P - 1)) by (try lia; kill). rewrite (rs2 (P - 0 - 0)), (rs1 (P - 0 - 1)), (rs1 (P - 1 - 0)) by (try lia; kill). cbn -[Rdiv Jacobi]. lra.
Qed.

(** * Projection *)
Lemma comp_cell_of exps st n c s k : fcell_of exps st n c -> cell_of exps st n (comp_cell s k c).
Proof.
  intros (H1 & H2 & H3). split; [exact H1|]. split; [exact H2|]. intros xi v Hin. cbn [pc_parts comp_cell] in Hin. apply in_map_iff in Hin.
  destruct Hin as ([xi' d] & E & Hin). injection E as <- <-. apply (H3 xi' (nth 0 (d O) 0)). cbn [pc_parts comp_cell]. apply in_map_iff. exists (xi', d). auto.
Qed.
Lemma reads_true ncomp cells s k : same_group ncomp cells -> (k < ncomp s)%nat -> reads_ok cells s k = true.
Proof.
  intros H Hk. unfold reads_ok. apply forallb_forall. intros c Hc. apply forallb_forall. intros [xi d] Hx. apply Nat.ltb_lt. cbn [snd]. rewrite (H c xi d s); auto.
Qed.
Definition rhs_of (n : nat) (cells : list fcell) (s k : nat) : list R := map (projected (map (comp_cell s k) cells)) (seq 0 n).
Lemma device_rhs_ok exps st n ndim cells sched s k : (forall c, In c cells -> fcell_of exps st n c /\ In (fc_shape c) (ndim_shapes ndim)) ->
  reads_ok cells s k = true -> (forall l, Permutation (sched l) l) ->
  device_rhs (ctor_table st) ndim n cells sched s k = Some (map Some (rhs_of n cells s k)).
Proof.
  intros H Hr Hs. unfold device_rhs. rewrite Hr. cbn [negb].
  destruct (project_all exps st n ndim (map (comp_cell s k) cells)) as (adds & Ha & Ho).
  { intros c' Hc. apply in_map_iff in Hc. destruct Hc as (c & <- & Hc). destruct (H c Hc). split; auto. apply comp_cell_of; auto. }
  rewrite Ha. rewrite Ho by apply Hs. unfold rhs_of. rewrite map_map. auto.
Qed.
Lemma host_adds_ok exps st n ncol c s k : fcell_of exps st n c ->
  (forall xi d, In (xi, d) (fc_parts c) -> collapse (fc_shape c) xi = Some (ncol (fc_shape c) xi)) ->
  host_adds ncol s k c = map inj (cadds (comp_cell s k c)).
Proof.
  intros ((e & (_ & _ & HP) & _ & E) & _) Hc. cbn [pc_P comp_cell] in E. rewrite E in HP. unfold host_adds, cadds.
  cbn [pc_parts pc_off comp_cell]. revert Hc. induction (fc_parts c) as [|[xi d] l IH]; intros Hc; cbn [flat_map map]; auto.
  rewrite IH by (intros; eapply Hc; right; eauto). rewrite map_app. f_equal. cbn [fst snd]. unfold cmodes. cbn [pc_shape pc_P comp_cell].
  rewrite (Hc xi d (or_introl eq_refl)). destruct (ncol (fc_shape c) xi) as [[e0 e1] e2]. rewrite eval_modes_ok by auto. rewrite map_length.
  generalize (smodes (fc_shape c) (fc_P c) e0 e1 e2) as bs. intros bs. set (v := nth k (d s) 0).
  assert (G : forall a, map (fun '(modex, phi_j) => ((fc_off c + modex)%nat, fmul phi_j (Some v))) (combine (seq a (length bs)) (map Some bs)) =
     map inj (combine (seq (fc_off c + a) (length bs)) (map (fun b => v * b) bs))).
  { induction bs as [|b bs IHb]; intros a; cbn [length seq map combine]; auto. rewrite IHb, Nat.add_succ_r. f_equal. unfold inj. cbn [fst snd fmul]. do 2 f_equal. ring. }
  rewrite G, Nat.add_0_r. auto.
Qed.
Lemma host_rhs_ok exps st n ncol cells s k : (forall c, In c cells -> fcell_of exps st n c) -> reads_ok cells s k = true ->
  (forall c xi d, In c cells -> In (xi, d) (fc_parts c) -> collapse (fc_shape c) xi = Some (ncol (fc_shape c) xi)) ->
  host_rhs ncol n cells s k = Some (map Some (rhs_of n cells s k)).
Proof.
  intros H Hr Hc. unfold host_rhs. rewrite Hr. cbn [negb].
  assert (E : flat_map (host_adds ncol s k) cells = map inj (flat_map cadds (map (comp_cell s k) cells))).
  { clear Hr. induction cells as [|c cells IH]; cbn [flat_map map]; auto. rewrite map_app. f_equal.
    - apply (host_adds_ok exps st n); [apply H; left; auto|]. intros xi d Hx. apply Hc with (d := d); [left; auto|auto].
    - apply IH; [intros; apply H; right; auto|]. intros c' xi d Hc' Hx. apply Hc with (d := d); [right; auto|auto]. }
  rewrite E. rewrite (project_run_ok n (flat_map cadds (map (comp_cell s k) cells))).
  - unfold rhs_of. do 2 f_equal. apply map_ext. intros i. rewrite csum_flat. unfold projected. apply Lsum_ext. intros c _. apply csum_cadds.
  - apply Permutation_refl.
  - intros kv Hk. apply in_flat_map in Hk. destruct Hk as (c' & Hin & Hk). apply in_map_iff in Hin. destruct Hin as (c & <- & Hin).
    eapply cadds_range; [|exact Hk]. apply cell_of_ok with (exps := exps). apply comp_cell_of. auto.
Qed.
Lemma all_finite_some l : all_finite (map Some l) = Some l.
Proof. induction l; cbn; auto. rewrite IHl. auto. Qed.
Lemma all_rhs_some (bs : list (list R)) : all_rhs (map (fun b => Some (map Some b)) bs) = Some (map (fun b => map Some b) bs).
Proof. induction bs as [|b bs IH]; cbn; auto. rewrite IH. auto. Qed.
Lemma solve_all_ok n invmass bwd (V : nat -> list R -> Prop) form : forall (bs : list (list R)) i0,
  (forall i, (i < length bs)%nat -> solves_mass (V (i0 + i)%nat) (form (i0 + i)%nat) n (invmass (i0 + i)%nat)) ->
  (forall b, In b bs -> length b = n) ->
  exists fields, solve_all invmass bwd i0 (map (fun b => Some (map Some b)) bs) = PSet fields /\ length fields = length bs /\
  forall i b x phys, nth_error bs i = Some b -> nth_error fields i = Some (x, phys) ->
    phys = bwd (i0 + i)%nat x /\ length x = n /\ forall u, V (i0 + i)%nat u -> form (i0 + i)%nat u x = dot u b.
Proof.
  unfold solve_all. intros bs i0. rewrite all_rhs_some. revert i0. induction bs as [|b bs IH]; intros i0 Hm Hl.
  - exists []. split; [auto|]. split; [auto|]. intros i b x phys E. destruct i; discriminate.
  - cbn [map solve_each]. unfold solve_one. rewrite all_finite_some.
    destruct (Hm O ltac:(cbn; lia) b (Hl b (or_introl eq_refl))) as (x & Ex & Lx & Fx). rewrite Nat.add_0_r in *. rewrite Ex, all_finite_some.
    destruct (IH (S i0)) as (fs & Ef & Lf & Hf).
    { intros i Hi. specialize (Hm (S i) ltac:(cbn; lia)). rewrite Nat.add_succ_r in Hm. exact Hm. }
    { intros. apply Hl. right. auto. }
    rewrite Ef. exists ((x, bwd i0 x) :: fs). split; [auto|]. split; [cbn; lia|]. intros i b' x' phys E1 E2. destruct i as [|i]; cbn [nth_error] in E1, E2.
    + injection E1 as <-. injection E2 as <- <-. rewrite Nat.add_0_r. auto.
    + rewrite Nat.add_succ_r. apply (Hf i b' x' phys E1 E2).
Qed.
Lemma nth_error_combine {A B} (l : list A) (m : list B) i : nth_error (combine l m) i =
  match nth_error l i, nth_error m i with Some a, Some b => Some (a, b) | _, _ => None end.
Proof. revert m i. induction l as [|a l IH]; intros [|b m] [|i]; cbn; auto. destruct (nth_error l i); auto. Qed.
Lemma args_iff nfields ncomp syms comps : args_ok nfields ncomp syms comps = true <-> valid_args nfields ncomp syms comps.
Proof.
  unfold args_ok, valid_args. rewrite !andb_true_iff, !Nat.eqb_eq, forallb_forall. split.
  - intros ((H1 & H2) & H). split; [auto|]. split; [auto|]. intros i s c Hs Hc. specialize (H (s, c)). cbn [fst snd] in H.
    rewrite andb_true_iff, Z.leb_le, Z.ltb_lt in H. apply H. apply nth_error_In with i. rewrite nth_error_combine, Hs, Hc. auto.
  - intros (H1 & H2 & H). split; [auto|]. intros [s c] Hin. apply In_nth_error in Hin. destruct Hin as (i & E). rewrite nth_error_combine in E.
    destruct (nth_error syms i) eqn:E1; [|discriminate]. destruct (nth_error comps i) eqn:E2; [|discriminate]. injection E as <- <-.
    cbn [fst snd]. rewrite andb_true_iff, Z.leb_le, Z.ltb_lt. eauto.
Qed.
Definition rhss_of (n : nat) (cells : list fcell) (syms : list nat) (comps : list Z) : list (list R) :=
  map (fun sc => rhs_of n cells (fst sc) (Z.to_nat (snd sc))) (combine syms comps).
Lemma map_combine_seq {A B} (g : nat -> A -> B) (h : A -> B) (l : list A) : (forall i a, In a l -> g i a = h a) ->
  forall i0, map (fun '(i, a) => g i a) (combine (seq i0 (length l)) l) = map h l.
Proof. induction l as [|a l IH]; intros H i0; cbn [length seq combine map]; auto. rewrite IH, H; auto. left; auto. intros; apply H; right; auto. Qed.
Lemma map_rhs (g : nat -> nat -> Z -> option (list fl)) n cells syms comps nfields : length syms = nfields -> length comps = nfields ->
  (forall i s c, In (s, c) (combine syms comps) -> g i s c = Some (map Some (rhs_of n cells s (Z.to_nat c)))) ->
  map (fun '(i, (s, c)) => g i s c) (combine (seq 0 nfields) (combine syms comps)) = map (fun b => Some (map Some b)) (rhss_of n cells syms comps).
Proof.
  intros H1 H2 H. assert (L : length (combine syms comps) = nfields) by (rewrite combine_length; lia). rewrite <- L at 1. unfold rhss_of. rewrite map_map.
  rewrite <- (map_combine_seq (fun i sc => g i (fst sc) (snd sc)) (fun sc => Some (map Some (rhs_of n cells (fst sc) (Z.to_nat (snd sc))))) (combine syms comps)) with (i0 := O).
  - apply map_ext. intros (i & s & c). auto.
  - intros i [s c] Hin. cbn [fst snd]. apply H. auto.
Qed.
Lemma dot_rhs exps st n cells u s k : length u = n -> (forall c, In c cells -> fcell_of exps st n c) ->
  dot u (rhs_of n cells s k) = psum cells (fun c xi d => nth k (d s) 0 * fvalue u c xi).
Proof.
  intros Hu H. unfold rhs_of, projected. rewrite dot_Lsum, Lsum_map. unfold psum. apply Lsum_ext. intros c Hc. rewrite dot_Lsum.
  cbn [pc_parts comp_cell]. rewrite Lsum_map. apply Lsum_ext. intros [xi d] Hx. cbn [fst snd]. 
  destruct (cell_of_ok _ _ _ _ (comp_cell_of exps st n c s k (H c Hc))) as (_ & Ho & Hp).
  destruct (Hp xi (nth k (d s) 0)) as ([[e0 e1] e2] & Hcl & _). { cbn [pc_parts comp_cell]. apply in_map_iff. exists (xi, d). auto. }
  rewrite dot_contrib. { auto. } unfold cmodes. rewrite Hcl, smodes_length. auto.
Qed.

Section Galerkin.
  Context (exps : list expansion) (st : ctor_st) (ndim n nfields : nat) (ncomp : nat -> nat) (cells : list fcell)
    (invmass : nat -> list R -> list fl) (bwd : nat -> list R -> list R) (V : nat -> list R -> Prop) (form : nat -> list R -> list R -> R)
    (syms : list nat) (comps : list Z).
  Hypothesis Hcells : forall c, In c cells -> fcell_of exps st n c /\ In (fc_shape c) (ndim_shapes ndim).
  Hypothesis Hgroup : same_group ncomp cells.
  Hypothesis Hmass : forall i, (i < nfields)%nat -> solves_mass (V i) (form i) n (invmass i).
  Hypothesis Hargs : valid_args nfields ncomp syms comps.
  Lemma reads_in s c : In (s, c) (combine syms comps) -> reads_ok cells s (Z.to_nat c) = true.
  Proof.
    intros Hin. apply In_nth_error in Hin. destruct Hin as (i & E). rewrite nth_error_combine in E. destruct Hargs as (_ & _ & Ha).
    destruct (nth_error syms i) eqn:E1; [|discriminate]. destruct (nth_error comps i) eqn:E2; [|discriminate]. injection E as -> ->.
    apply reads_true with (ncomp := ncomp); auto. specialize (Ha i s c E1 E2). lia.
  Qed.
  Lemma project_eq sched : schedule sched -> project (ctor_table st) ndim n nfields ncomp cells sched invmass bwd syms comps =
    solve_all invmass bwd 0 (map (fun b => Some (map Some b)) (rhss_of n cells syms comps)).
  Proof.
    intros Hs. unfold project. rewrite (proj2 (args_iff _ _ _ _) Hargs). destruct Hargs as (H1 & H2 & _).
    rewrite (map_rhs (fun i s c => device_rhs (ctor_table st) ndim n cells (sched i) s (Z.to_nat c)) n cells); auto.
    intros i s c Hin. apply device_rhs_ok with (exps := exps); auto. apply reads_in; auto.
  Qed.
  Lemma project_host_eq ncol : (forall c xi d, In c cells -> In (xi, d) (fc_parts c) -> collapse (fc_shape c) xi = Some (ncol (fc_shape c) xi)) ->
    project_host ncol n nfields ncomp cells invmass bwd syms comps = solve_all invmass bwd 0 (map (fun b => Some (map Some b)) (rhss_of n cells syms comps)).
  Proof.
    intros Hs. unfold project_host. rewrite (proj2 (args_iff _ _ _ _) Hargs). destruct Hargs as (H1 & H2 & _).
    rewrite (map_rhs (fun i s c => host_rhs ncol n cells s (Z.to_nat c)) n cells); auto.
    intros i s c Hin. apply host_rhs_ok with (exps := exps) (st := st); auto. { intros; apply Hcells; auto. } apply reads_in; auto.
  Qed.
  Lemma galerkin sched : schedule sched -> exists fields, project (ctor_table st) ndim n nfields ncomp cells sched invmass bwd syms comps = PSet fields /\
    length fields = nfields /\
    forall i s c x phys, nth_error syms i = Some s -> nth_error comps i = Some c -> nth_error fields i = Some (x, phys) ->
      phys = bwd i x /\ length x = n /\
      forall u, V i u -> length u = n -> form i u x = psum cells (fun cell xi d => nth (Z.to_nat c) (d s) 0 * fvalue u cell xi).
  Proof.
    intros Hs. rewrite project_eq by auto.
    assert (L : length (rhss_of n cells syms comps) = nfields) by (unfold rhss_of; rewrite map_length, combine_length; destruct Hargs; lia).
    destruct (solve_all_ok n invmass bwd V form (rhss_of n cells syms comps) 0) as (fs & E & Lf & Hf).
    { intros i Hi. apply Hmass. lia. }
    { intros b Hb. unfold rhss_of in Hb. apply in_map_iff in Hb. destruct Hb as (sc & <- & _). unfold rhs_of. rewrite map_length, seq_length. auto. }
    exists fs. split; [auto|]. split; [lia|]. intros i s c x phys E1 E2 E3.
    destruct (Hf i (rhs_of n cells s (Z.to_nat c)) x phys) as (G1 & G2 & G3).
    { unfold rhss_of. rewrite nth_error_map, nth_error_combine, E1, E2. auto. } { auto. }
    split; [auto|]. split; [auto|]. intros u Vu Lu. cbn [Nat.add] in G3. rewrite G3 by auto. apply dot_rhs with (exps := exps) (st := st); auto. intros; apply Hcells; auto.
  Qed.
End Galerkin.
Lemma dot_firstn d b : dot d b = dot (firstn (length b) d) b.
Proof. revert d. induction b as [|y b IH]; intros [|x d]; cbn; auto. rewrite IH. auto. Qed.
Lemma unit_dofs_length s P e0 e1 e2 : length (unit_dofs s P) = length (smodes s P e0 e1 e2).
Proof. destruct s; cbn [unit_dofs smodes]; unfold modes_tri, modes_quad, modes_hex, modes_pyr, modes_prism, modes_tet; rewrite !map_length; auto. Qed.
Lemma fvalue_one cells one c xi : is_one cells one -> In c cells -> (2 <= fc_P c)%nat -> fvalue one c xi = 1.
Proof.
  intros H Hc HP. unfold fvalue, cmodes. cbn [pc_shape pc_P comp_cell]. destruct (collapse_total (fc_shape c) xi) as ([[e0 e1] e2] & ->).
  rewrite dot_firstn, <- unit_dofs_length, H by auto. apply unity; auto.
Qed.
Lemma psum_one exps st n cells one s k : is_one cells one -> (forall c, In c cells -> fcell_of exps st n c) ->
  psum cells (fun cell xi d => nth k (d s) 0 * fvalue one cell xi) = psum cells (fun cell xi d => nth k (d s) 0).
Proof.
  intros H Hc. unfold psum. apply Lsum_ext. intros c Hin. apply Lsum_ext. intros xd _. rewrite (fvalue_one cells); auto. lra.
  destruct (Hc c Hin) as ((e & (_ & _ & HP) & _ & E) & _). cbn [pc_P comp_cell] in E. lia.
Qed.
Lemma evaluate_fvalue exps st n c u xi d : fcell_of exps st n c -> length u = n -> In (xi, d) (fc_parts c) ->
  evaluate_field (ctor_table st) c u xi = Some (Some (fvalue u c xi)).
Proof.
  intros H Hu Hx. destruct H as ((e & He & E1 & E2) & Ho & Hp). cbn [pc_shape pc_P pc_off comp_cell] in *.
  destruct (Hp xi (nth 0 (d O) 0)) as ([[e0 e1] e2] & Hcl & Hr). { cbn [pc_parts comp_cell]. apply in_map_iff. exists (xi, d). auto. }
  unfold evaluate_field, fvalue, cmodes. cbn [pc_shape pc_P comp_cell]. rewrite Hcl. rewrite <- E1, <- E2 in *.
  apply (eval_sum exps st); auto. rewrite skipn_length. lia.
Qed.
