(** Lemmas for C99. *)
From Verif Require Import M_Bytes M_FieldEval S_FieldEval S_Basis S_Basis2 L_Basis1 L_Basis6 P_Basis L_Launch P_Launch.
From Coq Require Import Arith Lia Lra ZArith Permutation List.
Import ListNotations.

Lemma geom_map_ok : forall l ex m, (forall i e, nth_error l i = Some e -> fe_elmt e = Z.of_nat (ex + i)) ->
  exists m', geom_map ex l m = Ok m' /\ m' = rev (combine (map fe_gid l) (seq ex (length l))) ++ m.
Proof.
  induction l as [|e l IH]; intros ex m H; cbn [geom_map].
  - exists m. split; reflexivity.
  - rewrite (H 0%nat e eq_refl), Nat.add_0_r, Z.eqb_refl.
    destruct (IH (S ex) ((fe_gid e, ex) :: m)) as (m' & E & E').
    { intros i e' Q. rewrite (H (S i) e' Q). f_equal. lia. }
    exists m'. split; [exact E|]. rewrite E'. cbn. rewrite <- app_assoc. reflexivity.
Qed.
Lemma geom_map_bad : forall l ex m i e, nth_error l i = Some e -> fe_elmt e <> Z.of_nat (ex + i) -> geom_map ex l m = AssertFail.
Proof.
  induction l as [|e0 l IH]; intros ex m i e H Q; [destruct i; discriminate|]. cbn [geom_map].
  destruct (Z.eqb_spec (Z.of_nat ex) (fe_elmt e0)) as [E|E]; [|reflexivity]. destruct i as [|i].
  - injection H as ->. exfalso. apply Q. rewrite Nat.add_0_r. auto.
  - apply (IH (S ex) _ i e H). intros K. apply Q. rewrite K. f_equal. lia.
Qed.
Lemma find_app_none {A} (f : A -> bool) l m : find f (l ++ m) = match find f l with Some x => Some x | None => find f m end.
Proof. induction l; simpl; auto. destruct (f a); auto. Qed.
Lemma find_unique {K} (l : list (Z * K)) k v : NoDup (map fst l) -> In (k, v) l -> find (fun kv => Z.eqb (fst kv) k) l = Some (k, v).
Proof.
  induction l as [|[a b] l IH]; intros ND H; [contradiction|]. cbn. inversion ND; subst. destruct (Z.eqb_spec a k) as [->|Hn].
  - destruct H as [H|H]; [congruence|]. exfalso. apply H2. exact (in_map fst _ _ H).
  - destruct H as [H|H]; [congruence|]. auto.
Qed.
Lemma map_fst_combine {A B} (l : list A) (m : list B) : length l = length m -> map fst (combine l m) = l.
Proof. revert m; induction l; destruct m; simpl; intros; try discriminate; f_equal; auto. Qed.
Lemma exp_id_ok l i e : NoDup (map fe_gid l) -> nth_error l i = Some e ->
  exp_id (rev (combine (map fe_gid l) (seq 0 (length l))) ++ []) (fe_gid e) = i.
Proof.
  intros ND H. unfold exp_id. rewrite app_nil_r.
  assert (E : map fst (combine (map fe_gid l) (seq 0 (length l))) = map fe_gid l) by (apply map_fst_combine; rewrite map_length, seq_length; reflexivity).
  rewrite (find_unique _ (fe_gid e) i); [reflexivity| |].
  - rewrite map_rev, E. apply NoDup_rev. exact ND.
  - rewrite <- in_rev. clear E ND. 
    assert (G : forall l a i, nth_error l i = Some e -> In (fe_gid e, (a + i)%nat) (combine (map fe_gid l) (seq a (length l)))).
    { clear. induction l as [|e0 l IH]; intros a i H; [destruct i; discriminate|]. destruct i as [|i]; cbn in *.
      - injection H as ->. left. rewrite Nat.add_0_r. reflexivity.
      - right. rewrite <- Nat.add_succ_comm. apply IH. exact H. }
    apply (G l 0%nat i H).
Qed.
Lemma exp_id_missing l g : ~ In g (map fe_gid l) -> exp_id (rev (combine (map fe_gid l) (seq 0 (length l))) ++ []) g = 0%nat.
Proof.
  intros H. unfold exp_id. rewrite app_nil_r. destruct (find _ _) as [[a b]|] eqn:E; [|reflexivity]. apply find_some in E as [E1 E2].
  apply in_rev in E1. apply in_combine_l in E1. apply Z.eqb_eq in E2. cbn in E2. subst. contradiction.
Qed.
Lemma cell_exps_ok exps m : forall gids, (forall g, In g gids -> exists e, nth_error exps (exp_id m g) = Some e) ->
  exists l, cell_exps exps m gids = Ok l /\ length l = length gids /\
    forall cell g, nth_error gids cell = Some g -> nth_error l cell = nth_error exps (exp_id m g).
Proof.
  induction gids as [|g gids IH]; intros H; cbn [cell_exps].
  - exists []. split; [reflexivity|]. split; [reflexivity|]. intros [|]; discriminate.
  - destruct (H g (or_introl eq_refl)) as (e & E). rewrite E. destruct IH as (l & El & Ll & Hl). { intros g' Q. apply H. right. exact Q. }
    rewrite El. cbn. exists (e :: l). split; [reflexivity|]. split; [cbn; lia|]. intros [|c] g' Q; cbn in *; [injection Q as <-; auto|auto].
Qed.
(** the cells per shape add up *)
Lemma cells_of_count : forall shapes, fold_left (fun n s => (n + List.length (cells_of shapes s))%nat) [Tri; Quad; Hex; Prism; Pyr; Tet] O = List.length shapes.
Proof.
  intros shapes. unfold cells_of. cbn [fold_left]. rewrite !map_length.
  set (c := combine (seq 0 (length shapes)) shapes). assert (Lc : length c = length shapes) by (unfold c; rewrite combine_length, seq_length; lia).
  rewrite <- Lc. clear Lc. clearbody c. induction c as [|[i s] c IH]; [reflexivity|]. destruct s; cbn [filter shape_eqb snd length]; cbn [length] in *; lia.
Qed.
Lemma ctor_nummodes exps st : ctor_loop exps = Some st -> cs_nummodes st = map cell_P exps.
Proof. intros H. apply (C53_constructor_sizes exps st H). Qed.

(** the runs *)
Lemma run_other z c order : forall d d', run_items z c order d = Ok d' ->
  forall s cell k layer, ~ (s = ec_sym c /\ k = Z.to_nat (ec_comp c) /\ In (cell, layer) order) -> d' s cell k layer = d s cell k layer.
Proof.
  unfold run_items. induction order as [|[c0 l0] order IH] using rev_ind; intros d d' H s cell k layer N; [cbn in H; congruence|].
  rewrite fold_left_app in H. cbn [fold_left] in H. destruct (fold_left _ order (Ok d)) as [d1| |] eqn:E1; try discriminate. cbn [obind] in H.
  specialize (IH d d1 E1 s cell k layer). assert (Hd : d1 s cell k layer = d s cell k layer).
  { apply IH. intros (A & B & C). apply N. split; auto. split; auto. apply in_or_app. auto. }
  unfold eval_item in H. destruct (nth_error (bz_cells z) c0); [|discriminate]. destruct (nth_error (cs_nummodes (bz_st z)) c0); [|discriminate].
  destruct (evaluate_particle _ _ _ _ _); [|discriminate]. destruct (_ && _)%bool; [|discriminate]. injection H as <-. unfold fwrite.
  destruct (Nat.eqb_spec s (ec_sym c)), (Nat.eqb_spec cell c0), (Nat.eqb_spec k (Z.to_nat (ec_comp c))), (Nat.eqb_spec layer l0); cbn [andb]; try exact Hd.
  exfalso. apply N. subst. split; auto. split; auto. apply in_or_app. right. left. reflexivity.
Qed.
Definition item_value (z : bsetup) (c : ecall) (cell layer : nat) : option fl :=
  match nth_error (bz_cells z) cell, nth_error (cs_nummodes (bz_st z)) cell with
  | Some e, Some P => evaluate_particle (ctor_table (bz_st z)) (ex_shape (fe_exp e)) P (skipn (fe_off e) (ec_coeffs c))
      (ref_position (ex_shape (fe_exp e)) (fun k => ec_ref c cell k layer))
  | _, _ => None
  end.
Lemma eval_item_value z c cell layer v d : (0 <= ec_comp c < Z.of_nat (ec_ncomp c))%Z -> item_value z c cell layer = Some v ->
  eval_item z c (cell, layer) d = Ok (fwrite d (ec_sym c) cell (Z.to_nat (ec_comp c)) layer v).
Proof.
  intros Hc H. unfold eval_item, item_value in *. destruct (nth_error (bz_cells z) cell); [|discriminate].
  destruct (nth_error (cs_nummodes (bz_st z)) cell); [|discriminate]. rewrite H.
  destruct (Z.leb_spec 0 (ec_comp c)); [|lia]. destruct (Z.ltb_spec (ec_comp c) (Z.of_nat (ec_ncomp c))); [|lia]. reflexivity.
Qed.
Lemma run_values z c (val : nat -> nat -> fl) order : (0 <= ec_comp c < Z.of_nat (ec_ncomp c))%Z ->
  (forall cell layer, In (cell, layer) order -> item_value z c cell layer = Some (val cell layer)) ->
  forall d, exists d', run_items z c order d = Ok d' /\
    (forall cell layer, In (cell, layer) order -> d' (ec_sym c) cell (Z.to_nat (ec_comp c)) layer = val cell layer) /\
    forall s cell k layer, ~ (s = ec_sym c /\ k = Z.to_nat (ec_comp c) /\ In (cell, layer) order) -> d' s cell k layer = d s cell k layer.
Proof.
  intros Hc H d. cut (exists d', run_items z c order d = Ok d' /\
    (forall cell layer, In (cell, layer) order -> d' (ec_sym c) cell (Z.to_nat (ec_comp c)) layer = val cell layer)).
  { intros (d' & E & V). exists d'. split; [exact E|]. split; [exact V|]. apply (run_other z c order d d' E). }
  unfold run_items. induction order as [|[c0 l0] order IH] using rev_ind.
  - exists d. split; [reflexivity|]. intros ? ? [].
  - destruct IH as (d1 & E1 & V1). { intros; apply H. apply in_or_app. auto. }
    rewrite fold_left_app, E1. cbn [fold_left obind].
    rewrite (eval_item_value z c c0 l0 (val c0 l0) d1 Hc). 2:{ apply H. apply in_or_app. right. left. reflexivity. }
    eexists. split; [reflexivity|]. intros cell layer Hin. unfold fwrite. rewrite !Nat.eqb_refl. cbn [andb].
    destruct (Nat.eqb_spec cell c0), (Nat.eqb_spec layer l0); cbn [andb]; subst; auto;
      apply in_app_iff in Hin as [Hin|[Hin|[]]]; try (apply V1; exact Hin); congruence.
Qed.
Lemma items_spec shapes L ndim g cell layer : (0 < L)%nat -> Forall (fun s => In s (ndim_shapes ndim)) shapes ->
  In (cell, layer) (items shapes L ndim g) <-> (cell < length shapes)%nat /\ member g cell layer.
Proof.
  intros HL HF. assert (G : forall npart, In (cell, layer) (launches shapes npart L ndim) <-> (cell < length shapes)%nat /\ (layer < nth cell npart 0)%nat)
    by (intros npart; apply (C97_every_particle_once shapes npart L ndim HL HF)).
  destruct g as [npart|[|] npart sel]; cbn [items member]; auto. rewrite in_flat_map. split.
  - intros (s & _ & H). apply in_flat_map in H as (c & Hc & H). apply in_map_iff in H as (l & E & Hl). injection E as -> ->.
    apply in_cells_of in Hc. split; auto. apply nth_error_Some. congruence.
  - intros [Hc Hl]. destruct (nth_error shapes cell) as [s|] eqn:E; [|apply nth_error_None in E; lia]. exists s. split.
    + rewrite Forall_forall in HF. apply HF. eapply nth_error_In; eauto.
    + apply in_flat_map. exists cell. split; [apply in_cells_of; exact E|]. apply in_map_iff. eauto.
Qed.
