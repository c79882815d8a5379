From Coq Require Import Sorting.Sorted ZArith Lia Bool.
From Verif Require Import M_Bytes M_Pack2D M_RemoteGeom M_Transport M_Exchange M_MeshIf S_Grid S_MeshIf M_Halo S_Halo.
From Verif Require Import L_Grid L_MeshIf L_Transport.
From Coq Require Import List.
Import ListNotations.
Local Open Scope Z_scope.

Lemma unlin_horner counts : forall t, valid_tuple t counts -> unlin counts (horner counts t) = t.
Proof.
  induction counts as [|c cs IH]; intros t H; inversion H as [|x ? t' ? Hx Ht]; subst; simpl; auto.
  rewrite (Z.mul_comm c), Z.mod_add, Z.div_add by lia. rewrite Z.mod_small, Z.div_small by lia. simpl. now rewrite IH.
Qed.
Lemma cart_subcell nf c : forall f, cart_tuple nf c f = subcell nf c f.
Proof. induction c as [|x c IH]; intros [|y f]; simpl; try rewrite IH; auto. Qed.
Lemma cell_tuple_spec m g t : cell_at m g t -> cell_tuple m g = t.
Proof.
  intros (c & f & Hc & Hf & -> & ->). unfold cell_tuple, mh_unlinear.
  pose proof (valid_length _ _ Hc) as Lc. rewrite mh_linear_app by auto. rewrite zprod_product.
  pose proof (horner_range _ _ Hf) as Rf.
  rewrite Z.div_add_l by lia. rewrite (Z.div_small (horner _ f)) by lia. rewrite Z.add_0_r, unlin_horner by auto.
  rewrite Z.add_comm, Z.mod_add by lia. rewrite Z.mod_small by lia. rewrite unlin_horner by auto.
  unfold mh_ndim. rewrite firstn_app, skipn_app, <- Lc, firstn_all, skipn_all, Nat.sub_diag. simpl. rewrite app_nil_r. apply cart_subcell.
Qed.
Lemma cell_at_fine m g t : mh_ok m -> cell_at m g t -> valid_tuple t (fine_counts m).
Proof. intros (_ & _ & Hn & _) (c & f & Hc & Hf & _ & ->). apply (subcell_div (mh_nf m) (mh_dims m)); auto. Qed.
Lemma cell_at_num m t : mh_ok m -> valid_tuple t (fine_counts m) ->
  cell_at m (mh_linear m (mesh_tuple_to_mh_tuple m t)) t.
Proof.
  intros (_ & _ & Hn & _) Ht. destruct (div_valid (mh_nf m) (mh_dims m) Hn t Ht) as (H1 & H2 & H3).
  exists (map (fun i => Z.quot i (mh_nf m)) t), (map (fun i => Z.rem i (mh_nf m)) t). repeat split; auto.
Qed.
Lemma cell_at_fun m g t t' : cell_at m g t -> cell_at m g t' -> t = t'.
Proof. intros H1 H2. apply cell_tuple_spec in H1, H2. congruence. Qed.
Lemma cell_at_inj m g g' t : mh_ok m -> cell_at m g t -> cell_at m g' t -> g = g'.
Proof.
  intros (_ & _ & Hn & _) (c & f & Hc & Hf & -> & ->) (c' & f' & Hc' & Hf' & -> & E).
  destruct (subcell_div (mh_nf m) (mh_dims m) Hn c f Hc Hf) as (_ & A1 & A2).
  destruct (subcell_div (mh_nf m) (mh_dims m) Hn c' f' Hc' Hf') as (_ & B1 & B2).
  rewrite E in A1, A2. congruence.
Qed.
Lemma cell_at_range m g t : cell_at m g t -> 0 <= g < mh_ncells_global m.
Proof.
  intros (c & f & Hc & Hf & -> & _). unfold mh_ncells_global. rewrite !zprod_product. now apply mh_linear_range.
Qed.

(** ** one offset *)
Definition within (w : Z) (o : list Z) (n : nat) : Prop := length o = n /\ Forall (fun d => - w <= d <= w) o.
Lemma in_offsets n w o : In o (halo_offsets n w) <-> within w o n.
Proof.
  unfold halo_offsets, within. rewrite in_cell_tuples2 by (now rewrite !repeat_length).
  revert o. induction n as [|n IH]; intros o; simpl.
  - split; [intros H; inversion H; auto|]. intros [H _]. destruct o; [constructor|discriminate].
  - split.
    + intros H. inversion H as [|x ? o' ? Hx Ho]; subst. apply IH in Ho as [H1 H2]. simpl in Hx. split; [simpl; congruence|constructor; auto; lia].
    + intros [H1 H2]. destruct o as [|x o]; [discriminate|]. inversion H2; subst. constructor; [simpl; lia|]. apply IH. split; auto.
Qed.
Lemma near_cons pbc w n ns x t y u : near pbc w (n :: ns) (x :: t) (y :: u) <-> near_dim pbc w n x y /\ near pbc w ns t u.
Proof.
  unfold near. simpl. split.
  - intros (H1 & H2 & H). split; [apply (H O n x y); auto|]. repeat split; try congruence. intros d; apply (H (S d)).
  - intros (H0 & H1 & H2 & H). repeat split; try congruence. intros [|d] n' x' y'; simpl; [intros; congruence|apply H].
Qed.
(** reachable in one dimension: an offset that is valid and wraps to [y] *)
Lemma near_dim_offset pbc w n x y : 0 <= w -> w <= n -> 0 <= x < n -> 0 <= y < n ->
  (near_dim pbc w n x y <-> exists d, - w <= d <= w /\ (if pbc then True else 0 <= x + d < n) /\ Z.rem (x + d + n) n = y).
Proof.
  intros Hw Hwn Hx Hy. unfold near_dim. destruct pbc.
  - split.
    + intros (k & Hk). exists (y - x + k * n). split; [lia|]. split; [auto|].
      rewrite Z.rem_mod_nonneg by lia. replace (x + (y - x + k * n) + n) with (y + (k + 1) * n) by lia.
      rewrite Z.mod_add by lia. now apply Z.mod_small.
    + intros (d & Hd & _ & E). rewrite Z.rem_mod_nonneg in E by lia.
      pose proof (Z.div_mod (x + d + n) n ltac:(lia)) as H. exists ((x + d + n) / n - 1). nia.
  - split.
    + intros H. exists (y - x). split; [lia|]. split; [lia|]. rewrite Z.rem_mod_nonneg by lia.
      replace (x + (y - x) + n) with (y + 1 * n) by lia. rewrite Z.mod_add by lia. now apply Z.mod_small.
    + intros (d & Hd & Hv & E). rewrite Z.rem_mod_nonneg in E by lia.
      replace (x + d + n) with (x + d + 1 * n) in E by lia. rewrite Z.mod_add, Z.mod_small in E by lia. lia.
Qed.
Lemma near_offset pbc w : 0 <= w -> forall counts t u, Forall (fun n => w <= n) counts -> valid_tuple t counts -> valid_tuple u counts ->
  (near pbc w counts t u <-> exists o, within w o (length counts) /\ offset_dims pbc counts t o = (true, u)).
Proof.
  intros Hw. induction counts as [|n ns IH]; intros t u Hn Ht Hu; inversion Ht as [|x ? t' ? Hx Ht']; subst; inversion Hu as [|y ? u' ? Hy Hu']; subst.
  - split; [|intros; repeat split; auto; intros [|?]; discriminate]. intros _. exists []. split; [split; auto|auto].
  - inversion Hn; subst. rewrite near_cons. rewrite near_dim_offset by auto. rewrite IH by auto. split.
    + intros ((d & Hd & Hv & E) & o & [Ho1 Ho2] & Eo). exists (d :: o). split; [split; [simpl; congruence|constructor; auto]|].
      simpl. rewrite Eo. simpl. rewrite andb_true_r. f_equal; [|congruence]. destruct pbc; auto.
      apply andb_true_iff. split; [apply Z.leb_le|apply Z.ltb_lt]; lia.
    + intros (o & [Ho1 Ho2] & E). destruct o as [|d o]; [discriminate|]. simpl in E. injection E as E1 E2 E3.
      apply andb_true_iff in E1 as [E1 E4]. inversion Ho2; subst. split.
      * exists d. repeat split; auto; try lia. destruct pbc; auto. apply andb_true_iff in E1 as [A B]. apply Z.leb_le in A. apply Z.ltb_lt in B. lia.
      * exists o. split; [split; auto|]. destruct (offset_dims pbc ns t' o); simpl in *; congruence.
Qed.
Lemma offset_valid pbc w counts : forall t o, Forall (fun n => w <= n) counts -> valid_tuple t counts -> within w o (length counts) ->
  valid_tuple (snd (offset_dims pbc counts t o)) counts.
Proof.
  induction counts as [|n ns IH]; intros t o Hn Ht [Ho1 Ho2]; inversion Ht as [|x ? t' ? Hx Ht']; subst.
  - constructor.
  - destruct o as [|d o]; [discriminate|]. inversion Hn; inversion Ho2; subst. simpl. constructor; [|apply IH; auto; split; auto].
    apply Z.rem_bound_pos; lia.
Qed.

(** ** all cells *)
Section Cells.
  Context (m : mhier) (w : Z) (pbc : bool) (owned : list Z).
  Hypothesis Hm : mh_ok m.
  Hypothesis Hw : width_ok m w.
  Definition counts' := map (fun d => d * mh_nf m) (mh_dims m).
  Lemma counts_eq : counts' = fine_counts m.
  Proof. unfold counts', fine_counts. apply map_ext. intros; lia. Qed.
  Definition target (t o : list Z) : Z := mh_linear m (mesh_tuple_to_mh_tuple m (snd (offset_dims pbc counts' t o))).
  Definition accepted (t o : list Z) : Prop := ~ In (target t o) owned /\ fst (offset_dims pbc counts' t o) = true.
  Lemma visit_ok t o s : valid_tuple t (fine_counts m) -> within w o (mh_ndim m) ->
    halo_visit m pbc owned t (Ok s) o = Ok (if negb (existsb (Z.eqb (target t o)) owned) && fst (offset_dims pbc counts' t o) then set_insert (target t o) s else s).
  Proof.
    intros Ht Ho. unfold halo_visit. cbn [obind]. fold counts'. fold (target t o).
    assert (Hc : cell_at m (target t o) (snd (offset_dims pbc counts' t o))).
    { apply cell_at_num; auto. rewrite counts_eq. apply offset_valid with w; auto; [apply Hw|]. unfold fine_counts. now rewrite map_length. }
    pose proof (cell_at_range m _ _ Hc). destruct (Z.ltb_spec (target t o) (mh_ncells_global m)); [|lia].
    destruct (Z.ltb_spec (-1) (target t o)); [|lia]. simpl. destruct (negb _ && _); auto.
  Qed.
  Lemma offsets_fold t os : valid_tuple t (fine_counts m) -> (forall o, In o os -> within w o (mh_ndim m)) -> forall s, StronglySorted Z.lt s ->
    exists s', fold_left (halo_visit m pbc owned t) os (Ok s) = Ok s' /\ StronglySorted Z.lt s' /\
      forall g, In g s' <-> In g s \/ exists o, In o os /\ accepted t o /\ target t o = g.
  Proof.
    intros Ht. induction os as [|o os IH]; intros Ho s Hs; cbn [fold_left].
    - exists s. split; [auto|]. split; [auto|]. intros g. split; auto. intros [|(o & [] & _)]; auto.
    - rewrite visit_ok by (auto; apply Ho; simpl; auto).
      set (b := negb (existsb (Z.eqb (target t o)) owned) && fst (offset_dims pbc counts' t o)).
      assert (Hb : b = true <-> accepted t o).
      { unfold b, accepted. rewrite andb_true_iff, negb_true_iff. split; intros [H1 H2]; split; auto.
        - intros Hi. apply not_true_iff_false in H1. apply H1. apply existsb_exists. exists (target t o). split; auto. apply Z.eqb_refl.
        - apply not_true_iff_false. intros Hx. apply H1. apply existsb_exists in Hx as (y & Hy & E). apply Z.eqb_eq in E. congruence. }
      destruct (IH ltac:(intros; apply Ho; simpl; auto) (if b then set_insert (target t o) s else s)) as (s' & E & S' & I').
      { destruct b; auto. now apply set_insert_sorted. }
      exists s'. split; [exact E|]. split; [exact S'|]. intros g. rewrite I'. destruct b eqn:Eb.
      + rewrite in_set_insert. split.
        * intros [[->|]|(o' & ? & ?)]; [right; exists o; split; [simpl; auto|]; split; [apply Hb; auto|auto]|auto|right; exists o'; simpl; auto].
        * intros [|(o' & [->|] & ? & ?)]; [auto|left; left; congruence|right; exists o'; auto].
      + split.
        * intros [|(o' & ? & ?)]; [auto|right; exists o'; simpl; auto].
        * intros [|(o' & [->|] & ? & ?)]; [auto|exfalso; apply Hb in H; congruence|right; exists o'; auto].
  Qed.
  Lemma cells_fold base : (forall g, In g base -> exists t, cell_at m g t) -> forall s, StronglySorted Z.lt s ->
    exists s', fold_left (fun acc g => fold_left (halo_visit m pbc owned (cell_tuple m g)) (halo_offsets (mh_ndim m) w) acc) base (Ok s) = Ok s' /\
      StronglySorted Z.lt s' /\
      forall g, In g s' <-> In g s \/ (~ In g owned /\ exists b t u, In b base /\ cell_at m b t /\ cell_at m g u /\ near pbc w (fine_counts m) t u).
  Proof.
    induction base as [|b base IH]; intros Hb s Hs; cbn [fold_left].
    - exists s. split; [auto|]. split; [auto|]. intros g. split; auto. intros [|(_ & b & _ & _ & [] & _)]; auto.
    - destruct (Hb b ltac:(simpl; auto)) as (t & Ht). rewrite (cell_tuple_spec m b t Ht).
      pose proof (cell_at_fine m b t Hm Ht) as Vt.
      destruct (offsets_fold t (halo_offsets (mh_ndim m) w) Vt (fun o => proj1 (in_offsets (mh_ndim m) w o)) s Hs) as (s1 & E1 & S1 & I1).
      rewrite E1. destruct (IH ltac:(intros; apply Hb; simpl; auto) s1 S1) as (s' & E & S' & I'). exists s'. split; [exact E|]. split; [exact S'|].
      assert (Hlen : length (fine_counts m) = mh_ndim m) by (unfold fine_counts; now rewrite map_length).
      intros g. rewrite I', I1. split.
      + intros [[|(o & Ho & [Ha1 Ha2] & <-)]|(Hn & b' & t' & u & H1 & H2)]; [auto| |right; split; auto; exists b', t', u; simpl; tauto].
        right. split; auto. exists b, t, (snd (offset_dims pbc counts' t o)).
        apply in_offsets in Ho.
        assert (Vu : valid_tuple (snd (offset_dims pbc counts' t o)) (fine_counts m)).
        { rewrite counts_eq. apply offset_valid with w; auto; [apply Hw|]. now rewrite Hlen. }
        split; [simpl; auto|]. split; [auto|]. split; [now apply cell_at_num|].
        apply near_offset; auto; [apply Hw|apply Hw|]. exists o. rewrite Hlen. split; auto.
        rewrite <- counts_eq. destruct (offset_dims pbc counts' t o); simpl in *; congruence.
      + intros [|(Hn & b' & t' & u & [->|H1] & H2 & H3 & H4)]; [auto| |right; split; auto; exists b', t', u; auto].
        assert (t' = t) by (eapply cell_at_fun; eauto). subst t'.
        pose proof (cell_at_fine m g u Hm H3) as Vu.
        apply near_offset in H4 as (o & Ho & Eo); auto; [|apply Hw|apply Hw]. rewrite Hlen in Ho. rewrite <- counts_eq in Eo.
        left. right. exists o. split; [now apply in_offsets|].
        assert (Et : target t o = g).
        { unfold target. rewrite Eo. cbn [snd]. eapply cell_at_inj; eauto. now apply cell_at_num. }
        split; [|exact Et]. split; [now rewrite Et|]. now rewrite Eo.
  Qed.
End Cells.
Lemma halo_cells_spec m w pbc owned unowned : mh_ok m -> width_ok m w ->
  (forall g, In g (owned ++ unowned) -> exists t, cell_at m g t) ->
  exists s, halo_cells m w pbc owned unowned = Ok s /\ StronglySorted Z.lt s /\
    forall g, In g s <-> ~ In g owned /\ exists b t u, In b (owned ++ unowned) /\ cell_at m b t /\ cell_at m g u /\ near pbc w (fine_counts m) t u.
Proof.
  intros Hm Hw Hb. destruct (cells_fold m w pbc owned Hm Hw (owned ++ unowned) Hb [] ltac:(constructor)) as (s & E & S & I).
  exists s. split; [exact E|]. split; [exact S|]. intros g. rewrite I. simpl. tauto.
Qed.
Lemma fold_min_le l : forall a, fold_left Z.min l a <= a /\ forall x, In x l -> fold_left Z.min l a <= x.
Proof.
  induction l as [|y l IH]; intros a; simpl; [split; [lia|tauto]|]. destruct (IH (Z.min a y)) as [H1 H2]. split; [lia|].
  intros x [->|H]; [lia|auto].
Qed.
Lemma fold_min_ge l w : forall a, w <= a -> (forall x, In x l -> w <= x) -> w <= fold_left Z.min l a.
Proof. induction l as [|y l IH]; intros a Ha H; simpl; auto. apply IH; [|intros; apply H; simpl; auto]. specialize (H y ltac:(simpl; auto)). lia. Qed.
Lemma fold_min_in l : forall a, fold_left Z.min l a = a \/ In (fold_left Z.min l a) l.
Proof.
  induction l as [|y l IH]; intros a; simpl; auto. destruct (IH (Z.min a y)) as [E|]; auto. rewrite E. destruct (Z.min_spec a y) as [[_ ->]|[_ ->]]; auto.
Qed.
Lemma offset_ok_iff m w : mh_ok m -> (offset_ok m w = true <-> Forall (fun n => w <= n) (fine_counts m)).
Proof.
  intros (_ & Hd & Hn & _). unfold offset_ok, fine_counts. destruct (mh_dims m) as [|d ds]; [split; auto; intros; constructor|].
  rewrite Z.leb_le. remember (d :: ds) as l. rewrite Forall_map, Forall_forall. split.
  - intros H x Hx. destruct (fold_min_le l d) as [_ H2]. specialize (H2 x Hx). nia.
  - intros H. destruct (fold_min_in l d) as [E|E]; [rewrite E; assert (In d l) by (subst; simpl; auto); specialize (H d H0); lia|].
    specialize (H _ E). lia.
Qed.
