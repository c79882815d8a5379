From Coq Require Import Sorting.Permutation Sorting.Sorted.
From Verif Require Import M_MeshIf L_RealBase S_Grid S_MeshIf L_Grid L_Coarse L_ListX L_MeshIf.
From Verif Require M_Util L_Util.

(** ** weights *)
Definition int_weight (m : mhier) (v : R) : Z := Z.max 1 (Zfloor (1000000 * (v / mh_cw m ^ mh_ndim m))).
Lemma grid_cell_length o w : forall t, length t = length o -> length (grid_cell o w t) = length o.
Proof. induction o as [|x o IH]; intros [|c t] H; simpl in *; try discriminate; auto. Qed.
Lemma overlap_le_cell w : 0 < w -> forall b o t, length t = length o -> length b = length o ->
  overlap_volume b (grid_cell o w t) <= w ^ length o.
Proof.
  intros Hw. induction b as [|[l u] b IH]; intros [|x o] [|c t] H1 H2; simpl in *; try discriminate; try lra.
  apply Rmult_le_compat; [apply Rmax_l|apply overlap_volume_nonneg| |apply IH; lia].
  unfold Rmax, Rmin. repeat destruct (Rle_dec _ _); lra.
Qed.
Lemma fine_cell_overlap_le m b g c : mh_ok m -> length b = mh_ndim m -> fine_cell m g c ->
  overlap_volume b c <= mh_cw m ^ mh_ndim m.
Proof.
  intros Hm Hb (co & fi & V1 & V2 & _ & ->). destruct Hm as (H1 & H2 & H3 & H4).
  destruct (subcell_div _ _ H3 _ _ V1 V2) as (A1 & _). apply valid_length in A1. rewrite map_length in A1.
  unfold mh_ndim in *. rewrite <- H1. apply overlap_le_cell; try congruence.
  apply mh_cw_pos. repeat split; auto.
Qed.
Lemma claim_weight_spec m v : mh_ok m -> 0 < v <= mh_cw m ^ mh_ndim m ->
  claim_weight m v = (int_weight m v, v / mh_cw m ^ mh_ndim m) /\ (1 <= int_weight m v <= 1000000)%Z /\
  0 < v / mh_cw m ^ mh_ndim m <= 1.
Proof.
  intros Hm [Hv1 Hv2]. assert (Hc : 0 < mh_cw m ^ mh_ndim m) by (apply pow_lt, mh_cw_pos; auto).
  assert (Hr : 0 < v / mh_cw m ^ mh_ndim m) by (apply Rdiv_lt_0_compat; auto).
  assert (Hr1 : v / mh_cw m ^ mh_ndim m <= 1).
  { apply Rmult_le_reg_r with (mh_cw m ^ mh_ndim m); auto. unfold Rdiv. rewrite Rmult_assoc, Rinv_l by lra. lra. }
  assert (E : v * (1 / mh_cw m ^ mh_ndim m) = v / mh_cw m ^ mh_ndim m) by (field; lra).
  unfold claim_weight, int_weight. cbn zeta. rewrite E. rewrite (Rlt_bool_true 0 v) by auto. cbn [andb].
  rewrite Ztrunc_floor by lra.
  assert (0 <= Zfloor (1000000 * (v / mh_cw m ^ mh_ndim m)))%Z by (apply Zfloor_lub; lra).
  assert (Zfloor (1000000 * (v / mh_cw m ^ mh_ndim m)) <= 1000000)%Z.
  { apply le_IZR. eapply Rle_trans; [apply Zfloor_lb|]. lra. }
  repeat split; try lra; try lia.
  f_equal. destruct (Z.eqb_spec (Zfloor (1000000 * (v / mh_cw m ^ mh_ndim m))) 0); lia.
Qed.

(** ** all elements of a rank *)
Definition elem_claims (m : mhier) (e : Z * box) : list (Z * Z * R) :=
  map (fun cv => (fst cv, fst (claim_weight m (snd cv)), snd (claim_weight m (snd cv)))) (bounding_box_map m (snd e) 0).
Lemma bbc_fst m id b c gm : fst (bounding_box_claim m id b (c, gm)) =
  fold_left (fun c x => claim c (fst (fst x)) (snd (fst x)) (snd x)) (elem_claims m (id, b)) c.
Proof.
  unfold bounding_box_claim, elem_claims. cbn [snd]. generalize (bounding_box_map m b 0) as l.
  intros l; revert c gm. induction l as [|cv l IH]; intros c gm; simpl; auto.
Qed.
Lemma claim_elements_fst m elems : forall st, fst (claim_elements m elems st) =
  fold_left (fun c x => claim c (fst (fst x)) (snd (fst x)) (snd x)) (flat_map (elem_claims m) elems) (fst st).
Proof.
  unfold claim_elements. induction elems as [|e elems IH]; intros [c gm]; simpl; auto.
  rewrite IH, fold_left_app. f_equal. rewrite bbc_fst. destruct e; reflexivity.
Qed.
Lemma claim_elements_run m elems : fst (claim_elements m elems (claim_empty, [])) = run_claims (flat_map (elem_claims m) elems).
Proof. apply claim_elements_fst. Qed.

Definition elems_ok (m : mhier) (elems : list (Z * box)) : Prop := Forall (fun e => length (snd e) = mh_ndim m) elems.
Lemma in_elem_claims m elems g w f : mh_ok m -> elems_ok m elems ->
  (In (g, w, f) (flat_map (elem_claims m) elems) <->
   exists e c, In e elems /\ fine_cell m g c /\ 0 < overlap_volume (snd e) c /\
     w = int_weight m (overlap_volume (snd e) c) /\ f = overlap_volume (snd e) c / mh_cw m ^ mh_ndim m).
Proof.
  intros Hm He. unfold elems_ok in He. rewrite Forall_forall in He. rewrite in_flat_map. split.
  - intros (e & Hin & H). unfold elem_claims in H. apply in_map_iff in H as ([g' v] & E & H). cbn [fst snd] in E.
    apply bbm_spec in H as (c & Hc & Hv & Hpos); [|auto|apply He; auto]. rewrite padded_zero in Hv. subst v.
    pose proof (fine_cell_overlap_le m (snd e) g' c Hm (He e Hin) Hc).
    destruct (claim_weight_spec m (overlap_volume (snd e) c) Hm ltac:(lra)) as (Ew & _). rewrite Ew in E. cbn [fst snd] in E.
    injection E as <- <- <-. eauto 8.
  - intros (e & c & Hin & Hc & Hpos & -> & ->). exists e. split; auto. unfold elem_claims. apply in_map_iff.
    exists (g, overlap_volume (snd e) c). cbn [fst snd].
    pose proof (fine_cell_overlap_le m (snd e) g c Hm (He e Hin) Hc).
    destruct (claim_weight_spec m (overlap_volume (snd e) c) Hm ltac:(lra)) as (Ew & _). rewrite Ew. cbn [fst snd]. split; auto.
    apply bbm_spec; auto. exists c. rewrite padded_zero. auto.
Qed.
Lemma int_weight_pos m v : (0 < int_weight m v)%Z.
Proof. unfold int_weight. lia. Qed.

(** ** mh_geom_map *)
Definition geoms_at (gm : list (Z * list Z)) (c : Z) : list Z := match zlookup gm c with Some l => l | None => [] end.
Lemma geoms_at_push gm c id g : geoms_at (geom_map_push gm c id) g = geoms_at gm g ++ (if Z.eqb g c then [id] else []).
Proof.
  unfold geoms_at, geom_map_push. rewrite zlookup_zassign. destruct (Z.eqb_spec g c) as [->|]; [|now rewrite app_nil_r].
  destruct (zlookup gm c); auto.
Qed.
Lemma bbc_snd m id b st g : geoms_at (snd (bounding_box_claim m id b st)) g =
  geoms_at (snd st) g ++ map (fun _ => id) (filter (fun cv => Z.eqb g (fst cv)) (bounding_box_map m b 0)).
Proof.
  unfold bounding_box_claim. generalize (bounding_box_map m b 0) as l. intros l; revert st.
  induction l as [|cv l IH]; intros st; simpl; [now rewrite app_nil_r|].
  rewrite IH. cbn [snd]. rewrite geoms_at_push. destruct (Z.eqb g (fst cv)); simpl; now rewrite <- ?app_assoc, ?app_nil_r.
Qed.
Lemma filter_single {B} (l : list (Z * B)) g : NoDup (map fst l) ->
  filter (fun cv => Z.eqb g (fst cv)) l = [] /\ ~ In g (map fst l) \/ exists v, filter (fun cv => Z.eqb g (fst cv)) l = [(g, v)] /\ In (g, v) l.
Proof.
  induction l as [|[k v] l IH]; simpl; intros Hn; [auto|]. inversion Hn; subst.
  destruct (Z.eqb_spec g k) as [->|Hne].
  - right. exists v. destruct (IH H2) as [[-> _]|(v' & E & Hi)]; auto.
    exfalso. apply H1. change k with (fst (k, v')). now apply in_map.
  - destruct (IH H2) as [[-> Hx]|(v' & E & Hi)]; [left; split; auto; intros [|]; [congruence|auto]|right; eauto].
Qed.
Definition touches (m : mhier) (g : Z) (b : box) : bool := existsb (fun cv => Z.eqb g (fst cv)) (bounding_box_map m b 0).
Lemma touches_iff m g b : mh_ok m -> length b = mh_ndim m ->
  (touches m g b = true <-> exists c, fine_cell m g c /\ 0 < overlap_volume b c).
Proof.
  intros Hm Hb. unfold touches. rewrite existsb_exists. split.
  - intros ([g' v] & Hin & E). apply Z.eqb_eq in E. simpl in E. subst g'. apply bbm_spec in Hin as (c & Hc & -> & Hp); auto.
    rewrite padded_zero in Hp. eauto.
  - intros (c & Hc & Hp). exists (g, overlap_volume b c). rewrite Z.eqb_refl. split; auto.
    apply bbm_spec; auto. exists c. rewrite padded_zero. auto.
Qed.
Lemma claim_elements_snd m elems g : mh_ok m -> elems_ok m elems -> forall st,
  geoms_at (snd (claim_elements m elems st)) g = geoms_at (snd st) g ++ map fst (filter (fun e => touches m g (snd e)) elems).
Proof.
  intros Hm. unfold claim_elements. induction elems as [|e elems IH]; intros He st; simpl; [now rewrite app_nil_r|].
  inversion He; subst. rewrite IH by auto. rewrite bbc_snd. rewrite <- app_assoc. f_equal.
  destruct (filter_single (bounding_box_map m (snd e) 0) g (bbm_nodup m (snd e) 0 Hm H1)) as [[-> Hx]|(v & -> & Hi)].
  - replace (touches m g (snd e)) with false; auto. symmetry. apply Bool.not_true_iff_false. intros Ht. apply Hx.
    unfold touches in Ht. apply existsb_exists in Ht as (cv & Hc & E). apply Z.eqb_eq in E. subst g. now apply in_map.
  - replace (touches m g (snd e)) with true; auto. symmetry. unfold touches. apply existsb_exists. exists (g, v).
    split; auto. apply Z.eqb_refl.
Qed.

(** ** C31: the grid covers the mesh *)
Lemma allreduce_fold l : forall acc, allreduce_box l acc = fold_left (fun acc b => expand_bounding_box b acc) l acc.
Proof. induction l; simpl; auto. Qed.
Lemma global_box_length n elems : length (global_bounding_box n elems) = n.
Proof. unfold global_bounding_box. rewrite allreduce_fold, hull_fold_length. apply repeat_length. Qed.
Lemma global_box_contains n elems l b p : Forall (Forall (fun b => length b = n)) elems -> In l elems -> In b l -> in_box p b ->
  in_box p (global_bounding_box n elems).
Proof.
  intros Hl Hin Hb Hp. unfold global_bounding_box. rewrite allreduce_fold.
  change (in_box p (mhbb_bounding_box n (map (mhbb_bounding_box n) elems))).
  eapply hull_contains.
  - rewrite Forall_map, Forall_forall. intros; apply hull_length.
  - apply in_map. exact Hin.
  - eapply hull_contains; eauto. rewrite Forall_forall in Hl. now apply Hl.
Qed.
Lemma global_box_inside n elems l b : Forall (Forall (fun b => length b = n)) elems -> In l elems -> In b l -> proper b ->
  box_inside b (global_bounding_box n elems).
Proof.
  intros Hl Hin Hb Hp. apply box_sub_bounds; auto. intros p. eapply global_box_contains; eauto.
Qed.
(** nothing but the elements contributes: the bounds are attained, when coordinates are doubles *)
Lemma fold_fmin_spec l : forall a, fold_left fmin l a <= a /\ Forall (fun x => fold_left fmin l a <= x) l /\
  (fold_left fmin l a = a \/ In (fold_left fmin l a) l).
Proof.
  induction l as [|x l IH]; intros a; simpl; [split; [lra|auto]|].
  destruct (IH (fmin a x)) as (H1 & H2 & H3). pose proof (fmin_le_l a x). pose proof (fmin_le_r a x).
  repeat split; [lra|constructor; [lra|auto]|].
  destruct H3 as [H3|]; auto. rewrite H3. destruct (fmin_cases a x) as [[E _]|[E _]]; rewrite E; auto.
Qed.
Lemma fold_fmax_spec l : forall a, a <= fold_left fmax l a /\ Forall (fun x => x <= fold_left fmax l a) l /\
  (fold_left fmax l a = a \/ In (fold_left fmax l a) l).
Proof.
  induction l as [|x l IH]; intros a; simpl; [split; [lra|auto]|].
  destruct (IH (fmax a x)) as (H1 & H2 & H3). pose proof (fmax_ge_l a x). pose proof (fmax_ge_r a x).
  repeat split; [lra|constructor; [lra|auto]|].
  destruct H3 as [H3|]; auto. rewrite H3. destruct (fmax_cases a x) as [[E _]|[E _]]; rewrite E; auto.
Qed.
Lemma Zceil_pos x : 0 < x -> (0 < Zceil x)%Z.
Proof. intros H. apply lt_IZR. pose proof (Zceil_ub x). lra. Qed.
Lemma create_spec gbb n off su : gbb <> [] -> create_mesh_hierarchy gbb n off = Some su ->
  let m := su_mh su in
  mh_ok m /\ mh_ndim m = length gbb /\ mh_origin m = map fst gbb /\ (0 <= su_order su)%Z /\ mh_nf m = (2 ^ su_order su)%Z /\
  Forall2 (fun lu d => 0 < snd lu - fst lu /\ snd lu - fst lu <= IZR d * mh_cwc m /\ (IZR d - 1) * mh_cwc m < snd lu - fst lu) gbb (mh_dims m).
Proof.
  intros Hne. unfold create_mesh_hierarchy. cbn zeta. intros H.
  apply check_some in H as [Hc H]. revert Hc. case Rlt_bool_spec; intros Hmin; [|discriminate]. intros _.
  destruct (fold_fmin_spec (box_extents gbb) DBL_MAX) as (A1 & A2 & _).
  destruct (fold_fmax_spec (box_extents gbb) DBL_LOWEST) as (B1 & B2 & _).
  set (mn := fold_left fmin (box_extents gbb) DBL_MAX) in *. set (mx := fold_left fmax (box_extents gbb) DBL_LOWEST) in *.
  set (size := if Rle_bool 2 (mx / mn) then mn else mx) in *.
  assert (Hpos : Forall (fun e => 0 < e) (box_extents gbb)) by (eapply Forall_impl; [|exact A2]; simpl; intros; lra).
  assert (Hmx : 0 < mx).
  { destruct gbb as [|lu gbb]; [easy|]. simpl in *. inversion B2; subst. inversion Hpos; subst. lra. }
  assert (Hs : 0 < size) by (unfold size; destruct (Rle_bool 2 (mx / mn)); auto).
  injection H as <-. simpl. unfold mh_ok, mh_ndim. simpl. unfold box_extents in *. rewrite !map_length.
  assert (HF : Forall2 (fun lu d => 0 < snd lu - fst lu /\ snd lu - fst lu <= IZR d * size /\ (IZR d - 1) * size < snd lu - fst lu)
                 gbb (map (fun e => Zceil (e / size)) (map (fun lu => snd lu - fst lu) gbb))).
  { clearbody size. clear - Hpos Hs. induction gbb as [|lu gbb IH]; simpl in *; constructor; inversion Hpos; subst; auto.
    split; [auto|]. assert (E : snd lu - fst lu = ((snd lu - fst lu) / size) * size) by (field; lra).
    set (q := (snd lu - fst lu) / size) in *. rewrite E. pose proof (Zceil_ub q). pose proof (Zceil_lb q). split.
    - apply Rmult_le_compat_r; lra.
    - apply Rmult_lt_compat_r; lra. }
  repeat split; auto.
  - rewrite !Forall_map. rewrite !Forall_map in Hpos. eapply Forall_impl; [|exact Hpos]. simpl. intros lu Hlu. apply Zceil_pos.
    apply Rdiv_lt_0_compat; auto.
  - apply Z.pow_pos_nonneg; lia.
  - lia.
Qed.
Lemma create_total gbb n off : Forall (fun lu => 0 < snd lu - fst lu) gbb ->
  exists su, create_mesh_hierarchy gbb n off = Some su.
Proof.
  intros H. unfold create_mesh_hierarchy. cbn zeta. rewrite Rlt_bool_true; [simpl; eauto|].
  destruct (fold_fmin_spec (box_extents gbb) DBL_MAX) as (_ & _ & [E|E]).
  - rewrite E. apply DBL_MAX_pos.
  - unfold box_extents in E at 2. apply in_map_iff in E as (lu & E & Hi). rewrite <- E. rewrite Forall_forall in H. now apply H.
Qed.
Lemma box_inside_trans a b c : box_inside a b -> box_inside b c -> box_inside a c.
Proof.
  unfold box_inside. intros H; revert c. induction H; intros c Hc; inversion Hc; subst; constructor; auto. lra.
Qed.
Lemma grid_fine_coarse m : mh_ok m -> grid_extent (mh_origin m) (mh_cw m) (fine_counts m) = grid_extent (mh_origin m) (mh_cwc m) (mh_dims m).
Proof.
  intros (_ & _ & Hn & _). unfold fine_counts, mh_cw. apply IZR_lt in Hn. generalize (mh_dims m) as d. generalize (mh_origin m) as o.
  induction o as [|x o IH]; intros [|d ds]; simpl; auto. rewrite IH. f_equal. f_equal. rewrite mult_IZR. field. lra.
Qed.
Lemma create_covers gbb n off su : gbb <> [] -> create_mesh_hierarchy gbb n off = Some su ->
  box_inside gbb (grid_extent (mh_origin (su_mh su)) (mh_cwc (su_mh su)) (mh_dims (su_mh su))).
Proof.
  intros Hne H. destruct (create_spec _ _ _ _ Hne H) as (_ & _ & Ho & _ & _ & HF). rewrite Ho. clear - HF.
  unfold box_inside. induction HF; simpl; constructor; auto. simpl. lra.
Qed.
Lemma mesh_covered n elems N off su : (0 < n)%nat ->
  Forall (Forall (fun b => length b = n /\ proper b)) elems ->
  create_mesh_hierarchy (global_bounding_box n elems) N off = Some su ->
  mh_ok (su_mh su) /\ mh_ndim (su_mh su) = n /\
  forall l b, In l elems -> In b l ->
    box_inside b (grid_extent (mh_origin (su_mh su)) (mh_cw (su_mh su)) (fine_counts (su_mh su))).
Proof.
  intros Hn He Hc.
  assert (Hne : global_bounding_box n elems <> []).
  { intros E. pose proof (global_box_length n elems) as L. rewrite E in L. simpl in L. lia. }
  destruct (create_spec _ _ _ _ Hne Hc) as (Hm & Hd & _). rewrite global_box_length in Hd. split; auto. split; auto.
  intros l b Hl Hb. rewrite grid_fine_coarse by auto. eapply box_inside_trans; [|eapply create_covers; eauto].
  rewrite Forall_forall in He. pose proof (He l Hl) as Hel. rewrite Forall_forall in Hel. destruct (Hel b Hb).
  eapply global_box_inside; eauto. rewrite Forall_forall. intros l' Hl'. pose proof (He l' Hl') as H'.
  eapply Forall_impl; [|exact H']. simpl. tauto.
Qed.
Lemma mesh_total n elems N off : 
  Forall (Forall (fun b => length b = n /\ solid b)) elems -> Exists (fun l => l <> []) elems ->
  exists su, create_mesh_hierarchy (global_bounding_box n elems) N off = Some su.
Proof.
  intros He Hx. apply create_total. apply Exists_exists in Hx as ([|b l] & Hin & Hx); [easy|].
  rewrite Forall_forall in He. pose proof (He _ Hin) as Hb. inversion Hb as [|? ? [Lb Sb] _]; subst.
  assert (Hi : box_inside b (global_bounding_box (length b) elems)).
  { eapply global_box_inside; [|exact Hin|simpl; auto|apply solid_proper; auto].
    rewrite Forall_forall. intros l' Hl'. pose proof (He l' Hl') as H'. eapply Forall_impl; [|exact H']. simpl; tauto. }
  clear - Hi Sb. unfold solid in Sb. unfold box_inside in Hi. induction Hi; inversion Sb; subst; constructor; auto. lra.
Qed.
