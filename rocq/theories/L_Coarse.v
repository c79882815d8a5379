From Coq Require Import Sorting.Permutation Sorting.Sorted.
From Verif Require Import M_Grid L_RealBase S_Grid L_Grid.
From Verif Require M_Util L_Util.

Lemma Forall2_length {A B} {P : A -> B -> Prop} {l r} : Forall2 P l r -> length l = length r.
Proof. induction 1; simpl; auto. Qed.
(** ** ranges and tuples *)
Lemma in_zrange s e x : In x (zrange s e) <-> (s <= x <= e)%Z.
Proof.
  unfold zrange. rewrite in_map_iff. split.
  - intros (i & <- & Hi). apply in_seq in Hi. lia.
  - intros H. exists (Z.to_nat (x - s)). split; [lia|]. apply in_seq. lia.
Qed.
Lemma zrange_length s e : length (zrange s e) = Z.to_nat (e - s + 1).
Proof. unfold zrange. now rewrite map_length, seq_length. Qed.
Lemma nodup_zrange s e : NoDup (zrange s e).
Proof.
  unfold zrange. apply FinFun.Injective_map_NoDup; [|apply seq_NoDup]. intros a b H. lia.
Qed.
Lemma nth_error_zrange s e i : (i < Z.to_nat (e - s + 1))%nat -> nth_error (zrange s e) i = Some (s + Z.of_nat i)%Z.
Proof.
  intros H. unfold zrange. rewrite nth_error_map.
  rewrite (nth_error_nth' _ O) by (rewrite seq_length; auto). rewrite seq_nth by auto. reflexivity.
Qed.
Lemma in_cell_tuples starts : forall ends t, length starts = length ends ->
  (In t (cell_tuples starts ends) <->
   length t = length starts /\ forall d, (d < length starts)%nat -> (nthZ starts d <= nthZ t d <= nthZ ends d)%Z).
Proof.
  induction starts as [|s ss IH]; intros [|e es] t Hl; simpl in *; try discriminate.
  - split; [intros [<-|[]]; split; auto; lia|intros [Ht _]; destruct t; [auto|discriminate]].
  - rewrite in_flat_map. split.
    + intros (rest & Hr & Ht). apply in_map_iff in Ht as (c & <- & Hc). apply in_zrange in Hc.
      apply IH in Hr as [Hr1 Hr2]; [|lia]. simpl. split; [lia|]. intros [|d] Hd; [exact Hc|]. apply Hr2. lia.
    + intros [Ht1 Ht2]. destruct t as [|x t]; [discriminate|]. exists t. split.
      * apply IH; [lia|]. split; [simpl in Ht1; lia|]. intros d Hd. apply (Ht2 (S d)). lia.
      * apply in_map_iff. exists x. split; auto. apply in_zrange. apply (Ht2 O). lia.
Qed.

Lemma mapM_seq_nth {B} (f : nat -> option B) n r dflt : mapM f (seq 0 n) = Some r ->
  length r = n /\ forall d, (d < n)%nat -> f d = Some (nth d r dflt).
Proof.
  intros H. apply mapM_Forall2 in H. split; [rewrite <- (Forall2_length H); apply seq_length|].
  intros d Hd. destruct (Forall2_nth_error _ _ _ H d d) as (y & Hy & E).
  { rewrite (nth_error_nth' _ O) by (rewrite seq_length; auto). now rewrite seq_nth. }
  rewrite E. f_equal. symmetry. now apply nth_error_nth.
Qed.

(** ** boxes by index *)
Definition lo (b : box) (d : nat) : R := fst (nth d b (0, 0)).
Definition hi (b : box) (d : nat) : R := snd (nth d b (0, 0)).
Lemma Forall2_nth_iff {A B} (P : A -> B -> Prop) da db l : forall r, length l = length r ->
  (Forall2 P l r <-> forall d, (d < length l)%nat -> P (nth d l da) (nth d r db)).
Proof.
  induction l as [|a l IH]; intros [|b r] Hl; simpl in *; try discriminate.
  - split; [lia|constructor].
  - split.
    + intros H. inversion_clear H. intros [|d] Hd; auto. apply IH; auto; lia.
    + intros H. constructor; [apply (H O); lia|]. apply IH; [lia|]. intros d Hd. apply (H (S d)). lia.
Qed.
Lemma Forall_nth_iff {A} (P : A -> Prop) da l : (Forall P l <-> forall d, (d < length l)%nat -> P (nth d l da)).
Proof.
  induction l as [|a l IH]; simpl.
  - split; [lia|constructor].
  - split.
    + intros H. inversion_clear H. intros [|d] Hd; auto. apply IH; auto; lia.
    + intros H. constructor; [apply (H O); lia|]. apply IH. intros d Hd. apply (H (S d)). lia.
Qed.
Definition cell_box_of (m : cmesh) (t : list Z) : box := map (fun i => cell_interval m i (nthZ t i)) (seq 0 (m_ndim m)).
Lemma cell_box_length m t : length (cell_box_of m t) = m_ndim m.
Proof. unfold cell_box_of. now rewrite map_length, seq_length. Qed.
Lemma cell_box_nth m t d : (d < m_ndim m)%nat -> nth d (cell_box_of m t) (0, 0) = cell_interval m d (nthZ t d).
Proof.
  intros H. unfold cell_box_of.
  rewrite nth_indep with (d' := (fun i => cell_interval m i (nthZ t i)) O) by (rewrite map_length, seq_length; auto).
  rewrite (map_nth (fun i => cell_interval m i (nthZ t i))). now rewrite seq_nth.
Qed.
Lemma cell_box_proper m t : mesh_ok m -> proper (cell_box_of m t).
Proof.
  intros H. unfold proper. apply (Forall_nth_iff _ (0, 0)). rewrite cell_box_length. intros d Hd.
  rewrite cell_box_nth by auto. unfold cell_interval. simpl. pose proof (mesh_width_pos m d H Hd). lra.
Qed.
Lemma solid_proper b : solid b -> proper b.
Proof. unfold solid, proper. intros H. eapply Forall_impl; [|exact H]. simpl; intros; lra. Qed.
(** positive overlap, dimension by dimension *)
Lemma overlap_pos_nth a b : length a = length b -> proper a -> proper b ->
  (0 < bounding_box_intersection a b <-> forall d, (d < length a)%nat -> Rmax (lo a d) (lo b d) < Rmin (hi a d) (hi b d)).
Proof.
  intros. rewrite overlap_spec by auto. rewrite overlap_volume_pos_iff by auto.
  apply (Forall2_nth_iff (fun x y => Rmax (fst x) (fst y) < Rmin (snd x) (snd y)) (0, 0) (0, 0)); auto.
Qed.

(** ** one geometry *)
Definition geom_in_mesh (m : cmesh) (g : box) : Prop :=
  length g = m_ndim m /\ proper g /\ forall d, (d < m_ndim m)%nat ->
    nthR (m_origin m) d <= lo g d /\ hi g d <= nthR (m_origin m) d + nthR (m_extents m) d.
Lemma proper_lo_hi g d : proper g -> (d < length g)%nat -> lo g d <= hi g d.
Proof. intros H Hd. unfold proper in H. rewrite (Forall_nth_iff _ (0, 0)) in H. apply H; auto. Qed.

Lemma add_geom_spec m g gid : mesh_ok m -> (0 < m_ndim m)%nat -> geom_in_mesh m g ->
  exists ps, add_geom_to_map m g gid = Some ps /\
    (forall c o i, In (c, (o, i)) ps <->
       i = gid /\ exists t, valid_tuple t (m_counts m) /\ c = horner (m_counts m) t /\
         o = bounding_box_intersection g (cell_box_of m t) /\ 0 < o).
Proof.
  intros Hm Hn (Hl & Hp & Hg). unfold add_geom_to_map.
  assert (Es : exists starts, mapM (fun d => get_cell_in_dimension m d (fst (nth d g (0, 0)))) (seq 0 (m_ndim m)) = Some starts).
  { apply mapM_all. rewrite Forall_forall. intros d Hd. apply in_seq in Hd. eexists. apply get_cell_inside; auto; [lia|].
    pose proof (Hg d ltac:(lia)). pose proof (proper_lo_hi g d Hp ltac:(lia)). unfold lo, hi in *. lra. }
  assert (Ee : exists ends, mapM (fun d => get_cell_in_dimension m d (snd (nth d g (0, 0)))) (seq 0 (m_ndim m)) = Some ends).
  { apply mapM_all. rewrite Forall_forall. intros d Hd. apply in_seq in Hd. eexists. apply get_cell_inside; auto; [lia|].
    pose proof (Hg d ltac:(lia)). pose proof (proper_lo_hi g d Hp ltac:(lia)). unfold lo, hi in *. lra. }
  destruct Es as (starts & Es). destruct Ee as (ends & Ee). rewrite Es, Ee. cbn [bind].
  destruct (mapM_seq_nth _ _ _ 0%Z Es) as [Ls Ns]. destruct (mapM_seq_nth _ _ _ 0%Z Ee) as [Le Ne].
  assert (Hs : forall d, (d < m_ndim m)%nat -> nthZ starts d = cell_no m d (lo g d)).
  { intros d Hd. specialize (Ns d Hd). rewrite get_cell_inside in Ns; auto.
    - injection Ns as E. unfold nthZ. rewrite <- E. reflexivity.
    - pose proof (Hg d Hd). pose proof (proper_lo_hi g d Hp ltac:(lia)). unfold lo, hi in *. lra. }
  assert (He : forall d, (d < m_ndim m)%nat -> nthZ ends d = cell_no m d (hi g d)).
  { intros d Hd. specialize (Ne d Hd). rewrite get_cell_inside in Ne; auto.
    - injection Ne as E. unfold nthZ. rewrite <- E. reflexivity.
    - pose proof (Hg d Hd). pose proof (proper_lo_hi g d Hp ltac:(lia)). unfold lo, hi in *. lra. }
  assert (Hv : forall t, In t (cell_tuples starts ends) -> valid_tuple t (m_counts m)).
  { intros t Ht. apply in_cell_tuples in Ht as [Lt Ht]; [|congruence]. unfold valid_tuple.
    apply (Forall2_nth_iff _ 0%Z 0%Z); [unfold m_ndim in *; congruence|].
    intros d Hd. rewrite Lt, Ls in Hd. specialize (Ht d ltac:(lia)). rewrite Hs, He in Ht by auto.
    pose proof (cell_no_range m d (lo g d) Hm Hd). pose proof (cell_no_range m d (hi g d) Hm Hd).
    unfold nthZ in *. lia. }
  assert (Ec : forall t, valid_tuple t (m_counts m) -> add_geom_cell m g gid t =
     Some (if Rlt_bool 0 (bounding_box_intersection g (cell_box_of m t))
           then [(horner (m_counts m) t, (bounding_box_intersection g (cell_box_of m t), gid))] else [])).
  { intros t Ht. unfold add_geom_cell. rewrite (get_box_spec m t Ht). cbn [bind].
    rewrite linear_horner; auto. rewrite (Forall2_length Ht). reflexivity. }
  assert (Em : exists qs, mapM (add_geom_cell m g gid) (cell_tuples starts ends) = Some qs).
  { apply mapM_all. rewrite Forall_forall. intros t Ht. eexists. apply Ec. auto. }
  destruct Em as (qs & Em). rewrite Em. cbn [bind]. eexists; split; [reflexivity|].
  apply mapM_Forall2 in Em. intros c o i. split.
  - intros Hi. apply in_concat in Hi as (q & Hq & Hi).
    assert (Hx : exists t, In t (cell_tuples starts ends) /\ add_geom_cell m g gid t = Some q).
    { clear -Em Hq. induction Em; simpl in *; [tauto|]. destruct Hq as [<-|Hq]; eauto. destruct (IHEm Hq) as (t & ? & ?); eauto. }
    destruct Hx as (t & Ht & Eq). rewrite Ec in Eq by auto. injection Eq as <-.
    revert Hi. case Rlt_bool_spec; intros Hpos Hi; [|destruct Hi].
    destruct Hi as [Hi|[]]. injection Hi as <- <- <-. split; auto. exists t. auto.
  - intros (-> & t & Ht & -> & -> & Hpos). apply in_concat.
    assert (Hin : In t (cell_tuples starts ends)).
    { apply in_cell_tuples; [congruence|]. split; [rewrite (Forall2_length Ht); unfold m_ndim in *; congruence|].
      intros d Hd. rewrite Ls in Hd. rewrite Hs, He by auto.
      rewrite overlap_pos_nth in Hpos; [|rewrite cell_box_length; auto|auto|apply cell_box_proper; auto].
      specialize (Hpos d ltac:(lia)). unfold lo, hi in Hpos. rewrite cell_box_nth in Hpos by auto.
      unfold cell_interval in Hpos. cbn [fst snd] in Hpos.
      pose proof (Rmax_l (fst (nth d g (0,0))) (nthR (m_origin m) d + IZR (nthZ t d) * cell_width m d)).
      pose proof (Rmax_r (fst (nth d g (0,0))) (nthR (m_origin m) d + IZR (nthZ t d) * cell_width m d)).
      pose proof (Rmin_l (snd (nth d g (0,0))) (nthR (m_origin m) d + (IZR (nthZ t d) + 1) * cell_width m d)).
      pose proof (Rmin_r (snd (nth d g (0,0))) (nthR (m_origin m) d + (IZR (nthZ t d) + 1) * cell_width m d)).
      pose proof (valid_tuple_nth t (m_counts m) d Ht Hd) as Hvd.
      unfold lo, hi. split; [apply cell_no_le|apply cell_no_ge]; auto; try lia; lra. }
    assert (Hx : exists q, In q qs /\ add_geom_cell m g gid t = Some q).
    { clear -Em Hin. induction Em; simpl in *; [tauto|]. destruct Hin as [<-|Hin]; eauto. destruct (IHEm Hin) as (z & ? & ?); eauto. }
    destruct Hx as (q & Hq & Eq). exists q. split; auto. rewrite Ec in Eq by auto. injection Eq as <-.
    rewrite Rlt_bool_true by auto. now left.
Qed.

Lemma add_all_spec m geoms : mesh_ok m -> (0 < m_ndim m)%nat -> Forall (geom_in_mesh m) geoms -> forall start,
  exists ps, add_all_geoms m geoms start = Some ps /\
    (forall c o i, In (c, (o, i)) ps <->
       exists k g t, nth_error geoms k = Some g /\ i = (start + Z.of_nat k)%Z /\
         valid_tuple t (m_counts m) /\ c = horner (m_counts m) t /\
         o = bounding_box_intersection g (cell_box_of m t) /\ 0 < o).
Proof.
  intros Hm Hn. induction 1 as [|g r Hg _ IH]; intros start; simpl.
  - eexists; split; [reflexivity|]. intros c o i. split; [intros []|]. intros ([|k] & g & t & H & _); discriminate.
  - destruct (add_geom_spec m g start Hm Hn Hg) as (p & Ep & Sp). destruct (IH (start + 1)%Z) as (q & Eq & Sq).
    rewrite Ep, Eq. cbn [bind]. eexists; split; [reflexivity|]. intros c o i. rewrite in_app_iff, Sp, Sq. split.
    + intros [(-> & t & Ht)|(k & g' & t & Hk & -> & Ht)].
      * exists O, g, t. split; auto. split; [lia|auto].
      * exists (S k), g', t. split; auto. split; [lia|auto].
    + intros ([|k] & g' & t & Hk & -> & Ht); simpl in Hk.
      * injection Hk as <-. left. split; [lia|]. eauto.
      * right. exists k, g', t. split; auto. split; [lia|auto].
Qed.

(** ** sorting *)
Lemma insert_pair_perm x l : Permutation (insert_pair x l) (x :: l).
Proof. induction l as [|y l IH]; simpl; auto. destruct (pair_lt x y); auto. rewrite IH. apply perm_swap. Qed.
Lemma sort_fold_perm l : forall acc, Permutation (fold_left (fun acc x => insert_pair x acc) l acc) (l ++ acc).
Proof.
  induction l as [|x l IH]; intros acc; simpl; auto. rewrite IH, insert_pair_perm. symmetry. apply Permutation_middle.
Qed.
Lemma sort_reverse_perm l : Permutation (sort_reverse l) l.
Proof. unfold sort_reverse. rewrite <- Permutation_rev. rewrite sort_fold_perm. now rewrite app_nil_r. Qed.
Definition pair_le (a b : R * Z) : Prop := fst a <= fst b.
Lemma insert_pair_sorted x l : StronglySorted pair_le l -> StronglySorted pair_le (insert_pair x l).
Proof.
  induction 1 as [|y l Hs IH Hf]; simpl; [repeat constructor|].
  destruct (pair_lt x y) eqn:E.
  - constructor; [constructor; auto|]. assert (Hxy : pair_le x y).
    { unfold pair_lt in E. unfold pair_le. apply orb_true_iff in E as [E|E].
      - revert E. case Rlt_bool_spec; [lra|discriminate].
      - apply andb_true_iff in E as [E _]. revert E. case Rlt_bool_spec; simpl; [discriminate|lra]. }
    constructor; auto. eapply Forall_impl; [|exact Hf]. unfold pair_le in *. intros; lra.
  - constructor; auto. rewrite Forall_forall in *. intros z Hz.
    apply (Permutation_in _ (insert_pair_perm x l)) in Hz as [->|Hz]; auto.
    unfold pair_lt in E. unfold pair_le. apply orb_false_iff in E as [E E2].
    revert E. case Rlt_bool_spec; [discriminate|]. auto.
Qed.
Lemma sort_fold_sorted l : forall acc, StronglySorted pair_le acc -> StronglySorted pair_le (fold_left (fun acc x => insert_pair x acc) l acc).
Proof. induction l; simpl; intros; auto. apply IHl. now apply insert_pair_sorted. Qed.
Lemma sorted_app {A} (P : A -> A -> Prop) a b : StronglySorted P a -> StronglySorted P b ->
  (forall x y, In x a -> In y b -> P x y) -> StronglySorted P (a ++ b).
Proof.
  induction 1 as [|x a Hs IH Hf]; simpl; auto. intros Hb Hab. constructor; [apply IH; auto|].
  apply Forall_app. split; auto. rewrite Forall_forall. auto.
Qed.
Lemma sort_reverse_sorted l : StronglySorted (fun a b => fst b <= fst a) (sort_reverse l).
Proof.
  unfold sort_reverse. assert (H : StronglySorted pair_le (fold_left (fun acc x => insert_pair x acc) l [])) by (apply sort_fold_sorted; constructor).
  induction H as [|x a Hs IH Hf]; simpl; [constructor|]. apply sorted_app; auto; [repeat constructor|].
  intros y z Hy Hz. destruct Hz as [<-|[]]. apply in_rev in Hy. rewrite Forall_forall in Hf. apply Hf in Hy. exact Hy.
Qed.

Lemma in_cell_list ps c o i : In (o, i) (cell_list ps c) <-> In (c, (o, i)) ps.
Proof.
  unfold cell_list. split.
  - intros H. apply (Permutation_in _ (sort_reverse_perm _)) in H. apply in_map_iff in H as ([c' x] & Hx & H).
    apply filter_In in H as [H E]. apply Z.eqb_eq in E. simpl in *. subst. auto.
  - intros H. apply (Permutation_in _ (Permutation_sym (sort_reverse_perm _))). apply in_map_iff.
    exists (c, (o, i)). split; auto. apply filter_In. split; auto. apply Z.eqb_refl.
Qed.

(** ** flattened map *)
Lemma write_list_spec l : forall buf pos, (0 <= pos)%Z -> (pos + Z.of_nat (length l) <= Z.of_nat (length buf))%Z ->
  exists b, write_list buf pos l = Some b /\ length b = length buf /\
   (forall j x, nth_error l j = Some x -> nth_error b (Z.to_nat pos + j) = Some (Some (snd x))) /\
   (forall k, (Z.of_nat k < pos \/ pos + Z.of_nat (length l) <= Z.of_nat k)%Z -> nth_error b k = nth_error buf k).
Proof.
  induction l as [|x l IH]; intros buf pos H0 Hl; simpl in *.
  - exists buf. repeat split; auto. intros [|j] y; discriminate.
  - destruct (L_Util.updZ_some buf pos (Some (snd x))) as (b1 & E1 & L1 & N1 & O1); [lia|].
    rewrite E1. cbn [bind]. destruct (IH b1 (pos + 1)%Z) as (b & E & L & N & O); [lia|lia|].
    exists b. split; [exact E|]. split; [congruence|]. split.
    + intros [|j] y Hj; simpl in Hj.
      * injection Hj as <-. rewrite Nat.add_0_r. rewrite O by lia. exact N1.
      * replace (Z.to_nat pos + S j)%nat with (Z.to_nat (pos + 1) + j)%nat by lia. auto.
    + intros k Hk. rewrite O by lia. apply O1. lia.
Qed.
Lemma write_cells_spec ps stride : (0 <= stride)%Z -> forall cells buf n,
  NoDup cells -> Forall (fun c => 0 <= c < n)%Z cells -> Z.of_nat (length buf) = (stride * n)%Z ->
  Forall (fun c => Z.of_nat (length (cell_list ps c)) <= stride)%Z cells ->
  exists b, write_cells ps stride cells buf = Some b /\ length b = length buf /\
    (forall c j x, In c cells -> nth_error (cell_list ps c) j = Some x ->
        nth_error b (Z.to_nat (c * stride) + j) = Some (Some (snd x))) /\
    (forall k, (forall c, In c cells -> (Z.of_nat k < c * stride \/ (c + 1) * stride <= Z.of_nat k)%Z) -> nth_error b k = nth_error buf k).
Proof.
  intros Hst. induction cells as [|c r IH]; intros buf n Hnd Hr Hb Hlen; simpl.
  - exists buf. repeat split; auto. intros c j x [].
  - inversion_clear Hnd. inversion_clear Hr. inversion_clear Hlen.
    destruct (write_list_spec (cell_list ps c) buf (c * stride)%Z) as (b1 & E1 & L1 & N1 & O1); [nia|nia|].
    rewrite E1. cbn [bind]. apply Z.leb_le in H3. rewrite H3. apply Z.leb_le in H3. cbn [check].
    destruct (IH b1 n H0 H2) as (b & E & L & N & O); [lia|auto|].
    exists b. split; [exact E|]. split; [congruence|]. split.
    + intros c' j x [<-|Hc'] Hj; [|eauto].
      assert (Hjl : (j < length (cell_list ps c))%nat) by (apply nth_error_Some; congruence).
      rewrite O; [apply N1; auto|]. intros c' Hc'. assert (c' <> c) by (intros ->; auto).
      assert (0 <= c * stride)%Z by nia.
      destruct (Z.lt_trichotomy c c') as [Hlt|[Heq|Hgt]]; [|lia|].
      * left. nia.
      * right. nia.
    + intros k Hk. rewrite O by (intros c' Hc'; apply Hk; now right). apply O1.
      specialize (Hk c (or_introl eq_refl)). nia.
Qed.

Lemma stride_max ps cells : forall a,
  (a <= fold_left (fun a c => Z.max a (Z.of_nat (length (cell_list ps c)))) cells a)%Z /\
  Forall (fun c => Z.of_nat (length (cell_list ps c)) <= fold_left (fun a c => Z.max a (Z.of_nat (length (cell_list ps c)))) cells a)%Z cells.
Proof.
  induction cells as [|c r IH]; intros a; simpl; [split; [lia|constructor]|].
  destruct (IH (Z.max a (Z.of_nat (length (cell_list ps c))))) as [H1 H2]. split; [lia|]. constructor; [lia|auto].
Qed.

(** ** the kernel's cell *)
Lemma kernel_cell_no m p d : kernel_cell m p d = cell_no m d (nthR p d).
Proof. unfold kernel_cell, cell_no. f_equal. f_equal. ring. Qed.
Lemma kernel_linear m p : (1 <= m_ndim m <= 3)%nat -> kernel_linear_cell m p = horner (m_counts m) (cell_tuple_of m p).
Proof.
  intros Hn. unfold kernel_linear_cell, cell_tuple_of. rewrite !kernel_cell_no. unfold m_ndim in *.
  destruct (m_counts m) as [|a [|b [|c [|e r]]]]; simpl length in *; try lia; simpl;
  unfold nthZ; simpl; ring_simplify; try lia.
Qed.

(** ** whole construction *)
Definition geoms_ok (ndim : nat) (geoms : list box) : Prop :=
  Forall (fun g => length g = ndim /\ solid g) geoms.

Lemma hull_bounds n geoms g d : geoms_ok n geoms -> In g geoms -> (d < n)%nat ->
  lo (mhbb_bounding_box n geoms) d <= lo g d /\ hi g d <= hi (mhbb_bounding_box n geoms) d.
Proof.
  intros H Hg Hd. unfold geoms_ok in H. pose proof H as H'. rewrite Forall_forall in H. destruct (H g Hg) as [Hl Hs].
  assert (Hsub : forall p, in_box p g -> in_box p (mhbb_bounding_box n geoms)).
  { intros p Hp. eapply hull_contains; eauto. eapply Forall_impl; [|exact H']. simpl; tauto. }
  apply box_sub_bounds in Hsub; [|apply solid_proper; auto].
  apply (Forall2_nth_iff _ (0, 0) (0, 0)) with (d := d) in Hsub; [exact Hsub|rewrite hull_length; auto|lia].
Qed.

Lemma map_nth_pair (f : R * R -> R) (b : box) d : (d < length b)%nat -> nthR (map f b) d = f (nth d b (0, 0)).
Proof.
  intros H. unfold nthR. rewrite nth_indep with (d' := f (0, 0)) by (rewrite map_length; auto). apply map_nth.
Qed.

Lemma make_lookup_inv ndim geoms lk : make_lookup ndim geoms = Some lk -> (0 < ndim)%nat -> geoms_ok ndim geoms ->
  exists ps, mesh_ok (lk_mesh lk) /\ m_ndim (lk_mesh lk) = ndim /\
   (forall d, (d < ndim)%nat -> nthR (m_origin (lk_mesh lk)) d = lo (mhbb_bounding_box ndim geoms) d /\
      nthR (m_origin (lk_mesh lk)) d + nthR (m_extents (lk_mesh lk)) d = hi (mhbb_bounding_box ndim geoms) d) /\
   Forall (geom_in_mesh (lk_mesh lk)) geoms /\
   add_all_geoms (lk_mesh lk) geoms 0%Z = Some ps /\
   (forall c, (0 <= c < get_cell_count (lk_mesh lk))%Z ->
      rdZ (lk_sizes lk) c = Some (Z.of_nat (length (cell_list ps c))) /\
      forall j x, nth_error (cell_list ps c) j = Some x ->
        rdZ (lk_map lk) (c * lk_stride lk + Z.of_nat j)%Z = Some (Some (snd x))).
Proof.
  intros H Hn Hg. unfold make_lookup in H. set (bb := mhbb_bounding_box ndim geoms) in *.
  apply bind_some in H as (counts & Ec & H). apply bind_some in H as (m & Em & H).
  apply bind_some in H as (ps & Ep & H). apply check_some in H as (Ch & H).
  set (cells := zrange 0 (get_cell_count m - 1)%Z) in *.
  set (stride := fold_left (fun a c => Z.max a (Z.of_nat (length (cell_list ps c)))) cells 0%Z) in *.
  apply bind_some in H as (buf & Eb & H). injection H as <-. cbn [lk_mesh lk_stride lk_map lk_sizes].
  destruct (make_mesh_ok _ _ _ _ _ Em) as (Hm & Hnd & Eo & Ee & _).
  assert (Hlen : length bb = ndim) by apply hull_length.
  assert (Hdom : forall d, (d < ndim)%nat -> nthR (m_origin m) d = lo bb d /\ nthR (m_origin m) d + nthR (m_extents m) d = hi bb d).
  { intros d Hd. rewrite Eo, Ee. unfold nthR. rewrite !nth_firstn by auto.
    change (nth d (map fst bb) 0) with (nthR (map fst bb) d). change (nth d (box_extents bb) 0) with (nthR (box_extents bb) d).
    unfold box_extents. rewrite !map_nth_pair by lia. unfold lo, hi. split; [auto|ring]. }
  assert (Hin : Forall (geom_in_mesh m) geoms).
  { rewrite Forall_forall. intros g Hgi. unfold geom_in_mesh. unfold geoms_ok in Hg. pose proof Hg as Hg'.
    rewrite Forall_forall in Hg. destruct (Hg g Hgi) as [Hl Hs]. rewrite Hnd. split; auto. split; [apply solid_proper; auto|].
    intros d Hd. destruct (Hdom d Hd) as [-> ->]. apply hull_bounds; auto. }
  exists ps. split; auto. split; auto. split; auto. split; auto. split; auto.
  destruct (stride_max ps cells 0%Z) as [S1 S2]. fold stride in S1, S2.
  assert (Hpos : (0 < get_cell_count m)%Z).
  { rewrite cell_count_product. pose proof (mesh_counts_pos m Hm) as Hp. clear -Hp. induction Hp; simpl; lia. }
  destruct (write_cells_spec ps stride S1 cells (repeat None (Z.to_nat (stride * get_cell_count m))) (get_cell_count m))
    as (b & E & L & N & O).
  - apply nodup_zrange.
  - rewrite Forall_forall. intros c Hc. apply in_zrange in Hc. lia.
  - rewrite repeat_length. nia.
  - exact S2.
  - rewrite E in Eb. injection Eb as <-. intros c Hc.
    assert (Hci : In c cells) by (apply in_zrange; lia). split.
    + unfold rdZ. destruct (Z.ltb_spec c 0); [lia|]. rewrite nth_error_map. unfold cells.
      rewrite nth_error_zrange by lia. simpl. do 3 f_equal. f_equal. lia.
    + intros j x Hj. unfold rdZ. assert (0 <= c * stride)%Z by nia. destruct (Z.ltb_spec (c * stride + Z.of_nat j) 0); [lia|].
      replace (Z.to_nat (c * stride + Z.of_nat j)) with (Z.to_nat (c * stride) + j)%nat by lia. apply N; auto.
Qed.

Lemma horner_in_range m p : mesh_ok m -> (0 <= horner (m_counts m) (cell_tuple_of m p) < get_cell_count m)%Z.
Proof. intros H. rewrite cell_count_product. apply horner_range. now apply cell_tuple_valid. Qed.

(** The candidates visited for a point: no out-of-bounds or uninitialised read, exactly the
    elements whose boxes overlap the point's coarse cell, by decreasing overlap. *)
Lemma kernel_candidates_spec ndim geoms lk : make_lookup ndim geoms = Some lk -> (1 <= ndim <= 3)%nat -> geoms_ok ndim geoms ->
  forall p, exists l, kernel_candidates lk p = Some l /\
    (forall i, In i l <-> exists k g, i = Z.of_nat k /\ nth_error geoms k = Some g /\
        0 < bounding_box_intersection g (cell_box_of (lk_mesh lk) (cell_tuple_of (lk_mesh lk) p))) /\
    StronglySorted (fun i j => forall gi gj, nth_error geoms (Z.to_nat i) = Some gi -> nth_error geoms (Z.to_nat j) = Some gj ->
        bounding_box_intersection gj (cell_box_of (lk_mesh lk) (cell_tuple_of (lk_mesh lk) p)) <=
        bounding_box_intersection gi (cell_box_of (lk_mesh lk) (cell_tuple_of (lk_mesh lk) p))) l.
Proof.
  intros H Hn Hg p. destruct (make_lookup_inv ndim geoms lk H ltac:(lia) Hg) as (ps & Hm & Hnd & Hdom & Hin & Ep & Hrd).
  set (m := lk_mesh lk) in *. set (t := cell_tuple_of m p). set (c := horner (m_counts m) t).
  assert (Hc : (0 <= c < get_cell_count m)%Z) by (apply horner_in_range; auto).
  destruct (Hrd c Hc) as [Hsz Hmap]. destruct (add_all_spec m geoms Hm ltac:(lia) Hin 0%Z) as (ps' & Ep' & Sp).
  rewrite Ep in Ep'. injection Ep' as <-.
  exists (map snd (cell_list ps c)).
  assert (Hcl : forall o i, In (o, i) (cell_list ps c) <-> exists k g, nth_error geoms k = Some g /\ i = Z.of_nat k /\
             o = bounding_box_intersection g (cell_box_of m t) /\ 0 < o).
  { intros o i. rewrite in_cell_list, Sp. split.
    - intros (k & g & t' & Hk & -> & Ht' & Ec & -> & Hpos).
      assert (t' = t). { eapply horner_inj; eauto. apply cell_tuple_valid; auto. } subst t'.
      exists k, g. repeat split; auto.
    - intros (k & g & Hk & -> & -> & Hpos). exists k, g, t. repeat split; auto. apply cell_tuple_valid; auto. }
  split; [|split].
  - unfold kernel_candidates. fold m. rewrite kernel_linear by lia. fold t. fold c.
    destruct Hc as [Hc1 Hc2]. apply Z.leb_le in Hc1. apply Z.ltb_lt in Hc2. rewrite Hc1, Hc2. cbn [andb negb].
    rewrite Hsz. cbn [bind]. apply mapM_Forall2.
    unfold zrange. set (L := cell_list ps c) in *.
    replace (Z.to_nat (Z.of_nat (length L) - 1 - 0 + 1)) with (length L) by lia.
    assert (HF : forall pre suf, L = pre ++ suf ->
      Forall2 (fun x y => bind (rdZ (lk_map lk) (c * lk_stride lk + x)%Z) (fun o => o) = Some y)
        (map (fun i => (0 + Z.of_nat i)%Z) (seq (length pre) (length suf))) (map snd suf)).
    { intros pre suf; revert pre. induction suf as [|x suf IH]; intros pre E; simpl; constructor.
      - rewrite (Hmap (length pre) x). { reflexivity. } rewrite E. rewrite nth_error_app2 by lia. now rewrite Nat.sub_diag.
      - specialize (IH (pre ++ [x])). rewrite app_length in IH. simpl in IH. rewrite Nat.add_1_r in IH. apply IH.
        rewrite <- app_assoc. exact E. }
    apply (HF [] L). reflexivity.
  - intros i. rewrite in_map_iff. split.
    + intros ([o j] & <- & Hi). apply Hcl in Hi as (k & g & Hk & -> & -> & Hpos). simpl. eauto.
    + intros (k & g & -> & Hk & Hpos). eexists (_, Z.of_nat k). split; [reflexivity|]. apply Hcl. exists k, g. eauto.
  - pose proof (sort_reverse_sorted (map snd (filter (fun q => Z.eqb (fst q) c) ps))) as Hs.
    change (sort_reverse _) with (cell_list ps c) in Hs.
    assert (Hall : forall x, In x (cell_list ps c) -> exists k g, nth_error geoms k = Some g /\ snd x = Z.of_nat k /\ fst x = bounding_box_intersection g (cell_box_of m t)).
    { intros [o i] Hx. apply Hcl in Hx as (k & g & ? & ? & ? & ?). exists k, g. auto. }
    revert Hs Hall. generalize (cell_list ps c). induction l as [|x l IH]; intros Hs Hall; simpl; constructor.
    + apply StronglySorted_inv in Hs as [Hs _]. apply IH; auto. intros; apply Hall; now right.
    + apply StronglySorted_inv in Hs as [_ Hf]. rewrite Forall_forall in *. intros j Hj gi gj Hgi Hgj.
      apply in_map_iff in Hj as (y & <- & Hy). specialize (Hf y Hy).
      destruct (Hall x (or_introl eq_refl)) as (kx & gx & H1 & H2 & H3).
      destruct (Hall y (or_intror Hy)) as (ky & gy & H4 & H5 & H6).
      rewrite H2, Nat2Z.id in Hgi. rewrite H5, Nat2Z.id in Hgj. congruence.
Qed.

(** Points of a box, half-open (or on the top face of the whole grid), are offered the element. *)
Lemma coarse_half_open ndim geoms lk : make_lookup ndim geoms = Some lk -> (1 <= ndim <= 3)%nat -> geoms_ok ndim geoms ->
  forall k g p, nth_error geoms k = Some g ->
   (forall d, (d < ndim)%nat -> lo g d <= nthR p d < hi g d \/ (nthR p d = hi g d /\ hi g d = hi (mhbb_bounding_box ndim geoms) d)) ->
   exists l, kernel_candidates lk p = Some l /\ In (Z.of_nat k) l.
Proof.
  intros H Hn Hg k g p Hk Hp.
  destruct (kernel_candidates_spec ndim geoms lk H Hn Hg p) as (l & El & Hl & _). exists l. split; auto.
  apply Hl. exists k, g. split; auto. split; auto.
  destruct (make_lookup_inv ndim geoms lk H ltac:(lia) Hg) as (ps & Hm & Hnd & Hdom & Hin & _).
  pose proof (nth_error_In _ _ Hk) as Hgi. unfold geoms_ok in Hg. rewrite Forall_forall in Hg. destruct (Hg g Hgi) as [Hgl Hgs].
  rewrite overlap_pos_nth; [|rewrite cell_box_length; congruence|apply solid_proper; auto|apply cell_box_proper; auto].
  intros d Hd. rewrite Hgl in Hd. set (m := lk_mesh lk) in *.
  unfold lo at 2, hi at 2. rewrite cell_box_nth by lia. rewrite nthZ_cell_tuple by lia. unfold cell_interval. cbn [fst snd].
  destruct (Hdom d Hd) as [D1 D2].
  pose proof Hin as Hin'. rewrite Forall_forall in Hin'. destruct (Hin' g Hgi) as (_ & _ & Hb). specialize (Hb d ltac:(lia)).
  assert (Hsd : lo g d < hi g d). { unfold solid in Hgs. rewrite (Forall_nth_iff _ (0, 0)) in Hgs. apply (Hgs d). lia. }
  specialize (Hp d Hd).
  destruct (cell_no_contains m d (nthR p d) Hm ltac:(lia)) as (C1 & C2 & C3); [lra|].
  pose proof (mesh_width_pos m d Hm ltac:(lia)) as Hw.
  pose proof (cell_no_range m d (nthR p d) Hm ltac:(lia)) as Hr.
  set (c := cell_no m d (nthR p d)) in *. set (w := cell_width m d) in *. set (o := nthR (m_origin m) d) in *.
  destruct Hp as [Hp|[Hp1 Hp2]].
  - assert (nthR p d < o + (IZR c + 1) * w).
    { destruct (Z.eq_dec c (nthZ (m_counts m) d - 1)); [|apply C3; lia].
      pose proof (mesh_extent_width m d Hm ltac:(lia)) as Ee. fold w in Ee.
      assert (IZR c + 1 = IZR (nthZ (m_counts m) d)) by (rewrite <- plus_IZR; f_equal; lia).
      rewrite H0. lra. }
    apply Rmax_case; apply Rmin_case; lra.
  - pose proof (mesh_extent_width m d Hm ltac:(lia)) as Ee. fold w in Ee.
    assert (Hcn : c = (nthZ (m_counts m) d - 1)%Z).
    { assert (Hge : (nthZ (m_counts m) d - 1 <= c)%Z); [|lia]. apply cell_no_ge; [exact Hm|lia|lia|].
      fold o. fold w. rewrite minus_IZR. lra. }
    assert (IZR c + 1 = IZR (nthZ (m_counts m) d)) by (rewrite <- plus_IZR; f_equal; lia).
    assert (E1 : IZR c * w = IZR (nthZ (m_counts m) d) * w - w) by (rewrite <- H0; ring).
    rewrite H0, E1. clear C1 C2 C3. rewrite Hp2 in *.
    apply Rmax_case; apply Rmin_case; lra.
Qed.
