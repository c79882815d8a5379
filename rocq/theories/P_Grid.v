(** Property theorems C18-C22, C56. *)
From Coq Require Import Sorting.Sorted.
From Verif Require Import M_Grid S_Grid L_RealBase L_Grid L_Coarse L_Coarse2.

(** ** C18: Cartesian mesh *)
(** For every mesh that can be constructed, every dimension and every point inside:
    the cell exists, is in range, and the cell's interval contains the point
    (half-open except for the last cell). *)
Theorem C18_cell_contains_point : forall n origin extents counts m d x,
  make_mesh n origin extents counts = Some m -> (d < n)%nat ->
  nthR origin d <= x <= nthR origin d + nthR extents d ->
  exists c, get_cell_in_dimension m d x = Some c /\ (0 <= c < nthZ counts d)%Z /\
    let w := nthR extents d / IZR (nthZ counts d) in
    nthR origin d + IZR c * w <= x <= nthR origin d + (IZR c + 1) * w /\
    ((c < nthZ counts d - 1)%Z -> x < nthR origin d + (IZR c + 1) * w).
Proof.
  intros n o e c m d x H Hd Hx. destruct (make_mesh_ok _ _ _ _ _ H) as (Hm & Hn & Eo & Ee & Ec).
  assert (Eo' : nthR (m_origin m) d = nthR o d) by (rewrite Eo; unfold nthR; now apply nth_firstn).
  assert (Ee' : nthR (m_extents m) d = nthR e d) by (rewrite Ee; unfold nthR; now apply nth_firstn).
  assert (Ec' : nthZ (m_counts m) d = nthZ c d) by (rewrite Ec; unfold nthZ; now apply nth_firstn).
  exists (cell_no m d x). rewrite <- Eo', <- Ee', <- Ec' in *. rewrite <- Hn in Hd.
  split; [now apply get_cell_inside|]. split; [now apply cell_no_range|].
  destruct (cell_no_contains m d x Hm Hd Hx) as (A & B & C). cbv zeta. unfold cell_width in *. auto.
Qed.
Print Assumptions C18_cell_contains_point.
(** Points just outside (within the accepted tolerance) go to the first / last cell,
    points further away are refused. *)
Theorem C18_outside_points : forall n origin extents counts m d x,
  make_mesh n origin extents counts = Some m -> (d < n)%nat ->
  (nthR origin d - / 10 ^ 8 <= x < nthR origin d -> get_cell_in_dimension m d x = Some 0%Z) /\
  (nthR origin d + nthR extents d < x <= nthR origin d + nthR extents d + / 10 ^ 8 ->
     get_cell_in_dimension m d x = Some (nthZ counts d - 1)%Z) /\
  (x < nthR origin d - / 10 ^ 8 \/ nthR origin d + nthR extents d + / 10 ^ 8 < x ->
     get_cell_in_dimension m d x = None).
Proof.
  intros n o e c m d x H Hd. destruct (make_mesh_ok _ _ _ _ _ H) as (Hm & Hn & Eo & Ee & Ec).
  assert (Eo' : nthR (m_origin m) d = nthR o d) by (rewrite Eo; unfold nthR; now apply nth_firstn).
  assert (Ee' : nthR (m_extents m) d = nthR e d) by (rewrite Ee; unfold nthR; now apply nth_firstn).
  assert (Ec' : nthZ (m_counts m) d = nthZ c d) by (rewrite Ec; unfold nthZ; now apply nth_firstn).
  rewrite <- Eo', <- Ee', <- Ec' in *. rewrite <- Hn in Hd. clear Eo' Ee' Ec' Eo Ee Ec.
  rewrite get_cell_spec by auto. pose proof TOL_pos as Ht. unfold TOL_MESH in *. set (tol := / 10 ^ 8) in *.
  pose proof (mesh_width_pos m d Hm Hd) as Hw. pose proof (mesh_extent_width m d Hm Hd) as He.
  destruct Hm as (Hm1 & Hm2 & Hm3). destruct (Hm3 d Hd) as [Hx1 Hx2].
  assert (Hm : mesh_ok m) by (split; auto).
  repeat split.
  - intros Hx. rewrite !Rle_bool_true by lra. cbn [andb]. f_equal.
    pose proof (cell_no_range m d x Hm Hd). assert (cell_no m d x <= 0)%Z; [|lia]. apply cell_no_le; auto; [lia|]. simpl. nra.
  - intros Hx. rewrite !Rle_bool_true by lra. cbn [andb]. f_equal.
    pose proof (cell_no_range m d x Hm Hd). assert (nthZ (m_counts m) d - 1 <= cell_no m d x)%Z; [|lia].
    apply cell_no_ge; auto; [lia|]. rewrite minus_IZR. simpl. nra.
  - intros [Hx|Hx].
    + rewrite (Rle_bool_false _ x) by lra. reflexivity.
    + rewrite (Rle_bool_false x) by lra. now rewrite andb_false_r.
Qed.
Print Assumptions C18_outside_points.
(** Linear indices: bijection between cell tuples and 0 .. ncells-1, in any dimension;
    the bounding box of a tuple is the product of the cell intervals. *)
Theorem C18_linear_index_bijection : forall n origin extents counts m, (0 < n)%nat ->
  make_mesh n origin extents counts = Some m ->
  (forall t, valid_tuple t (firstn n counts) -> (0 <= get_linear_cell_index m t < get_cell_count m)%Z) /\
  (forall t t', valid_tuple t (firstn n counts) -> valid_tuple t' (firstn n counts) ->
     get_linear_cell_index m t = get_linear_cell_index m t' -> t = t') /\
  (forall k, (0 <= k < get_cell_count m)%Z -> exists t, valid_tuple t (firstn n counts) /\ get_linear_cell_index m t = k) /\
  get_cell_count m = product (firstn n counts).
Proof.
  intros n o e c m H0 H. destruct (make_mesh_ok _ _ _ _ _ H) as (Hm & Hn & Eo & Ee & Ec). rewrite <- Ec.
  assert (Hl : forall t, valid_tuple t (m_counts m) -> get_linear_cell_index m t = horner (m_counts m) t).
  { intros t Ht. apply linear_horner; [|lia]. rewrite (Forall2_length Ht). reflexivity. }
  rewrite cell_count_product. repeat split.
  - rewrite Hl by auto. now apply horner_range.
  - rewrite Hl by auto. now apply horner_range.
  - intros t t' Ht Ht' E. rewrite !Hl in E by auto. eapply horner_inj; eauto.
  - intros k Hk. destruct (horner_surj _ (mesh_counts_pos m Hm) k Hk) as (t & Ht & E). exists t. rewrite Hl by auto. auto.
Qed.
Print Assumptions C18_linear_index_bijection.
Lemma ex_mesh : exists m, make_mesh 2 [0; 1] [2; 3] [4; 5]%Z = Some m.
Proof.
  unfold make_mesh. simpl. rewrite !Rlt_bool_true by (unfold nthR; simpl; lra). simpl. eauto.
Qed.
Example C18_nonvacuous : exists m, make_mesh 2 [0; 1] [2; 3] [4; 5]%Z = Some m /\ (1 < 2)%nat /\
  nthR [0; 1] 1 <= 2 <= nthR [0; 1] 1 + nthR [2; 3] 1.
Proof. destruct ex_mesh as [m E]. exists m. unfold nthR. simpl. split; auto. split; [auto|lra]. Qed.

(** ** C19: periodic wrap *)
(** For extents of at least one length unit, or particles no more than two extents below
    the origin, each coordinate is wrapped into [origin, origin+extent), moved by whole
    extents, and left alone when already inside. *)
Theorem C19_periodic_wrap_partial : forall dom x, length x = length dom ->
  Forall2 (fun x oe => 0 < snd oe /\ (1 <= snd oe \/ fst oe - 2 * snd oe <= x)) x dom ->
  length (periodic_kernel dom x) = length x /\
  Forall2 (fun xy oe => fst oe <= snd xy < fst oe + snd oe /\ congruent (snd oe) (snd xy) (fst xy) /\
                        (fst oe <= fst xy < fst oe + snd oe -> snd xy = fst xy))
          (combine x (periodic_kernel dom x)) dom.
Proof. exact periodic_kernel_ok. Qed.
Print Assumptions C19_periodic_wrap_partial.
Example C19_nonvacuous : Forall2 (fun x oe => 0 < snd oe /\ (1 <= snd oe \/ fst oe - 2 * snd oe <= x))
  [-7; 9 / 10] [(-1, 2); (1 / 10, 1 / 2)].
Proof. repeat constructor; simpl; lra. Qed.
(** In general: FALSE of the code. The number of extents added is trunc(|pos|+2), not
    trunc(|pos|/extent+2), so for small domains far-away particles stay outside. *)
Theorem C19_periodic_wrap_refuted :
  ~ (forall o e x, 0 < e -> o <= periodic_1d o e x < o + e).
Proof.
  intros H. specialize (H 0 (1 / 2) (- (52 / 10)) ltac:(lra)). revert H. unfold periodic_1d, fmod.
  replace (Rabs (- (52 / 10) - 0) + 2) with (72 / 10) by (rewrite Rabs_left; lra).
  rewrite (Ztrunc_nonneg_unique (72 / 10) 7) by lra.
  replace ((- (52 / 10) - 0 + 7 * (1 / 2)) / (1 / 2)) with (- (34 / 10)) by field.
  rewrite Ztrunc_opp, (Ztrunc_nonneg_unique (34 / 10) 3) by lra. simpl. lra.
Qed.
Print Assumptions C19_periodic_wrap_refuted.
(** Exactly when: the code wraps a particle into the domain if and only if it is not further below the origin than the whole
    extents added, floor(distance) + 2, or an exact number of extents away; it always moves it by whole extents. *)
Theorem C19_wrapped_exactly_when : forall o e x, 0 < e ->
  congruent e (periodic_1d o e x) x /\
  (o <= periodic_1d o e x < o + e <-> o - x <= (IZR (Zfloor (Rabs (x - o))) + 2) * e \/ congruent e x o).
Proof.
  intros o e x He. unfold periodic_1d. set (a := x - o). assert (Ea : x = a + o) by (unfold a; lra). clearbody a. subst x.
  assert (T : IZR (Ztrunc (Rabs a + 2)) = IZR (Zfloor (Rabs a)) + 2).
  { rewrite Ztrunc_floor by (pose proof (Rabs_pos a); lra). rewrite <- plus_IZR. f_equal. apply Zfloor_imp. rewrite !plus_IZR.
    pose proof (Zfloor_lb (Rabs a)). pose proof (Zfloor_ub (Rabs a)). lra. }
  rewrite T. set (b := a + (IZR (Zfloor (Rabs a)) + 2) * e). unfold fmod. set (k := Ztrunc (b / e)).
  assert (Eb : b = a + IZR (Zfloor (Rabs a) + 2) * e) by (unfold b; rewrite plus_IZR; reflexivity).
  split. { exists (Zfloor (Rabs a) + 2 - k)%Z. rewrite minus_IZR, Eb. lra. }
  assert (Hq : b = (b / e) * e) by (field; lra).
  destruct (Rle_or_lt 0 b) as [Hb|Hb].
  - assert (H0 : 0 <= b / e) by (apply Rmult_le_pos; [lra|left; apply Rinv_0_lt_compat; lra]).
    assert (K : IZR k <= b / e < IZR k + 1) by (unfold k; rewrite Ztrunc_floor by exact H0; split; [apply Zfloor_lb|apply Zfloor_ub]).
    split; [intros _; left; unfold b in Hb; lra|intros _].
    assert (P1 : IZR k * e <= b) by (rewrite Hq at 1; apply Rmult_le_compat_r; lra).
    assert (P2 : b < (IZR k + 1) * e) by (rewrite Hq at 1; apply Rmult_lt_compat_r; lra). lra.
  - assert (H0 : b / e < 0) by (unfold Rdiv; pose proof (Rinv_0_lt_compat e He); nra).
    assert (K : IZR k - 1 < b / e <= IZR k) by (unfold k; rewrite Ztrunc_ceil by lra; split; [pose proof (Zceil_lb (b / e)); lra|apply Zceil_ub]).
    assert (P1 : b <= IZR k * e) by (rewrite Hq at 1; apply Rmult_le_compat_r; lra).
    split.
    + intros [H1 _]. right. assert (b = IZR k * e) by lra. exists (k - (Zfloor (Rabs a) + 2))%Z. rewrite minus_IZR. rewrite Eb in H. lra.
    + intros [H|(n & H)]; [unfold b in Hb; lra|]. assert (Hn : b / e = IZR (n + (Zfloor (Rabs a) + 2))).
      { rewrite Eb. rewrite (plus_IZR n). assert (Ha : a = IZR n * e) by lra. generalize (IZR (Zfloor (Rabs a) + 2)); intros z.
        rewrite Ha. field. lra. }
      unfold k. rewrite Hn, Ztrunc_IZR. assert (b = IZR (n + (Zfloor (Rabs a) + 2)) * e) by (rewrite <- Hn; field; lra). lra.
Qed.
Print Assumptions C19_wrapped_exactly_when.

(** ** C20: periodic domain *)
Theorem C20_periodic_domain_partial : forall (ranks : list (list R)) lower upper,
  Forall (fun x => - DBL_MAX <= x <= DBL_MAX) (concat ranks) ->
  is_min lower (concat ranks) -> is_max upper (concat ranks) -> DBL_MIN <= upper ->
  periodic_domain ranks = (lower, upper - lower).
Proof.
  intros ranks lower upper Hb Hmin Hmax Hu.
  assert (Hne : concat ranks <> []) by (destruct Hmin as [H _]; destruct (concat ranks); [destruct H|congruence]).
  pose proof (fold_min_concat ranks Hb Hne) as [A1 A2]. pose proof (fold_max_concat ranks upper Hmax Hu) as B.
  destruct Hmin as [C1 C2]. rewrite Forall_forall in A2, C2.
  assert (E : fst (periodic_domain ranks) = lower) by (apply Rle_antisym; auto).
  rewrite (surjective_pairing (periodic_domain ranks)). rewrite E in *. f_equal. lra.
Qed.
Print Assumptions C20_periodic_domain_partial.
Example C20_nonvacuous : is_min (-2) (concat [[1; -2]; [3]]) /\ is_max 3 (concat [[1; -2]; [3]]) /\ DBL_MIN <= 3.
Proof. pose proof DBL_MIN_lt_1. unfold is_min, is_max. simpl. repeat split; auto; try lra; repeat constructor; lra. Qed.
(** In general: FALSE of the code: a domain of negative coordinates is stretched up to
    (about) zero, because the upper corner starts from numeric_limits<double>::min(). *)
Theorem C20_negative_domain_refuted : forall (ranks : list (list R)) lower upper,
  Forall (fun x => - DBL_MAX <= x <= DBL_MAX) (concat ranks) ->
  is_min lower (concat ranks) -> is_max upper (concat ranks) -> upper <= 0 ->
  periodic_domain ranks = (lower, DBL_MIN - lower) /\ snd (periodic_domain ranks) > upper - lower.
Proof.
  intros ranks lower upper Hb Hmin Hmax Hu. pose proof DBL_MIN_pos.
  assert (Hne : concat ranks <> []) by (destruct Hmin as [X _]; destruct (concat ranks); [destruct X|congruence]).
  pose proof (fold_min_concat ranks Hb Hne) as [A1 A2]. pose proof (fold_max_concat_low ranks upper Hmax ltac:(lra)) as B.
  destruct Hmin as [C1 C2]. rewrite Forall_forall in A2, C2.
  assert (E : fst (periodic_domain ranks) = lower) by (apply Rle_antisym; auto).
  rewrite (surjective_pairing (periodic_domain ranks)). rewrite E in *. cbn [snd]. split; [f_equal|]; lra.
Qed.
Print Assumptions C20_negative_domain_refuted.
Example C20_refuted_nonvacuous : is_min (-2) (concat [[-1; -2]]) /\ is_max (-1) (concat [[-1; -2]]) /\ -1 <= 0 /\
  Forall (fun x => - DBL_MAX <= x <= DBL_MAX) (concat [[-1 / 2; -1 / 4]]).
Proof.
  pose proof DBL_MAX_ge_1. unfold is_min, is_max. simpl. repeat split; auto; try lra; repeat constructor; lra.
Qed.

(** ** C21: box algebra *)
Theorem C21_overlap_volume : forall a b, length a = length b -> proper a -> proper b ->
  bounding_box_intersection a b = overlap_volume a b /\
  (0 < bounding_box_intersection a b <-> exists p, in_interior p a /\ in_interior p b).
Proof. intros a b H1 H2 H3. split; [exact (overlap_spec a b H1 H2 H3)|exact (overlap_positive_iff a b H1 H2 H3)]. Qed.
Print Assumptions C21_overlap_volume.
Theorem C21_expand_is_hull : forall a b, length a = length b -> proper a -> proper b ->
  (forall p, in_box p a \/ in_box p b -> in_box p (expand_bounding_box a b)) /\
  (forall c, (forall p, in_box p a \/ in_box p b -> in_box p c) ->
     forall p, in_box p (expand_bounding_box a b) -> in_box p c).
Proof.
  intros a b Hl Ha Hb. split.
  - intros p [H|H]; [now apply expand_contains_in|now apply expand_contains_acc].
  - intros c. now apply expand_smallest.
Qed.
Print Assumptions C21_expand_is_hull.
Theorem C21_hierarchy_intersection : forall n boxes q,
  Forall (fun b => length b = n /\ proper b) boxes -> length q = n -> proper q ->
  (mhbb_intersects n boxes q = true <-> exists b p, In b boxes /\ in_box p b /\ in_box p q).
Proof. exact mhbb_spec. Qed.
Print Assumptions C21_hierarchy_intersection.
Example C21_nonvacuous : proper [(0, 2); (-1, 1)] /\ proper [(1, 3); (0, 0)] /\
  in_box [1; 0] [(0, 2); (-1, 1)] /\ in_box [1; 0] [(1, 3); (0, 0)] /\
  in_interior [3 / 2; 0] [(0, 2); (-1, 1)] /\ in_interior [3 / 2; 0] [(1, 3); (-1, 2)].
Proof. repeat split; repeat constructor; simpl; lra. Qed.

(** ** C56: the coarse lookup map is always constructed *)
Theorem C56_lookup_constructed : forall ndim geoms, (0 < ndim)%nat -> geoms <> [] ->
  Forall (fun g => length g = ndim /\ solid g) geoms ->
  exists lk, make_lookup ndim geoms = Some lk /\
    (4 ^ Z.of_nat ndim * Z.of_nat (length geoms) <= get_cell_count (lk_mesh lk))%Z.
Proof. exact make_lookup_ok. Qed.
Print Assumptions C56_lookup_constructed.

(** ** C22: coarse lookup candidates *)
(** For every point whatsoever (also outside the mesh) the kernel's reads are in bounds and
    initialised; the candidates are exactly the elements whose bounding box meets the
    interior of the point's coarse cell, largest overlap first. *)
Theorem C22_candidates_exact : forall ndim geoms lk,
  make_lookup ndim geoms = Some lk -> (1 <= ndim <= 3)%nat ->
  Forall (fun g => length g = ndim /\ solid g) geoms ->
  forall p, exists l cell_box, kernel_candidates lk p = Some l /\
    get_bounding_box (lk_mesh lk) (cell_tuple_of (lk_mesh lk) p) = Some cell_box /\
    (forall i, In i l <-> exists k g, i = Z.of_nat k /\ nth_error geoms k = Some g /\
        0 < bounding_box_intersection g cell_box) /\
    StronglySorted (fun i j => forall gi gj, nth_error geoms (Z.to_nat i) = Some gi -> nth_error geoms (Z.to_nat j) = Some gj ->
        bounding_box_intersection gj cell_box <= bounding_box_intersection gi cell_box) l.
Proof.
  intros ndim geoms lk H Hn Hg p. destruct (kernel_candidates_spec ndim geoms lk H Hn Hg p) as (l & E & A & B).
  destruct (make_lookup_inv ndim geoms lk H ltac:(lia) Hg) as (_ & Hm & _).
  exists l, (cell_box_of (lk_mesh lk) (cell_tuple_of (lk_mesh lk) p)). split; [exact E|].
  split; [apply get_box_spec; now apply cell_tuple_valid|]. split; [exact A|exact B].
Qed.
Print Assumptions C22_candidates_exact.
(** Each element is offered to every point of its box except possibly on the box's upper
    faces (which are included where they lie on the boundary of the whole grid). *)
Theorem C22_candidate_offered_partial : forall ndim geoms lk,
  make_lookup ndim geoms = Some lk -> (1 <= ndim <= 3)%nat ->
  Forall (fun g => length g = ndim /\ solid g) geoms ->
  forall k g p, nth_error geoms k = Some g ->
   (forall d, (d < ndim)%nat ->
      fst (nth d g (0, 0)) <= nthR p d < snd (nth d g (0, 0)) \/
      (nthR p d = snd (nth d g (0, 0)) /\ - DBL_MAX <= snd (nth d g (0, 0)) /\
       forall g', In g' geoms -> snd (nth d g' (0, 0)) <= snd (nth d g (0, 0)))) ->
   exists l, kernel_candidates lk p = Some l /\ In (Z.of_nat k) l.
Proof.
  intros ndim geoms lk H Hn Hg k g p Hk Hp. eapply coarse_half_open; eauto.
  intros d Hd. destruct (Hp d Hd) as [?|(E & Hv & M)]; [left; auto|]. right. split; auto.
  pose proof (nth_error_In _ _ Hk) as Hgi. pose proof (hull_bounds ndim geoms g d Hg Hgi Hd) as [_ Hb].
  apply Rle_antisym; auto. apply hull_hi_le; auto. eapply Forall_impl; [|exact Hg]. simpl. tauto.
Qed.
Print Assumptions C22_candidate_offered_partial.
Example C22_nonvacuous : exists lk, make_lookup 2 two_elements = Some lk /\
  Forall (fun g => length g = 2%nat /\ solid g) two_elements /\ nth_error two_elements 0 = Some [(0, 1); (0, 1)].
Proof.
  destruct (C56_lookup_constructed 2 two_elements ltac:(lia) ltac:(discriminate) two_elements_ok) as (lk & E & _).
  exists lk. split; [exact E|]. split; [exact two_elements_ok|reflexivity].
Qed.
(** For all points of the (closed) box: FALSE of the code: on the shared face of two unit
    squares the left one is not among the candidates. *)
Theorem C22_upper_face_refuted :
  ~ (forall ndim geoms lk, make_lookup ndim geoms = Some lk -> (1 <= ndim <= 3)%nat ->
      Forall (fun g => length g = ndim /\ solid g) geoms ->
      forall k g p, nth_error geoms k = Some g -> in_box p g ->
      exists l, kernel_candidates lk p = Some l /\ In (Z.of_nat k) l).
Proof.
  intros H. destruct C22_nonvacuous as (lk & E & Ok & Hk).
  destruct (H 2%nat two_elements lk E ltac:(lia) Ok O _ [1; 1 / 2] Hk) as (l & El & Hi).
  - repeat constructor; simpl; lra.
  - exact (two_elements_face lk E l El Hi).
Qed.
Print Assumptions C22_upper_face_refuted.
