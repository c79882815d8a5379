(** Property theorems C29-C31 (mesh hierarchy cells and claims). *)
From Coq Require Import Sorting.Permutation Sorting.Sorted.
From Verif Require Import L_MeshIf3 M_MeshIf L_RealBase S_Grid S_MeshIf L_MeshIf L_MeshIf2.
Import ListNotations.

(** C29: the pairs produced for a bounding box are exactly the fine cells with positive overlap, with
    the overlap volume, each cell once. With a positive padding the box is first grown by
    [pad] times its longest side in every direction. *)
Theorem C29_cells_are_overlaps : forall m b pad g v, mh_ok m -> length b = mh_ndim m ->
  (In (g, v) (bounding_box_map m b pad) <->
   exists c, fine_cell m g c /\ v = overlap_volume (padded pad b) c /\ 0 < v).
Proof. exact bbm_spec. Qed.
Print Assumptions C29_cells_are_overlaps.
Theorem C29_each_cell_once : forall m b pad, mh_ok m -> length b = mh_ndim m ->
  NoDup (map fst (bounding_box_map m b pad)).
Proof. exact bbm_nodup. Qed.
Print Assumptions C29_each_cell_once.
Theorem C29_cell_numbers_identify_cells : forall m g c c', mh_ok m -> fine_cell m g c -> fine_cell m g c' -> c = c'.
Proof. exact fine_cell_inj. Qed.
Print Assumptions C29_cell_numbers_identify_cells.
Theorem C29_padding : forall pad b, proper b -> b <> [] ->
  padded 0 b = b /\ (0 < pad -> exists s, longest_side b s /\ padded pad b = grow (pad * s) b).
Proof. intros pad b Hp Hn. split; [apply padded_zero|]. intros. now apply padded_grow. Qed.
Print Assumptions C29_padding.
(** the volumes add up to the volume of the box when it lies in the grid *)
Theorem C29_volumes_sum_to_box : forall m b, mh_ok m -> length b = mh_ndim m -> proper b ->
  box_inside b (grid_extent (mh_origin m) (mh_cw m) (fine_counts m)) ->
  sumR (map snd (bounding_box_map m b 0)) = box_volume b.
Proof.
  intros m b Hm Hl Hp Hin. pose proof (padded_zero b) as E.
  rewrite bbm_sum; auto; rewrite ?E; auto. lra.
Qed.
Print Assumptions C29_volumes_sum_to_box.
(** the weight of a claim is the overlap in millionths of the cell, at least 1 *)
Theorem C29_claim_weights : forall m b g v, mh_ok m -> length b = mh_ndim m ->
  In (g, v) (bounding_box_map m b 0) ->
  claim_weight m v = (Z.max 1 (Zfloor (1000000 * (v / mh_cw m ^ mh_ndim m))), v / mh_cw m ^ mh_ndim m) /\
  (1 <= fst (claim_weight m v) <= 1000000)%Z /\ 0 < snd (claim_weight m v) <= 1.
Proof.
  intros m b g v Hm Hl Hin. apply bbm_spec in Hin as (c & Hc & Hv & Hp); auto. rewrite padded_zero in Hv.
  pose proof (fine_cell_overlap_le m b g c Hm Hl Hc). subst v.
  destruct (claim_weight_spec m (overlap_volume b c) Hm ltac:(lra)) as (E & E1 & E2). rewrite E. cbn [fst snd]. auto.
Qed.
Print Assumptions C29_claim_weights.

Definition ex_mh : mhier := mkMH [2; 1]%Z [0; 0] 2 1.
Example C29_nonvacuous : mh_ok ex_mh /\ length [(0.25, 0.75); (0, 0.5)] = mh_ndim ex_mh /\
  proper [(0.25, 0.75); (0, 0.5)] /\
  box_inside [(0.25, 0.75); (0, 0.5)] (grid_extent (mh_origin ex_mh) (mh_cw ex_mh) (fine_counts ex_mh)) /\
  In (1%Z, 0.25 * (0.5 * 1)) (bounding_box_map ex_mh [(0.25, 0.75); (0, 0.5)] 0).
Proof.
  assert (Hm : mh_ok ex_mh) by (unfold mh_ok, ex_mh; simpl; repeat split; auto; try lia; try lra; repeat constructor; lia).
  split; auto. split; [reflexivity|]. split; [repeat constructor; simpl; lra|]. split.
  { unfold ex_mh, mh_cw, fine_counts. simpl. repeat constructor; simpl; lra. }
  apply bbm_spec; auto. eexists. split; [|split; [rewrite padded_zero|lra]].
  - exists [0; 0]%Z, [1; 0]%Z. split; [repeat constructor; simpl; lia|]. split; [repeat constructor; simpl; lia|].
    split; reflexivity.
  - unfold ex_mh, mh_cw. simpl. unfold Rmax, Rmin. repeat destruct (Rle_dec _ _); lra.
Qed.

(** C30: after any history of claims, the claimed cells (an ordered set) are those claimed with a
    positive weight; the weight kept for a cell is the largest claimed for it and its
    reference value is the one of the first claim with that weight. *)
Theorem C30_claims : forall h : list (Z * Z * R),
  let st := fold_left (fun c x => claim c (fst (fst x)) (snd (fst x)) (snd x)) h claim_empty in
  StronglySorted Z.lt (claim_cells st) /\
  (forall c, In c (claim_cells st) <-> exists w f, In (c, w, f) h /\ (0 < w)%Z) /\
  (forall c, match zlookup (claim_weights st) c with
   | Some (w, f) => (0 < w)%Z /\ exists pre post, h = pre ++ (c, w, f) :: post /\
       (forall w' f', In (c, w', f') pre -> (w' < w)%Z) /\ (forall w' f', In (c, w', f') post -> (w' <= w)%Z)
   | None => forall w f, In (c, w, f) h -> (w <= 0)%Z
   end).
Proof.
  intros h. cbn zeta. destruct (claim_cells_run h) as [H1 H2]. split; [exact H1|]. split; [exact H2|]. exact (claim_weights_run h).
Qed.
Print Assumptions C30_claims.
Theorem C30_order_independent : forall h h' : list (Z * Z * R), Permutation h h' ->
  let run h := fold_left (fun c x => claim c (fst (fst x)) (snd (fst x)) (snd x)) h claim_empty in
  claim_cells (run h) = claim_cells (run h') /\
  forall c, option_map fst (zlookup (claim_weights (run h)) c) = option_map fst (zlookup (claim_weights (run h')) c).
Proof. exact claims_order_free. Qed.
Print Assumptions C30_order_independent.
(** C29+C30 for all elements of a rank: the claimed cells are those that some element's box
    overlaps; the weight is the largest over the elements; the elements registered with a
    cell are those overlapping it. *)
Theorem C30_element_claims : forall m elems, mh_ok m -> Forall (fun e => length (snd e) = mh_ndim m) elems ->
  let st := claim_elements m elems (claim_empty, []) in
  let wt v := Z.max 1 (Zfloor (1000000 * (v / mh_cw m ^ mh_ndim m))) in
  (forall g, In g (claim_cells (fst st)) <->
     exists e c, In e elems /\ fine_cell m g c /\ 0 < overlap_volume (snd e) c) /\
  (forall g w f, zlookup (claim_weights (fst st)) g = Some (w, f) ->
     (exists e c, In e elems /\ fine_cell m g c /\ 0 < overlap_volume (snd e) c /\ w = wt (overlap_volume (snd e) c)) /\
     (forall e c, In e elems -> fine_cell m g c -> 0 < overlap_volume (snd e) c -> (wt (overlap_volume (snd e) c) <= w)%Z)) /\
  (forall g id, In id (match zlookup (snd st) g with Some l => l | None => [] end) <->
     exists b c, In (id, b) elems /\ fine_cell m g c /\ 0 < overlap_volume b c).
Proof.
  intros m elems Hm He. cbn zeta. fold (elems_ok m elems) in He. rewrite claim_elements_run. split; [|split].
  - intros g. destruct (claim_cells_run (flat_map (elem_claims m) elems)) as [_ H]. rewrite H. split.
    + intros (w & f & Hi & _). apply in_elem_claims in Hi as (e & c & H1 & H2 & H3 & _); eauto.
    + intros (e & c & H1 & H2 & H3). do 2 eexists. split; [apply in_elem_claims; eauto 8|]. apply int_weight_pos.
  - intros g w f E. pose proof (claim_weights_run (flat_map (elem_claims m) elems) g) as B. rewrite E in B.
    destruct B as (Hw & pre & post & Eh & H1 & H2). split.
    + assert (Hi : In (g, w, f) (flat_map (elem_claims m) elems)) by (rewrite Eh, in_app_iff; simpl; auto).
      apply in_elem_claims in Hi as (e & c & A1 & A2 & A3 & A4 & _); auto. exists e, c. auto.
    + intros e c A1 A2 A3. change (int_weight m (overlap_volume (snd e) c) <= w)%Z.
      assert (Hi : In (g, int_weight m (overlap_volume (snd e) c), overlap_volume (snd e) c / mh_cw m ^ mh_ndim m) (flat_map (elem_claims m) elems))
        by (apply in_elem_claims; eauto 8).
      rewrite Eh in Hi. apply in_app_iff in Hi as [Hi|[Hi|Hi]]; [apply H1 in Hi; lia|injection Hi; intros; lia|eapply H2; eauto].
  - intros g id. pose proof (claim_elements_snd m elems g Hm He (claim_empty, [])) as E. unfold geoms_at in E. rewrite E. simpl.
    rewrite in_map_iff. split.
    + intros ([i b] & <- & Hi). apply filter_In in Hi as [Hi Ht]. simpl in *. apply touches_iff in Ht as (c & H1 & H2); auto.
      * eauto.
      * unfold elems_ok in He. rewrite Forall_forall in He. apply (He (i, b)); auto.
    + intros (b & c & H1 & H2 & H3). exists (id, b). split; auto. apply filter_In. split; auto. apply touches_iff; eauto.
      unfold elems_ok in He. rewrite Forall_forall in He. apply (He (id, b)); auto.
Qed.
Print Assumptions C30_element_claims.
Example C30_nonvacuous :
  claim_cells (fold_left (fun c x => claim c (fst (fst x)) (snd (fst x)) (snd x)) [((5, 2)%Z, 0.2); ((3, 0)%Z, 0.0); ((5, 7)%Z, 0.7); ((1, 4)%Z, 0.4)] claim_empty) = [1; 5]%Z.
Proof. reflexivity. Qed.

(** C31: the mesh hierarchy built from the boxes of the elements of all ranks (some may have
    none) contains every element's box; it has at least one coarse cell per dimension. *)
Theorem C31_hierarchy_covers_mesh : forall n elems N offset su, (0 < n)%nat ->
  Forall (Forall (fun b => length b = n /\ proper b)) elems ->
  create_mesh_hierarchy (global_bounding_box n elems) N offset = Some su ->
  mh_ok (su_mh su) /\ mh_ndim (su_mh su) = n /\
  forall l b, In l elems -> In b l ->
    box_inside b (grid_extent (mh_origin (su_mh su)) (mh_cw (su_mh su)) (fine_counts (su_mh su))).
Proof. exact mesh_covered. Qed.
Print Assumptions C31_hierarchy_covers_mesh.
(** it is created whenever there is an element and the elements are not degenerate *)
Theorem C31_hierarchy_created : forall n elems N offset,
  Forall (Forall (fun b => length b = n /\ solid b)) elems -> Exists (fun l => l <> []) elems ->
  exists su, create_mesh_hierarchy (global_bounding_box n elems) N offset = Some su.
Proof. exact mesh_total. Qed.
Print Assumptions C31_hierarchy_created.
(** the coarse grid starts at the lower corner, and its last layer of cells is needed *)
Theorem C31_hierarchy_tight : forall gbb N offset su, gbb <> [] -> create_mesh_hierarchy gbb N offset = Some su ->
  let m := su_mh su in
  mh_origin m = map fst gbb /\ (0 <= su_order su)%Z /\ mh_nf m = (2 ^ su_order su)%Z /\
  Forall2 (fun lu d => 0 < snd lu - fst lu /\ snd lu - fst lu <= IZR d * mh_cwc m /\ (IZR d - 1) * mh_cwc m < snd lu - fst lu) gbb (mh_dims m).
Proof. intros gbb N offset su Hn H. destruct (create_spec _ _ _ _ Hn H) as (_ & _ & H1 & H2 & H3 & H4). cbn zeta. auto. Qed.
Print Assumptions C31_hierarchy_tight.
Example C31_nonvacuous :
  let elems := [[[(0, 1); (0, 1)]; [(1, 3); (0, 1)]]; []; [[(-1, 0); (0, 2)]]] in
  Forall (Forall (fun b => length b = 2%nat /\ solid b)) elems /\ Exists (fun l => l <> []) elems.
Proof.
  cbn zeta. split.
  - repeat constructor; simpl; lra.
  - constructor. discriminate.
Qed.
(** C31: the coarse cell size is the smallest extent when the extents differ by a factor of at least 2, else the largest. *)
Theorem C31_coarse_cell_size : forall gbb N offset su, gbb <> [] -> Forall (fun lu => snd lu - fst lu <= DBL_MAX) gbb ->
  create_mesh_hierarchy gbb N offset = Some su ->
  let ext := map (fun lu => snd lu - fst lu) gbb in
  exists mn mx, In mn ext /\ In mx ext /\ (forall e, In e ext -> mn <= e <= mx) /\ 0 < mn /\
    (2 * mn <= mx -> mh_cwc (su_mh su) = mn) /\ (mx < 2 * mn -> mh_cwc (su_mh su) = mx).
Proof. exact hierarchy_sizes. Qed.
Print Assumptions C31_coarse_cell_size.

(** C66: the subdivision order, less the offset, is the least one (never below order 0) for which the coarse cell count
    times e^(ndim order) reaches the number of elements. Part of C66: with e where the number of fine cells grows with 2. *)
Theorem C66_subdivision_order_partial : forall gbb N offset su, gbb <> [] -> (0 < N)%Z -> create_mesh_hierarchy gbb N offset = Some su ->
  let d := INR (length gbb) in let count := IZR (product (mh_dims (su_mh su))) in
  IZR N <= count * exp (d * IZR (su_order su - offset)) /\
  ((0 < su_order su)%Z -> count * exp (d * IZR (su_order su - 1 - offset)) < IZR N).
Proof. intros gbb N offset su H1 H2 H3. cbn zeta. rewrite <- L_Coarse2.zprod_product. exact (hierarchy_order gbb N offset su H1 H2 H3). Qed.
Print Assumptions C66_subdivision_order_partial.
(** C66 as the code comment states it, FALSE: the number of fine cells is not of the order of the number of elements,
    for any constant (natural logarithm where base 2 is needed, particle_mesh_interface.hpp 577-583). *)
Theorem C66_fine_cells_match_elements_refuted : ~ exists K : Z, forall gbb N su, gbb <> [] -> (0 < N)%Z ->
  create_mesh_hierarchy gbb N 0 = Some su -> (N <= K * product (fine_counts (su_mh su)))%Z.
Proof. exact order_unbounded. Qed.
Print Assumptions C66_fine_cells_match_elements_refuted.
Example C66_nonvacuous : exists su, create_mesh_hierarchy unit_square 65536 0 = Some su /\ (su_order su <= 7)%Z.
Proof.
  destruct (L_MeshIf2.create_total unit_square 65536 0) as (su & H); [repeat constructor; simpl; lra|]. exists su. split; auto. exact (proj1 (unit_square_order 1 su H)).
Qed.
