(** Property theorems C39-C42 (finding the boundary elements hit by the particles). *)
From Coq Require Import Sorting.Permutation Sorting.Sorted ZArith Lia Bool Reals Lra.
From Verif Require Import M_Bytes M_Transport M_Exchange M_Util M_MeshIf S_Grid S_MeshIf S_Halo M_LinePlane S_LinePlane M_Composite S_Composite.
From Verif Require Import L_RealBase L_Grid L_MeshIf L_MeshIf2 L_Transport L_Exchange L_HaloCells L_CompCells L_Composite L_CompEnd L_CompSetup.
From Flocq Require Import Core.Raux.
From Coq Require Import List.
Import ListNotations.
Local Open Scope Z_scope.

(** C39: for every particle set, every order of the concurrent writes and every previous buffer
    size, the kernel does not overrun its buffer; it finds grid cells only; and if the index box of a
    trajectory meets the grid, every cell the intersection kernel scans is found. *)
Theorem C39_scanned_cells_are_found : forall m particles old_size arrival, mh_ok m ->
  Forall (Forall (fun c => length c = mh_ndim m)) particles -> Permutation arrival (find_cells_writes m particles) ->
  exists s, find_cells m particles old_size arrival = Ok s /\ StronglySorted Z.lt s /\
    (forall g, In g s -> exists t, cell_at m g t) /\
    (forall carts a b g, In carts particles -> In a carts -> In b carts -> trajectory_meets (fine_counts m) a b ->
       In g (scan_cells m a b) -> In g s).
Proof.
  intros m particles old_size arrival Hm Hl HP. destruct (find_cells_ok m Hm particles Hl old_size arrival HP) as (s & E & Hs & Hg). exists s.
  split; auto. split; auto. split; [intros g Hi; apply Hg in Hi; eapply writes_in_grid; eauto|].
  intros carts a b g Hc Ha Hb Hmt Hi. apply Hg. apply scan_meets in Hi as (t & Ht & Hsp); auto. eapply (writes_cover m Hm particles Hl carts a b t g); eauto.
Qed.
Print Assumptions C39_scanned_cells_are_found.
(** C39: the set found does not depend on the order of the writes nor on the buffer size *)
Theorem C39_order_independent : forall m particles o o' arrival arrival' s s', mh_ok m ->
  Forall (Forall (fun c => length c = mh_ndim m)) particles -> Permutation arrival (find_cells_writes m particles) -> Permutation arrival' (find_cells_writes m particles) ->
  find_cells m particles o arrival = Ok s -> find_cells m particles o' arrival' = Ok s' -> forall g, In g s <-> In g s'.
Proof.
  intros m particles o o' arrival arrival' s s' Hm Hl H1 H2 E1 E2 g.
  destruct (find_cells_ok m Hm particles Hl o arrival H1) as (x & Ex & _ & Gx). destruct (find_cells_ok m Hm particles Hl o' arrival' H2) as (y & Ey & _ & Gy).
  rewrite E1 in Ex. injection Ex as <-. rewrite E2 in Ey. injection Ey as <-. rewrite Gx, Gy. tauto.
Qed.
Print Assumptions C39_order_independent.
(** C39: the kernel scans the cells of the index box of the trajectory clipped to the grid, and for
    any index tuples whatsoever only cells of the grid *)
Theorem C39_scan_is_the_spanned_box : forall m a b g, mh_ok m -> trajectory_meets (fine_counts m) a b ->
  (In g (scan_cells m a b) <-> exists t, cell_at m g t /\ spanned (fine_counts m) a b t).
Proof. exact scan_meets. Qed.
Print Assumptions C39_scan_is_the_spanned_box.
Theorem C39_scan_stays_in_grid : forall m a b g, mh_ok m -> length a = mh_ndim m -> length b = mh_ndim m ->
  In g (scan_cells m a b) -> exists t, cell_at m g t.
Proof. intros m a b g Hm L1 L2 H. apply in_scan in H as (t & Ht & _); eauto. Qed.
Print Assumptions C39_scan_stays_in_grid.
Definition ex39 : mhier := mkMH [2; 1] [0%R; 0%R] 2 1%R.
Lemma ex39_ok : mh_ok ex39.
Proof. unfold mh_ok, ex39. cbn [mh_dims mh_origin mh_nf mh_cwc length]. split; auto. split; [repeat constructor; lia|]. split; [lia|lra]. Qed.
(** grid of 4 x 2 fine cells; one particle leaves through the right side, two NESO cells *)
Example C39_nonvacuous : let particles := [[[0; 1]; [5; 1]]; [[1; -3]; [1; 0]]] in
  Forall (Forall (fun c => length c = mh_ndim ex39)) particles /\ trajectory_meets (fine_counts ex39) [0; 1] [5; 1] /\
  scan_cells ex39 [0; 1] [5; 1] = [2; 3; 6; 7] /\ find_cells_writes ex39 particles = [2; 3; 6; 7; 1] /\
  find_cells ex39 particles 0 [7; 1; 3; 6; 2] = Ok [1; 2; 3; 6; 7].
Proof.
  cbv zeta. split; [repeat constructor|]. split; [|vm_compute; auto]. split; auto. split; auto.
  intros [|[|[|d]]] n x y H1 H2 H3; try discriminate; injection H1 as <-; injection H2 as <-; injection H3 as <-; split; vm_compute; congruence.
Qed.
(** a trajectory wholly on one side of the grid is scanned over a whole dimension although nothing
    was collected for it: the hypothesis of the first theorem matters, the scan is harmless *)
Example C39_outside : scan_cells ex39 [5; 0] [6; 0] = [0; 1; 4; 5] /\ find_cells_writes ex39 [[[5; 0]; [6; 0]]] = [].
Proof. split; reflexivity. Qed.

(** C40: whatever the elements and the cells, the particle's result is the nearest of the hits of
    the elements of the scanned cells closer than the largest double, or none. *)
Theorem C40_nearest_2d : forall tree lli prev cell m p q,
  nearest p (candidate tree cc_segs (lli p q) (scan_cells m prev cell)) (find_intersections_2d tree lli prev cell m p q).
Proof. exact nearest_2d. Qed.
Print Assumptions C40_nearest_2d.
Theorem C40_nearest_3d : forall tree nq nt grid prev cell m p q,
  nearest p (fun e i => candidate tree cc_quads (test_quad nq grid p q) (scan_cells m prev cell) e i \/
                        candidate tree cc_tris (test_tri nt p q) (scan_cells m prev cell) e i)
    (find_intersections_3d tree nq nt grid prev cell m p q).
Proof. exact nearest_3d. Qed.
Print Assumptions C40_nearest_3d.
(** C40: what a hit of one face is. A reported point is on the trajectory, in the plane of the face, within the sphere
    around its vertices, and the inversion of the face's map converged from some starting point of the grid ... *)
Theorem C40_face_hit_sound : forall nq nt grid p q g i,
  (test_quad nq grid p q g = Some i -> exists l g0 g1, lpi_make false (bg_verts g) = Some l /\ on_segment p q i /\
     in_plane (lp_point l) (lp_normal l) i /\ point_near l i = true /\ 0 <= g0 <= grid /\ 0 <= g1 <= grid /\ nq g i g0 g1 = true) /\
  (test_tri nt p q g = Some i -> exists l, lpi_make false (bg_verts g) = Some l /\ on_segment p q i /\
     in_plane (lp_point l) (lp_normal l) i /\ point_near l i = true /\ nt g i = true).
Proof. exact face_hit_sound. Qed.
Print Assumptions C40_face_hit_sound.
(** ... and a trajectory crossing a planar face at [x], not along it, is a hit at [x] as soon as the inversion at [x]
    converges from one of the starting points. *)
Theorem C40_crossed_face_hit : forall nq nt grid p q g l x, lpi_make false (bg_verts g) = Some l -> planar (bg_verts g) ->
  convex_combination (bg_verts g) x -> on_segment p q x -> ~ parallel (lp_normal l) p q ->
  (forall g0 g1, 0 <= g0 <= grid -> 0 <= g1 <= grid -> nq g x g0 g1 = true -> test_quad nq grid p q g = Some x) /\
  (nt g x = true -> test_tri nt p q g = Some x).
Proof. exact crossed_face_hit. Qed.
Print Assumptions C40_crossed_face_hit.
(** two segments hit at x = 1 and x = 1/2: the second is reported *)
Definition ex40_lli (p q : v3) (g : bgeom) : option v3 := if bg_id g =? 7 then Some (mkV3 1 0 0) else if bg_id g =? 9 then Some (mkV3 (1/2) 0 0) else None.
Definition ex40_tree : list (Z * coll) := [(0, mkColl [] [] [mkDelem 100 (mkBgeom 7 2 []); mkDelem 200 (mkBgeom 9 2 [])]); (1, mkColl [] [] [mkDelem 100 (mkBgeom 8 2 [])])].
Example C40_nonvacuous : find_intersections_2d ex40_tree ex40_lli [0; 0] [1; 0] ex39 (mkV3 0 0 0) (mkV3 2 0 0) = Some (mkBhit 200 9 (mkV3 (1/2) 0 0)).
Proof.
  pose proof (C40_nearest_2d ex40_tree ex40_lli [0; 0] [1; 0] ex39 (mkV3 0 0 0) (mkV3 2 0 0)) as H.
  replace (scan_cells ex39 [0; 0] [1; 0]) with [0; 1] in H by reflexivity.
  pose proof DBL_MAX_ge_1 as HM.
  assert (Hc : candidate ex40_tree cc_segs (ex40_lli (mkV3 0 0 0) (mkV3 2 0 0)) [0; 1] (mkDelem 200 (mkBgeom 9 2 [])) (mkV3 (1/2) 0 0)).
  { exists 0, (mkColl [] [] [mkDelem 100 (mkBgeom 7 2 []); mkDelem 200 (mkBgeom 9 2 [])]). repeat split; simpl; auto. }
  destruct (find_intersections_2d _ _ _ _ _ _ _) as [h|]; simpl in H.
  - destruct H as (e & i & (c & cc & Hin & Hz & He & Ht) & Hh & _ & Hmin). specialize (Hmin _ _ Hc). unfold sq_dist in Hmin. cbn [vx vy vz] in Hmin.
    destruct Hin as [<-|[<-|[]]]; injection Hz as <-; simpl in He; repeat destruct He as [He|He]; try contradiction; subst e; cbn in Ht; try discriminate; injection Ht as <-; cbn [vx vy vz] in Hmin; [lra|].
    rewrite Hh. reflexivity.
  - specialize (H _ _ Hc). unfold sq_dist in H. cbn [vx vy vz] in H. lra.
Qed.

(** C41: the constructor accepts the groups exactly if no composite is listed twice; each listed
    composite is then mapped to the one group listing it, and the composites looked for are the listed ones. *)
Theorem C41_one_group_per_composite : forall groups,
  match groups_setup groups ([], []) with
  | Ok (indices, c2g) => NoDup (flat_map snd groups) /\ indices = flat_map snd groups /\
      (forall c g, zget c2g c = Some g <-> in_group groups g c) /\
      (forall c g g', in_group groups g c -> in_group groups g' c -> g = g')
  | AssertFail => ~ NoDup (flat_map snd groups)
  | UB => False
  end.
Proof.
  intros groups. pose proof (groups_setup_spec groups ([], []) (NoDup_nil _)) as H. destruct (groups_setup groups ([], [])) as [[ind c2g]| |]; auto.
  cbn [fst snd app] in H. destruct H as (H1 & H2 & H3 & _). unfold listed in H2. rewrite H2 in H1. split; auto. split; auto.
  assert (G : forall c g, zget c2g c = Some g <-> in_group groups g c) by (intros c g; apply H3; [intros []|reflexivity]).
  split; auto. intros c g g' A B. apply G in A, B. congruence.
Qed.
Print Assumptions C41_one_group_per_composite.
(** C41: the elements collected on a rank are those of the listed composites; the constructor fails exactly if one of
    them is not a triangle or quadrilateral (3D), segment (2D). *)
Theorem C41_boundary_elements : forall ndim composites indices,
  match geometry_composites ndim composites indices with
  | Ok l => (forall x, In x l <-> In (cg_composite x) indices /\ exists gs, zget composites (cg_composite x) = Some gs /\ In (cg_geom x) gs) /\
            (forall x, In x l -> ndim = 3%nat /\ (bg_shape (cg_geom x) = 3 \/ bg_shape (cg_geom x) = 4) \/ ndim = 2%nat /\ bg_shape (cg_geom x) = 2)
  | AssertFail => exists ix gs g, In ix indices /\ zget composites ix = Some gs /\ In g gs /\
                    ~ (ndim = 3%nat /\ (bg_shape g = 3 \/ bg_shape g = 4) \/ ndim = 2%nat /\ bg_shape g = 2)
  | UB => False
  end.
Proof. exact boundary_elements. Qed.
Print Assumptions C41_boundary_elements.
(** the hypothesis [contents_ok] of C40 and C42 is met after a successful construction *)
Theorem C41_contents_storable : forall ndim groups indices c2g size composites gcs m bx has_owner,
  groups_setup groups ([], []) = Ok (indices, c2g) -> (ndim = 2%nat \/ ndim = 3%nat) ->
  (forall a, 0 <= a < size -> geometry_composites ndim (composites a) indices = Ok (gcs a)) ->
  contents_ok ndim c2g (container size (fun a => cell_geom_map m bx has_owner (gcs a))).
Proof. exact setup_contents_ok. Qed.
Print Assumptions C41_contents_storable.
Example C41_elements_nonvacuous : geometry_composites 2 [(1, [mkBgeom 5 2 []; mkBgeom 6 2 []]); (7, [mkBgeom 8 3 []])] [1; 4] = Ok [mkCgeom 1 (mkBgeom 5 2 []); mkCgeom 1 (mkBgeom 6 2 [])] /\
  geometry_composites 2 [(1, [mkBgeom 5 2 []; mkBgeom 6 3 []])] [1; 4] = AssertFail.
Proof. split; reflexivity. Qed.
(** C41: the particles of the sub-group of a label are those with a hit of that group; sub-groups of
    different labels share no particle, and every particle whose hit has a known group is in one. *)
Theorem C41_sub_groups : forall groups result n, NoDup (map fst groups) ->
  NoDup (map fst (sub_groups groups result n)) /\
  (forall label l, In (label, l) (sub_groups groups result n) ->
     NoDup l /\ forall i, In i l <-> (i < n)%nat /\ exists h, result i = Some h /\ bh_group h = label) /\
  (forall i h, (i < n)%nat -> result i = Some h -> In (bh_group h) (map fst groups) ->
     exists! gl, In gl (sub_groups groups result n) /\ In i (snd gl)).
Proof.
  intros groups result n Hn. rewrite sub_groups_labels. split; auto. split; [exact (sub_groups_spec groups result n)|].
  intros i h Hi Hr Hg. rewrite <- (sub_groups_labels groups result n) in Hg. apply in_map_iff in Hg as ([lb l] & Hlb & Hl). cbn [fst] in Hlb. subst lb.
  exists (bh_group h, l). split.
  - split; auto. cbn [snd]. eapply sub_groups_spec; eauto.
  - intros [lb' l'] [Hl' Hi']. cbn [snd] in Hi'. destruct (sub_groups_spec _ _ _ _ _ Hl') as [_ H]. apply H in Hi' as (_ & h' & E & E').
    rewrite Hr in E. injection E as <-. subst lb'.
    assert (Hnd : NoDup (map fst (sub_groups groups result n))) by now rewrite sub_groups_labels.
    pose proof (proj2 (zget_in _ _ _ Hnd) Hl) as A. pose proof (proj2 (zget_in _ _ _ Hnd) Hl') as B. congruence.
Qed.
Print Assumptions C41_sub_groups.
Example C41_nonvacuous : groups_setup [(10, [1; 2]); (20, [3])] ([], []) = Ok ([1; 2; 3], [(1, 10); (2, 10); (3, 20)]) /\
  groups_setup [(10, [1; 2]); (20, [2])] ([], []) = AssertFail /\
  sub_groups [(10, [1; 2]); (20, [3])] (fun i => if Nat.eqb i 1 then None else if Nat.eqb i 2 then Some (mkBhit 20 5 (mkV3 0 0 0)) else Some (mkBhit 10 6 (mkV3 0 0 0))) 4 = [(10, [0; 3]%nat); (20, [2]%nat)].
Proof. split; [reflexivity|]. split; reflexivity. Qed.

(** C42: on every rank, after any history of collective requests, exactly the cells asked for are
    held, each non-empty one with all its elements (kind, composite group, geometry, in order) and
    nothing else. *)
Theorem C42_collected_after_any_history : forall size ndim c2g contents hist sts, contents_ok ndim c2g contents ->
  collect_history size ndim c2g contents hist sts -> forall a, 0 <= a < size -> holds_cells c2g contents (asked_by hist a) (sts a).
Proof. intros size ndim c2g contents hist sts Hok H a Ha. apply rinv_collected. eapply history_inv; eauto. Qed.
Print Assumptions C42_collected_after_any_history.
(** C42: the next collective request always completes and leaves what was stored unchanged *)
Theorem C42_next_request_completes : forall size ndim c2g contents hist sts reqs, contents_ok ndim c2g contents ->
  collect_history size ndim c2g contents hist sts ->
  exists sts', (forall a, 0 <= a < size -> collect_geometry size ndim c2g contents sts reqs a = Ok (sts' a)) /\
    collect_history size ndim c2g contents (hist ++ [reqs]) sts' /\
    forall a, 0 <= a < size -> forall c cc, zget (cs_tree (sts a)) c = Some cc -> zget (cs_tree (sts' a)) c = Some cc.
Proof. intros. eapply history_step; eauto. Qed.
Print Assumptions C42_next_request_completes.
(** C42: cells already asked for are not transferred again; if no rank asks for a new cell the
    collective gather is not entered by any rank, and otherwise by all of them *)
Theorem C42_held_cells_not_transferred : forall size ndim c2g contents hist sts reqs, contents_ok ndim c2g contents ->
  collect_history size ndim c2g contents hist sts -> 0 < size ->
  (forall a c, 0 <= a < size -> (In c (new_cells (sts a) (reqs a)) <-> In c (reqs a) /\ ~ In c (asked_by hist a))) /\
  (gather_entered size sts reqs = true <-> exists a c, 0 <= a < size /\ In c (reqs a) /\ ~ In c (asked_by hist a)).
Proof.
  intros size ndim c2g contents hist sts reqs Hok H Hs.
  assert (G : forall a c, 0 <= a < size -> (In c (new_cells (sts a) (reqs a)) <-> In c (reqs a) /\ ~ In c (asked_by hist a))).
  { intros a c Ha. rewrite new_cells_in. destruct (history_inv ndim c2g contents Hok size hist sts H a Ha) as (_ & E & _). rewrite E. tauto. }
  split; auto. split.
  - intros E. destruct (L_Util.fold_max_in (map (fun a => Z.of_nat (length (new_cells (sts a) (reqs a)))) (ranks size)) (-1)) as [Hv|Hv].
    + destruct (L_Util.fold_max_ge (map (fun a => Z.of_nat (length (new_cells (sts a) (reqs a)))) (ranks size)) (-1)) as [_ HF]. rewrite Forall_forall in HF.
      specialize (HF (Z.of_nat (length (new_cells (sts 0) (reqs 0))))). rewrite Hv in HF. exfalso.
      assert (Z.of_nat (length (new_cells (sts 0) (reqs 0))) <= -1) by (apply HF, in_map_iff; exists 0; split; auto; apply in_ranks; lia). lia.
    + apply in_map_iff in Hv as (a & Ea & Ha). apply in_ranks in Ha. unfold gather_entered in E. rewrite <- Ea in E.
      destruct (new_cells (sts a) (reqs a)) as [|c l] eqn:El; [discriminate|]. exists a, c. split; auto. apply G; auto. rewrite El. simpl; auto.
  - intros (a & c & Ha & Hc). destruct (gather_entered size sts reqs) eqn:E; auto. apply (not_entered size sts reqs a) in E; auto.
    apply G in Hc; auto. rewrite E in Hc. destruct Hc.
Qed.
Print Assumptions C42_held_cells_not_transferred.
Definition ex42_contents (c : Z) : list cgeom := if c =? 3 then [mkCgeom 1 (mkBgeom 7 4 []); mkCgeom 2 (mkBgeom 8 3 [])] else [].
Example C42_nonvacuous : contents_ok 3 [(1, 10); (2, 20)] ex42_contents /\
  exists sts, collect_history 2 3 [(1, 10); (2, 20)] ex42_contents [fun a => if a =? 0 then [3; 4] else []] sts /\
    zget (cs_tree (sts 0)) 3 = Some (mkColl [mkDelem 10 (mkBgeom 7 4 [])] [mkDelem 20 (mkBgeom 8 3 [])] []).
Proof.
  assert (Hok : contents_ok 3 [(1, 10); (2, 20)] ex42_contents).
  { split; auto. intros c x. unfold ex42_contents. destruct (c =? 3); [|intros []]. intros [<-|[<-|[]]]; split; try reflexivity; eexists; reflexivity. }
  split; auto.
  destruct (C42_next_request_completes 2 3 _ _ [] (fun _ => cs_init) (fun a => if a =? 0 then [3; 4] else []) Hok (CHNil _ _ _ _)) as (sts' & E & H & _).
  exists sts'. split; [exact H|]. specialize (E 0 ltac:(lia)). vm_compute in E. injection E as <-. reflexivity.
Qed.

(** C39 to C42 together, no hit is missed: if the cells of the trajectory p to q were found and
    collected, and some boundary element on some rank is hit at [i] in reach (within its padded
    bounding box, in an owned grid cell), a hit at least as near as [i] is reported. *)
Theorem C40_no_hit_missed_3d : forall m cart size c2g bx has_owner gcs particles old_size arrival hist reqs sts,
  let contents := container size (fun a => cell_geom_map m bx has_owner (gcs a)) in
  mh_ok m -> mh_ndim m = 3%nat -> cart_ok m cart -> (forall b x, In x (gcs b) -> length (bx (cg_geom x)) = 3%nat) ->
  contents_ok 3 c2g contents -> collect_history size 3 c2g contents (hist ++ [reqs]) sts ->
  forall a, 0 <= a < size ->
  Forall (Forall (fun c => length c = 3%nat)) particles -> Permutation arrival (find_cells_writes m particles) ->
  find_cells m particles old_size arrival = Ok (reqs a) ->
  forall carts p q, In carts particles -> In (index_of cart 3 p) carts -> In (index_of cart 3 q) carts ->
  forall nq nt grid b x i, 0 <= b < size -> In x (gcs b) -> in_reach m cart bx has_owner (cg_geom x) i -> (sq_dist p i < DBL_MAX)%R ->
  (bg_shape (cg_geom x) = 4 /\ test_quad nq grid p q (cg_geom x) = Some i \/ bg_shape (cg_geom x) = 3 /\ test_tri nt p q (cg_geom x) = Some i) ->
  exists h, find_intersections_3d (cs_tree (sts a)) nq nt grid (index_of cart 3 p) (index_of cart 3 q) m p q = Some h /\
    (sq_dist p (bh_point h) <= sq_dist p i)%R.
Proof.
  intros m cart size c2g bx has_owner gcs particles old_size arrival hist reqs sts contents Hm Hd Hcart Hbx Hok Hh a Ha Hpl HP HF carts p q Hc Hp Hq nq nt grid b x i Hb Hx Hr Hdm Hhit.
  rewrite <- Hd in *. assert (Hd3 : (mh_ndim m <= 3)%nat) by lia.
  assert (Hasked : on_segment p q i -> forall c t, cell_at m c t -> spanned (fine_counts m) (index_of cart (mh_ndim m) p) (index_of cart (mh_ndim m) q) t -> In c (asked_by (hist ++ [reqs]) a)).
  { intros Hs c t Hct Hsp. destruct Hr as (_ & c0 & Hc0 & _). destruct (index_between m cart Hd3 Hcart p q i Hs (cell_at_fine m c0 _ Hm Hc0)) as [Hmt _].
    destruct (C39_scanned_cells_are_found m particles old_size arrival Hm Hpl HP) as (s & E & _ & _ & Hscan). rewrite HF in E. injection E as <-.
    rewrite asked_app, in_app_iff. right. apply (Hscan carts _ _ c Hc Hp Hq Hmt). apply scan_meets; auto. exists t. auto. }
  pose proof (C40_nearest_3d (cs_tree (sts a)) nq nt grid (index_of cart (mh_ndim m) p) (index_of cart (mh_ndim m) q) m p q) as Hn.
  assert (Hcand : exists e, candidate (cs_tree (sts a)) cc_quads (test_quad nq grid p q) (scan_cells m (index_of cart (mh_ndim m) p) (index_of cart (mh_ndim m) q)) e i \/
     candidate (cs_tree (sts a)) cc_tris (test_tri nt p q) (scan_cells m (index_of cart (mh_ndim m) p) (index_of cart (mh_ndim m) q)) e i).
  { destruct Hhit as [[Hk Ht]|[Hk Ht]].
    - assert (Hs : on_segment p q i) by (eapply test_quad_segment; eauto).
      destruct (reach_candidate m cart Hm Hd3 Hcart size c2g bx has_owner gcs Hbx Hok (hist ++ [reqs]) sts a cc_quads 4 (test_quad nq grid p q) b x p q i) as [e He]; [intros cc l H; apply H|exact Hh|exact Ha|exact (Hasked Hs)|exact Hb|exact Hx|exact Hk|exact Hr|exact Hs|exact Ht|]. eauto.
    - assert (Hs : on_segment p q i) by (eapply test_tri_segment; eauto).
      destruct (reach_candidate m cart Hm Hd3 Hcart size c2g bx has_owner gcs Hbx Hok (hist ++ [reqs]) sts a cc_tris 3 (test_tri nt p q) b x p q i) as [e He]; [intros cc l H; apply H|exact Hh|exact Ha|exact (Hasked Hs)|exact Hb|exact Hx|exact Hk|exact Hr|exact Hs|exact Ht|]. eauto. }
  destruct Hcand as [e Hcand]. destruct (find_intersections_3d _ _ _ _ _ _ _ _ _) as [h|]; simpl in Hn.
  - destruct Hn as (e' & i' & _ & Hh' & _ & Hmin). exists h. split; auto. unfold is_hit in Hh'. rewrite Hh'. cbn [bh_point]. eapply Hmin; eauto.
  - specialize (Hn _ _ Hcand). lra.
Qed.
Print Assumptions C40_no_hit_missed_3d.
Theorem C40_no_hit_missed_2d : forall m cart size c2g bx has_owner gcs particles old_size arrival hist reqs sts,
  let contents := container size (fun a => cell_geom_map m bx has_owner (gcs a)) in
  mh_ok m -> mh_ndim m = 2%nat -> cart_ok m cart -> (forall b x, In x (gcs b) -> length (bx (cg_geom x)) = 2%nat) ->
  contents_ok 2 c2g contents -> collect_history size 2 c2g contents (hist ++ [reqs]) sts ->
  forall a, 0 <= a < size ->
  Forall (Forall (fun c => length c = 2%nat)) particles -> Permutation arrival (find_cells_writes m particles) ->
  find_cells m particles old_size arrival = Ok (reqs a) ->
  forall carts p q, In carts particles -> In (index_of cart 2 p) carts -> In (index_of cart 2 q) carts ->
  forall lli b x i, 0 <= b < size -> In x (gcs b) -> in_reach m cart bx has_owner (cg_geom x) i -> (sq_dist p i < DBL_MAX)%R ->
  lli p q (cg_geom x) = Some i -> on_segment p q i ->
  exists h, find_intersections_2d (cs_tree (sts a)) lli (index_of cart 2 p) (index_of cart 2 q) m p q = Some h /\
    (sq_dist p (bh_point h) <= sq_dist p i)%R.
Proof.
  intros m cart size c2g bx has_owner gcs particles old_size arrival hist reqs sts contents Hm Hd Hcart Hbx Hok Hh a Ha Hpl HP HF carts p q Hc Hp Hq lli b x i Hb Hx Hr Hdm Ht Hs.
  rewrite <- Hd in *. assert (Hd3 : (mh_ndim m <= 3)%nat) by lia.
  assert (Hasked : forall c t, cell_at m c t -> spanned (fine_counts m) (index_of cart (mh_ndim m) p) (index_of cart (mh_ndim m) q) t -> In c (asked_by (hist ++ [reqs]) a)).
  { intros c t Hct Hsp. destruct Hr as (_ & c0 & Hc0 & _). destruct (index_between m cart Hd3 Hcart p q i Hs (cell_at_fine m c0 _ Hm Hc0)) as [Hmt _].
    destruct (C39_scanned_cells_are_found m particles old_size arrival Hm Hpl HP) as (s & E & _ & _ & Hscan). rewrite HF in E. injection E as <-.
    rewrite asked_app, in_app_iff. right. apply (Hscan carts _ _ c Hc Hp Hq Hmt). apply scan_meets; auto. exists t. auto. }
  pose proof (C40_nearest_2d (cs_tree (sts a)) lli (index_of cart (mh_ndim m) p) (index_of cart (mh_ndim m) q) m p q) as Hn.
  assert (Hk : bg_shape (cg_geom x) = 2).
  { destruct (reach_contents m cart Hm Hd3 Hcart size bx has_owner gcs Hbx b x i Hb Hx Hr) as (c & _ & Hin). destruct Hok as [_ Hok]. destruct (Hok c x Hin) as [H _].
    unfold shape_ok in H. rewrite Hd in H. now apply Z.eqb_eq. }
  destruct (reach_candidate m cart Hm Hd3 Hcart size c2g bx has_owner gcs Hbx Hok (hist ++ [reqs]) sts a cc_segs 2 (lli p q) b x p q i) as [e Hcand]; [intros cc l H; apply H|exact Hh|exact Ha|exact Hasked|exact Hb|exact Hx|exact Hk|exact Hr|exact Hs|exact Ht|].
  destruct (find_intersections_2d _ _ _ _ _ _ _) as [h|]; simpl in Hn.
  - destruct Hn as (e' & i' & _ & Hh' & _ & Hmin). exists h. split; auto. unfold is_hit in Hh'. rewrite Hh'. cbn [bh_point]. eapply Hmin; eauto.
  - specialize (Hn _ _ Hcand). lra.
Qed.
Print Assumptions C40_no_hit_missed_2d.
(** and what is reported is a hit of an element of some rank, with the group and id of that element *)
Theorem C40_reported_hit_is_real_3d : forall m size c2g bx has_owner gcs hist sts,
  let contents := container size (fun a => cell_geom_map m bx has_owner (gcs a)) in
  mh_ndim m = 3%nat -> contents_ok 3 c2g contents -> collect_history size 3 c2g contents hist sts ->
  forall a prev cell nq nt grid p q h, 0 <= a < size ->
  find_intersections_3d (cs_tree (sts a)) nq nt grid prev cell m p q = Some h ->
  exists b x, 0 <= b < size /\ In x (gcs b) /\ zget c2g (cg_composite x) = Some (bh_group h) /\ bh_id h = bg_id (cg_geom x) /\ on_segment p q (bh_point h) /\
    (bg_shape (cg_geom x) = 4 /\ test_quad nq grid p q (cg_geom x) = Some (bh_point h) \/ bg_shape (cg_geom x) = 3 /\ test_tri nt p q (cg_geom x) = Some (bh_point h)).
Proof.
  intros m size c2g bx has_owner gcs hist sts contents Hd Hok Hh a prev cell nq nt grid p q h Ha E. rewrite <- Hd in *.
  pose proof (C40_nearest_3d (cs_tree (sts a)) nq nt grid prev cell m p q) as Hn. rewrite E in Hn. destruct Hn as (e & i & Hcand & Hh' & _ & _).
  unfold is_hit in Hh'. subst h. cbn [bh_group bh_id bh_point]. destruct Hcand as [Hcand|Hcand].
  - destruct (candidate_back m size c2g bx has_owner gcs Hok hist sts a cc_quads 4 _ _ e i ltac:(intros cc l H; apply H) Hh Ha Hcand) as (b & x & Hb & Hx & Hk & Ht & Hz & Eg).
    exists b, x. rewrite Eg. split; auto. split; auto. split; auto. split; auto. split; [eapply test_quad_segment; eauto|auto].
  - destruct (candidate_back m size c2g bx has_owner gcs Hok hist sts a cc_tris 3 _ _ e i ltac:(intros cc l H; apply H) Hh Ha Hcand) as (b & x & Hb & Hx & Hk & Ht & Hz & Eg).
    exists b, x. rewrite Eg. split; auto. split; auto. split; auto. split; auto. split; [eapply test_tri_segment; eauto|auto].
Qed.
Print Assumptions C40_reported_hit_is_real_3d.
Theorem C40_reported_hit_is_real_2d : forall m size c2g bx has_owner gcs hist sts,
  let contents := container size (fun a => cell_geom_map m bx has_owner (gcs a)) in
  mh_ndim m = 2%nat -> contents_ok 2 c2g contents -> collect_history size 2 c2g contents hist sts ->
  forall a prev cell lli p q h, 0 <= a < size ->
  find_intersections_2d (cs_tree (sts a)) lli prev cell m p q = Some h ->
  exists b x, 0 <= b < size /\ In x (gcs b) /\ zget c2g (cg_composite x) = Some (bh_group h) /\ bh_id h = bg_id (cg_geom x) /\
    bg_shape (cg_geom x) = 2 /\ lli p q (cg_geom x) = Some (bh_point h).
Proof.
  intros m size c2g bx has_owner gcs hist sts contents Hd Hok Hh a prev cell lli p q h Ha E. rewrite <- Hd in *.
  pose proof (C40_nearest_2d (cs_tree (sts a)) lli prev cell m p q) as Hn. rewrite E in Hn. destruct Hn as (e & i & Hcand & Hh' & _ & _).
  unfold is_hit in Hh'. subst h. cbn [bh_group bh_id bh_point].
  destruct (candidate_back m size c2g bx has_owner gcs Hok hist sts a cc_segs 2 _ _ e i ltac:(intros cc l H; apply H) Hh Ha Hcand) as (b & x & Hb & Hx & Hk & Ht & Hz & Eg).
  exists b, x. rewrite Eg. auto 8.
Qed.
Print Assumptions C40_reported_hit_is_real_2d.

(** a rank holds the segment x = 5/4, 0 <= y <= 3/5 ; the particle goes from (1/4, 3/10) to (7/4, 3/10) *)
Definition ex_seg : bgeom := mkBgeom 7 2 [].
Definition ex_box (g : bgeom) : list (R * R) := [(5/4, 5/4)%R; (0, 3/5)%R].
Definition ex_cart (d : nat) (x : R) : Z := Zfloor ((x - nth d (mh_origin ex39) 0%R) * mh_icw ex39).
Definition ex_gcs (b : Z) : list cgeom := if b =? 0 then [mkCgeom 1 ex_seg] else [].
Definition ex_p := mkV3 (1/4) (3/10) 0.
Definition ex_q := mkV3 (7/4) (3/10) 0.
Definition ex_i := mkV3 (5/4) (3/10) 0.
Lemma ex_icw : mh_icw ex39 = 2%R.
Proof. unfold mh_icw, mh_cw, ex39. cbn [mh_cwc mh_nf]. field. Qed.
Lemma ex_index : index_of ex_cart 2 ex_p = [0; 0] /\ index_of ex_cart 2 ex_q = [3; 0] /\ index_of ex_cart 2 ex_i = [2; 0].
Proof.
  unfold index_of, coords, ex_cart, ex_p, ex_q, ex_i. rewrite ex_icw. cbn [vx vy vz firstn combine seq map fst snd nth ex39 mh_origin].
  repeat split; repeat f_equal; apply Zfloor_imp; simpl; lra.
Qed.
Example C40_end_to_end_nonvacuous : exists sts particles arrival reqs,
  let contents := container 2 (fun a => cell_geom_map ex39 ex_box (fun _ => true) (ex_gcs a)) in
  mh_ok ex39 /\ mh_ndim ex39 = 2%nat /\ cart_ok ex39 ex_cart /\ contents_ok 2 [(1, 10)] contents /\
  collect_history 2 2 [(1, 10)] contents ([] ++ [reqs]) sts /\ Permutation arrival (find_cells_writes ex39 particles) /\
  find_cells ex39 particles 0 arrival = Ok (reqs 1) /\ In [index_of ex_cart 2 ex_p; index_of ex_cart 2 ex_q] particles /\
  In (mkCgeom 1 ex_seg) (ex_gcs 0) /\ in_reach ex39 ex_cart ex_box (fun _ => true) ex_seg ex_i /\ on_segment ex_p ex_q ex_i /\ (sq_dist ex_p ex_i < DBL_MAX)%R.
Proof.
  set (contents := container 2 (fun a => cell_geom_map ex39 ex_box (fun _ => true) (ex_gcs a))).
  set (particles := [[[0; 0]; [3; 0]]]).
  assert (Hok : contents_ok 2 [(1, 10)] contents).
  { split; auto. intros c x Hx. apply container_in in Hx as (b & _ & Hx & _). unfold ex_gcs in Hx. destruct (b =? 0); [|destruct Hx]. destruct Hx as [<-|[]].
    split; [reflexivity|eexists; reflexivity]. }
  destruct (C39_scanned_cells_are_found ex39 particles 0 (find_cells_writes ex39 particles) ex39_ok) as (s & Es & _); [repeat constructor|apply Permutation_refl|].
  destruct (C42_next_request_completes 2 2 _ _ [] (fun _ => cs_init) (fun a => if a =? 1 then s else []) Hok (CHNil _ _ _ _)) as (sts & _ & Hh & _).
  exists sts, particles, (find_cells_writes ex39 particles), (fun a => if a =? 1 then s else []). cbv zeta. destruct ex_index as (E1 & E2 & E3).
  split; [apply ex39_ok|]. split; [reflexivity|]. split; [apply floor_cart_ok, ex39_ok|]. split; auto. split; [exact Hh|]. split; [apply Permutation_refl|].
  split; [exact Es|]. split; [rewrite E1, E2; simpl; auto|]. split; [simpl; auto|]. split; [|split].
  - split.
    + unfold coords, ex_i, ex_box, padded, box_padding, max_side. cbn [vx vy vz firstn mh_ndim ex39 mh_dims length fold_left map fst snd]. rewrite Rlt_bool_true by lra.
      unfold fmax. rewrite (Rlt_bool_false (5 / 4 - 5 / 4) 0), (Rlt_bool_false (3 / 5 - 0)) by lra. constructor; [cbn [fst snd]; lra|]. constructor; [cbn [fst snd]; lra|constructor].
    + exists (mh_linear ex39 (mesh_tuple_to_mh_tuple ex39 [2; 0])). split; auto. change (mh_ndim ex39) with 2%nat. rewrite E3. apply cell_at_num; [apply ex39_ok|].
      repeat constructor; vm_compute; congruence.
  - exists (2/3)%R. split; [lra|]. unfold along, ex_p, ex_q, ex_i. cbn [vx vy vz]. f_equal; field.
  - unfold sq_dist, ex_p, ex_i. cbn [vx vy vz]. pose proof DBL_MAX_ge_1. lra.
Qed.
