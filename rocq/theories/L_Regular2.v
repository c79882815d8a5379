From Verif Require Import M_RealBase M_Grid M_Coord M_NewtonMap M_NewtonBind M_Regular S_Newton S_NewtonM S_NewtonBind S_Regular
  L_RealBase L_Coord L_Newton L_Newton2 L_NewtonBind L_NewtonBind2 L_NewtonMap S_Grid L_Coarse L_Coarse2 L_Regular.

Lemma ref_in_cube s xi tol : 0 <= tol -> in_areference s xi -> exists eta, acollapse s xi = Some eta /\ in_cube_tol (adim s) tol eta.
Proof.
  intros Ht H. destruct s as [|e].
  - cbn [in_areference] in H. destruct H as [H Hz]. destruct xi as [[x y] z]. cbn [fst snd] in *.
    destruct (eta2_spec ATri x y z eq_refl) as (e0 & e1 & _ & E). exists (e0, e1, z). split; auto.
    cbn [acollapse fst snd] in E. change tri_to_collapsed with (to_collapsed2 Tri) in E.
    destruct (to_collapsed2 Tri (x, y)) as [[f0 f1]|] eqn:Q; [|discriminate]. injection E as -> ->.
    destruct (element2 Tri (x, y) (e0, e1) H Q) as [[C1 C2] _]. cbn [adim fst snd] in *. rewrite cube2_tol, !abs_range. lra.
  - assert (G : e = EQuad \/ exists s, e <> EQuad /\ acollapse (AElem e) xi = to_collapsed3 s xi /\ in_ref3 s xi).
    { destruct e; [left; auto|right; exists Tet|right; exists Pri|right; exists Hex|right; exists Pyr]; (split; [discriminate|split; [reflexivity|exact H]]). }
    destruct G as [->|(s & He & E & Hr)].
    + exists xi. split; auto. destruct xi as [[x y] z]. cbn in H. destruct H as [[H1 H2] H3]. cbn [adim ndims]. rewrite cube2_tol, !abs_range. lra.
    + destruct (to_collapsed3_total s xi) as (eta & Q). exists eta. rewrite E. split; auto.
      destruct (element3 s xi eta Hr Q) as [C _]. destruct eta as [[e0 e1] e2]. destruct C as (C1 & C2 & C3). cbn [fst snd] in *.
      replace (adim (AElem e)) with 3%nat by (destruct e; auto; congruence). rewrite cube3_tol, !abs_range. lra.
Qed.
Lemma cube_in_ref s xi eta : aaway s kNekZeroTol xi -> (adim s = 2%nat -> comp xi 2 = 0) -> acollapse s xi = Some eta -> in_cube_tol (adim s) 0 eta ->
  in_areference s xi.
Proof.
  intros Hw Hz H C. destruct s as [|e].
  - destruct xi as [[x y] z]. destruct eta as [[e0 e1] e2]. cbn [acollapse fst snd adim aaway in_areference] in *.
    change tri_to_collapsed with (to_collapsed2 Tri) in H. pose proof (roundtrip2 Tri (x, y) Hw) as R.
    destruct (to_collapsed2 Tri (x, y)) as [[f0 f1]|] eqn:Q; [|discriminate]. injection H as -> -> ->. cbn [option_map] in R. injection R as R. 
    rewrite cube2_tol, !abs_range in C. split; [|apply Hz; auto].
    pose proof (cube_to_ref2 Tri (e0, e1)) as K. unfold in_cube2 in K. cbn [fst snd] in K.
    rewrite <- (f_equal (in_ref2 Tri) (f_equal2 pair R H)). apply K. lra.
  - assert (G : e = EQuad \/ exists s, e <> EQuad /\ acollapse (AElem e) xi = to_collapsed3 s xi /\ away3 s kNekZeroTol xi /\ (in_ref3 s xi -> in_element e xi)).
    { destruct e; [left; auto|right; exists Tet|right; exists Pri|right; exists Hex|right; exists Pyr]; (split; [discriminate|split; [reflexivity|split; [|auto]]]); 
       destruct xi as [[? ?] ?]; cbn in Hw |- *; auto. }
    destruct G as [->|(s & He & E & Hr & Hi)].
    + cbn [acollapse] in H. injection H as <-. destruct xi as [[x y] z]. cbn [adim ndims] in *. rewrite cube2_tol, !abs_range in C.
      cbn. cbn in Hz. repeat split; try lra; auto.
    + rewrite E in H. pose proof (roundtrip3 s xi Hr) as R. rewrite H in R. cbn [option_map] in R. injection R as R.
      apply Hi. rewrite <- R. apply cube_to_ref3. replace (adim (AElem e)) with 3%nat in C by (destruct e; auto; congruence).
      destruct eta as [[e0 e1] e2]. rewrite cube3_tol, !abs_range in C. unfold in_cube3; cbn [fst snd]. lra.
Qed.
Lemma degenerate_rejected s g A b tol p : g_shape g = shape_number s -> is_affine s (g_verts g) A b -> det (adim s) A = 0 ->
  regular_accepts (adim s) tol g p = None.
Proof.
  intros Hs Ha Hdet. pose proof (affine_cols s (g_verts g) A b Ha) as HC.
  set (c := g_verts g) in *.
  assert (Hd : adim s = 2%nat \/ adim s = 3%nat) by (destruct s as [|[]]; cbn; auto).
  unfold regular_accepts. destruct Hd as [Hd|Hd]; rewrite Hd in *.
  - change (Nat.eqb 2 2) with true. cbn iota. unfold try_regular_2d. rewrite Hs.
    assert (HL : last_point_index (shape_number s) = Some (vix s 1)) by (destruct s as [|[]]; cbn in Hd; try discriminate; reflexivity).
    assert (V0 : vix s 0 = 1%nat) by (destruct s as [|[]]; cbn in Hd; try discriminate; reflexivity).
    rewrite HL. cbn [bind]. unfold vertex2. fold c.
    destruct (xi2_spec (c 0%nat 0%nat) (c 0%nat 1%nat) (c 1%nat 0%nat) (c 1%nat 1%nat) (c (vix s 1) 0%nat) (c (vix s 1) 1%nat) (fst (fst p)) (snd (fst p))) as [_ X].
    rewrite X; [reflexivity|]. cbn [det] in Hdet.
    rewrite (proj1 (HC 0%nat 0%nat ltac:(lia) ltac:(lia))), (proj1 (HC 0%nat 1%nat ltac:(lia) ltac:(lia))), (proj1 (HC 1%nat 0%nat ltac:(lia) ltac:(lia))), (proj1 (HC 1%nat 1%nat ltac:(lia) ltac:(lia))) in Hdet.
    rewrite V0 in Hdet. lra.
  - change (Nat.eqb 3 2) with false. cbn iota. unfold try_regular_3d. rewrite Hs.
    assert (HL : vertex_indices_3d (shape_number s) = Some (vix s 0, vix s 1, vix s 2)) by (destruct s as [|[]]; cbn in Hd; try discriminate; reflexivity).
    rewrite HL. cbn [bind]. destruct p as [[p0 p1] p2]. unfold vertex3. fold c.
    set (i0 := vix s 0) in *. set (i1 := vix s 1) in *. set (i2 := vix s 2) in *.
    destruct (xi3_spec (c 0%nat 0%nat) (c 0%nat 1%nat) (c 0%nat 2%nat) (c i0 0%nat) (c i0 1%nat) (c i0 2%nat) (c i1 0%nat) (c i1 1%nat) (c i1 2%nat)
       (c i2 0%nat) (c i2 1%nat) (c i2 2%nat) p0 p1 p2) as [_ X].
    rewrite X; [reflexivity|]. cbn [det] in Hdet.
    rewrite (proj1 (HC 0%nat 0%nat ltac:(lia) ltac:(lia))), (proj1 (HC 0%nat 1%nat ltac:(lia) ltac:(lia))), (proj1 (HC 0%nat 2%nat ltac:(lia) ltac:(lia))),
      (proj1 (HC 1%nat 0%nat ltac:(lia) ltac:(lia))), (proj1 (HC 1%nat 1%nat ltac:(lia) ltac:(lia))), (proj1 (HC 1%nat 2%nat ltac:(lia) ltac:(lia))),
      (proj1 (HC 2%nat 0%nat ltac:(lia) ltac:(lia))), (proj1 (HC 2%nat 1%nat ltac:(lia) ltac:(lia))), (proj1 (HC 2%nat 2%nat ltac:(lia) ltac:(lia))) in Hdet.
    fold i0 i1 i2 in Hdet. lra.
Qed.
Lemma host_agrees tol g p : 0 <= tol -> contains_point_2d tol g p = try_regular_2d tol g p.
Proof.
  intros Ht. unfold contains_point_2d, try_regular_2d.
  destruct (last_point_index (g_shape g)); [|reflexivity]. cbn [bind].
  destruct (regular_xi_2d _ _ _ _) as [xi|]; [|reflexivity]. cbn [bind].
  destruct (regular_eta_2d _ _) as [[e0 e1]|]; [|reflexivity]. cbn [bind fst snd].
  match goal with |- (if ?a then _ else _) = (if ?b then _ else _) => assert (Q : a = b); [|rewrite Q; reflexivity] end.
  apply Bool.eq_iff_eq_true. rewrite !andb_true_iff, !Rle_bool_iff, (dist2_le e0 e1 0), cube2_tol, !abs_range by auto. tauto.
Qed.

(** The mapper *)
Definition regs (geoms : list mgeom) := filter g_regular geoms.
Lemma regular_inv n tol geoms m : make_regular_mapper n tol geoms = Some m -> regs geoms <> [] -> NoDup (map g_id (regs geoms)) ->
  exists lk, make_lookup n (map g_box (regs geoms)) = Some lk /\
    m = {| rm_ndim := n; rm_tol := tol; rm_num_geoms := length (regs geoms); rm_lookup := Some lk; rm_tables := map Some (regs geoms) |}.
Proof.
  unfold make_regular_mapper. fold (regs geoms). intros H Hne Hn. destruct (regs geoms) as [|g0 gs]; [congruence|].
  set (all := g0 :: gs) in *. destruct (forallb _ all); [|discriminate].
  apply L_Grid.bind_some in H as (lk & El & H). exists lk. split; auto.
  pose proof (fill_tables_spec all Hn all [] eq_refl) as F. cbn [map app] in F.
  match type of F with fill_tables _ _ ?b = _ => change b with (repeat (@None mgeom) (length all)) in F end.
  rewrite F in H. cbn [bind] in H. injection H as <-. reflexivity.
Qed.
Lemma regular_exists n tol geoms : (0 < n)%nat -> good_geoms n (regs geoms) ->
  Forall (fun g => known_shape n (g_shape g) = true) (regs geoms) -> exists m, make_regular_mapper n tol geoms = Some m.
Proof.
  intros Hn (Hd & _ & Hb) Hk. unfold make_regular_mapper. fold (regs geoms). destruct (regs geoms) as [|g0 gs]; [eexists; reflexivity|].
  set (all := g0 :: gs) in *. assert (E0 : forallb (fun g => known_shape n (g_shape g)) all = true).
  { apply forallb_forall. rewrite Forall_forall in Hk. auto. }
  rewrite E0. destruct (L_Coarse2.make_lookup_ok n (map g_box all) Hn) as (lk & E & _); auto. { discriminate. }
  rewrite E. cbn [bind].
  pose proof (fill_tables_spec all Hd all [] eq_refl) as F. cbn [map app] in F.
  match type of F with fill_tables _ _ ?b = _ => change b with (repeat (@None mgeom) (length all)) in F end.
  rewrite F. cbn [bind]. eexists; reflexivity.
Qed.
Lemma regular_first n tol geoms m q : make_regular_mapper n tol geoms = Some m -> (1 <= n <= 3)%nat -> regs geoms <> [] ->
  good_geoms n (regs geoms) -> (n <= length (q_ref q))%nat -> (q_rank q < 0)%Z ->
  exists lk cands q', make_lookup n (map g_box (regs geoms)) = Some lk /\ kernel_candidates lk (q_pos q) = Some cands /\
    regular_kernel m q = Some q' /\ binds_first n (regs geoms) cands (fun g => regular_accepts n tol g (kernel_pos n q)) q q'.
Proof.
  intros H Hn Hne Hg Hl Hq. destruct (regular_inv n tol geoms m H Hne (proj1 Hg)) as (lk & El & ->). exists lk.
  destruct (coarse_first n (regs geoms) lk (fun g p => regular_accepts n tol g p) q El Hn Hg Hl Hq) as (cands & q' & A & B & C). exists cands, q'.
  split; auto. split; auto. split; auto. unfold regular_kernel. cbn [rm_num_geoms].
  replace (Nat.eqb (length (regs geoms)) 0) with false by (destruct (regs geoms); [congruence|reflexivity]).
  unfold regular_try. cbn [rm_ndim rm_tol rm_lookup rm_tables]. rewrite <- B. unfold regular_accepts. destruct (Nat.eqb n 2); reflexivity.
Qed.
Lemma regular_good n tol geoms m : make_regular_mapper n tol geoms = Some m -> (1 <= n <= 3)%nat -> good_geoms n (regs geoms) -> good_stage (regular_kernel m).
Proof.
  intros H Hn Hg. destruct (regs geoms) as [|g0 gs] eqn:Er.
  - unfold make_regular_mapper in H. fold (regs geoms) in H. rewrite Er in H. injection H as <-. intros q. exists q. split; auto.
  - rewrite <- Er in Hg. destruct (regular_inv n tol geoms m H ltac:(congruence) (proj1 Hg)) as (lk & El & ->).
    intros q. unfold regular_kernel. cbn [rm_num_geoms]. replace (Nat.eqb (length (regs geoms)) 0) with false by (rewrite Er; reflexivity).
    exact (good_coarse n (regs geoms) lk _ El Hn Hg q).
Qed.
(** A particle in a regular element. *)
Lemma regular_in_element n tol geoms m q k g s A b xs : make_regular_mapper n tol geoms = Some m -> (2 <= n <= 3)%nat ->
  good_geoms n (regs geoms) -> (n <= length (q_ref q))%nat -> (q_rank q < 0)%Z -> 0 <= tol ->
  nth_error (regs geoms) k = Some g -> adim s = n -> g_shape g = shape_number s -> is_affine s (g_verts g) A b -> det n A <> 0 ->
  in_areference s xs -> at_affine n A b xs (kernel_pos n q) ->
  (forall d, (d < n)%nat -> lo (g_box g) d <= nthR (q_pos q) d < hi (g_box g) d \/
     (nthR (q_pos q) d = hi (g_box g) d /\ hi (g_box g) d = hi (mhbb_bounding_box n (map g_box (regs geoms))) d)) ->
  exists q' g' xi', regular_kernel m q = Some q' /\ In g' (regs geoms) /\
    regular_accepts n tol g' (kernel_pos n q) = Some xi' /\ bound_to n (g_id g') (g_rank g') xi' q q'.
Proof.
  intros H Hn Hg Hl Hr Ht Hk Hs Hsh Haf Hdet Hin Hat Hb.
  assert (Hne : regs geoms <> []) by (intros E; rewrite E in Hk; destruct k; discriminate).
  destruct (regular_first n tol geoms m q H ltac:(lia) Hne Hg Hl Hr) as (lk & cands & q' & El & Ec & Ek & B).
  destruct (coarse_half_open n (map g_box (regs geoms)) lk El ltac:(lia)) with (k := k) (g := g_box g) (p := q_pos q) as (l & E1 & E2); auto.
  { exact (proj2 (proj2 Hg)). }
  { rewrite nth_error_map, Hk. reflexivity. }
  rewrite Ec in E1. injection E1 as <-.
  destruct B as [(l1 & k' & l2 & g' & xi' & _ & Hg' & Hacc & _ & Hbt)|[N _]].
  - exists q', g', xi'. split; auto. split; [eapply nth_error_In; eauto|]. split; auto.
  - exfalso. specialize (N k g E2 Hk). subst n.
    assert (Q : regular_accepts (adim s) tol g (kernel_pos (adim s) q) = Some xs).
    { apply (accepts_iff s g A b); auto. split; [|split; auto].
      - intros E. destruct s as [|[]]; cbn in E; try discriminate; cbn in Hin; destruct xs as [[? ?] ?]; tauto.
      - apply ref_in_cube; auto. }
    congruence.
Qed.
