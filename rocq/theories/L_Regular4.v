From Coq Require Import String.
From Verif Require Import M_RealBase M_Grid M_Coord M_NewtonMap M_NewtonBind M_Regular S_Newton S_NewtonM S_NewtonBind S_Regular
  L_RealBase L_Coord L_Newton L_Newton2 L_NewtonBind L_NewtonBind2 L_NewtonMap S_Grid L_Grid L_Coarse L_Coarse2 L_Regular L_Regular2 L_ListX L_Regular3.

Lemma make_some_spec conf l : good_geoms 3 l -> exists ms, make_some 3 conf l = Some ms /\
  (forall m, In m ms -> make_newton_mapper 3 conf l = Some m) /\ (l <> [] -> exists m, In m ms).
Proof.
  intros H. destruct l as [|g l]; [exists []; split; [reflexivity|split; [intros m []|congruence]]|].
  unfold make_some. destruct (mapper_exists 3 conf (g :: l) ltac:(lia) H) as (m & E). rewrite E. cbn [bind].
  exists [m]. split; [reflexivity|]. split; [intros m' [<-|[]]; auto|intros _; exists m; left; auto].
Qed.
Definition lists3 ag geoms := [linear_geoms ag geoms eTetrahedron; linear_geoms ag geoms ePrism;
   linear_geoms ag geoms eHexahedron; linear_geoms ag geoms ePyramid; nonlinear_geoms ag geoms].
Lemma pipeline3d_spec conf geoms : good_geoms 3 geoms -> Forall known3 geoms ->
  let ag := all_generic_newton conf in
  exists p, make_pipeline3d conf geoms = Some p /\
   (forall k, p3_regular p = Some k -> exists m, make_regular_mapper 3 (regular_tol_3d conf) geoms = Some m /\ k = regular_kernel m /\ ag = false) /\
   (forall m, In m (p3_newton p) -> exists l, In l (lists3 ag geoms) /\ make_newton_mapper 3 conf l = Some m) /\
   (forall g, In g geoms -> ag = false -> g_regular g = true -> exists k, p3_regular p = Some k) /\
   (forall l g, In l (lists3 ag geoms) -> In g l -> exists m, In m (p3_newton p) /\ make_newton_mapper 3 conf l = Some m).
Proof.
  intros Hg Hk ag. unfold make_pipeline3d. fold ag.
  destruct (regular_exists 3 (regular_tol_3d conf) geoms ltac:(lia)) as (rm & Er).
  { apply good_filter; auto. } { rewrite Forall_forall in *. intros g Hi. apply known3_shape, Hk. apply filter_In in Hi; tauto. }
  destruct (make_some_spec conf (linear_geoms ag geoms eTetrahedron)) as (m1 & E1 & A1 & B1). { apply good_linear; auto. }
  destruct (make_some_spec conf (linear_geoms ag geoms ePrism)) as (m2 & E2 & A2 & B2). { apply good_linear; auto. }
  destruct (make_some_spec conf (linear_geoms ag geoms eHexahedron)) as (m3 & E3 & A3 & B3). { apply good_linear; auto. }
  destruct (make_some_spec conf (linear_geoms ag geoms ePyramid)) as (m4 & E4 & A4 & B4). { apply good_linear; auto. }
  destruct (make_some_spec conf (nonlinear_geoms ag geoms)) as (m5 & E5 & A5 & B5). { apply good_nonlinear; auto. }
  rewrite Er, E1, E2, E3, E4, E5. cbn [bind].
  match goal with |- exists p, bind ?o _ = _ /\ _ => assert (Ho : o = Some (if negb ag && Nat.ltb 0 (count_regular geoms) then Some (regular_kernel rm) else None))
    by (destruct (negb ag && Nat.ltb 0 (count_regular geoms)); reflexivity); rewrite Ho end.
  cbn [bind]. eexists. split; [reflexivity|]. cbn [p3_regular p3_newton]. split; [|split; [|split]].
  - intros k Q. exists rm. split; auto. destruct ag; cbn [negb andb] in Q |- *; [discriminate|]. destruct (Nat.ltb 0 (count_regular geoms)); [injection Q as <-; auto|discriminate].
  - intros m Hm. unfold lists3. rewrite !in_app_iff in Hm. destruct Hm as [Hm|[Hm|[Hm|[Hm|Hm]]]]; eexists; (split; [|eauto]); simpl; auto 6.
  - intros g Hi Hag Hf. rewrite Hag. unfold count_regular. rewrite (count_pos g_regular geoms g Hi Hf). simpl. eauto.
  - intros l g Hl Hi. assert (Hne : l <> []) by (intros ->; contradiction). unfold lists3 in Hl.
    destruct Hl as [<-|[<-|[<-|[<-|[<-|[]]]]]]; [destruct (B1 Hne) as (m & Hm)|destruct (B2 Hne) as (m & Hm)|destruct (B3 Hne) as (m & Hm)|destruct (B4 Hne) as (m & Hm)|destruct (B5 Hne) as (m & Hm)];
     exists m; (split; [rewrite !in_app_iff; tauto|auto]).
Qed.
Lemma lists3_good ag geoms l : good_geoms 3 geoms -> In l (lists3 ag geoms) -> good_geoms 3 l.
Proof. intros Hg [<-|[<-|[<-|[<-|[<-|[]]]]]]; try apply good_linear; try apply good_nonlinear; auto. Qed.
Lemma in_lists3 ag geoms g : In g geoms -> known3 g -> (ag = false -> g_regular g = false) -> exists l, In l (lists3 ag geoms) /\ In g l.
Proof.
  intros Hi Hk Hr. destruct ag.
  - exists (nonlinear_geoms true geoms). split; [unfold lists3; simpl; auto 7|]. apply nonlinear_in; auto.
  - specialize (Hr eq_refl). destruct (g_linear g) eqn:El.
    + exists (linear_geoms false geoms (g_shape g)). split.
      * unfold known3 in Hk. unfold lists3. destruct Hk as [<-|[<-|[<-|[<-|[]]]]]; simpl; auto 7.
      * unfold linear_geoms. apply filter_In. split; auto. rewrite Hr, El, Z.eqb_refl. reflexivity.
    + exists (nonlinear_geoms false geoms). split; [unfold lists3; simpl; auto 7|]. apply nonlinear_in; auto.
Qed.
Lemma covered_3d ag geoms g : In g geoms -> known3 g -> covered_once (offers_3d ag geoms) g.
Proof.
  intros Hi Hk. unfold covered_once, offers_3d.
  assert (Lin : forall s, In g (linear_geoms ag geoms s) <-> (ag = false /\ g_regular g = false /\ g_linear g = true /\ g_shape g = s)).
  { intros s. unfold linear_geoms. destruct ag; [simpl; intuition discriminate|]. rewrite filter_In, !andb_true_iff, negb_true_iff, Z.eqb_eq. tauto. }
  assert (Reg : In g (if ag then [] else filter g_regular geoms) <-> (ag = false /\ g_regular g = true)).
  { destruct ag; [simpl; intuition discriminate|]. rewrite filter_In. tauto. }
  pose proof (nonlinear_in ag geoms g) as Nl.
  set (r := if ag then [] else filter g_regular geoms) in *. set (n := nonlinear_geoms ag geoms) in *.
  set (t := linear_geoms ag geoms eTetrahedron) in *. set (pr := linear_geoms ag geoms ePrism) in *.
  set (h := linear_geoms ag geoms eHexahedron) in *. set (py := linear_geoms ag geoms ePyramid) in *.
  assert (Lt : In g t <-> _) by (apply (Lin eTetrahedron)). assert (Lp : In g pr <-> _) by (apply (Lin ePrism)).
  assert (Lh : In g h <-> _) by (apply (Lin eHexahedron)). assert (Ly : In g py <-> _) by (apply (Lin ePyramid)).
  clearbody r n t pr h py. unfold eTetrahedron, ePrism, eHexahedron, ePyramid in *.
  assert (Sh : g_shape g = 5%Z \/ g_shape g = 6%Z \/ g_shape g = 7%Z \/ g_shape g = 8%Z).
  { unfold known3 in Hk. simpl in Hk. unfold eTetrahedron, ePrism, eHexahedron, ePyramid in Hk. intuition. }
  destruct ag eqn:Ea.
  { exists [r; t; pr; h; py], n, []. split; auto. split; [apply Nl; auto|]. simpl.
    intros l' [<-|[<-|[<-|[<-|[<-|[]]]]]]; rewrite ?Reg, ?Lt, ?Lp, ?Lh, ?Ly; intuition discriminate. }
  destruct (g_regular g) eqn:Er.
  { exists [], r, [t; pr; h; py; n]. split; auto. split; [apply Reg; auto|]. simpl.
    intros l' [<-|[<-|[<-|[<-|[<-|[]]]]]]; rewrite ?Nl, ?Lt, ?Lp, ?Lh, ?Ly; intuition congruence. }
  destruct (g_linear g) eqn:El.
  2:{ exists [r; t; pr; h; py], n, []. split; auto. split; [apply Nl; auto|]. simpl.
    intros l' [<-|[<-|[<-|[<-|[<-|[]]]]]]; rewrite ?Reg, ?Lt, ?Lp, ?Lh, ?Ly; intuition congruence. }
  destruct Sh as [Sh|[Sh|[Sh|Sh]]].
  - exists [r], t, [pr; h; py; n]. split; auto. split; [apply Lt; auto|]. simpl.
    intros l' [<-|[<-|[<-|[<-|[<-|[]]]]]]; rewrite ?Reg, ?Nl, ?Lp, ?Lh, ?Ly; intuition congruence.
  - exists [r; t; pr; h], py, [n]. split; auto. split; [apply Ly; auto|]. simpl.
    intros l' [<-|[<-|[<-|[<-|[<-|[]]]]]]; rewrite ?Reg, ?Nl, ?Lp, ?Lh, ?Lt; intuition congruence.
  - exists [r; t], pr, [h; py; n]. split; auto. split; [apply Lp; auto|]. simpl.
    intros l' [<-|[<-|[<-|[<-|[<-|[]]]]]]; rewrite ?Reg, ?Nl, ?Lt, ?Lh, ?Ly; intuition congruence.
  - exists [r; t; pr], h, [py; n]. split; auto. split; [apply Lh; auto|]. simpl.
    intros l' [<-|[<-|[<-|[<-|[<-|[]]]]]]; rewrite ?Reg, ?Nl, ?Lt, ?Lp, ?Ly; intuition congruence.
Qed.
Lemma covered_2d geoms g : In g geoms -> known2 g ->
  (~ deformed_triangle g -> covered_once (offers_2d geoms) g) /\
  (deformed_triangle g -> forall l, In l (offers_2d geoms) -> ~ In g l).
Proof.
  intros Hi Hk. unfold offers_2d, newton_geoms_2d, deformed_triangle.
  assert (R : In g (filter g_regular geoms) <-> g_regular g = true) by (rewrite filter_In; tauto).
  assert (N : In g (filter (fun g => negb (g_regular g) && Z.eqb (g_shape g) eQuadrilateral) geoms) <-> g_regular g = false /\ g_shape g = eQuadrilateral).
  { rewrite filter_In, andb_true_iff, negb_true_iff, Z.eqb_eq. tauto. }
  set (r := filter g_regular geoms) in *. set (n := filter (fun g => negb (g_regular g) && Z.eqb (g_shape g) eQuadrilateral) geoms) in *. clearbody r n. split.
  - intros H. destruct (g_regular g) eqn:Er.
    + exists [], r, [n]. split; auto. split; [apply R; auto|]. simpl. intros l' [<-|[]]. rewrite N. intuition discriminate.
    + exists [r], n, []. split; auto. split; [apply N; split; auto; destruct Hk; auto; exfalso; auto|]. simpl. intros l' [<-|[]]. rewrite R. discriminate.
  - intros [H1 H2] l [<-|[<-|[]]]; rewrite ?R, ?N; [congruence|]. intros [_ Q]. rewrite H2 in Q. discriminate.
Qed.

Lemma map3d_total conf geoms host grp mc : good_geoms 3 geoms -> Forall known3 geoms -> good_stage (host_stage host) -> cell_ok grp mc ->
  exists grp', (map_particles_3d conf geoms host grp mc = Mapped grp' \/ ((-1 < mc)%Z /\ map_particles_3d conf geoms host grp mc = AssertFailed grp')) /\
  (forall i cell, nth_error grp i = Some cell -> cell_selected mc i = true -> exists cell', nth_error grp' i = Some cell' /\
    Forall2 (fun q q' => forall g, In g geoms -> in_half_open 3 g q -> (3 <= length (q_ref q))%nat ->
      element_accepts 3 (regular_tol_3d conf) conf (negb (all_generic_newton conf) && g_regular g) g q -> (0 <= q_rank q')%Z) cell cell') /\
  (map_particles_3d conf geoms host grp mc = AssertFailed grp' <-> (-1 < mc)%Z /\ ~ selected_bound (-1) grp').
Proof.
  intros Hg Hk Hh Hc. set (ag := all_generic_newton conf). destruct (pipeline3d_spec conf geoms Hg Hk) as (p & E & P1 & P2 & P3 & P4). fold ag in P2, P3, P4.
  unfold map_particles_3d. rewrite E.
  assert (G1 : forall k, p3_regular p = Some k -> good_stage k).
  { intros k Q. destruct (P1 k Q) as (m & Em & -> & _). eapply regular_good; [exact Em|lia|apply good_filter; auto]. }
  assert (G2 : forall m, In m (p3_newton p) -> good_stage (initial_kernel m) /\ good_stage (final_kernel m)).
  { intros m Hm. destruct (P2 m Hm) as (l & Hl & Em). pose proof (lists3_good ag geoms l Hg Hl) as Gl.
    split; intros q; eapply good_newton; eauto; lia. }
  destruct (map3d_spec (p3_regular p) (p3_newton p) host grp mc G1 G2 Hh Hc) as (g2 & R2 & g3 & R3 & H & _).
  exists g3. split; [destruct H as [[H _]|(H & H' & _)]; auto|]. split.
  - intros i cell Hi Hsel. destruct R2 as [_ R2]. destruct (R2 i cell Hi) as (cell2 & Hc2 & F2). rewrite Hsel in F2.
    assert (F : exists cell3, nth_error g3 i = Some cell3 /\ Forall2 (fun q q' => (0 <= q_rank q)%Z -> (0 <= q_rank q')%Z) cell2 cell3).
    { destruct R3 as [->|[_ R3]].
      - exists cell2. split; auto. clear. induction cell2; constructor; auto.
      - destruct (R3 i cell2 Hc2) as (cell3 & Hc3 & F3). exists cell3. split; auto. cbn [cell_selected] in F3. 
        change (cell_selected (-1) i) with true in F3. cbn iota in F3. clear -F3. induction F3; constructor; auto. intros Hr. rewrite (decided_bound _ _ Hr _ H). auto. }
    destruct F as (cell3 & Hc3 & F3). exists cell3. split; auto.
    assert (Gall : forall k, In k (opt_list (p3_regular p) ++ newton_stages (p3_newton p)) -> good_stage k).
    { intros k Hik. apply in_app_iff in Hik as [Hik|Hik].
      - destruct (p3_regular p); [|contradiction]. destruct Hik as [<-|[]]; auto.
      - unfold newton_stages in Hik. apply in_app_iff in Hik as [Hik|Hik]; apply in_map_iff in Hik as (m & <- & Hm); apply G2 in Hm; tauto. }
    eapply Forall2_comp; [|exact F2|exact F3]. cbv beta. intros q q2 q3 D B g Hin Hb Hl Ha. apply B.
    destruct (negb ag && g_regular g) eqn:Ecl.
    + apply andb_true_iff in Ecl as [Ea Er]. apply negb_true_iff in Ea. destruct (P3 g Hin Ea Er) as (k & Ek). destruct (P1 k Ek) as (m & Em & -> & _).
      destruct (regular_binds 3 (regular_tol_3d conf) geoms m g q Em ltac:(lia) (good_filter 3 g_regular geoms Hg) Hl Hin Er Hb Ha) as (q1 & E1 & R1).
      eapply decided_binds; [exact D| |exact E1|auto|auto]. rewrite Ek. cbn. auto.
    + rewrite Forall_forall in Hk. destruct (in_lists3 ag geoms g Hin (Hk g Hin)) as (l & Hll & Hgl).
      { intros Q. rewrite Q in Ecl. destruct (g_regular g); auto; discriminate. }
      destruct (P4 l g Hll Hgl) as (m & Hm & Em).
      destruct (newton_binds 3 conf l m g q Em ltac:(lia) (lists3_good ag geoms l Hg Hll) Hl Hgl Hb Ha) as (q1 & E1 & R1).
      eapply decided_binds; [exact D| |exact E1|auto|auto]. apply in_or_app. right. unfold newton_stages. apply in_or_app. left. apply in_map. auto.
  - split; [intros Q; destruct H as [[H _]|(H & H')]; [congruence|auto]|]. intros [Q1 Q2]. destruct H as [[H [[H' _]|H']]|[H _]]; auto; [lia|contradiction].
Qed.
Lemma rel_eq (R : particle -> particle -> Prop) mc g g' : rel_group R mc g g' -> (forall a b, R a b -> b = a) -> g' = g.
Proof.
  intros [HL H] HR. apply list_eq_nth. intros i. destruct (nth_error g i) as [c|] eqn:E.
  - destruct (H i c E) as (c' & E' & Q). rewrite E'. f_equal. destruct (cell_selected mc i); auto.
    clear -Q HR. induction Q; auto. f_equal; auto.
  - apply nth_error_None in E. apply nth_error_None. lia.
Qed.
Lemma deformed_triangles_lost conf geoms grp : good_geoms 2 geoms -> Forall deformed_triangle geoms ->
  ref_room 2 grp -> map_particles_2d conf geoms grp (-1) = Mapped grp /\
  forall i cell q, nth_error grp i = Some cell -> In q cell -> (q_rank q < 0)%Z ->
    map_particles_2d conf geoms grp (Z.of_nat i) = AssertFailed grp.
Proof.
  intros Hg Hd Hr. assert (Hk : Forall known2 geoms).
  { rewrite Forall_forall in *. intros g Hi. left. apply Hd; auto. }
  assert (K : forall mc, cell_ok grp mc -> (map_particles_2d conf geoms grp mc = Mapped grp \/ map_particles_2d conf geoms grp mc = AssertFailed grp) /\
    (map_particles_2d conf geoms grp mc = AssertFailed grp <-> (-1 < mc)%Z /\ ~ selected_bound mc grp)).
  { intros mc Hc. destruct (map2d_total conf geoms grp mc Hg Hk Hc Hr) as (grp' & H & R & A).
    assert (grp' = grp); [|subst; auto]. eapply rel_eq; [exact R|]. intros a b [[->|(g & Hi & Hn & _)] _]; auto.
    exfalso. apply Hn. rewrite Forall_forall in Hd. auto. }
  split.
  - destruct (K (-1)%Z) as [[H|H] A]; auto. { unfold cell_ok. lia. } apply A in H. lia.
  - intros i cell q Hi Hq Hn. assert (Hc : cell_ok grp (Z.of_nat i)) by (unfold cell_ok; assert (i < length grp)%nat by (apply nth_error_Some; congruence); lia).
    destruct (K _ Hc) as [_ A]. apply A. split; [lia|]. intros Hs. 
    assert (0 <= q_rank q)%Z; [|lia]. eapply Hs; [exact Hi| |exact Hq]. unfold cell_selected. rewrite Z.eqb_refl, orb_true_r. reflexivity.
Qed.

Lemma mapper_settings conf :
  (all_generic_newton conf = true <-> exists z, get_int conf "MapParticles3D/all_generic_newton"%string = Some z /\ z <> 0%Z) /\
  (forall t, get_real conf "MapParticles3DRegular/tol"%string = Some t -> regular_tol_3d conf = t) /\
  (get_real conf "MapParticles3DRegular/tol"%string = None -> regular_tol_3d conf = 0) /\
  (forall t, get_real conf "MapParticles2DRegular/tol"%string = Some t -> regular_tol_2d conf = t) /\
  (get_real conf "MapParticles2DRegular/tol"%string = None -> regular_tol_2d conf = / 10 ^ 12).
Proof.
  unfold all_generic_newton, regular_tol_2d, regular_tol_3d. split; [|split; [|split; [|split]]]; try (intros; match goal with H : _ = _ |- _ => rewrite H end; reflexivity).
  destruct (get_int conf _) as [z|]; cbn [get_or]; rewrite negb_true_iff, Z.eqb_neq; split.
  - intros H. exists z. auto.
  - intros (z' & [= <-] & H). auto.
  - intros H. exfalso. apply H. auto.
  - intros (z & H & _). discriminate.
Qed.
