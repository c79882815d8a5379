From Verif Require Import M_RealBase M_Grid M_Coord M_NewtonMap M_NewtonBind M_Regular S_Newton S_NewtonM S_NewtonBind S_Regular
  L_RealBase L_Coord L_Newton L_Newton2 L_NewtonBind L_NewtonBind2 L_NewtonMap S_Grid L_Grid L_Coarse L_Coarse2 L_Regular L_Regular2 L_ListX.

Lemma good_filter n f geoms : good_geoms n geoms -> good_geoms n (filter f geoms).
Proof.
  intros (H1 & H2 & H3). split; [|split].
  - clear H2 H3. induction geoms as [|g gs IH]; simpl in *; auto. apply NoDup_cons_iff in H1 as [N1 N2].
    destruct (f g); auto. simpl. constructor; auto. intros Q. apply N1. apply in_map_iff in Q as (x & E & Hx). apply filter_In in Hx. apply in_map_iff; exists x; tauto.
  - rewrite Forall_forall in *. intros x Hx. apply filter_In in Hx. apply H2; tauto.
  - rewrite Forall_map in *. rewrite Forall_forall in *. intros x Hx. apply filter_In in Hx. apply H3; tauto.
Qed.
Lemma good_perm n l l' : good_geoms n l -> Permutation.Permutation l l' -> good_geoms n l'.
Proof.
  intros (H1 & H2 & H3) P. split; [|split].
  - eapply Permutation.Permutation_NoDup; [apply Permutation.Permutation_map; eauto|auto].
  - eapply Permutation.Permutation_Forall; eauto.
  - eapply Permutation.Permutation_Forall; [apply Permutation.Permutation_map; eauto|auto].
Qed.
Lemma good_cons_sub n g l : good_geoms n (g :: l) -> good_geoms n l.
Proof. intros (H1 & H2 & H3). cbn in *. inversion H1; inversion H2; inversion H3. split; auto. Qed.
Lemma nonlinear_in ag geoms g : In g (nonlinear_geoms ag geoms) <->
  In g geoms /\ known3 g /\ (ag = true \/ (g_regular g = false /\ g_linear g = false)).
Proof.
  unfold nonlinear_geoms, known3. rewrite in_flat_map. split.
  - intros (s & Hs & H). apply filter_In in H as [H E]. apply filter_In in H as [H E2]. apply Z.eqb_eq in E. subst s.
    split; auto. split; auto. apply orb_true_iff in E2 as [E2|E2]; auto. right. apply andb_true_iff in E2 as [E2 E3].
    rewrite negb_true_iff in *. auto.
  - intros (H & Hs & Hc). exists (g_shape g). split; auto. apply filter_In. split; [|apply Z.eqb_refl]. apply filter_In. split; auto.
    destruct Hc as [->|[-> ->]]; auto. simpl. rewrite orb_comm. reflexivity.
Qed.
Lemma NoDup_flat_shapes (l : list mgeom) : NoDup (map g_id l) -> forall ss, NoDup ss ->
  NoDup (map g_id (flat_map (fun s => filter (fun g => Z.eqb (g_shape g) s) l) ss)).
Proof.
  intros Hl. induction ss as [|s ss IH]; intros Hs; [constructor|]. simpl. rewrite map_app. apply NoDup_cons_iff in Hs as [N1 N2].
  apply L_ListX.NoDup_app_intro; auto.
  - clear -Hl. induction l as [|g gs IHl]; simpl in *; [constructor|]. apply NoDup_cons_iff in Hl as [A B]. destruct (Z.eqb (g_shape g) s); auto. simpl. constructor; auto.
    intros Q. apply A. apply in_map_iff in Q as (x & E & Hx). apply filter_In in Hx. apply in_map_iff; exists x; tauto.
  - intros id H1 H2. apply in_map_iff in H1 as (g1 & E1 & G1). apply in_map_iff in H2 as (g2 & E2 & G2).
    apply filter_In in G1 as [G1 S1]. apply in_flat_map in G2 as (s2 & Hs2 & G2). apply filter_In in G2 as [G2 S2].
    apply Z.eqb_eq in S1, S2.
    assert (g1 = g2).
    { clear -Hl G1 G2 E1 E2. induction l as [|g gs IHl]; [contradiction|]. simpl in Hl. apply NoDup_cons_iff in Hl as [A B].
      destruct G1 as [->|G1], G2 as [->|G2]; auto.
      - exfalso. apply A. rewrite E1, <- E2. apply in_map; auto.
      - exfalso. apply A. rewrite E2, <- E1. apply in_map; auto. }
    subst g2. apply N1. congruence.
Qed.
Lemma good_nonlinear n ag geoms : good_geoms n geoms -> good_geoms n (nonlinear_geoms ag geoms).
Proof.
  intros H. pose proof H as (H1 & H2 & H3). split; [|split].
  - unfold nonlinear_geoms. apply NoDup_flat_shapes; [apply (good_filter n _ geoms H)|]. repeat constructor; cbn; unfold eTetrahedron, ePyramid, ePrism, eHexahedron; intuition lia.
  - rewrite Forall_forall in *. intros x Hx. apply nonlinear_in in Hx. apply H2; tauto.
  - rewrite Forall_map in *. rewrite Forall_forall in *. intros x Hx. apply nonlinear_in in Hx. apply H3; tauto.
Qed.
Lemma good_linear n ag geoms s : good_geoms n geoms -> good_geoms n (linear_geoms ag geoms s).
Proof.
  intros H. unfold linear_geoms. destruct ag; [|apply good_filter; auto]. repeat split; constructor.
Qed.
Lemma decided_binds ks a b k a' : decided_by ks a b -> In k ks -> k a = Some a' -> (0 <= q_rank a')%Z -> (forall k', In k' ks -> good_stage k') -> (0 <= q_rank b)%Z.
Proof.
  intros [(A & ->)|(A & [(l1 & k0 & l2 & _ & _ & _ & B)|(N & ->)])] Hk E Hr Hg; auto.
  rewrite (N k Hk) in E. injection E as <-. auto.
Qed.
(** A stage of the pipeline that binds [q]. *)
Definition binder (ks : list (particle -> option particle)) (q : particle) : Prop :=
  exists k q1, In k ks /\ k q = Some q1 /\ (0 <= q_rank q1)%Z.
Lemma bound_rank n geoms g xi q q' : good_geoms n geoms -> In g geoms -> bound_to n (g_id g) (g_rank g) xi q q' -> (0 <= q_rank q')%Z.
Proof. intros (_ & H & _) Hi (_ & _ & -> & _). rewrite Forall_forall in H. auto. Qed.

Lemma newton_binds n conf geoms m g q : make_newton_mapper n conf geoms = Some m -> (1 <= n <= 3)%nat -> good_geoms n geoms ->
  (n <= length (q_ref q))%nat -> In g geoms -> in_half_open n g q -> element_accepts n 0 conf false g q ->
  exists q1, initial_kernel m q = Some q1 /\ (0 <= q_rank q1)%Z.
Proof.
  intros H Hn Hg Hl Hi Hb (xi & Ha). apply In_nth_error in Hi as [k Hk].
  destruct (Z.ltb_spec (q_rank q) 0) as [Hr|Hr].
  - destruct (accepted_bound n conf geoms m q k g xi H Hn Hg Hl Hr Hk) as (q' & g' & xi' & E & Hi' & _ & Hbt); auto.
    { intros d Hd; left; apply Hb; auto. }
    exists q'. split; auto. eapply bound_rank; eauto.
  - exists q. split; auto. apply bound_untouched; auto.
Qed.
Lemma regular_binds n tol geoms m g q : make_regular_mapper n tol geoms = Some m -> (1 <= n <= 3)%nat -> good_geoms n (regs geoms) ->
  (n <= length (q_ref q))%nat -> In g geoms -> g_regular g = true -> in_half_open n g q ->
  (exists xi, regular_accepts n tol g (kernel_pos n q) = Some xi) ->
  exists q1, regular_kernel m q = Some q1 /\ (0 <= q_rank q1)%Z.
Proof.
  intros H Hn Hg Hl Hi Hreg Hb (xi & Ha).
  assert (Hi' : In g (regs geoms)) by (apply filter_In; auto). apply In_nth_error in Hi' as [k Hk].
  assert (Hne : regs geoms <> []) by (intros E; rewrite E in Hk; destruct k; discriminate).
  destruct (Z.ltb_spec (q_rank q) 0) as [Hr|Hr].
  - destruct (regular_first n tol geoms m q H Hn Hne Hg Hl Hr) as (lk & cands & q' & El & Ec & Ek & B).
    destruct (coarse_half_open n (map g_box (regs geoms)) lk El ltac:(lia)) with (k := k) (g := g_box g) (p := q_pos q) as (l & E1 & E2); auto.
    { exact (proj2 (proj2 Hg)). } { rewrite nth_error_map, Hk. reflexivity. } { intros d Hd; left; apply Hb; auto. }
    rewrite Ec in E1. injection E1 as <-. exists q'. split; auto.
    destruct B as [(l1 & k' & l2 & g' & xi' & _ & Hg' & _ & _ & Hbt)|[N _]].
    + eapply bound_rank; [exact Hg|eapply nth_error_In; eauto|eauto].
    + specialize (N k g E2 Hk). congruence.
  - destruct (regular_inv n tol geoms m H Hne (proj1 Hg)) as (lk & El & ->). exists q. split; auto.
    unfold regular_kernel. cbn [rm_num_geoms]. destruct (Nat.eqb _ 0); auto.
    unfold coarse_kernel. replace (Z.ltb (q_rank q) 0) with false by (symmetry; apply Z.ltb_ge; lia). reflexivity.
Qed.

(** 2D *)
Lemma count_pos f (l : list mgeom) g : In g l -> f g = true -> Nat.ltb 0 (length (filter f l)) = true.
Proof. intros Hi Hf. assert (In g (filter f l)) by (apply filter_In; auto). destruct (filter f l); [contradiction|reflexivity]. Qed.
Lemma known2_shape g : known2 g -> known_shape 2 (g_shape g) = true.
Proof. intros [->| ->]; reflexivity. Qed.
Lemma known3_shape g : known3 g -> known_shape 3 (g_shape g) = true.
Proof. unfold known3. intros [<-|[<-|[<-|[<-|[]]]]]; reflexivity. Qed.
Lemma pipeline2d_spec conf geoms : good_geoms 2 geoms -> Forall known2 geoms ->
  exists p, make_pipeline2d conf geoms = Some p /\
   (forall k, p2_regular p = Some k -> exists m, make_regular_mapper 2 (regular_tol_2d conf) geoms = Some m /\ k = regular_kernel m) /\
   (forall m, p2_newton p = Some m -> make_newton_mapper 2 conf (newton_geoms_2d geoms) = Some m) /\
   (forall g, In g geoms -> g_regular g = true -> exists k, p2_regular p = Some k) /\
   (forall g, In g geoms -> g_regular g = false -> exists m, p2_newton p = Some m).
Proof.
  intros Hg Hk. unfold make_pipeline2d.
  destruct (regular_exists 2 (regular_tol_2d conf) geoms ltac:(lia)) as (rm & Er).
  { apply good_filter; auto. } { rewrite Forall_forall in *. intros g Hi. apply known2_shape, Hk. apply filter_In in Hi; tauto. }
  destruct (mapper_exists 2 conf (newton_geoms_2d geoms) ltac:(lia)) as (nm & En). { apply good_filter; auto. }
  rewrite Er, En. unfold count_deformed, count_regular.
  destruct (Nat.ltb 0 (length (filter (fun g => negb (g_regular g)) geoms))) eqn:Ed; cbn [bind]; eexists; (split; [reflexivity|]); cbn [p2_regular p2_newton].
  - split. { intros k Q. exists rm. split; auto. destruct (Nat.ltb 0 (length (filter g_regular geoms))); [injection Q as <-; auto|discriminate]. }
    split. { intros m Q. injection Q as <-. auto. }
    split. { intros g Hi Hf. rewrite (count_pos g_regular geoms g Hi Hf). eauto. } intros; eauto.
  - split. { intros k Q. exists rm. split; auto. destruct (Nat.ltb 0 (length (filter g_regular geoms))); [injection Q as <-; auto|discriminate]. }
    split. { intros m Q. discriminate. }
    split. { intros g Hi Hf. rewrite (count_pos g_regular geoms g Hi Hf). eauto. }
    intros g Hi Hf. rewrite (count_pos (fun g => negb (g_regular g)) geoms g Hi) in Ed; [discriminate|]. rewrite Hf. reflexivity.
Qed.
(** What one stage can bind to. *)
Definition binds_within (ids : Z -> Prop) (k : particle -> option particle) : Prop :=
  forall q q', k q = Some q' -> q' = q \/ ids (q_cell q').
Lemma candidate_in tables try l : forall g xi, candidate_loop tables try l = Some (Some (g, xi)) -> In (Some g) tables.
Proof.
  induction l as [|i l IH]; intros g xi H; [discriminate|]. cbn [candidate_loop] in H.
  apply bind_some in H as (o & E & H). apply bind_some in H as (g0 & E0 & H). subst o.
  destruct (try g0) as [y|]; [|eauto]. injection H as <- <-.
  unfold rdZ in E. destruct (i <? 0)%Z; [discriminate|]. eapply nth_error_In; eauto.
Qed.
Lemma coarse_within n lk geoms try (ids : Z -> Prop) : (forall g, In g geoms -> ids (g_id g)) -> binds_within ids (coarse_kernel n lk (map Some geoms) try).
Proof.
  intros H q q' E. unfold coarse_kernel in E. destruct (Z.ltb (q_rank q) 0); [|injection E as <-; auto].
  apply bind_some in E as (l & _ & E). apply bind_some in E as (c & _ & E). apply bind_some in E as (f & Ef & E).
  injection E as <-. destruct f as [[g xi]|]; [|auto]. right. cbn [bind_particle q_cell]. apply H.
  apply candidate_in in Ef. apply in_map_iff in Ef as (x & Q & Hx). congruence.
Qed.
Lemma initial_within n conf geoms m (ids : Z -> Prop) : make_newton_mapper n conf geoms = Some m -> NoDup (map g_id geoms) -> (forall g, In g geoms -> ids (g_id g)) ->
  binds_within ids (initial_kernel m) /\ binds_within ids (final_kernel m).
Proof.
  intros H Hn Hi. destruct geoms as [|g0 gs].
  - injection H as <-. split; intros q q' E; injection E as <-; auto.
  - destruct (mapper_inv n conf (g0 :: gs) m H ltac:(discriminate) Hn) as (lk & El & ->).
    split; intros q q' E; unfold initial_kernel, final_kernel in E; cbn [nm_num_geoms] in E; cbn [length Nat.eqb] in E;
     (eapply (coarse_within n (Some lk) (g0 :: gs)); [exact Hi|exact E]).
Qed.
Lemma regular_within n tol geoms m (ids : Z -> Prop) : make_regular_mapper n tol geoms = Some m -> NoDup (map g_id (regs geoms)) -> (forall g, In g (regs geoms) -> ids (g_id g)) ->
  binds_within ids (regular_kernel m).
Proof.
  intros H Hn Hi. destruct (regs geoms) as [|g0 gs] eqn:Er.
  - unfold make_regular_mapper in H. fold (regs geoms) in H. rewrite Er in H. injection H as <-. intros q q' E; injection E as <-; auto.
  - rewrite <- Er in *. destruct (regular_inv n tol geoms m H ltac:(congruence) Hn) as (lk & El & ->).
    intros q q' E. unfold regular_kernel in E. cbn [rm_num_geoms] in E. 
    replace (Nat.eqb (length (regs geoms)) 0) with false in E by (rewrite Er; reflexivity).
    eapply (coarse_within n (Some lk) (regs geoms)); [exact Hi|exact E].
Qed.
Lemma decided_within (ids : Z -> Prop) ks a b : (forall k, In k ks -> binds_within ids k) -> decided_by ks a b -> b = a \/ ids (q_cell b).
Proof.
  intros H [(A & ->)|(A & [(l1 & k0 & l2 & -> & _ & E & B)|(N & ->)])]; auto.
  apply (H k0) in E; auto. apply in_or_app. right; left; auto.
Qed.
Lemma pipeline2d_good conf geoms p : make_pipeline2d conf geoms = Some p -> good_geoms 2 geoms -> Forall known2 geoms ->
  (forall k, p2_regular p = Some k -> good_stage k) /\
  (forall m, p2_newton p = Some m -> good_stage (initial_kernel m) /\ good_stage (final_kernel m)).
Proof.
  intros E Hg Hk. destruct (pipeline2d_spec conf geoms Hg Hk) as (p' & E' & P1 & P2 & _). rewrite E in E'. injection E' as <-. split.
  - intros k Q. destruct (P1 k Q) as (m & Em & ->). eapply regular_good; [exact Em|lia|apply good_filter; auto].
  - intros m Q. apply P2 in Q. split; intros q; eapply good_newton; eauto; try lia; apply good_filter; auto.
Qed.

Lemma map2d_total conf geoms grp mc : good_geoms 2 geoms -> Forall known2 geoms -> cell_ok grp mc -> ref_room 2 grp ->
  exists grp', (map_particles_2d conf geoms grp mc = Mapped grp' \/ map_particles_2d conf geoms grp mc = AssertFailed grp') /\
  rel_group (fun q q' =>
    (q' = q \/ exists g, In g geoms /\ ~ deformed_triangle g /\ q_cell q' = g_id g) /\
    (forall g, In g geoms -> ~ deformed_triangle g -> in_half_open 2 g q -> (2 <= length (q_ref q))%nat ->
       element_accepts 2 (regular_tol_2d conf) conf (g_regular g) g q -> (0 <= q_rank q')%Z)) mc grp grp' /\
  (map_particles_2d conf geoms grp mc = AssertFailed grp' <-> (-1 < mc)%Z /\ ~ selected_bound mc grp').
Proof.
  intros Hg Hk Hc Hr. destruct (pipeline2d_spec conf geoms Hg Hk) as (p & E & P1 & P2 & P3 & P4).
  destruct (pipeline2d_good conf geoms p E Hg Hk) as [G1 G2].
  unfold map_particles_2d. rewrite E. destruct (map2d_spec (p2_regular p) (p2_newton p) grp mc G1 G2 Hc) as (grp' & R & H).
  exists grp'. split; [tauto|]. split.
  - eapply rel_group_weaken; [|exact R]. intros q q' D. split.
    + apply (decided_within (fun id => exists g, In g geoms /\ ~ deformed_triangle g /\ id = g_id g)) in D; auto.
      intros k Hik. apply in_app_iff in Hik as [Hik|Hik].
      * destruct (p2_regular p) as [k0|] eqn:Ek; [|contradiction]. destruct Hik as [<-|[]]. destruct (P1 k0 eq_refl) as (m & Em & ->).
        eapply regular_within; [exact Em|apply (good_filter 2 g_regular geoms Hg)|].
        intros g Hi. apply filter_In in Hi as [Hi Hf]. exists g. split; auto. split; auto. unfold deformed_triangle. intros [Q _]. congruence.
      * unfold newton_stages in Hik. destruct (p2_newton p) as [m|] eqn:Em; [|contradiction]. specialize (P2 m eq_refl).
        destruct (initial_within 2 conf (newton_geoms_2d geoms) m (fun id => exists g, In g geoms /\ ~ deformed_triangle g /\ id = g_id g) P2) as [W1 W2].
        { apply (good_filter 2 _ geoms Hg). }
        { intros g Hi. apply filter_In in Hi as [Hi Hf]. apply andb_true_iff in Hf as [Hf1 Hf2]. apply Z.eqb_eq in Hf2. exists g. split; auto. split; auto.
          intros [_ Q]. rewrite Hf2 in Q. discriminate. }
        cbn in Hik. destruct Hik as [<-|[<-|[]]]; auto.
    + intros g Hi Hnd Hb Hl Ha. 
      assert (Gall : forall k, In k (opt_list (p2_regular p) ++ newton_stages (opt_list (p2_newton p))) -> good_stage k).
      { intros k Hik. apply in_app_iff in Hik as [Hik|Hik].
        - destruct (p2_regular p); [|contradiction]. destruct Hik as [<-|[]]; auto.
        - destruct (p2_newton p) as [m|]; [|contradiction]. cbn in Hik. destruct (G2 m eq_refl). destruct Hik as [<-|[<-|[]]]; auto. }
      destruct (g_regular g) eqn:Er.
      * destruct (P3 g Hi Er) as (k & Ek). destruct (P1 k Ek) as (m & Em & ->).
        destruct (regular_binds 2 (regular_tol_2d conf) geoms m g q Em ltac:(lia) (good_filter 2 g_regular geoms Hg) Hl Hi Er Hb Ha) as (q1 & E1 & R1).
        eapply decided_binds; [exact D| |exact E1|auto|auto]. rewrite Ek. cbn. auto.
      * destruct (P4 g Hi Er) as (m & Em). pose proof (P2 m Em) as Em'.
        assert (Hq : g_shape g = eQuadrilateral).
        { rewrite Forall_forall in Hk. destruct (Hk g Hi) as [Q|Q]; auto. exfalso. apply Hnd. split; auto. }
        destruct (newton_binds 2 conf (newton_geoms_2d geoms) m g q Em' ltac:(lia) (good_filter 2 _ geoms Hg) Hl) as (q1 & E1 & R1); auto.
        { apply filter_In. split; auto. rewrite Er, Hq. reflexivity. }
        eapply decided_binds; [exact D| |exact E1|auto|auto]. rewrite Em. apply in_or_app. right. cbn. auto.
  - split; [intros Q; destruct H as [[H _]|[H H']]; [congruence|auto]|]. intros [Q1 Q2]. destruct H as [[H [H'|H']]|[H H']]; auto; [lia|contradiction].
Qed.
