From Coq Require Import String.
From Verif Require Import M_RealBase M_Grid M_Coord M_NewtonMap M_NewtonBind M_Regular S_Newton S_NewtonM S_NewtonBind S_Regular
  L_RealBase L_Coord L_Newton L_NewtonBind L_NewtonMap L_Regular L_Regular2 L_Regular3 L_Regular4.
From Verif Require Import M_Bytes M_Pack2D M_RemoteGeom M_Transport M_Exchange M_Halo3D M_Util M_Journey S_Grid S_MeshIf S_Journey.
From Coq Require Import ZArith Reals Lra Lia List Sorting.Sorted.
Import ListNotations.
Local Open Scope Z_scope.

Lemma first_placed n geoms cands acc q q' : binds_first n geoms cands acc q q' -> q' = q \/ exists g xi, In g geoms /\ acc g = Some xi /\ bound_to n (g_id g) (g_rank g) xi q q'.
Proof.
  intros [(l1 & k & l2 & g & xi & E & En & Ea & _ & B)|[_ E]]; auto. right. exists g, xi. split; [eapply nth_error_In; eauto|auto].
Qed.
Definition known_placed (n : nat) (conf : store) (geoms : list mgeom) (q q' : particle) : Prop :=
  exists g xi, In g geoms /\ accepted n conf g q xi /\ bound_to n (g_id g) (g_rank g) xi q q'.
Lemma regular_stage n conf geoms m q q' : (n = 2 \/ n = 3)%nat -> good_geoms n geoms ->
  make_regular_mapper n (if Nat.eqb n 2 then regular_tol_2d conf else regular_tol_3d conf) geoms = Some m ->
  (n = 3%nat -> all_generic_newton conf = false) ->
  (q_rank q < 0) -> (n <= length (q_ref q))%nat -> regular_kernel m q = Some q' -> q' = q \/ known_placed n conf geoms q q'.
Proof.
  intros Hn Hg Em Hag Hr Hl Q. destruct (filter g_regular geoms) as [|g0 l0] eqn:D.
  - unfold make_regular_mapper in Em. rewrite D in Em. injection Em as <-. cbn in Q. injection Q as <-. auto.
  - assert (D' : filter g_regular geoms <> []) by (rewrite D; discriminate).
    destruct (regular_first n _ geoms m q Em ltac:(lia) D' (good_filter n g_regular geoms Hg) Hl Hr) as (lk & cands & q1 & _ & _ & E1 & B).
    rewrite Q in E1. injection E1 as <-. apply first_placed in B as [->|(g & xi & Hi & Ha & B)]; auto. right. exists g, xi.
    apply filter_In in Hi as [Hi Hf]. split; auto. split; auto. unfold accepted.
    assert (C : closed_form n conf g = true) by (unfold closed_form; rewrite Hf; destruct Hn as [->| ->]; [reflexivity|rewrite (Hag eq_refl); reflexivity]). rewrite C. exact Ha.
Qed.
Lemma newton_stage n conf geoms l m q q' : (1 <= n <= 3)%nat -> good_geoms n l -> (forall g, In g l -> In g geoms /\ closed_form n conf g = false /\ (n = 2%nat -> g_shape g = eQuadrilateral)) -> make_newton_mapper n conf l = Some m ->
  (q_rank q < 0) -> (n <= length (q_ref q))%nat -> initial_kernel m q = Some q' \/ final_kernel m q = Some q' -> q' = q \/ known_placed n conf geoms q q'.
Proof.
  intros Hn Gl Hin Em Hr Hl Q. destruct l as [|g0 l].
  { injection Em as <-. left. destruct Q as [Q|Q]; cbn in Q; injection Q as <-; auto. }
  destruct (initial_first n conf (g0 :: l) m q Em Hn ltac:(discriminate) Gl Hl Hr) as (lk & cands & q1 & _ & _ & E1 & B1).
  destruct (final_first n conf (g0 :: l) m q Em Hn ltac:(discriminate) Gl Hl Hr) as (lk2 & cands2 & q2 & _ & _ & E2 & B2).
  destruct Q as [Q|Q].
  - rewrite Q in E1. injection E1 as <-. apply first_placed in B1 as [->|(g & xi & Hi & Ha & B)]; auto. right. exists g, xi.
    destruct (Hin g Hi) as (I1 & I2 & I3). split; auto. split; auto. unfold accepted. rewrite I2. auto.
  - rewrite Q in E2. injection E2 as <-. apply first_placed in B2 as [->|(g & xi & Hi & Ha & B)]; auto. right. exists g, xi.
    destruct (Hin g Hi) as (I1 & I2 & I3). split; auto. split; auto. unfold accepted. rewrite I2. split; auto. right. eexists. exact Ha.
Qed.
Lemma lists3_in ag geoms l g : In l (lists3 ag geoms) -> In g l -> In g geoms.
Proof.
  unfold lists3. intros H Hg. assert (L : forall s, In g (linear_geoms ag geoms s) -> In g geoms).
  { intros s. unfold linear_geoms. destruct ag; [intros []|]. intros Q. apply filter_In in Q. tauto. }
  destruct H as [<-|[<-|[<-|[<-|[<-|[]]]]]]; eauto. apply nonlinear_in in Hg. tauto.
Qed.
Lemma lists3_open conf geoms l g : In l (lists3 (all_generic_newton conf) geoms) -> In g l -> closed_form 3 conf g = false.
Proof.
  unfold lists3, closed_form. set (ag := all_generic_newton conf). intros H Hg. assert (L : forall s, In g (linear_geoms ag geoms s) -> (g_regular g && (Nat.eqb 3 2 || negb ag) = false)%bool).
  { intros s. unfold linear_geoms. destruct ag; [intros []|]. intros Q. apply filter_In in Q as [_ Q]. destruct (g_regular g); [discriminate|reflexivity]. }
  destruct H as [<-|[<-|[<-|[<-|[<-|[]]]]]]; eauto. apply nonlinear_in in Hg. destruct ag, (g_regular g); auto; intuition discriminate.
Qed.
Lemma decided_known n conf geoms ks q q' : (forall k q', In k ks -> (q_rank q < 0) -> (n <= length (q_ref q))%nat -> k q = Some q' -> q' = q \/ known_placed n conf geoms q q') ->
  decided_by ks q q' -> (0 <= q_rank q -> q' = q) /\ (q_rank q < 0 -> (n <= length (q_ref q))%nat -> q' = q \/ known_placed n conf geoms q q').
Proof.
  intros H D. split; [intros Hr; eapply decided_bound; eauto|]. intros Hr Hl.
  destruct D as [[H' _]|[_ [(l1 & k & l2 & -> & _ & E & _)|[_ ->]]]]; auto; try lia.
  eapply H; eauto. apply in_elt.
Qed.
Definition known_fate (n : nat) (conf : store) (geoms : list mgeom) (offered : mgeom -> Prop) (closed : mgeom -> bool) (q q' : particle) : Prop :=
  (0 <= q_rank q -> q' = q) /\ (q_rank q < 0 -> (n <= length (q_ref q))%nat -> q' = q \/ known_placed n conf geoms q q') /\
  (forall g, In g geoms -> offered g -> in_half_open n g q -> (n <= length (q_ref q))%nat ->
     element_accepts n (if Nat.eqb n 2 then regular_tol_2d conf else regular_tol_3d conf) conf (closed g) g q -> 0 <= q_rank q').
Lemma rel_group_both (R S : particle -> particle -> Prop) mc g g' : rel_group R mc g g' -> rel_group S mc g g' -> rel_group (fun a b => R a b /\ S a b) mc g g'.
Proof.
  intros [L F] [_ F2]. split; auto. intros i c Hi. destruct (F i c Hi) as (c' & Hi' & Q). destruct (F2 i c Hi) as (c2 & Hi2 & Q2).
  rewrite Hi' in Hi2. injection Hi2 as <-. exists c'. split; auto. destruct (cell_selected mc i); auto.
  clear -Q Q2. revert Q2. induction Q; intros Q2; constructor; inversion Q2; subst; auto.
Qed.
Lemma map3d_fate conf geoms host grp : good_geoms 3 geoms -> Forall known3 geoms -> good_stage (host_stage host) ->
  exists grp', map_particles_3d conf geoms host grp (-1) = Mapped grp' /\
    rel_group (known_fate 3 conf geoms (fun _ => True) (fun g => negb (all_generic_newton conf) && g_regular g)%bool) (-1) grp grp'.
Proof.
  intros Hg Hk Hh. destruct (map3d_total conf geoms host grp (-1) Hg Hk Hh) as (grp' & H & F & _). { unfold cell_ok. lia. }
  destruct (pipeline3d_spec conf geoms Hg Hk) as (p & E & P1 & P2 & P3 & P4).
  assert (G1 : forall k, p3_regular p = Some k -> good_stage k).
  { intros k Q. destruct (P1 k Q) as (m & Em & -> & _). eapply regular_good; [exact Em|lia|apply good_filter; auto]. }
  assert (G2 : forall m, In m (p3_newton p) -> good_stage (initial_kernel m) /\ good_stage (final_kernel m)).
  { intros m Hm. destruct (P2 m Hm) as (l & Hl & Em). pose proof (lists3_good _ geoms l Hg Hl) as Gl.
    split; intros q; eapply good_newton; eauto; lia. }
  set (ks := opt_list (p3_regular p) ++ newton_stages (p3_newton p)).
  destruct (run_stages_spec (-1) ks grp) as (g2 & E2 & R2).
  { intros k Hi. apply in_app_iff in Hi as [Hi|Hi].
    - destruct (p3_regular p); [|contradiction]. destruct Hi as [<-|[]]; auto.
    - unfold newton_stages in Hi. apply in_app_iff in Hi as [Hi|Hi]; apply in_map_iff in Hi as (m & <- & Hm); apply G2 in Hm; tauto. }
  { unfold cell_ok. lia. }
  assert (Em : map_particles_3d conf geoms host grp (-1) = Mapped g2).
  { unfold map_particles_3d. rewrite E. unfold map3d. unfold ks, newton_stages in E2.
    replace (match p3_regular p with Some k => [k] | None => [] end) with (opt_list (p3_regular p)) by (destruct (p3_regular p); reflexivity).
    rewrite E2. reflexivity. }
  assert (Eg : grp' = g2) by (rewrite Em in H; destruct H as [H|[H _]]; [congruence|lia]). subst grp'.
  exists g2. split; auto.
  apply (rel_group_weaken (fun q q' => decided_by ks q q' /\ forall g, In g geoms -> in_half_open 3 g q -> (3 <= length (q_ref q))%nat ->
      element_accepts 3 (regular_tol_3d conf) conf (negb (all_generic_newton conf) && g_regular g) g q -> (0 <= q_rank q')%Z)).
  - intros q q' [D B]. destruct (decided_known 3 conf geoms ks q q') with (2 := D) as [A1 A2].
    { intros k q1 Hi Hr Hl Q. apply in_app_iff in Hi as [Hi|Hi].
      - destruct (p3_regular p) as [k0|] eqn:Ek; [|contradiction]. destruct Hi as [<-|[]]. destruct (P1 k0 eq_refl) as (m & Er & -> & Hag).
        eapply regular_stage; eauto.
      - unfold newton_stages in Hi. apply in_app_iff in Hi as [Hi|Hi]; apply in_map_iff in Hi as (m & <- & Hm);
          destruct (P2 m Hm) as (l & Hll & El); (eapply newton_stage; [| | |exact El| | |]; [lia|eapply lists3_good; eauto|intros; split; [eapply lists3_in; eauto|split; [eapply lists3_open; eauto|discriminate]]|auto|auto|auto]). }
    split; auto. split; auto. intros g Hi _. apply B; auto.
  - apply rel_group_both; auto. split; [apply (proj1 R2)|]. intros i c Hi. destruct (F i c Hi eq_refl) as (c' & Hi' & Q). eauto.
Qed.
Lemma map2d_fate conf geoms grp : good_geoms 2 geoms -> Forall known2 geoms -> ref_room 2 grp ->
  exists grp', map_particles_2d conf geoms grp (-1) = Mapped grp' /\
    rel_group (known_fate 2 conf geoms (fun g => ~ deformed_triangle g) g_regular) (-1) grp grp'.
Proof.
  intros Hg Hk Hroom. destruct (map2d_total conf geoms grp (-1) Hg Hk ltac:(unfold cell_ok; lia) Hroom) as (grp' & H & F & HA).
  destruct (pipeline2d_spec conf geoms Hg Hk) as (p & E & P1 & P2 & P3 & P4).
  destruct (pipeline2d_good conf geoms p E Hg Hk) as [G1 G2].
  assert (Hmap : map_particles_2d conf geoms grp (-1) = Mapped grp').
  { destruct H as [H|H]; auto. apply HA in H. lia. }
  exists grp'. split; auto.
  destruct (map2d_spec (p2_regular p) (p2_newton p) grp (-1) G1 G2 ltac:(unfold cell_ok; lia)) as (g2 & R2 & H2).
  unfold map_particles_2d in Hmap. rewrite E in Hmap.
  assert (Eg : g2 = grp') by (destruct H2 as [[H2 _]|(_ & H2 & _)]; [congruence|lia]). subst g2.
  set (ks := opt_list (p2_regular p) ++ newton_stages (opt_list (p2_newton p))) in *.
  eapply rel_group_weaken; [|exact (rel_group_both _ _ _ _ _ R2 F)]. cbv beta.
  intros q q' [D [_ B]]. destruct (decided_known 2 conf geoms ks q q') with (2 := D) as [A1 A2].
  { intros k q1 Hi Hr Hl Q. apply in_app_iff in Hi as [Hi|Hi].
    - destruct (p2_regular p) as [k0|] eqn:Ek; [|contradiction]. destruct Hi as [<-|[]]. destruct (P1 k0 eq_refl) as (m & Er & ->).
      eapply regular_stage; eauto. discriminate.
    - destruct (p2_newton p) as [m|] eqn:Em; [|contradiction]. cbn in Hi.
      eapply (newton_stage 2 conf geoms (newton_geoms_2d geoms) m); auto; try lia.
      + apply good_filter; auto.
      + intros g Q'. apply filter_In in Q' as [Q1 Q2]. apply andb_true_iff in Q2 as [Q2 Q3]. apply negb_true_iff in Q2. apply Z.eqb_eq in Q3.
        split; auto. split; auto. unfold closed_form. rewrite Q2. reflexivity.
      + destruct Hi as [<-|[<-|[]]]; auto. }
  split; auto.
Qed.

(** The boxes. *)
Lemma overlap_inside : forall n b c x, length b = n -> length c = n -> solid c -> inside_box n b x -> in_cell n c x -> (0 < overlap_volume b c)%R.
Proof.
  induction n; intros b c x Hb Hc Hs Hi Hin.
  - destruct b; [|discriminate]. simpl. lra.
  - destruct b as [|[lb ub] b]; [discriminate|]. destruct c as [|[lc uc] c]; [discriminate|]. simpl. inversion Hs; subst. cbn [fst snd] in *.
    apply Rmult_lt_0_compat.
    + pose proof (Hi 0%nat ltac:(lia)) as H0. pose proof (Hin 0%nat ltac:(lia)) as H4. cbn in H0, H4.
      apply Rlt_le_trans with (Rmin ub uc - Rmax lb lc)%R; [|apply Rmax_r].
      unfold Rmin, Rmax. destruct (Rle_dec ub uc), (Rle_dec lb lc); lra.
    + destruct x as [|x0 x].
      * apply (IHn b c []); auto.
        -- intros d Hd. pose proof (Hi (S d) ltac:(lia)) as Q. cbn in Q. unfold nthR in *. destruct d; exact Q.
        -- intros d Hd. pose proof (Hin (S d) ltac:(lia)) as Q. cbn in Q. unfold nthR in *. destruct d; exact Q.
      * apply (IHn b c x); auto.
        -- intros d Hd. exact (Hi (S d) ltac:(lia)).
        -- intros d Hd. exact (Hin (S d) ltac:(lia)).
Qed.
Lemma inside_half_open n g x q : inside_box n (g_box g) x -> q_pos q = x -> in_half_open n g q.
Proof. intros H <- d Hd. specialize (H d Hd). lra. Qed.

(** Ids of the elements known to a rank. *)
Lemma NoDup_map_on {A B} (f : A -> B) l : NoDup l -> (forall x y, In x l -> In y l -> f x = f y -> x = y) -> NoDup (map f l).
Proof.
  induction 1; intros H'; simpl; constructor.
  - intros Q. apply in_map_iff in Q as (y & Ey & Hy). apply H. rewrite <- (H' y x); simpl; auto.
  - apply IHNoDup. intros; apply H'; simpl; auto.
Qed.
Lemma sorted_keys_fun {E} (l : list (Z * E)) i e e' : StronglySorted Z.lt (map fst l) -> In (i, e) l -> In (i, e') l -> e = e'.
Proof.
  induction l as [|[k v] l IH]; simpl; intros S H1 H2; [contradiction|]. inversion S; subst. rewrite Forall_forall in H4.
  assert (K : forall v', In (k, v') l -> False). { intros v' Q. specialize (H4 k (in_map fst _ _ Q)). lia. }
  destruct H1 as [H1|H1], H2 as [H2|H2].
  - congruence. - injection H1 as -> ->. exfalso; eauto. - injection H2 as -> ->. exfalso; eauto. - auto.
Qed.
Lemma sorted_nodup (l : list Z) : StronglySorted Z.lt l -> NoDup l.
Proof. induction 1; constructor; auto. rewrite Forall_forall in H0. intros Q. specialize (H0 _ Q). lia. Qed.
