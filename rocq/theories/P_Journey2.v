(** C98 in 2D, and examples. *)
From Verif Require P_NewtonBind P_Regular.
From Verif Require Import M_RealBase M_Grid M_Coord M_NewtonMap M_NewtonBind M_Regular S_Newton S_NewtonM S_NewtonBind S_Regular
  L_RealBase L_Coord L_Newton L_NewtonBind L_NewtonMap L_Regular L_Regular2 L_Regular3 L_Regular4.
From Coq Require Import Sorting.Permutation Sorting.Sorted ZArith Reals Lra Lia Bool.
From Verif Require Import M_Bytes M_Pack2D M_RemoteGeom M_Transport M_Exchange S_Exchange M_MeshIf M_ExchangeMesh M_Halo3D S_Halo3D M_Util M_Journey.
From Verif Require Import S_Grid S_MeshIf L_MeshIf L_Util S_Journey L_Journey L_Journey2 P_Halo3D P_Journey P_Exchange.
From Verif Require P_Util P_MeshIf.
From Verif Require Import S_Newton.
From Coq Require Import List.
Import ListNotations.
Local Open Scope Z_scope.

(** One 2D exchange (of the triangles, or of the quadrilaterals): what every rank sends, the order the messages of rank [me]
    arrive in, and what [me] then holds. *)
Definition sends_2d (size : Z) (owner : Z -> Z) (elems : Z -> list (Z * geom2d)) (gm : Z -> list (Z * list Z)) (claims : Z -> list Z)
    (send : Z -> list Z) (rem : Z -> list (Z * list (Z * geom2d))) : Prop :=
  (forall a b, 0 <= a < size -> packable size a (wanted owner (mkRankData (elems a) (claims a) (gm a)) b)) /\
  forall a, 0 <= a < size -> exchange_get_send_ranks size a owner (elems a) (gm a) (unowned_cells owner a (claims a)) = Ok (send a, rem a).
Definition msg_2d (rem : Z -> list (Z * list (Z * geom2d))) (a b : Z) : list Z := pack_geoms2d (remotes a (rank_elems (rem a) b)).
Definition any_order_2d (size : Z) (send : Z -> list Z) rem (me : Z) (arrival : list (Z * Z)) (order : list nat) : Prop :=
  Permutation arrival (size_messages size send (msg_2d rem) me) /\ Permutation order (seq 0 (num_recv_ranks size send me)).
Definition received_2d (size : Z) (send : Z -> list Z) rem (me : Z) arrival order (l : list remote2d) : Prop :=
  exchange_recv (num_recv_ranks size send me) arrival (fun a => msg_2d rem a me) order = XOk (Ok l).

(** A 2D mesh whose elements have distinct ids and are what they say they are. *)
Definition mesh2_good (size : Z) (owner : Z -> Z) (m : mhier) (bx : geom2d -> box) (tris quads : Z -> list (Z * geom2d)) : Prop :=
  mesh_ok size owner m bx tris quads /\ mh_ndim m = 2%nat /\
  ids_unique size (fun a => tris a ++ quads a) /\
  forall a, 0 <= a < size -> NoDup (map fst (tris a ++ quads a)) /\
    (forall i e, In (i, e) (tris a) -> g2_shape e = eTriangle) /\ (forall i e, In (i, e) (quads a) -> g2_shape e = eQuadrilateral) /\
    (forall i e, In (i, e) (tris a ++ quads a) -> solid (bx e)).

Lemma nodup_fun {E} (l : list (Z * E)) i e e' : NoDup (map fst l) -> In (i, e) l -> In (i, e') l -> e = e'.
Proof.
  induction l as [|[k v] l IH]; simpl; intros Hn H1 H2; [contradiction|]. inversion Hn; subst.
  destruct H1 as [H1|H1], H2 as [H2|H2]; try congruence.
  - injection H1 as -> ->. exfalso. apply H3. apply (in_map fst _ _ H2).
  - injection H2 as -> ->. exfalso. apply H3. apply (in_map fst _ _ H1).
  - auto.
Qed.
Lemma known_2d_good size owner m bx tris quads mk me rt rq : mesh2_good size owner m bx tris quads -> 0 <= me < size ->
  describes mk bx g2_shape -> holds_exactly size owner m bx tris me rt -> holds_exactly size owner m bx quads me rq ->
  let geoms := mapper_elements_2d mk me (tris me) (quads me) rt rq in
  good_geoms 2 geoms /\ Forall known2 geoms /\
  (forall g, In g geoms -> exists a i e, 0 <= a < size /\ In (i, e) (tris a ++ quads a) /\ g = mk a i e).
Proof.
  intros ((Hm & Hb & Hs & Ho) & Hn & Hu & Hg) Hme Hd [Nt Ht] [Nq Hq] geoms.
  assert (R : forall x, In x (rt ++ rq) -> 0 <= r2_rank x < size /\ r2_rank x <> me /\ In (r2_id x, r2_geom x) (tris (r2_rank x) ++ quads (r2_rank x))).
  { intros x Hx. apply in_app_iff in Hx as [Hx|Hx]; [apply Ht in Hx|apply Hq in Hx]; destruct Hx as (A1 & A2 & A3 & _);
      (split; [|split]; auto; apply in_app_iff; auto). }
  assert (P : forall g, In g geoms -> exists a i e, 0 <= a < size /\ In (i, e) (tris a ++ quads a) /\ g = mk a i e).
  { intros g H. apply in_app_iff in H as [H|H]; apply in_map_iff in H as (x & <- & Hx).
    - destruct x as [i e]. exists me, i, e. auto.
    - destruct (R x Hx) as (H1 & H2 & H3). exists (r2_rank x), (r2_id x), (r2_geom x). auto. }
  assert (Sk : forall g, In g geoms -> known2 g).
  { intros g H. destruct (P g H) as (a & i & e & Ha & Hi & ->). unfold known2. destruct (Hd a i e) as (_ & _ & _ & ->).
    destruct (Hg a Ha) as (_ & G1 & G2 & _). apply in_app_iff in Hi as [Hi|Hi]; eauto. }
  split; [|split; [rewrite Forall_forall; auto|auto]].
  split; [|split].
  - unfold geoms, mapper_elements_2d. rewrite map_app, !map_map.
    rewrite (map_ext _ fst) by (intros [i e]; apply Hd). rewrite (map_ext (fun x => g_id _) r2_id) by (intros x; apply Hd).
    apply L_ListX.NoDup_app_intro.
    + apply Hg; auto.
    + assert (N : NoDup (rt ++ rq)).
      { apply L_ListX.NoDup_app_intro; auto. intros x Hx Hx2. apply Ht in Hx as (A1 & _ & A3 & _). apply Hq in Hx2 as (_ & _ & B3 & _).
        destruct (Hg _ A1) as (_ & G1 & G2 & _). apply G1 in A3. apply G2 in B3. rewrite A3 in B3. discriminate. }
      apply NoDup_map_on; auto. intros x y Hx Hy E. destruct (R x Hx) as (X1 & X2 & X3), (R y Hy) as (Y1 & Y2 & Y3).
      rewrite <- E in Y3. assert (Er : r2_rank x = r2_rank y) by (eapply Hu; eauto). rewrite <- Er in Y3.
      pose proof (nodup_fun _ _ _ _ (proj1 (Hg _ X1)) X3 Y3) as Q. destruct x, y; cbn in *. congruence.
    + intros i Hi Hi2. apply in_map_iff in Hi as ([i' e] & <- & Hi). apply in_map_iff in Hi2 as (x & Ex & Hx).
      destruct (R x Hx) as (X1 & X2 & X3). cbn in Ex. rewrite Ex in X3. apply X2. symmetry. eapply Hu; [| |exact Hi|exact X3]; auto.
  - rewrite Forall_forall. intros g H. destruct (P g H) as (a & i & e & Ha & Hi & ->). destruct (Hd a i e) as (_ & -> & _). lia.
  - rewrite Forall_forall. intros b H. apply in_map_iff in H as (g & <- & H). destruct (P g H) as (a & i & e & Ha & Hi & ->).
    destruct (Hd a i e) as (_ & _ & -> & _). split; [rewrite <- Hn; apply (Hb a (i, e) Hi)|eapply Hg; eauto].
Qed.

(** Mapping after the construction of the 2D mesh interface. Deformed triangles, which no mapper covers (C57), are excluded
    from the last clause: see C57_deformed_triangles_refuted. *)
Theorem C98_mapping_2d : forall size owner m bx tris quads mk, mesh2_good size owner m bx tris quads -> describes mk bx g2_shape ->
  forall sendt remt sendq remq, sends_2d size owner tris (gmt m bx tris quads) (cl m bx tris quads) sendt remt ->
    sends_2d size owner quads (gmq m bx tris quads) (cl m bx tris quads) sendq remq ->
  forall me, 0 <= me < size -> forall at_ ot aq oq, any_order_2d size sendt remt me at_ ot -> any_order_2d size sendq remq me aq oq ->
  exists rt rq, received_2d size sendt remt me at_ ot rt /\ received_2d size sendq remq me aq oq rq /\
    forall conf host grp, ref_room 2 grp ->
    exists grp', graph_local_map 2 conf (mapper_elements_2d mk me (tris me) (quads me) rt rq) host grp (-1) = Some (Mapped grp') /\
    rel_group (fun q q' => fate 2 conf size (fun a => tris a ++ quads a) mk q q' /\
      forall a i e g c, 0 <= a < size -> In (i, e) (tris a ++ quads a) -> inside_box 2 (bx e) (q_pos q) ->
        fine_cell m g c -> owner g = me -> in_cell 2 c (q_pos q) -> q_rank q < 0 -> (2 <= length (q_ref q))%nat ->
        ~ deformed_triangle (mk a i e) ->
        element_accepts 2 (regular_tol_2d conf) conf (g_regular (mk a i e)) (mk a i e) q ->
        placed 2 conf size (fun a => tris a ++ quads a) mk q q') (-1) grp grp'.
Proof.
  intros size owner m bx tris quads mk Hgood Hd sendt remt sendq remq [St1 St2] [Sq1 Sq2] me Hme at_ ot aq oq [At Ot] [Aq Oq].
  pose proof Hgood as (Hm & Hn & Hu & Hg).
  destruct (C35_overlapping_elements_arrive size owner m bx tris quads Hm) as [Xt Xq].
  destruct (Xt St1 sendt remt me at_ ot St2 Hme At Ot) as (rt & Et & Ht).
  destruct (Xq Sq1 sendq remq me aq oq Sq2 Hme Aq Oq) as (rq & Eq & Hq).
  exists rt, rq. split; [exact Et|]. split; [exact Eq|]. intros conf host grp Hroom.
  destruct (known_2d_good size owner m bx tris quads mk me rt rq Hgood Hme Hd Ht Hq) as (Gg & Gk & P).
  destruct (map2d_fate conf _ grp Gg Gk Hroom) as (grp' & E' & R). exists grp'. unfold graph_local_map. cbn [Z.eqb Pos.eqb]. rewrite E'. split; auto.
  eapply rel_group_weaken; [|exact R]. intros q q' (F1 & F2 & F3).
  assert (F : fate 2 conf size (fun a => tris a ++ quads a) mk q q').
  { split; auto. intros Hr Hlen. destruct (F2 Hr Hlen) as [->|(g & xi & Hi & Ha & B)]; auto. right.
    destruct (P g Hi) as (a & i & e & Hra & Hie & ->). exists a, i, e, xi. split; auto. split; auto. split; auto.
    destruct (Hd a i e) as (E1 & E2 & _). rewrite E1, E2 in B. exact B. }
  split; auto. intros a i e g c Ha Hi Hbx Hfc Hown Hcell Hr Hlen Hdef Hacc.
  destruct (proj2 F Hr Hlen) as [->|Q]; auto. exfalso. enough (0 <= q_rank q) by lia.
  apply (F3 (mk a i e)); auto.
  - unfold mapper_elements_2d. apply in_or_app. destruct (Z.eq_dec a me) as [->|Hne].
    + left. apply in_map_iff. exists (i, e). auto.
    + right. apply in_map_iff. exists (mkRemote2D a i e). split; [reflexivity|].
      destruct Hm as (Hm & Hb & _).
      assert (W : 0 <= a < size /\ a <> me /\ exists g c, owner g = me /\ fine_cell m g c /\ (0 < overlap_volume (bx e) c)%R).
      { split; auto. split; auto. exists g, c. split; auto. split; auto. destruct (fine_cell_solid m g c Hm Hfc) as [S1 S2].
        apply (overlap_inside 2 _ _ (q_pos q)); auto; [|congruence]. rewrite <- Hn. apply (Hb a (i, _) Hi). }
      destruct W as (W1 & W2 & W3). apply in_app_iff. apply in_app_iff in Hi as [Hi|Hi]; [left; apply (proj2 Ht)|right; apply (proj2 Hq)]; cbn; auto.
  - apply (inside_half_open 2 (mk a i e) (q_pos q)); auto. destruct (Hd a i e) as (_ & _ & -> & _). auto.
Qed.
Print Assumptions C98_mapping_2d.

Lemma translation_2d tris quads : tris ++ quads <> [] -> NoDup (map fst (tris ++ quads)) -> Forall (fun kv : Z * geom2d => 0 <= fst kv < INT_MAX) (tris ++ quads) ->
  exists c, rank_translation_2d tris quads = Some c /\ Permutation (map_to_nektar c) (map fst (tris ++ quads)) /\
    forall i e, In (i, e) (tris ++ quads) -> exists k, translate c i = Some (Z.of_nat k) /\ nth_error (map_to_nektar c) k = Some i.
Proof.
  intros Hne Hn Hr. set (T := map (fun kv : Z * geom2d => (fst kv, (fst kv, eTriangle))) tris). set (Q := map (fun kv : Z * geom2d => (fst kv, (fst kv, eQuadrilateral))) quads).
  assert (EK : map fst (T ++ Q) = map fst (tris ++ quads)) by (unfold T, Q; rewrite !map_app, !map_map; reflexivity).
  assert (EL : length (T ++ Q) = length (tris ++ quads)) by (rewrite <- (map_length fst (T ++ Q)), EK, map_length; reflexivity).
  destruct (P_Util.C15_cell_translation_2d T Q) as (c & C1 & C2 & _ & C4 & _).
  - intros E. rewrite E in EL. destruct (tris ++ quads); [congruence|discriminate].
  - rewrite EK. exact Hn.
  - rewrite Forall_forall. intros k Hk. apply in_app_iff in Hk as [Hk|Hk]; apply in_map_iff in Hk as (x & <- & _); reflexivity.
  - rewrite Forall_forall in *. intros k Hk. assert (W : In (fst k) (map fst (tris ++ quads))) by (rewrite <- EK; apply in_map; auto).
    apply in_map_iff in W as (x & <- & Hx). apply Hr; auto.
  - exists c. split; [exact C1|]. rewrite EK in C2. split; auto. intros i e A.
    assert (W : In i (map_to_nektar c)) by (eapply Permutation_in; [symmetry; exact C2|apply in_map_iff; exists (i, e); auto]).
    apply In_nth_error in W as (k & Hk). exists k. split; auto. apply C4. auto.
Qed.
Theorem C98_landing_2d : forall size tris quads mk conf q q', placed 2 conf size (fun a => tris a ++ quads a) mk q q' ->
  (forall a, 0 <= a < size -> NoDup (map fst (tris a ++ quads a)) /\ Forall (fun kv : Z * geom2d => 0 <= fst kv < INT_MAX) (tris a ++ quads a)) ->
  exists i e c k, 0 <= q_rank q' < size /\ In (i, e) (tris (q_rank q') ++ quads (q_rank q')) /\
    rank_translation_2d (tris (q_rank q')) (quads (q_rank q')) = Some c /\
    translate c (q_cell q') = Some (Z.of_nat k) /\ nth_error (map_to_nektar c) k = Some i /\
    exists xi, accepted 2 conf (mk (q_rank q') i e) q xi /\ q_pos q' = q_pos q /\ forall d, (d < 2)%nat -> nthR (q_ref q') d = comp xi d.
Proof.
  intros size tris quads mk conf q q' (a & i & e & xi & Ha & Hi & Hacc & (B1 & B2 & B3 & B4 & B5)) Hok. subst a. destruct (Hok _ Ha) as [Hs Hr].
  destruct (translation_2d (tris (q_rank q')) (quads (q_rank q'))) as (c & C1 & C2 & C3); auto. { intros Q. rewrite Q in Hi. contradiction. }
  destruct (C3 i e Hi) as (k & K1 & K2). exists i, e, c, k. rewrite B2. repeat (split; [assumption|]). exists xi. split; auto. split; auto.
  intros d Hd. rewrite B5. replace (Nat.ltb d 2) with true by (symmetry; apply Nat.ltb_lt; auto). auto.
Qed.
Print Assumptions C98_landing_2d.

(** No particle strictly inside an affine element is lost, 2D. *)
Theorem C98_no_particle_lost_2d : forall size owner m bx tris quads mk, mesh2_good size owner m bx tris quads -> describes mk bx g2_shape ->
  (forall a i e, 0 <= a < size -> In (i, e) (tris a ++ quads a) -> box_inside (bx e) (grid_extent (mh_origin m) (mh_cw m) (fine_counts m))) ->
  forall conf, (0 <= regular_tol_2d conf)%R ->
  forall a i e s A b xs q, 0 <= a < size -> In (i, e) (tris a ++ quads a) -> affine_element 2 (mk a i e) s A b -> in_interior s xs ->
    at_affine 2 A b xs (kernel_pos 2 q) -> q_rank q < 0 -> (2 <= length (q_ref q))%nat ->
  (exists g c, fine_cell m g c /\ in_cell 2 c (q_pos q)) /\
  forall g c, fine_cell m g c -> in_cell 2 c (q_pos q) ->
    0 <= owner g < size /\
    forall sendt remt sendq remq, sends_2d size owner tris (gmt m bx tris quads) (cl m bx tris quads) sendt remt ->
      sends_2d size owner quads (gmq m bx tris quads) (cl m bx tris quads) sendq remq ->
    forall at_ ot aq oq, any_order_2d size sendt remt (owner g) at_ ot -> any_order_2d size sendq remq (owner g) aq oq ->
    exists rt rq, received_2d size sendt remt (owner g) at_ ot rt /\ received_2d size sendq remq (owner g) aq oq rq /\
      forall host grp cell k j, ref_room 2 grp -> nth_error grp k = Some cell -> nth_error cell j = Some q ->
      exists grp' cell' q', graph_local_map 2 conf (mapper_elements_2d mk (owner g) (tris (owner g)) (quads (owner g)) rt rq) host grp (-1) = Some (Mapped grp') /\
        nth_error grp' k = Some cell' /\ nth_error cell' j = Some q' /\ placed 2 conf size (fun a => tris a ++ quads a) mk q q'.
Proof.
  intros size owner m bx tris quads mk Hgood Hd Hins conf Htol a i e s A b xs q Ha Hi Haff Hxs Hp Hr Hl.
  destruct (affine_interior 2 conf (regular_tol_2d conf) (mk a i e) s A b xs q ltac:(auto) Haff Htol Hxs Hp) as [Hb Hacc].
  assert (Eb : g_box (mk a i e) = bx e) by apply Hd. rewrite Eb in Hb. pose proof Hgood as ((Hm & Hbl & _ & Ho) & Hn & _).
  split.
  - rewrite <- Hn. apply point_in_cell; auto. intros d Hdl. rewrite Hn in Hdl. specialize (Hb d Hdl).
    assert (G : forall (b c : list (R * R)), box_inside b c -> (d < length b)%nat ->
      (fst (nth d c (0, 0)) <= fst (nth d b (0, 0)) /\ snd (nth d b (0, 0)) <= snd (nth d c (0, 0)))%R).
    { clear. intros b c H. revert d. induction H; intros [|d] Hd; simpl in *; try lia; auto. apply IHForall2. lia. }
    pose proof (Hbl a (i, e) Hi) as HL. cbn [snd] in HL. specialize (G _ _ (Hins a i e Ha Hi) ltac:(rewrite HL, Hn; exact Hdl)). lra.
  - intros g c Hfc Hcell.
    assert (Hme : 0 <= owner g < size).
    { apply (Ho a (i, e) g c Ha Hi Hfc). destruct (fine_cell_solid m g c Hm Hfc) as [S1 S2].
      apply (overlap_inside 2 _ _ (q_pos q)); auto; [rewrite <- Hn; apply (Hbl a (i, e) Hi)|congruence]. }
    split; auto. intros sendt remt sendq remq St Sq at_ ot aq oq Ot Oq.
    destruct (C98_mapping_2d size owner m bx tris quads mk Hgood Hd sendt remt sendq remq St Sq (owner g) Hme at_ ot aq oq Ot Oq) as (rt & rq & E1 & E2 & F).
    exists rt, rq. split; auto. split; auto. intros host grp cell k j Hroom Hk Hj.
    destruct (F conf host grp Hroom) as (grp' & E' & R). destruct R as [_ R]. destruct (R k cell Hk) as (cell' & Hk' & R').
    cbn [cell_selected Z.leb Z.compare orb] in R'. destruct (forall2_nth _ _ _ R' j q Hj) as (q' & Hj' & _ & Q).
    exists grp', cell', q'. split; auto. split; auto. split; auto. destruct Haff as (_ & Hreg & _). apply (Q a i e g c); auto.
    + unfold deformed_triangle. rewrite Hreg. intros [W _]. discriminate.
    + rewrite Hreg. exact Hacc.
Qed.
Print Assumptions C98_no_particle_lost_2d.

(** The property the callback adds has room for the reference position; in other dimensions nothing is mapped. *)
Theorem C98_room_for_reference : forall n contents q, length (q_ref (particle_group_callback n contents q)) = n /\
  q_pos (particle_group_callback n contents q) = q_pos q /\ q_cell (particle_group_callback n contents q) = q_cell q /\
  q_rank (particle_group_callback n contents q) = q_rank q.
Proof. intros n l q. split; [|auto]. unfold particle_group_callback. cbn [q_ref]. rewrite firstn_length, app_length, repeat_length. lia. Qed.
Theorem C98_dimensions : forall ndim conf geoms host grp mc, graph_local_map ndim conf geoms host grp mc = None <-> ndim <> 2 /\ ndim <> 3.
Proof.
  intros. unfold graph_local_map. destruct (Z.eqb_spec ndim 2); [split; [discriminate|tauto]|]. destruct (Z.eqb_spec ndim 3); [split; [discriminate|tauto]|]. tauto.
Qed.
Print Assumptions C98_dimensions.

(** Non-vacuity, 3D: the reference tetrahedron on rank 0, all cells of the hierarchy owned by rank 1, a particle in it. *)
Definition j_tet : elem3d := ex_tet.
Definition j_elems (a : Z) : list (Z * elem3d) := if a =? 0 then [(3, j_tet)] else [].
Definition j_faces (a : Z) : list (Z * geom2d) := if a =? 0 then map (fun i => (i, ex_tri i)) [2; 6; 7; 8] else [].
Definition j_mh : mhier := mkMH [1; 1; 1] [-1; -1; -1]%R 2 2%R.
Definition j_box : list (R * R) := [(-1, 1); (-1, 1); (-1, 1)]%R.
Definition j_mk (a i : Z) (e : elem3d) : mgeom :=
  {| g_box := j_box; g_id := i; g_rank := a; g_newton := tet_type (P_Regular.refvertices (AElem ETet)) (1, 1, 1)%R; g_modes := 3;
     g_shape := shape_of_3d e; g_regular := true; g_linear := true; g_verts := P_Regular.refvertices (AElem ETet) |}.
Definition j_q : particle := {| q_pos := [-1/2; -1/2; -1/2]%R; q_cell := 0; q_rank := -1; q_ref := [0; 0; 0]%R |}.
Lemma filter_one {X} (p : X -> bool) x : filter p [x] = [] \/ filter p [x] = [x].
Proof. cbn. destruct (p x); auto. Qed.
Example C98_nonvacuous_3d :
  mesh3_ok 2 (fun _ => 1) j_mh (fun _ => j_box) j_faces j_elems /\ mh_ndim j_mh = 3%nat /\ ids_unique 2 j_elems /\
  describes j_mk (fun _ => j_box) shape_of_3d /\ solid j_box /\ box_inside j_box (grid_extent (mh_origin j_mh) (mh_cw j_mh) (fine_counts j_mh)) /\
  (forall a, 0 <= a < 2 -> counted 2 (fun _ => 1) a (data3 j_mh (fun _ => j_box) j_faces j_elems a)) /\
  In (3, j_tet) (j_elems 0) /\ affine_element 3 (j_mk 0 3 j_tet) (AElem ETet) P_Regular.delta (fun _ => 0%R) /\
  in_interior (AElem ETet) (-1/2, -1/2, -1/2)%R /\ at_affine 3 P_Regular.delta (fun _ => 0%R) (-1/2, -1/2, -1/2)%R (kernel_pos 3 j_q) /\
  q_rank j_q < 0 /\ (3 <= length (q_ref j_q))%nat.
Proof.
  split; [|split; [reflexivity|]].
  { split; [unfold mh_ok, j_mh; simpl; repeat split; auto; try lia; try lra; repeat constructor; lia|].
    split; [reflexivity|]. split; [intros a _; unfold j_elems, j_faces; destruct (a =? 0); cbn [map fst]; split; repeat constructor|].
    split; [|intros; lia]. intros a id e _. unfold j_elems, j_faces. destruct (a =? 0); [|intros []]. intros [E|[]]; injection E as <- <-. split.
    - split; [reflexivity|]. repeat (apply Forall_cons; [reflexivity|]). apply Forall_nil.
    - intros f Hf. cbn [snd j_tet ex_tet In] in Hf. repeat destruct Hf as [<-|Hf]; cbn; tauto. }
  split. { intros a b i e e' _ _. unfold j_elems. destruct (Z.eqb_spec a 0); [|intros []]. destruct (Z.eqb_spec b 0); [|intros _ []]. congruence. }
  split. { intros a i e. auto. }
  split. { repeat constructor; simpl; lra. }
  split. { unfold box_inside, j_box, j_mh, mh_cw. cbn. repeat constructor; cbn; lra. }
  split. { intros a Ha b. set (d := data3 j_mh (fun _ => j_box) j_faces j_elems a).
    assert (C : wanted3 (fun _ => 1) d b = [] \/ a = 0 /\ wanted3 (fun _ => 1) d b = [(3, j_tet)]).
    { unfold wanted3. change (k3_elems d) with (j_elems a). unfold j_elems. destruct (Z.eqb_spec a 0); [|auto].
      destruct (filter_one (fun e => existsb (fun c => (1 =? b) && existsb (Z.eqb (fst e)) (geom_ids (k3_map d) c)) (k3_claims d)) (3, j_tet)); auto. }
    unfold wanted_faces. change (k3_faces d) with (j_faces a). destruct C as [-> | [-> ->]].
    - unfold j_faces. destruct (a =? 0); (split; [|split]; [split; [constructor|vm_compute; reflexivity]..|vm_compute; reflexivity]).
    - split; [|split]; [split; [apply Forall_forall, forallb_forall; vm_compute; reflexivity|vm_compute; reflexivity]..|vm_compute; reflexivity]. }
  split; [cbn; auto|]. split.
  { split; [reflexivity|]. split; [reflexivity|]. split; [reflexivity|]. split; [apply (P_Regular.C48_not_vacuous (AElem ETet))|].
    split; [apply (P_Regular.C48_not_vacuous (AElem ETet))|]. intros i a Hi Ha. cbn in Hi.
    destruct i as [|[|[|[|]]]]; [..|lia]; destruct a as [|[|[|]]]; try lia; cbn; lra. }
  split; [cbn; lra|]. split; [|cbn; split; lia].
  intros [|[|[|]]] Ha; [..|lia]; rewrite (P_NewtonBind.C47_position 3 j_q) by lia; unfold affine_coeffs, P_Regular.delta; cbn; lra.
Qed.
(** The theorem applied: on rank 1, which owns every cell, the tetrahedron of rank 0 gets the particle. *)
Example C98_applied_3d : forall conf, all_generic_newton conf = false -> (0 <= regular_tol_3d conf)%R ->
  forall out, prepared_by 2 (fun _ => 1) j_mh (fun _ => j_box) j_faces j_elems out ->
  forall ta qa sa to qo so, schedule 2 out 1 ta qa sa to qo so ->
  exists tris quads l, create_halos_3d 2 1 out ta qa sa to qo so = H3Ok tris quads l /\
    exists q', graph_local_map 3 conf (mapper_elements_3d j_mk 1 (j_elems 1) l) (fun q => q) [[j_q]] (-1) = Some (Mapped [[q']]) /\ q_rank q' = 0 /\ q_cell q' = 3.
Proof.
  intros conf H1 H2 out Hout ta qa sa to qo so Hsch.
  destruct C98_nonvacuous_3d as (A1 & A2 & A3 & A4 & A5 & A6 & A7 & A8 & A9 & A10 & A11 & A12 & A13).
  destruct (C98_no_particle_lost_3d 2 (fun _ => 1) j_mh (fun _ => j_box) j_faces j_elems j_mk A1 A2 A3 A4 (fun _ _ _ _ _ => A5) (fun _ _ _ _ _ => A6) A7 conf H1 H2
     0 3 j_tet (AElem ETet) P_Regular.delta (fun _ => 0%R) (-1/2, -1/2, -1/2)%R j_q ltac:(lia) A8 A9 A10 A11 A12 A13) as [(g & c & Hf & Hc) B].
  destruct (B g c Hf Hc) as (_ & B2). destruct (B2 out Hout ta qa sa to qo so Hsch) as (tris & quads & l & E & F).
  exists tris, quads, l. split; auto.
  destruct (F (fun q => q) [[j_q]] [j_q] 0%nat 0%nat) as (grp' & cell' & q' & E' & K1 & K2 & (a & i & e & xi & Ha & Hi & _ & (_ & P1 & P2 & _))); try reflexivity.
  { intros q. exists q. unfold host_stage. cbn. auto. }
  exists q'. split.
  - rewrite E'. f_equal. f_equal.
    destruct (C98_mapping_3d 2 (fun _ => 1) j_mh (fun _ => j_box) j_faces j_elems j_mk A1 A2 A3 A4 (fun _ _ _ _ _ => A5) A7 out Hout 1 ta qa sa to qo so ltac:(lia) Hsch) as (t2 & q2 & l2 & E2 & F2).
    rewrite E in E2. injection E2 as <- <- <-. destruct (F2 conf (fun q => q) [[j_q]]) as (g3 & E3 & [L3 R3]). { intros q. exists q. unfold host_stage. cbn. auto. }
    rewrite E' in E3. injection E3 as <-. destruct (R3 0%nat [j_q] eq_refl) as (c3 & K3 & K4). rewrite K1 in K3. injection K3 as <-.
    cbn [cell_selected Z.leb Z.compare orb] in K4. destruct grp' as [|x [|]]; try discriminate. cbn in K1. injection K1 as ->. inversion K4 as [|? ? ? ? ? K5]; subst. inversion K5; subst. cbn in K2. injection K2 as ->. reflexivity.
  - unfold j_elems in Hi. destruct (Z.eqb_spec a 0); [|destruct Hi]. destruct Hi as [Hi|[]]. injection Hi as <- <-. subst a. split; auto.
Qed.
(** Non-vacuity, 2D: the reference triangle on rank 0, all cells owned by rank 1. *)
Definition k_tris (a : Z) : list (Z * geom2d) := if a =? 0 then [(7, ex_tri 7)] else [].
Definition k_none (a : Z) : list (Z * geom2d) := [].
Definition k_mh : mhier := mkMH [1; 1] [-1; -1]%R 2 2%R.
Definition k_box : list (R * R) := [(-1, 1); (-1, 1)]%R.
Definition k_mk (a i : Z) (e : geom2d) : mgeom :=
  {| g_box := k_box; g_id := i; g_rank := a; g_newton := quad_type (P_Regular.refvertices (AElem EQuad)) (1, 1, 1)%R; g_modes := 3;
     g_shape := g2_shape e; g_regular := true; g_linear := true; g_verts := P_Regular.refvertices ATri |}.
Definition k_q : particle := {| q_pos := [-1/2; -1/2]%R; q_cell := 0; q_rank := -1; q_ref := [0; 0]%R |}.
Example C98_nonvacuous_2d :
  mesh2_good 2 (fun _ => 1) k_mh (fun _ => k_box) k_tris k_none /\ describes k_mk (fun _ => k_box) g2_shape /\
  box_inside k_box (grid_extent (mh_origin k_mh) (mh_cw k_mh) (fine_counts k_mh)) /\
  (exists sendt remt, sends_2d 2 (fun _ => 1) k_tris (gmt k_mh (fun _ => k_box) k_tris k_none) (cl k_mh (fun _ => k_box) k_tris k_none) sendt remt) /\
  (exists sendq remq, sends_2d 2 (fun _ => 1) k_none (gmq k_mh (fun _ => k_box) k_tris k_none) (cl k_mh (fun _ => k_box) k_tris k_none) sendq remq) /\
  In (7, ex_tri 7) (k_tris 0 ++ k_none 0) /\ affine_element 2 (k_mk 0 7 (ex_tri 7)) ATri P_Regular.delta (fun _ => 0%R) /\
  in_interior ATri (-1/2, -1/2, 0)%R /\ at_affine 2 P_Regular.delta (fun _ => 0%R) (-1/2, -1/2, 0)%R (kernel_pos 2 k_q) /\
  q_rank k_q < 0 /\ (2 <= length (q_ref k_q))%nat.
Proof.
  assert (M : mesh_ok 2 (fun _ => 1) k_mh (fun _ => k_box) k_tris k_none).
  { split; [unfold mh_ok, k_mh; simpl; repeat split; auto; try lia; try lra; repeat constructor; lia|].
    split; [reflexivity|]. split; [|intros; lia]. intros a _. unfold k_tris. destruct (a =? 0); cbn [map fst k_none]; split; repeat constructor. }
  split.
  { split; [exact M|]. split; [reflexivity|]. split.
    { intros a b i e e' _ _. unfold k_tris, k_none. rewrite !app_nil_r. destruct (Z.eqb_spec a 0); [|intros []]. destruct (Z.eqb_spec b 0); [|intros _ []]. congruence. }
    intros a _. unfold k_none. rewrite app_nil_r. unfold k_tris. destruct (a =? 0).
    - split; [repeat constructor; cbn; tauto|]. split; [intros i e [E|[]]; injection E as <- <-; reflexivity|]. split; [intros i e []|].
      intros. repeat constructor; cbn; lra.
    - split; [constructor|]. split; [intros i e []|]. split; [intros i e []|]. intros. repeat constructor; cbn; lra. }
  split; [intros a i e; auto|]. split. { unfold box_inside, k_box, k_mh, mh_cw. cbn. repeat constructor; cbn; lra. }
  assert (CH : forall (P : Z -> list Z -> list (Z * list (Z * geom2d)) -> Prop), (forall a, 0 <= a < 2 -> exists s r, P a s r) -> exists s r, forall a, 0 <= a < 2 -> P a (s a) (r a)).
  { intros P H. destruct (H 0 ltac:(lia)) as (s0 & r0 & H0). destruct (H 1 ltac:(lia)) as (s1 & r1 & H1).
    exists (fun a => if a =? 0 then s0 else s1), (fun a => if a =? 0 then r0 else r1). intros a Ha. destruct (Z.eqb_spec a 0); [subst; auto|]. replace a with 1 by lia. auto. }
  split.
  { destruct (CH (fun a s r => exchange_get_send_ranks 2 a (fun _ => 1) (k_tris a) (gmt k_mh (fun _ => k_box) k_tris k_none a) (unowned_cells (fun _ => 1) a (cl k_mh (fun _ => k_box) k_tris k_none a)) = Ok (s, r))) as (s & r & H).
    { intros a Ha. apply (C35_sends_succeed _ _ _ _ _ _ M a Ha). }
    exists s, r. split; auto. intros a b Ha.
    assert (C : forall c g, wanted (fun _ => 1) (mkRankData (k_tris a) c g) b = [] \/ wanted (fun _ => 1) (mkRankData (k_tris a) c g) b = [(7, ex_tri 7)]).
    { intros c g. unfold wanted. cbn [rd_elems]. unfold k_tris. destruct (a =? 0); [apply filter_one|auto]. }
    destruct (C (cl k_mh (fun _ => k_box) k_tris k_none a) (gmt k_mh (fun _ => k_box) k_tris k_none a)) as [-> | ->].
    - split; [constructor|vm_compute; reflexivity].
    - assert (a = 0 \/ a = 1) as [-> | ->] by lia; (split; [apply Forall_forall, forallb_forall; vm_compute; reflexivity|vm_compute; reflexivity]). }
  split.
  { destruct (CH (fun a s r => exchange_get_send_ranks 2 a (fun _ => 1) (k_none a) (gmq k_mh (fun _ => k_box) k_tris k_none a) (unowned_cells (fun _ => 1) a (cl k_mh (fun _ => k_box) k_tris k_none a)) = Ok (s, r))) as (s & r & H).
    { intros a Ha. apply (C35_sends_succeed _ _ _ _ _ _ M a Ha). }
    exists s, r. split; auto. intros a b Ha. unfold wanted, k_none. cbn [rd_elems filter]. split; [constructor|vm_compute; reflexivity]. }
  split; [cbn; auto|]. split.
  { split; [reflexivity|]. split; [reflexivity|]. split; [reflexivity|]. split; [apply (P_Regular.C48_not_vacuous ATri)|].
    split; [apply (P_Regular.C48_not_vacuous ATri)|]. intros i a Hi Ha. cbn in Hi.
    destruct i as [|[|[|]]]; [..|lia]; destruct a as [|[|]]; try lia; cbn; lra. }
  split; [cbn; lra|]. split; [|cbn; split; lia].
  intros [|[|]] Ha; [..|lia]; rewrite (P_NewtonBind.C47_position 2 k_q) by lia; unfold affine_coeffs, P_Regular.delta; cbn; lra.
Qed.
