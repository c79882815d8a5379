(** C98: no particle in the mesh is lost. *)
From Verif Require P_NewtonBind P_Regular.
From Verif Require Import M_RealBase M_Grid M_Coord M_NewtonMap M_NewtonBind M_Regular S_Newton S_NewtonM S_NewtonBind S_Regular
  L_RealBase L_Coord L_Newton L_NewtonBind L_NewtonMap L_Regular L_Regular2 L_Regular3 L_Regular4.
From Coq Require Import Sorting.Permutation Sorting.Sorted ZArith Reals Lra Lia Bool.
From Verif Require Import M_Bytes M_Pack2D M_RemoteGeom M_Transport M_Exchange S_Exchange M_MeshIf M_ExchangeMesh M_Halo3D S_Halo3D M_Util M_Journey.
From Verif Require Import S_Grid S_MeshIf L_MeshIf L_Util S_Journey L_Journey L_Journey2 P_Exchange P_Halo3D.
From Verif Require P_Util P_MeshIf.
From Verif Require Import S_Newton.
From Coq Require Import List.
Import ListNotations.
Local Open Scope Z_scope.

(** The elements a rank knows, 3D. *)
Lemma known_3d_good size owner m bx faces elems mk me l : mesh3_ok size owner m bx faces elems -> mh_ndim m = 3%nat -> 0 <= me < size ->
  ids_unique size elems -> describes mk bx shape_of_3d -> (forall a i e, 0 <= a < size -> In (i, e) (elems a) -> solid (bx e)) -> NoDup l ->
  (forall x, In x l -> 0 <= r3_rank x < size /\ r3_rank x <> me /\ In (r3_id x, (r3_shape x, r3_faces x)) (elems (r3_rank x))) ->
  let geoms := mapper_elements_3d mk me (elems me) l in
  good_geoms 3 geoms /\ Forall known3 geoms /\ (forall g, In g geoms -> exists a i e, 0 <= a < size /\ In (i, e) (elems a) /\ g = mk a i e).
Proof.
  intros (Hm & Hb & Hs & He & Ho) Hn Hme Hu Hd Hsol Hnd Hl geoms.
  assert (P : forall g, In g geoms -> exists a i e, 0 <= a < size /\ In (i, e) (elems a) /\ g = mk a i e).
  { intros g Hg. apply in_app_iff in Hg as [Hg|Hg]; apply in_map_iff in Hg as (x & <- & Hx).
    - destruct x as [i e]. exists me, i, e. auto.
    - destruct (Hl x Hx) as (H1 & H2 & H3). exists (r3_rank x), (r3_id x), (r3_shape x, r3_faces x). auto. }
  assert (Sk : forall g, In g geoms -> known3 g).
  { intros g Hg. destruct (P g Hg) as (a & i & e & _ & _ & ->). unfold known3. destruct (Hd a i e) as (_ & _ & _ & ->).
    unfold shape_of_3d. destruct (fst e); cbn; auto 6. }
  split; [|split; [rewrite Forall_forall; auto|auto]].
  split; [|split].
  - unfold geoms, mapper_elements_3d. rewrite map_app, !map_map.
    rewrite (map_ext _ fst) by (intros [i e]; apply Hd). rewrite (map_ext (fun x => g_id _) r3_id) by (intros x; apply Hd).
    apply L_ListX.NoDup_app_intro.
    + apply sorted_nodup, Hs; auto.
    + apply NoDup_map_on; auto. intros x y Hx Hy E. destruct (Hl x Hx) as (X1 & X2 & X3), (Hl y Hy) as (Y1 & Y2 & Y3).
      rewrite <- E in Y3. assert (Er : r3_rank x = r3_rank y) by (eapply Hu; eauto). rewrite <- Er in Y3.
      pose proof (sorted_keys_fun _ _ _ _ (proj1 (Hs _ X1)) X3 Y3) as Q. destruct x, y; cbn in *. congruence.
    + intros i Hi Hi2. apply in_map_iff in Hi as ([i' e] & <- & Hi). apply in_map_iff in Hi2 as (x & Ex & Hx).
      destruct (Hl x Hx) as (X1 & X2 & X3). cbn in Ex. rewrite Ex in X3. apply X2. symmetry. eapply Hu; [| |exact Hi|exact X3]; auto.
  - rewrite Forall_forall. intros g Hg. destruct (P g Hg) as (a & i & e & Ha & Hi & ->). destruct (Hd a i e) as (_ & -> & _). lia.
  - rewrite Forall_forall. intros b Hi. apply in_map_iff in Hi as (g & <- & Hg). destruct (P g Hg) as (a & i & e & Ha & Hi & ->).
    destruct (Hd a i e) as (_ & _ & -> & _). split; [rewrite <- Hn; apply (Hb a (i, e) Hi)|eapply Hsol; eauto].
Qed.

(** Mapping all particles of a rank after the creation of the mesh interface: every particle keeps its place or gets an
    element of the mesh, wherever that element lives, that accepts it; a particle in a hierarchy cell of this rank and
    strictly inside the box of an element (of any rank) that accepts its position in the first attempt gets one. *)
Theorem C98_mapping_3d : forall size owner m bx faces elems mk, mesh3_ok size owner m bx faces elems -> mh_ndim m = 3%nat ->
  ids_unique size elems -> describes mk bx shape_of_3d -> (forall a i e, 0 <= a < size -> In (i, e) (elems a) -> solid (bx e)) ->
  (forall a, 0 <= a < size -> counted size owner a (data3 m bx faces elems a)) ->
  forall out, prepared_by size owner m bx faces elems out ->
  forall me ta qa sa to qo so, 0 <= me < size -> schedule size out me ta qa sa to qo so ->
  exists tris quads l, create_halos_3d size me out ta qa sa to qo so = H3Ok tris quads l /\
    forall conf host grp, good_stage (host_stage host) ->
    exists grp', graph_local_map 3 conf (mapper_elements_3d mk me (elems me) l) host grp (-1) = Some (Mapped grp') /\
    rel_group (fun q q' => fate 3 conf size elems mk q q' /\
      forall a i e g c, 0 <= a < size -> In (i, e) (elems a) -> inside_box 3 (bx e) (q_pos q) ->
        fine_cell m g c -> owner g = me -> in_cell 3 c (q_pos q) -> q_rank q < 0 -> (3 <= length (q_ref q))%nat ->
        element_accepts 3 (regular_tol_3d conf) conf (negb (all_generic_newton conf) && g_regular (mk a i e)) (mk a i e) q ->
        placed 3 conf size elems mk q q') (-1) grp grp'.
Proof.
  intros size owner m bx faces elems mk Hm Hn Hu Hd Hsol Hc out Hout me ta qa sa to qo so Hme Hsch.
  destruct (C87_overlapping_elements_arrive size owner m bx faces elems Hm Hc out Hout me ta qa sa to qo so Hme Hsch) as (tris & quads & l & E & Hnd & Hl & _).
  exists tris, quads, l. split; auto. intros conf host grp Hh.
  destruct (known_3d_good size owner m bx faces elems mk me l Hm Hn Hme Hu Hd Hsol Hnd) as (Hg & Hk & P).
  { intros x Hx. apply Hl in Hx. tauto. }
  destruct (map3d_fate conf _ host grp Hg Hk Hh) as (grp' & E' & R). exists grp'. unfold graph_local_map. cbn [Z.eqb]. rewrite E'. split; auto.
  eapply rel_group_weaken; [|exact R]. intros q q' (F1 & F2 & F3).
  assert (F : fate 3 conf size elems mk q q').
  { split; auto. intros Hr Hlen. destruct (F2 Hr Hlen) as [->|(g & xi & Hi & Ha & B)]; auto. right.
    destruct (P g Hi) as (a & i & e & Hra & Hie & ->). exists a, i, e, xi. split; auto. split; auto. split; auto.
    destruct (Hd a i e) as (E1 & E2 & _). rewrite E1, E2 in B. exact B. }
  split; auto. intros a i e g c Ha Hi Hbx Hfc Hown Hcell Hr Hlen Hacc.
  destruct (proj2 F Hr Hlen) as [->|Q]; auto. exfalso.
  enough (0 <= q_rank q) by lia.
  apply (F3 (mk a i e)); auto.
  - unfold mapper_elements_3d. apply in_or_app. destruct (Z.eq_dec a me) as [->|Hne].
    + left. apply in_map_iff. exists (i, e). auto.
    + right. apply in_map_iff. exists (mkRemote3D a i (fst e) (snd e)). split; [destruct e; reflexivity|]. apply Hl. cbn. split; auto. split; auto.
      split; [destruct e; auto|]. exists g, c. split; auto. split; auto. destruct Hm as (Hm & Hb & _). destruct (fine_cell_solid m g c Hm Hfc) as [S1 S2].
      apply (overlap_inside 3 _ _ (q_pos q)); auto; [|congruence|destruct e; exact Hbx]. rewrite <- Hn. destruct e. apply (Hb a (i, _) Hi).
  - apply (inside_half_open 3 (mk a i e) (q_pos q)); auto. destruct (Hd a i e) as (_ & _ & -> & _). auto.
Qed.
Print Assumptions C98_mapping_3d.

(** Where a particle in the mesh is sent first: the box of an element strictly containing it meets a hierarchy cell that
    contains it, and that cell has an owner. *)
Theorem C98_cell_with_owner_3d : forall size owner m bx faces elems, mesh3_ok size owner m bx faces elems ->
  forall a i e x, 0 <= a < size -> In (i, e) (elems a) -> inside_box (mh_ndim m) (bx e) x ->
  box_inside (bx e) (grid_extent (mh_origin m) (mh_cw m) (fine_counts m)) ->
  (exists g c, fine_cell m g c /\ in_cell (mh_ndim m) c x) /\
  (forall g c, fine_cell m g c -> in_cell (mh_ndim m) c x -> 0 <= owner g < size).
Proof.
  intros size owner m bx faces elems (Hm & Hb & _ & _ & Ho) a i e x Ha Hi Hx Hin. split.
  - apply point_in_cell; auto. intros d Hd. specialize (Hx d Hd).
    assert (G : forall (b c : list (R * R)), box_inside b c -> (d < length b)%nat ->
      (fst (nth d c (0, 0)) <= fst (nth d b (0, 0)) /\ snd (nth d b (0, 0)) <= snd (nth d c (0, 0)))%R).
    { clear. intros b c H. revert d. induction H; intros [|d] Hd; simpl in *; try lia; auto. apply IHForall2. lia. }
    pose proof (Hb a (i, e) Hi) as HL. cbn [snd] in HL. specialize (G _ _ Hin ltac:(rewrite HL; exact Hd)). lra.
  - intros g c Hfc Hc. apply (Ho a (i, e) g c Ha Hi Hfc). destruct (fine_cell_solid m g c Hm Hfc) as [S1 S2].
    apply (overlap_inside (mh_ndim m) _ _ x); auto. apply (Hb a (i, e) Hi).
Qed.
Print Assumptions C98_cell_with_owner_3d.

(** A placed particle, sent to the rank it was given, has a cell there: translating its element id gives the cell of that
    element. *)
Lemma of_shape_spec {E} (shape : E -> Z) s own k : In k (of_shape shape s own) <-> exists e, In (fst k, e) own /\ shape e = s /\ snd k = (fst k, s).
Proof.
  unfold of_shape. rewrite in_map_iff. split.
  - intros ([i e] & <- & H). apply filter_In in H as [H1 H2]. apply Z.eqb_eq in H2. cbn in *. eauto.
  - destruct k as [i v]. cbn. intros (e & H1 & H2 & ->). exists (i, e). split; auto. apply filter_In. split; auto. apply Z.eqb_eq. auto.
Qed.
Lemma of_shape_keys {E} (shape : E -> Z) s own : map fst (of_shape shape s own) = map fst (filter (fun kv => shape (snd kv) =? s) own).
Proof. unfold of_shape. rewrite map_map. apply map_ext. reflexivity. Qed.
Lemma of_shapes_nodup {E} (shape : E -> Z) (own : list (Z * E)) : NoDup (map fst own) -> forall ss, NoDup ss ->
  NoDup (map fst (concat (map (fun s => of_shape shape s own) ss))).
Proof.
  intros Hn. assert (K : forall i e e', In (i, e) own -> In (i, e') own -> e = e').
  { clear -Hn. induction own as [|[k v] own IH]; simpl; intros i e e' H1 H2; [contradiction|]. inversion Hn; subst.
    destruct H1 as [H1|H1], H2 as [H2|H2]; try congruence.
    - injection H1 as -> ->. exfalso. apply H3. apply (in_map fst _ _ H2). - injection H2 as -> ->. exfalso. apply H3. apply (in_map fst _ _ H1). - eauto. }
  induction 1 as [|s ss H1 H2 IH]; simpl; [constructor|]. rewrite map_app. apply L_ListX.NoDup_app_intro; auto.
  - rewrite of_shape_keys. clear -Hn. induction own as [|kv own IH]; simpl in *; [constructor|]. inversion Hn; subst. destruct (_ =? _); auto. simpl. constructor; auto.
    intros Q. apply H1. apply in_map_iff in Q as (y & Ey & Hy). apply filter_In in Hy as [Hy _]. rewrite <- Ey. apply in_map; auto.
  - intros i Hi Hi2. apply in_map_iff in Hi as (k & <- & Hk). apply of_shape_spec in Hk as (e & A1 & A2 & _).
    apply in_map_iff in Hi2 as (k2 & Ek & Hk2). apply in_concat in Hk2 as (l & Hl & Hk2). apply in_map_iff in Hl as (s' & <- & Hs').
    apply of_shape_spec in Hk2 as (e2 & B1 & B2 & _). rewrite Ek in B1. assert (e = e2) by eauto. subst. congruence.
Qed.
Lemma translation_3d own : own <> [] -> StronglySorted Z.lt (map fst own) -> Forall (fun kv => 0 <= fst kv < INT_MAX) own ->
  exists c, rank_translation_3d own = Some c /\ Permutation (map_to_nektar c) (map fst own) /\
    forall i e, In (i, e) own -> exists k, translate c i = Some (Z.of_nat k) /\ nth_error (map_to_nektar c) k = Some i.
Proof.
  intros Hne Hs Hr. pose proof (sorted_nodup _ Hs) as Hn.
  set (ss := [eTetrahedron; ePyramid; ePrism; eHexahedron]).
  assert (E4 : of_shape shape_of_3d eTetrahedron own ++ of_shape shape_of_3d ePyramid own ++ of_shape shape_of_3d ePrism own ++ of_shape shape_of_3d eHexahedron own
    = concat (map (fun s => of_shape shape_of_3d s own) ss)) by (cbn; rewrite app_nil_r; reflexivity).
  assert (Hin : forall e, In (shape_of_3d e) ss) by (intros [s f]; unfold shape_of_3d; destruct s; cbn; auto).
  assert (Hnd : NoDup (map fst (concat (map (fun s => of_shape shape_of_3d s own) ss)))).
  { apply of_shapes_nodup; auto. repeat constructor; cbn; unfold eTetrahedron, ePyramid, ePrism, eHexahedron; intuition discriminate. }
  assert (Hi : forall k, In k (concat (map (fun s => of_shape shape_of_3d s own) ss)) <-> exists e, In (fst k, e) own /\ snd k = (fst k, shape_of_3d e)).
  { intros k. rewrite in_concat. split.
    - intros (l & Hl & Hk). apply in_map_iff in Hl as (s & <- & _). apply of_shape_spec in Hk as (e & A & <- & B). eauto.
    - intros (e & A & B). exists (of_shape shape_of_3d (shape_of_3d e) own). split; [apply in_map_iff; eauto|]. apply of_shape_spec. eauto. }
  assert (Hkeys : forall i, In i (map fst (concat (map (fun s => of_shape shape_of_3d s own) ss))) <-> In i (map fst own)).
  { intros i. rewrite !in_map_iff. split.
    - intros (k & <- & Hk). apply Hi in Hk as (e & A & _). exists (fst k, e). auto.
    - intros ([j e] & <- & A). exists (j, (j, shape_of_3d e)). split; auto. apply Hi. cbn. eauto. }
  destruct (P_Util.C15_cell_translation_3d (of_shape shape_of_3d eTetrahedron own) (of_shape shape_of_3d ePyramid own) (of_shape shape_of_3d ePrism own) (of_shape shape_of_3d eHexahedron own))
    as (c & C1 & C2 & _ & C4 & _).
  - rewrite E4. intros Q. destruct own as [|[i e] own]; [congruence|]. assert (W : In i (map fst (concat (map (fun s => of_shape shape_of_3d s ((i, e) :: own)) ss)))) by (apply Hkeys; simpl; auto). rewrite Q in W. exact W.
  - rewrite E4. exact Hnd.
  - rewrite E4. rewrite Forall_forall. intros k Hk. apply Hi in Hk as (e & _ & ->). reflexivity.
  - rewrite E4. rewrite Forall_forall. intros k Hk. apply Hi in Hk as (e & A & _). rewrite Forall_forall in Hr. apply (Hr _ A).
  - exists c. split; [exact C1|]. rewrite E4 in C2. 
    assert (P : Permutation (map_to_nektar c) (map fst own)).
    { rewrite C2. apply NoDup_Permutation; auto. }
    split; auto. intros i e A. assert (W : In i (map_to_nektar c)) by (eapply Permutation_in; [symmetry; exact P|apply in_map_iff; exists (i, e); auto]).
    apply In_nth_error in W as (k & Hk). exists k. split; auto. apply C4. auto.
Qed.
Theorem C98_landing_3d : forall size elems mk conf q q', placed 3 conf size elems mk q q' ->
  (forall a, 0 <= a < size -> StronglySorted Z.lt (map fst (elems a)) /\ Forall (fun kv : Z * elem3d => 0 <= fst kv < INT_MAX) (elems a)) ->
  exists i e c k, 0 <= q_rank q' < size /\ In (i, e) (elems (q_rank q')) /\
    rank_translation_3d (elems (q_rank q')) = Some c /\
    translate c (q_cell q') = Some (Z.of_nat k) /\ nth_error (map_to_nektar c) k = Some i /\
    exists xi, accepted 3 conf (mk (q_rank q') i e) q xi /\ q_pos q' = q_pos q /\ forall d, (d < 3)%nat -> nthR (q_ref q') d = comp xi d.
Proof.
  intros size elems mk conf q q' (a & i & e & xi & Ha & Hi & Hacc & (B1 & B2 & B3 & B4 & B5)) Hok. subst a. destruct (Hok _ Ha) as [Hs Hr].
  destruct (translation_3d (elems (q_rank q'))) as (c & C1 & C2 & C3); auto. { intros Q. rewrite Q in Hi. contradiction. }
  destruct (C3 i e Hi) as (k & K1 & K2). exists i, e, c, k. rewrite B2. repeat (split; [assumption|]). exists xi. split; auto. split; auto.
  intros d Hd. rewrite B5. replace (Nat.ltb d 3) with true by (symmetry; apply Nat.ltb_lt; auto). auto.
Qed.
Print Assumptions C98_landing_3d.

(** An affine element accepts the points strictly inside it, and they are strictly inside its box. *)
Definition affine_element (n : nat) (g : mgeom) (s : ashape) (A : nat -> nat -> R) (b : nat -> R) : Prop :=
  adim s = n /\ g_regular g = true /\ g_shape g = shape_number s /\ is_affine s (g_verts g) A b /\ det n A <> 0%R /\
  forall i a, (i < avertices s)%nat -> (a < n)%nat -> (fst (nth a (g_box g) (0, 0)) <= g_verts g i a <= snd (nth a (g_box g) (0, 0)))%R.
Lemma affine_interior n conf tol g s A b xs q : (n = 2 \/ n = 3)%nat -> affine_element n g s A b -> (0 <= tol)%R -> in_interior s xs ->
  at_affine n A b xs (kernel_pos n q) -> inside_box n (g_box g) (q_pos q) /\ element_accepts n tol conf true g q.
Proof.
  intros Hn (Hs & Hr & Hsh & Ha & Hd & Hb) Ht Hi Hp. split.
  - intros d Hdl. subst n. pose proof (interior_inside s (g_verts g) A b xs (g_box g) Hi Ha Hd Hb d Hdl) as Q. rewrite (Hp d Hdl) in Q.
    rewrite (P_NewtonBind.C47_position (adim s) q d) in Q by lia. replace (Nat.ltb d (adim s)) with true in Q by (symmetry; apply Nat.ltb_lt; auto). exact Q.
  - exists xs. subst n. apply (P_Regular.C48_points_of_element_accepted s g A b tol); auto. apply interior_ref; auto.
Qed.
Lemma forall2_nth {X} (P : X -> X -> Prop) l l' : Forall2 P l l' -> forall j x, nth_error l j = Some x -> exists y, nth_error l' j = Some y /\ P x y.
Proof. induction 1; intros [|j] z Hz; simpl in *; try discriminate; [injection Hz as <-; eauto|auto]. Qed.

(** No particle strictly inside an affine element is lost: it lies in a hierarchy cell; every cell it lies in has an owner;
    and on that rank, after the exchange made by the constructor and whatever the order of its messages, mapping places the
    particle, in any group of particles, on an element of the mesh. *)
Theorem C98_no_particle_lost_3d : forall size owner m bx faces elems mk, mesh3_ok size owner m bx faces elems -> mh_ndim m = 3%nat ->
  ids_unique size elems -> describes mk bx shape_of_3d -> (forall a i e, 0 <= a < size -> In (i, e) (elems a) -> solid (bx e)) ->
  (forall a i e, 0 <= a < size -> In (i, e) (elems a) -> box_inside (bx e) (grid_extent (mh_origin m) (mh_cw m) (fine_counts m))) ->
  (forall a, 0 <= a < size -> counted size owner a (data3 m bx faces elems a)) ->
  forall conf, all_generic_newton conf = false -> (0 <= regular_tol_3d conf)%R ->
  forall a i e s A b xs q, 0 <= a < size -> In (i, e) (elems a) -> affine_element 3 (mk a i e) s A b -> in_interior s xs ->
    at_affine 3 A b xs (kernel_pos 3 q) -> q_rank q < 0 -> (3 <= length (q_ref q))%nat ->
  (exists g c, fine_cell m g c /\ in_cell 3 c (q_pos q)) /\
  forall g c, fine_cell m g c -> in_cell 3 c (q_pos q) ->
    0 <= owner g < size /\
    forall out, prepared_by size owner m bx faces elems out ->
    forall ta qa sa to qo so, schedule size out (owner g) ta qa sa to qo so ->
    exists tris quads l, create_halos_3d size (owner g) out ta qa sa to qo so = H3Ok tris quads l /\
      forall host grp cell k j, good_stage (host_stage host) -> nth_error grp k = Some cell -> nth_error cell j = Some q ->
      exists grp' cell' q', graph_local_map 3 conf (mapper_elements_3d mk (owner g) (elems (owner g)) l) host grp (-1) = Some (Mapped grp') /\
        nth_error grp' k = Some cell' /\ nth_error cell' j = Some q' /\ placed 3 conf size elems mk q q'.
Proof.
  intros size owner m bx faces elems mk Hm Hn Hu Hd Hsol Hins Hc conf Hag Htol a i e s A b xs q Ha Hi Haff Hxs Hp Hr Hl.
  destruct (affine_interior 3 conf (regular_tol_3d conf) (mk a i e) s A b xs q ltac:(auto) Haff Htol Hxs Hp) as [Hb Hacc].
  assert (Eb : g_box (mk a i e) = bx e) by apply Hd. rewrite Eb in Hb.
  destruct (C98_cell_with_owner_3d size owner m bx faces elems Hm a i e (q_pos q) Ha Hi) as [C1 C2]. { rewrite Hn. exact Hb. } { eauto. }
  rewrite Hn in C1, C2. split; auto. intros g c Hfc Hcell. pose proof (C2 g c Hfc Hcell) as Hme. split; auto.
  intros out Hout ta qa sa to qo so Hsch.
  destruct (C98_mapping_3d size owner m bx faces elems mk Hm Hn Hu Hd Hsol Hc out Hout (owner g) ta qa sa to qo so Hme Hsch) as (tris & quads & l & E & F).
  exists tris, quads, l. split; auto. intros host grp cell k j Hh Hk Hj.
  destruct (F conf host grp Hh) as (grp' & E' & R). destruct R as [_ R]. destruct (R k cell Hk) as (cell' & Hk' & R').
  cbn [cell_selected Z.leb Z.compare orb] in R'. destruct (forall2_nth _ _ _ R' j q Hj) as (q' & Hj' & _ & Q).
  exists grp', cell', q'. split; auto. split; auto. split; auto. apply (Q a i e g c); auto.
  rewrite Hag. destruct Haff as (_ & -> & _). exact Hacc.
Qed.
Print Assumptions C98_no_particle_lost_3d.
