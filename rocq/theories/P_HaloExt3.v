(** Property theorems C91 (halo extension on a 3D mesh). *)
From Coq Require Import Sorting.Permutation Sorting.Sorted ZArith Reals Lra Lia Bool.
From Verif Require Import M_Bytes M_Pack2D M_RemoteGeom M_Transport M_Exchange S_Exchange M_MeshIf M_Halo M_Halo3D S_Halo3D M_HaloExt3.
From Verif Require Import M_Util S_Grid S_MeshIf S_Halo S_HaloExt3 L_Util L_Pack2D L_MeshIf L_Exchange L_ExchangeMesh L_ExchangeEnd L_HaloCells L_Halo L_Halo2 L_Halo3D L_ListX.
From Verif Require Import L_Transport L_HaloExt3 L_HaloExt3b L_HaloExt3c L_HaloExt3d P_Halo3D.
From Coq Require Import List.
Import ListNotations.
Local Open Scope Z_scope.

(** C91: the collective call always completes, whatever the arrival order of the requests and the
    completion orders of the three exchanges: nobody waits for ever, no message is truncated, no
    look-up or assertion fails, no count overflows. *)
Theorem C91_call_completes : forall size m bx owner owned unowned faces elems,
  mh_ok m -> mesh3_wf size m bx faces elems ->
  (forall a g, 0 <= a < size -> In g (owned a ++ unowned a) -> exists t, cell_at m g t) ->
  forall w pbc sts, halo_ready3 size faces elems sts -> 0 <= w -> offset_ok m w = true ->
    exists req, (forall a, 0 <= a < size -> exists cells, halo_cells m w pbc (owned a) (unowned a) = Ok cells /\ req a = halo_rank_cells size a owner cells) /\
    forall arrival, (forall b, 0 <= b < size -> Permutation (arrival b) (halo_metadata size req b)) ->
    exists rep, (forall b, 0 <= b < size -> halo_serve3 size m bx req b (sts b) (arrival b) = HOk (Ok (rep b))) /\
    forall torder qorder sorder, (forall a, 0 <= a < size -> Permutation (torder a) (seq 0 (length (req a))) /\ Permutation (qorder a) (seq 0 (length (req a))) /\ Permutation (sorder a) (seq 0 (length (req a)))) ->
    exists sts', (forall a, 0 <= a < size -> halo_finish3 a (sts a) (map fst (req a))
       (fun b => pack_geoms2d (mget (p3_tris (rep b)) a)) (fun b => pack_geoms2d (mget (p3_quads (rep b)) a)) (fun b => mget (p3_ints (rep b)) a)
       (torder a) (qorder a) (sorder a) = HOk (Ok (sts' a))) /\
      halo_call3 size m bx owner owned unowned w pbc sts sts'.
Proof. exact call3_total. Qed.
Print Assumptions C91_call_completes.

(** C91: what a call adds on rank [a]: exactly the 3D elements it did not know, that the owner [b]
    of one of its halo cells knows and that overlap this cell, with the shape and faces of the
    original; and exactly the faces of these elements that it did not hold. *)
Theorem C91_call_adds_exactly : forall size m bx owner owned unowned faces elems,
  mh_ok m -> mesh3_wf size m bx faces elems ->
  (forall a g, 0 <= a < size -> In g (owned a ++ unowned a) -> exists t, cell_at m g t) ->
  forall w pbc sts sts', halo_ready3 size faces elems sts -> halo_call3 size m bx owner owned unowned w pbc sts sts' ->
  forall a, 0 <= a < size ->
    exists nt nq ne, rk_tris (s3_2d (sts' a)) = rk_tris (s3_2d (sts a)) ++ nt /\ rk_quads (s3_2d (sts' a)) = rk_quads (s3_2d (sts a)) ++ nq /\
      s3_elems (sts' a) = s3_elems (sts a) ++ ne /\
      (forall x, In x ne <->
        0 <= w /\ ~ knows3 a (sts a) x /\
        exists b c, 0 <= b < size /\ b <> a /\ owner c = b /\ halo_cell m w pbc (owned a) (unowned a) c /\
          knows3 b (sts b) x /\ overlaps3 m bx c x) /\
      (forall f, In f (nt ++ nq) <-> (exists x, In x ne /\ face_of x f) /\ ~ knows a (s3_2d (sts a)) f) /\
      (forall f, In f nt -> is_tri (r2_geom f) = true) /\ (forall f, In f nq -> is_quad (r2_geom f) = true).
Proof.
  intros size m bx owner owned unowned faces elems Hm He Hc w pbc sts sts' Hr H a Ha.
  destruct (call3_result size m bx owner owned unowned faces elems Hm He Hc w pbc sts sts' Hr H a Ha) as (((_ & _ & T & Q & _) & _) & nt & nq & ne & E1 & E2 & E3 & Hn & Hf).
  exists nt, nq, ne. split; [auto|]. split; [auto|]. split; [auto|]. split; [|split; [exact Hf|split]].
  - intros x. rewrite Hn. unfold got3, reply_to3. split.
    + intros (H1 & (b & H2 & H3 & H4 & c & H5 & H6 & H7) & H8). split; auto. split; auto. exists b, c. auto 10.
    + intros (H1 & H8 & b & c & H2 & H3 & H5 & H6 & H4 & H7). split; auto. split; auto. exists b. split; auto. split; auto. split; auto. exists c. auto.
  - intros f Hi. apply T. rewrite E1, in_app_iff. auto.
  - intros f Hi. apply Q. rewrite E2, in_app_iff. auto.
Qed.
Print Assumptions C91_call_adds_exactly.

(** C91: if the owner of each cell knows all elements overlapping it, as after the constructor
    ([C91_constructor_establishes]), then after the extension rank [a] knows every element of the
    mesh that overlaps an owned cell of its halo, and every face of it. *)
Theorem C91_halo_complete : forall size m bx owner owned unowned faces elems,
  mh_ok m -> mesh3_wf size m bx faces elems ->
  (forall a g, 0 <= a < size -> In g (owned a ++ unowned a) -> exists t, cell_at m g t) ->
  forall w pbc sts sts', halo_ready3 size faces elems sts -> owners_know3 size m bx owner elems sts -> 0 <= w ->
  halo_call3 size m bx owner owned unowned w pbc sts sts' ->
  forall a g x, 0 <= a < size -> halo_cell m w pbc (owned a) (unowned a) g -> 0 <= owner g < size ->
      element3 size elems x -> overlaps3 m bx g x -> knows3 a (sts' a) x /\ forall f, face_of x f -> knows a (s3_2d (sts' a)) f.
Proof. exact call3_complete. Qed.
Print Assumptions C91_halo_complete.

(** C91: the constructor of the interface (C87) leaves every rank in a consistent state in which the
    owner of each cell knows all elements overlapping it. *)
Lemma nodup_keys {A} (key : A -> Z * Z) l : (forall x y, In x l -> In y l -> key x = key y -> x = y) -> NoDup l -> NoDup (map key l).
Proof.
  induction l as [|x l IH]; simpl; intros Hk Hn; constructor; inversion Hn; subst.
  - intros Hi. apply in_map_iff in Hi as (y & E & Hy). apply H1. rewrite (Hk x y); auto.
  - apply IH; auto.
Qed.
Theorem C91_constructor_establishes : forall size owner m bx faces elems,
  mesh3_ok size owner m bx faces elems -> mesh3_wf size m bx faces elems ->
  (forall a, 0 <= a < size -> counted size owner a (data3 m bx faces elems a)) ->
  forall out sts, prepared_by size owner m bx faces elems out ->
  (forall a, 0 <= a < size -> rk_own (s3_2d (sts a)) = faces a /\ s3_own (sts a) = elems a /\
     exists ta qa sa to qo so, schedule size out a ta qa sa to qo so /\
       create_halos_3d size a out ta qa sa to qo so = H3Ok (rk_tris (s3_2d (sts a))) (rk_quads (s3_2d (sts a))) (s3_elems (sts a))) ->
  (forall a, 0 <= a < size -> state_wf3 size faces elems a (sts a)) /\ owners_know3 size m bx owner elems sts.
Proof.
  intros size owner m bx faces elems Hok Hwf Hcnt out sts Hp Hs.
  assert (Hres : forall a, 0 <= a < size ->
     (forall x, In x (s3_elems (sts a)) <-> 0 <= r3_rank x < size /\ r3_rank x <> a /\ In (r3_id x, (r3_shape x, r3_faces x)) (elems (r3_rank x)) /\
       exists g c, owner g = a /\ fine_cell m g c /\ (0 < overlap_volume (bx (r3_shape x, r3_faces x)) c)%R) /\ NoDup (s3_elems (sts a)) /\
     (forall x, In x (rk_tris (s3_2d (sts a)) ++ rk_quads (s3_2d (sts a))) <-> exists e, In e (s3_elems (sts a)) /\ face_of e x) /\
     (forall x, In x (rk_tris (s3_2d (sts a))) -> is_tri (r2_geom x) = true) /\ (forall x, In x (rk_quads (s3_2d (sts a))) -> is_quad (r2_geom x) = true) /\
     NoDup (rk_tris (s3_2d (sts a))) /\ NoDup (rk_quads (s3_2d (sts a)))).
  { intros a Ha. destruct (Hs a Ha) as (_ & _ & ta & qa & sa & to & qo & so & Sc & E).
    destruct (C87_overlapping_elements_arrive size owner m bx faces elems Hok Hcnt out Hp a ta qa sa to qo so Ha Sc) as (t & q & l & E' & N & Hl & Hf).
    rewrite E in E'. injection E' as <- <- <-. destruct Sc as (S1 & S2 & S3 & S4 & S5 & S6).
    destruct (halos3 size owner (data3 m bx faces elems) out (data3_ok _ _ _ _ _ _ Hok) Hcnt Hp a ta qa sa to qo so Ha S1 S2 S3 S4 S5 S6) as (t & q & l & E' & P1 & P2 & _).
    rewrite E in E'. injection E' as <- <- <-. split; [exact Hl|]. split; [exact N|].
    assert (Hsh : forall sh x, In x (concat (map (fun a0 => remotes a0 (wanted_faces sh owner (data3 m bx faces elems a0) a)) (filter (fun a0 => negb (a0 =? a)) (ranks size)))) -> g2_shape (r2_geom x) = sh).
    { intros sh x Hx. apply in_all_faces in Hx as (_ & _ & Hx). unfold wanted_faces in Hx. apply filter_In in Hx as [_ Hx]. apply andb_true_iff in Hx as [Hx _]. now apply Z.eqb_eq. }
    assert (Hnd : forall sh, NoDup (concat (map (fun a0 => remotes a0 (wanted_faces sh owner (data3 m bx faces elems a0) a)) (filter (fun a0 => negb (a0 =? a)) (ranks size))))).
    { intros sh. apply nodup_all; [apply NoDup_filter, nodup_ranks|]. intros b Hb. apply in_others in Hb as [Hb _]. unfold wanted_faces. apply nodup_map_filter.
      cbn [data3 k3_faces]. apply sorted_nodup. apply Hwf; auto. }
    split.
    - intros x. rewrite Hf. unfold face_of. split; intros (e & H1 & H2 & H3 & H4); exists e; auto.
    - split; [|split; [|split]].
      + intros x Hx. apply (Permutation_in _ P1) in Hx. apply Hsh in Hx. unfold is_tri. rewrite Hx. reflexivity.
      + intros x Hx. apply (Permutation_in _ P2) in Hx. apply Hsh in Hx. unfold is_quad. rewrite Hx. reflexivity.
      + eapply Permutation_NoDup; [symmetry; exact P1|apply Hnd].
      + eapply Permutation_NoDup; [symmetry; exact P2|apply Hnd]. }
  split.
  - intros a Ha. destruct (Hs a Ha) as (Eo & Eo3 & _). destruct (Hres a Ha) as (Hl & N & Hf & Ht & Hq & Nt & Nq).
    assert (Hin : forall x, In x (rk_tris (s3_2d (sts a)) ++ rk_quads (s3_2d (sts a))) -> 0 <= r2_rank x < size /\ r2_rank x <> a /\ In (r2_id x, r2_geom x) (faces (r2_rank x))).
    { intros x Hx. apply Hf in Hx as (e & H1 & F1 & F2 & F3). apply Hl in H1 as (A & B & C & _). rewrite F1. split; [auto|]. split; [auto|].
      destruct (Hwf _ A) as [_ [_ H]]. destruct (H _ _ C) as (_ & Hfc & _). rewrite F3. apply Hfc. exact F2. }
    split; [|split; [exact Eo3|split; [|split]]].
    + split; [exact Eo|]. split; [exact Hin|]. split; [exact Ht|]. split; [exact Hq|]. apply nodup_keys.
      * intros x y Hx Hy E. apply Hin in Hx as (X1 & _ & X2). apply Hin in Hy as (Y1 & _ & Y2). destruct x as [r i g], y as [r' i' g']. unfold key_of in E. simpl in *.
        injection E as -> ->. f_equal. destruct (Hwf _ X1) as [[S _] _]. apply sorted_nodup in S. apply (zget_in _ _ _ S) in X2. apply (zget_in _ _ _ S) in Y2. congruence.
      * apply NoDup_app_intro; auto. intros x X1 X2. apply Ht in X1. apply Hq in X2. unfold is_tri, is_quad in *. apply Z.eqb_eq in X1, X2. lia.
    + intros x Hx. apply Hl in Hx. unfold r3_geom. tauto.
    + apply nodup_keys; auto. intros x y Hx Hy E. apply Hl in Hx as (X1 & _ & X2 & _). apply Hl in Hy as (Y1 & _ & Y2 & _).
      rewrite <- (mk3_eta x), <- (mk3_eta y). unfold key_of3 in E. injection E as E1 E2. rewrite E1, E2 in *. f_equal.
      destruct (Hwf _ Y1) as [_ [S _]]. apply sorted_nodup in S. apply (zget_in _ _ _ S) in X2. apply (zget_in _ _ _ S) in Y2. unfold r3_geom. congruence.
    + intros x f Hx Hff. apply Hf. eauto.
  - intros g x Hg [X1 X2] (c & C1 & C2). destruct (Hs (owner g) Hg) as (_ & Eo & _). destruct (Hres _ Hg) as (Hl & _).
    destruct (Z.eq_dec (r3_rank x) (owner g)) as [E|Hne].
    + left. split; auto. rewrite Eo, <- E. auto.
    + right. apply Hl. split; [auto|]. split; [auto|]. split; [exact X2|]. exists g, c. auto.
Qed.
Print Assumptions C91_constructor_establishes.

(** C91: over any sequence of extensions with any widths: copies are kept, in place; every copy is
    of another rank's element; no element and no face is held twice; all faces of the copied
    elements are held. *)
Theorem C91_no_duplicates : forall size m bx owner owned unowned faces elems,
  mh_ok m -> mesh3_wf size m bx faces elems ->
  (forall a g, 0 <= a < size -> In g (owned a ++ unowned a) -> exists t, cell_at m g t) ->
  forall sts sts', (forall a, 0 <= a < size -> state_wf3 size faces elems a (sts a)) ->
  halo_history3 size m bx owner owned unowned sts sts' ->
  forall a, 0 <= a < size ->
    NoDup (map key_of3 (s3_elems (sts' a))) /\ NoDup (map key_of (rk_tris (s3_2d (sts' a)) ++ rk_quads (s3_2d (sts' a)))) /\
    (forall x, In x (s3_elems (sts' a)) -> r3_rank x <> a /\ element3 size elems x) /\
    (forall x f, In x (s3_elems (sts' a)) -> face_of x f -> In f (rk_tris (s3_2d (sts' a)) ++ rk_quads (s3_2d (sts' a)))) /\
    s3_own (sts' a) = s3_own (sts a) /\ rk_own (s3_2d (sts' a)) = rk_own (s3_2d (sts a)) /\
    (exists nt nq ne, rk_tris (s3_2d (sts' a)) = rk_tris (s3_2d (sts a)) ++ nt /\ rk_quads (s3_2d (sts' a)) = rk_quads (s3_2d (sts a)) ++ nq /\
       s3_elems (sts' a) = s3_elems (sts a) ++ ne).
Proof.
  intros size m bx owner owned unowned faces elems Hm He Hc sts sts' Hs H a Ha.
  destruct (history3_result size m bx owner owned unowned faces elems Hm He Hc sts sts' Hs H a Ha) as (((W0 & _ & _ & _ & W1) & W2 & W3 & W4 & W5) & Hn).
  destruct (Hs a Ha) as ((V0 & _) & V2 & _).
  split; [auto|]. split; [auto|]. split; [|split; [auto|split; [congruence|split; [congruence|auto]]]].
  intros x Hx. destruct (W3 x Hx) as (A & B & C). split; auto. split; auto.
Qed.
Print Assumptions C91_no_duplicates.

(** C91: the map of all 3D elements of the graph is in id order and holds, for every id, the element
    of the last of the maps of tetrahedra, pyramids, prisms, hexahedra that has the id. *)
Theorem C91_all_elements : forall tets pyrs prisms hexes,
  NoDup (map fst tets) -> NoDup (map fst pyrs) -> NoDup (map fst prisms) -> NoDup (map fst hexes) ->
  StronglySorted Z.lt (map fst (all_elements_3d tets pyrs prisms hexes)) /\
  forall id e, In (id, e) (all_elements_3d tets pyrs prisms hexes) <->
    (In (id, e) hexes \/
     (In (id, e) prisms /\ ~ In id (map fst hexes)) \/
     (In (id, e) pyrs /\ ~ In id (map fst prisms ++ map fst hexes)) \/
     (In (id, e) tets /\ ~ In id (map fst pyrs ++ map fst prisms ++ map fst hexes))).
Proof.
  intros tets pyrs prisms hexes N1 N2 N3 N4. unfold all_elements_3d.
  assert (Hs := zassign_fold_sorted (tets ++ pyrs ++ prisms ++ hexes) [] ltac:(constructor)). split; [exact Hs|].
  intros id e. rewrite <- (zget_in _ _ _ (keys_sorted_nodup _ Hs)), zassign_fold_get. rewrite !rev_app_distr.
  assert (E : forall (l1 l2 : list (Z * elem3d)), zget (l1 ++ l2) id = match zget l1 id with Some v => Some v | None => zget l2 id end).
  { induction l1 as [|[a b] l1 IH1]; intros l2; simpl; auto. destruct (id =? a); auto. }
  rewrite !E.
  assert (R : forall (l : list (Z * elem3d)), NoDup (map fst l) ->
    (forall v, zget (rev l) id = Some v <-> In (id, v) l) /\ (zget (rev l) id = None <-> ~ In id (map fst l))).
  { intros l Hl. assert (Hr : NoDup (map fst (rev l))) by (rewrite map_rev; now apply NoDup_rev). split.
    - intros v. rewrite (zget_in _ _ _ Hr). symmetry. apply in_rev.
    - split.
      + intros En Hi. apply in_map_iff in Hi as ([i v] & <- & Hi). cbn [fst] in *. apply in_rev in Hi. apply (zget_in _ _ _ Hr) in Hi. congruence.
      + intros Hi. destruct (zget (rev l) id) eqn:Ez; auto. exfalso. apply Hi. apply (zget_in _ _ _ Hr) in Ez. apply in_rev in Ez. apply (in_map fst) in Ez. exact Ez. }
  assert (U : forall (l : list (Z * elem3d)) v, In (id, v) l -> In id (map fst l)) by (intros l v Hi; apply (in_map fst) in Hi; exact Hi).
  destruct (R hexes N4) as [H1 H2]. destruct (R prisms N3) as [P1 P2]. destruct (R pyrs N2) as [Y1 Y2]. destruct (R tets N1) as [T1 T2].
  rewrite !in_app_iff.
  destruct (zget (rev hexes) id) as [v|].
  - pose proof (proj1 (H1 v) eq_refl) as Hv. split; [intros [= <-]; auto|]. intros [Hx|[[_ Hx]|[[_ Hx]|[_ Hx]]]]; [f_equal; apply H1 in Hx; congruence|exfalso; apply Hx; eauto 6..].
  - pose proof (proj1 H2 eq_refl) as Hv. destruct (zget (rev prisms) id) as [v|].
    + pose proof (proj1 (P1 v) eq_refl) as Pv. split; [intros [= <-]; auto|]. intros [Hx|[[Hx _]|[[_ Hx]|[_ Hx]]]]; [exfalso; eauto|f_equal; apply P1 in Hx; congruence|exfalso; apply Hx; eauto 6..].
    + pose proof (proj1 P2 eq_refl) as Pv. destruct (zget (rev pyrs) id) as [v|].
      * pose proof (proj1 (Y1 v) eq_refl) as Yv. split; [intros [= <-]; right; right; left; tauto|].
        intros [Hx|[[Hx _]|[[Hx _]|[_ Hx]]]]; [exfalso; eauto|exfalso; eauto|f_equal; apply Y1 in Hx; congruence|exfalso; apply Hx; eauto].
      * pose proof (proj1 Y2 eq_refl) as Yv. destruct (zget (rev tets) id) as [v|].
        -- pose proof (proj1 (T1 v) eq_refl) as Tv. split; [intros [= <-]; right; right; right; tauto|].
           intros [Hx|[[Hx _]|[[Hx _]|[Hx _]]]]; [exfalso; eauto..|f_equal; apply T1 in Hx; congruence].
        -- pose proof (proj1 T2 eq_refl) as Tv. split; [discriminate|]. intros [Hx|[[Hx _]|[[Hx _]|[Hx _]]]]; exfalso; eauto.
Qed.
Print Assumptions C91_all_elements.
Example C91_all_elements_nonvacuous : all_elements_3d [(3, ex_tet); (1, ex_tet)] [(2, ex_pyr)] [] [] = [(1, ex_tet); (2, ex_pyr); (3, ex_tet)].
Proof. reflexivity. Qed.

(** the hypotheses are met and something is added: rank 0 owns the grid, a tetrahedron and a
    pyramid sharing a face in cells 0 and 1; rank 1 claimed cell 8 next to cell 1 *)
Definition ex_unowned3 (a : Z) : list Z := if a =? 1 then [8] else [].
Definition ex_sts3 (a : Z) : rank_state3 := mkRankState3 (mkRankState (ex_faces a) [] []) (ex_elems a) [].
Definition ex_x3 : remote3d := mkRemote3D 0 10 Pyr (snd ex_pyr).
Example C91_nonvacuous :
  mh_ok ex_mh /\ mesh3_wf 2 ex_mh ex_bx ex_faces ex_elems /\
  (forall a g, 0 <= a < 2 -> In g ([] ++ ex_unowned3 a) -> exists t, cell_at ex_mh g t) /\
  halo_ready3 2 ex_faces ex_elems ex_sts3 /\ offset_ok ex_mh 1 = true /\ owners_know3 2 ex_mh ex_bx (fun _ => 0) ex_elems ex_sts3 /\
  halo_cell ex_mh 1 false [] (ex_unowned3 1) 1 /\ element3 2 ex_elems ex_x3 /\ overlaps3 ex_mh ex_bx 1 ex_x3 /\ ~ knows3 1 (ex_sts3 1) ex_x3.
Proof.
  destruct C87_nonvacuous as [(Hm & Hb & Hs & He & _) _].
  assert (C8 : cell_at ex_mh 8 [2; 0; 0]) by (exists [1; 0; 0]%Z, [0; 0; 0]%Z; split; [repeat constructor; simpl; lia|split; [repeat constructor; simpl; lia|split; reflexivity]]).
  assert (C1 : cell_at ex_mh 1 [1; 0; 0]) by (exists [0; 0; 0]%Z, [1; 0; 0]%Z; split; [repeat constructor; simpl; lia|split; [repeat constructor; simpl; lia|split; reflexivity]]).
  split; [exact Hm|]. split; [|split; [|split; [|split; [|split; [|split; [|split; [|split]]]]]]].
  - intros a Ha. destruct (Hs a Ha) as [S1 S2]. split; (split; [auto|]).
    + intros id g. unfold ex_faces. destruct (a =? 0); cbn [In]; [|tauto]. intros Hi. repeat destruct Hi as [E|Hi]; try tauto; injection E as <- <-; split; auto.
    + intros id e Hi. destruct (He a id e Ha Hi). split; auto.
  - intros a g _. unfold ex_unowned3. destruct (a =? 1); simpl; [|tauto]. intros [<-|[]]. eauto.
  - intros a Ha. split.
    + split; [split; [reflexivity|cbn; repeat split; try tauto; constructor]|]. split; [reflexivity|]. cbn. repeat split; try tauto; constructor.
    + unfold ex_sts3, ex_faces, ex_elems. destruct (a =? 0) eqn:E; [apply Z.eqb_eq in E; subst a|]; (split; [split; [apply Forall_forall, forallb_forall; vm_compute; reflexivity|vm_compute; reflexivity]|vm_compute; reflexivity]).
  - reflexivity.
  - intros g x _ [X1 X2] _. left. unfold ex_elems in X2. destruct (Z.eqb_spec (r3_rank x) 0) as [E|E]; [|destruct X2]. split; auto.
  - split; [tauto|]. exists 8, [2; 0; 0], [1; 0; 0]. split; [simpl; auto|]. split; [exact C8|]. split; [exact C1|].
    split; [reflexivity|]. split; [reflexivity|]. intros [|[|[|d]]] n x y; simpl; intros [=] [=] [=]; subst; simpl; try lia; destruct d; discriminate.
  - split; [simpl; lia|]. unfold ex_elems. simpl. auto.
  - exists (grid_cell [0%R; 0%R; 0%R] (mh_cw ex_mh) [1; 0; 0]). split.
    + exists [0; 0; 0]%Z, [1; 0; 0]%Z. split; [repeat constructor; simpl; lia|]. split; [repeat constructor; simpl; lia|]. split; reflexivity.
    + unfold ex_mh, mh_cw, ex_bx, r3_geom. simpl. unfold Rmax, Rmin. repeat destruct (Rle_dec _ _); lra.
  - intros [[E _]|[]]. discriminate.
Qed.
Example C91_history_nonvacuous : exists sts', halo_history3 2 ex_mh ex_bx (fun _ => 0) (fun _ => []) ex_unowned3 ex_sts3 sts' /\
  In ex_x3 (s3_elems (sts' 1)) /\ In (mkRemote2D 0 5 (ex_quad 5)) (rk_quads (s3_2d (sts' 1))).
Proof.
  destruct C91_nonvacuous as (Hm & He & Hc & Hr & Hw & Ho & Hg & Hx & Hov & _).
  destruct (C91_call_completes 2 ex_mh ex_bx (fun _ => 0) (fun _ => []) ex_unowned3 ex_faces ex_elems Hm He Hc 1 false ex_sts3 Hr ltac:(lia) Hw) as (req & _ & H).
  destruct (H (halo_metadata 2 req)) as (rep & _ & H2); [auto|].
  destruct (H2 (fun a => seq 0 (length (req a))) (fun a => seq 0 (length (req a))) (fun a => seq 0 (length (req a)))) as (sts' & _ & Hcall); [auto|].
  exists sts'. split; [eapply HHCall3; [apply HHNil3|intros a Ha; apply Hr; auto|exact Hcall]|].
  destruct (C91_halo_complete 2 ex_mh ex_bx (fun _ => 0) (fun _ => []) ex_unowned3 ex_faces ex_elems Hm He Hc 1 false ex_sts3 sts' Hr Ho ltac:(lia) Hcall 1 1 ex_x3 ltac:(lia) Hg ltac:(lia) Hx Hov) as [K F].
  split; [destruct K as [[E _]|K]; [discriminate|exact K]|].
  specialize (F (mkRemote2D 0 5 (ex_quad 5))). destruct F as [[E _]|F]; [split; [reflexivity|split; [left; reflexivity|reflexivity]]|discriminate|].
  destruct (call3_result 2 ex_mh ex_bx (fun _ => 0) (fun _ => []) ex_unowned3 ex_faces ex_elems Hm He Hc 1 false ex_sts3 sts' Hr Hcall 1 ltac:(lia)) as (((_ & _ & T & _) & _) & _).
  apply in_app_iff in F as [F|F]; [|exact F]. apply T in F. discriminate.
Qed.
