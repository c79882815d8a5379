(** Property theorems C87 (the halos of a 3D mesh). *)
From Coq Require Import Sorting.Permutation Sorting.Sorted ZArith Reals Lra Lia Bool.
From Verif Require Import M_Bytes M_Pack2D M_RemoteGeom M_Transport M_Exchange S_Exchange M_MeshIf M_Halo3D S_Halo3D.
From Verif Require Import S_Grid S_MeshIf L_Pack2D L_MeshIf L_MeshIf2 L_Exchange L_ExchangeMesh L_Transport L_ExchangeEnd L_Halo3D.
From Coq Require Import List.
Import ListNotations.
Local Open Scope Z_scope.

(** C87: on consistent data the preparation of the messages succeeds on every rank, and each rank
    prepares a stream for exactly the other ranks that own a cell it claimed. *)
Theorem C87_prepare_succeeds : forall size owner d a, rank3_ok size owner d -> 0 <= a < size ->
  exists o, halo3d_prepare size a owner (k3_faces d) (k3_elems d) (k3_map d) (unowned_cells owner a (k3_claims d)) = Ok o /\
    NoDup (og_send o) /\ (forall b, In b (og_send o) <-> b <> a /\ exists c, In c (k3_claims d) /\ owner c = b).
Proof.
  intros size owner d a Hd Ha. destruct (prepare_spec size a owner d Hd Ha) as (o & E & P). exists o. split; [exact E|]. apply (pr_send _ _ _ _ P).
Qed.
Print Assumptions C87_prepare_succeeds.

(** C87: whatever the order in which the size messages of the three exchanges are matched and the
    receives complete, the construction on rank [me] ends without deadlock, truncation, assertion or
    undefined behaviour with exactly the elements it wants from each other rank, each with the
    shape and the faces (ids, vertices, curves) of the owner's element; the copies of triangles and
    quadrilaterals held besides are exactly the faces of those elements. *)
Theorem C87_halos_delivered : forall size owner data,
  (forall a, 0 <= a < size -> rank3_ok size owner (data a)) ->
  (forall a, 0 <= a < size -> counted size owner a (data a)) ->
  forall out, (forall a, 0 <= a < size ->
    halo3d_prepare size a owner (k3_faces (data a)) (k3_elems (data a)) (k3_map (data a)) (unowned_cells owner a (k3_claims (data a))) = Ok (out a)) ->
  forall me ta qa sa to qo so, 0 <= me < size ->
    let tm a := dc_tris (og_dec (out a)) in
    let qm a := dc_quads (og_dec (out a)) in
    let others := filter (fun a => negb (a =? me)) (ranks size) in
    Permutation ta (size_messages size (fun a => face_send (tm a)) (face_msg tm) me) ->
    Permutation qa (size_messages size (fun a => face_send (qm a)) (face_msg qm) me) ->
    Permutation sa (size_messages size (fun a => og_send (out a)) (stream_msg out) me) ->
    Permutation to (seq 0 (num_recv_ranks size (fun a => face_send (tm a)) me)) ->
    Permutation qo (seq 0 (num_recv_ranks size (fun a => face_send (qm a)) me)) ->
    Permutation so (seq 0 (num_recv_ranks size (fun a => og_send (out a)) me)) ->
    exists tris quads l, create_halos_3d size me out ta qa sa to qo so = H3Ok tris quads l /\
      Permutation tris (concat (map (fun a => remotes a (wanted_faces int_triangle owner (data a) me)) others)) /\
      Permutation quads (concat (map (fun a => remotes a (wanted_faces int_quadrilateral owner (data a) me)) others)) /\
      Permutation l (concat (map (fun a => remotes3 a (wanted3 owner (data a) me)) others)).
Proof. intros. eapply halos3; eauto. Qed.
Print Assumptions C87_halos_delivered.

(** C87 with the claims of the constructor: the elements rank [me] holds copies of are exactly
    those of the other ranks whose bounding box overlaps a cell of the mesh hierarchy that [me]
    owns, each once. *)
Section EndToEnd.
  Context (size : Z) (owner : Z -> Z) (m : mhier) (bx : elem3d -> box).
  Context (faces : Z -> list (Z * geom2d)) (elems : Z -> list (Z * elem3d)).
  Definition mesh3_ok : Prop := mh_ok m /\
    (forall a e, In e (elems a) -> length (bx (snd e)) = mh_ndim m) /\
    (forall a, 0 <= a < size -> StronglySorted Z.lt (map fst (elems a)) /\ StronglySorted Z.lt (map fst (faces a))) /\
    (forall a id e, 0 <= a < size -> In (id, e) (elems a) -> elem3d_ok e /\ forall f, In f (snd e) -> In (g2_id f, f) (faces a)) /\
    (forall a e g c, 0 <= a < size -> In e (elems a) -> fine_cell m g c -> (0 < overlap_volume (bx (snd e)) c)%R -> 0 <= owner g < size).
  (** what rank [a] knows after its claims *)
  Definition data3 a : rank3 :=
    mkRank3 (faces a) (elems a) (fst (interface_claims_3d m bx (elems a))) (snd (interface_claims_3d m bx (elems a))).
  (** what rank [a] prepares; successful by C87_constructor_sends *)
  Definition prepared_by (out : Z -> outgoing) : Prop := forall a, 0 <= a < size ->
    halo3d_prepare size a owner (faces a) (elems a) (snd (interface_claims_3d m bx (elems a)))
      (unowned_cells owner a (fst (interface_claims_3d m bx (elems a)))) = Ok (out a).
  (** the schedules of the three exchanges on rank [me] *)
  Definition schedule (out : Z -> outgoing) (me : Z) (ta qa sa : list (Z * Z)) (to qo so : list nat) : Prop :=
    Permutation ta (size_messages size (fun a => face_send (dc_tris (og_dec (out a)))) (face_msg (fun a => dc_tris (og_dec (out a)))) me) /\
    Permutation qa (size_messages size (fun a => face_send (dc_quads (og_dec (out a)))) (face_msg (fun a => dc_quads (og_dec (out a)))) me) /\
    Permutation sa (size_messages size (fun a => og_send (out a)) (stream_msg out) me) /\
    Permutation to (seq 0 (num_recv_ranks size (fun a => face_send (dc_tris (og_dec (out a)))) me)) /\
    Permutation qo (seq 0 (num_recv_ranks size (fun a => face_send (dc_quads (og_dec (out a)))) me)) /\
    Permutation so (seq 0 (num_recv_ranks size (fun a => og_send (out a)) me)).
End EndToEnd.
Lemma data3_ok size owner m bx faces elems : mesh3_ok size owner m bx faces elems ->
  forall a, 0 <= a < size -> rank3_ok size owner (data3 m bx faces elems a).
Proof.
  intros (Hm & Hb & Hs & He & Ho) a Ha. unfold data3. split; [|split; [|split; [|split]]]; cbn [k3_faces k3_elems k3_claims k3_map].
  - intros c Hc. apply (claims_spec3 m bx (elems a) Hm (Hb a)) in Hc as (e & cc & H1 & H2 & H3). eauto.
  - intros c id. rewrite (map_spec3 m bx (elems a) Hm (Hb a)). intros Hi. apply in_map_iff in Hi as (e & <- & Hi). apply filter_In in Hi as [Hi _]. now apply in_map.
  - apply Hs; auto.
  - apply Hs; auto.
  - intros id e Hi. eapply He; eauto.
Qed.
Theorem C87_constructor_sends : forall size owner m bx faces elems, mesh3_ok size owner m bx faces elems ->
  exists out, prepared_by size owner m bx faces elems out.
Proof.
  intros size owner m bx faces elems Hm.
  exists (fun a => match halo3d_prepare size a owner (faces a) (elems a) (snd (interface_claims_3d m bx (elems a)))
      (unowned_cells owner a (fst (interface_claims_3d m bx (elems a)))) with Ok o => o | _ => mkOutgoing [] (mkDecon [] [] []) end).
  intros a Ha. destruct (C87_prepare_succeeds size owner (data3 m bx faces elems a) a (data3_ok _ _ _ _ _ _ Hm a Ha) Ha) as (o & E & _).
  cbn [data3 k3_faces k3_elems k3_claims k3_map] in E. rewrite E. reflexivity.
Qed.
Print Assumptions C87_constructor_sends.
Theorem C87_overlapping_elements_arrive : forall size owner m bx faces elems, mesh3_ok size owner m bx faces elems ->
  (forall a, 0 <= a < size -> counted size owner a (data3 m bx faces elems a)) ->
  forall out, prepared_by size owner m bx faces elems out ->
  forall me ta qa sa to qo so, 0 <= me < size -> schedule size out me ta qa sa to qo so ->
  exists tris quads l, create_halos_3d size me out ta qa sa to qo so = H3Ok tris quads l /\ NoDup l /\
    (forall x, In x l <-> 0 <= r3_rank x < size /\ r3_rank x <> me /\ In (r3_id x, (r3_shape x, r3_faces x)) (elems (r3_rank x)) /\
       exists g c, owner g = me /\ fine_cell m g c /\ (0 < overlap_volume (bx (r3_shape x, r3_faces x)) c)%R) /\
    (** the faces held besides are those of the copies *)
    (forall x, In x (tris ++ quads) <-> exists e, In e l /\ r3_rank e = r2_rank x /\ In (r2_geom x) (r3_faces e) /\ g2_id (r2_geom x) = r2_id x).
Proof.
  intros size owner m bx faces elems Hmesh Hc out Hp me ta qa sa to qo so Hme (S1 & S2 & S3 & S4 & S5 & S6).
  pose proof (data3_ok _ _ _ _ _ _ Hmesh) as Hd. destruct Hmesh as (Hm & Hb & Hs & He & Ho).
  destruct (halos3 size owner (data3 m bx faces elems) out Hd Hc Hp me ta qa sa to qo so Hme S1 S2 S3 S4 S5 S6) as (tris & quads & l & E & P1 & P2 & P3).
  exists tris, quads, l. split; [exact E|].
  assert (Hl : forall x, In x l <-> 0 <= r3_rank x < size /\ r3_rank x <> me /\ In (r3_id x, (r3_shape x, r3_faces x)) (wanted3 owner (data3 m bx faces elems (r3_rank x)) me)).
  { intros x. rewrite (Permutation_in' (eq_refl x) P3), in_concat. split.
    - intros (y & Hy & Hx). apply in_map_iff in Hy as (a & <- & Ha). apply in_others in Ha as [H1 H2]. apply in_remotes3 in Hx as [<- Hx]. auto.
    - intros (H1 & H2 & H3). eexists. split; [apply in_map_iff; exists (r3_rank x); split; [reflexivity|apply in_others; auto]|]. apply in_remotes3. auto. }
  assert (Hw : forall a b e, 0 <= a < size -> (In e (wanted3 owner (data3 m bx faces elems a) b) <->
      In e (elems a) /\ exists g c, owner g = b /\ fine_cell m g c /\ (0 < overlap_volume (bx (snd e)) c)%R)).
  { intros a b e Ha. apply in_wanted3; auto. apply Hb. apply sorted_nodup. apply Hs; auto. }
  split; [|split].
  - eapply Permutation_NoDup; [symmetry; exact P3|]. apply nodup_all3.
    + apply NoDup_filter, nodup_ranks.
    + intros a Ha. apply in_others in Ha as [Ha _]. unfold wanted3. apply nodup_map_filter. cbn [data3 k3_elems]. apply sorted_nodup. apply Hs; auto.
  - intros x. rewrite Hl. split.
    + intros (H1 & H2 & H3). apply Hw in H3 as [H3 H4]; auto.
    + intros (H1 & H2 & H3 & H4). split; [auto|]. split; [auto|]. apply Hw; auto.
  - intros x. rewrite in_app_iff, (Permutation_in' (eq_refl x) P1), (Permutation_in' (eq_refl x) P2), !in_all_faces.
    assert (Hf : forall a sh i f, 0 <= a < size -> (In (i, f) (wanted_faces sh owner (data3 m bx faces elems a) me) <->
       In (i, f) (faces a) /\ g2_shape f = sh /\ exists e, In e (wanted3 owner (data3 m bx faces elems a) me) /\ exists f', In f' (snd (snd e)) /\ g2_id f' = i)).
    { intros a sh i f Ha. unfold wanted_faces. rewrite filter_In, andb_true_iff, Z.eqb_eq, existsb_exists. cbn [fst snd data3 k3_faces].
      split; intros (H1 & H2 & e & H3 & H4); (split; [auto|]; split; [auto|]); exists e; (split; [auto|]).
      - apply existsb_exists in H4 as (f' & ? & E'). apply Z.eqb_eq in E'. eauto.
      - destruct H4 as (f' & ? & <-). apply existsb_exists. exists f'. split; auto. apply Z.eqb_refl. }
    assert (Hone : forall a i f f', 0 <= a < size -> In (i, f) (faces a) -> In (i, f') (faces a) -> f = f').
    { intros a i f f' Ha H1 H2. destruct (Hs a Ha) as [_ Hsf]. apply (proj2 (zget_in _ _ _ (sorted_nodup _ Hsf))) in H1, H2. congruence. }
    split.
    + intros Hx. assert (Hx' : 0 <= r2_rank x < size /\ r2_rank x <> me /\ exists sh, In (r2_id x, r2_geom x) (wanted_faces sh owner (data3 m bx faces elems (r2_rank x)) me)) by intuition eauto.
      destruct Hx' as (H1 & H2 & sh & H3). apply Hf in H3 as (H4 & _ & [id e] & H5 & f' & H6 & H7); auto. cbn [snd] in H6.
      pose proof H5 as H5'. apply Hw in H5' as [H8 _]; auto. destruct (He (r2_rank x) id e H1 H8) as [_ H9]. specialize (H9 f' H6). rewrite H7 in H9.
      pose proof (Hone _ _ _ _ H1 H4 H9) as E1. exists (mkRemote3D (r2_rank x) id (fst e) (snd e)). split; [|cbn [r3_rank r3_faces]; rewrite E1; auto].
      apply Hl. cbn [r3_rank r3_id r3_shape r3_faces]. rewrite <- surjective_pairing. auto.
    + intros (e & H1 & H2 & H3 & H4). apply Hl in H1 as (A1 & A2 & A3). rewrite H2 in *. pose proof A3 as A4. apply Hw in A4 as [A4 _]; auto.
      destruct (He _ _ _ A1 A4) as [[_ Hk] Hin]. cbn [fst snd] in *. specialize (Hin _ H3). rewrite H4 in Hin.
      assert (Hsh : g2_shape (r2_geom x) = int_triangle \/ g2_shape (r2_geom x) = int_quadrilateral).
      { rewrite Forall_forall in Hk. specialize (Hk _ H3). unfold face_kind_ok in Hk. destruct (r3_shape e); auto. }
      destruct Hsh as [Hsh|Hsh]; [left|right]; (split; [auto|]; split; [auto|]); apply Hf; auto; (split; [auto|]; split; [auto|]);
        exists (r3_id e, (r3_shape e, r3_faces e)); (split; [auto|]); exists (r2_geom x); auto.
Qed.
Print Assumptions C87_overlapping_elements_arrive.

(** C87: the neighbours are the owners of the copies held, each once *)
Theorem C87_neighbour_ranks : forall elems, StronglySorted Z.lt (neighbour_ranks_3d elems) /\
  forall r, In r (neighbour_ranks_3d elems) <-> exists g, In g elems /\ r3_rank g = r.
Proof. exact neighbour3_spec. Qed.
Print Assumptions C87_neighbour_ranks.

(** a pyramid (one quad, four triangles) and a tet sharing a triangle on rank 0, everything owned
    by rank 1 *)
Definition ex_tri (i : Z) : geom2d := mkGeom2D 3 i [wit_edge 0; wit_curved_edge 1; wit_edge 2] None.
Definition ex_quad (i : Z) : geom2d := mkGeom2D 4 i [wit_edge 0; wit_edge 1; wit_edge 2; wit_curved_edge 3] None.
Definition ex_faces (a : Z) : list (Z * geom2d) :=
  if a =? 0 then [(1, ex_tri 1); (2, ex_tri 2); (3, ex_tri 3); (4, ex_tri 4); (5, ex_quad 5); (6, ex_tri 6); (7, ex_tri 7); (8, ex_tri 8); (9, ex_tri 9)] else [].
Definition ex_pyr : elem3d := (Pyr, [ex_quad 5; ex_tri 1; ex_tri 2; ex_tri 3; ex_tri 4]).
Definition ex_tet : elem3d := (Tet, [ex_tri 2; ex_tri 6; ex_tri 7; ex_tri 8]).
Definition ex_elems (a : Z) : list (Z * elem3d) := if a =? 0 then [(3, ex_tet); (10, ex_pyr)] else [].
Definition ex_mh : mhier := mkMH [2; 1; 1] [0%R; 0%R; 0%R] 2 1%R.
Definition ex_bx (_ : elem3d) : box := [(0.25%R, 0.75%R); (0%R, 0.5%R); (0%R, 0.5%R)].
Example C87_nonvacuous : mesh3_ok 2 (fun _ => 1) ex_mh ex_bx ex_faces ex_elems /\
  exists g c, fine_cell ex_mh g c /\ (0 < overlap_volume (ex_bx ex_tet) c)%R.
Proof.
  assert (Hm : mh_ok ex_mh) by (unfold mh_ok, ex_mh; simpl; repeat split; auto; try lia; try lra; repeat constructor; lia).
  split; [split; [exact Hm|split; [|split; [|split]]]|].
  - intros a e _. reflexivity.
  - intros a _. unfold ex_elems, ex_faces. destruct (a =? 0); cbn [map fst]; split; repeat constructor.
  - intros a id e _. unfold ex_elems, ex_faces. destruct (a =? 0); [|intros []]. intros [E|[E|[]]]; injection E as <- <-; (split; [split; [reflexivity|]|]).
    + repeat (apply Forall_cons; [reflexivity|]). apply Forall_nil.
    + intros f Hf. cbn [snd ex_tet In] in Hf. repeat destruct Hf as [<-|Hf]; cbn; tauto.
    + repeat (apply Forall_cons; [cbn; auto|]). apply Forall_nil.
    + intros f Hf. cbn [snd ex_pyr In] in Hf. repeat destruct Hf as [<-|Hf]; cbn; tauto.
  - intros; lia.
  - exists 1, (grid_cell [0%R; 0%R; 0%R] (mh_cw ex_mh) [1; 0; 0]). split.
    + exists [0; 0; 0]%Z, [1; 0; 0]%Z. split; [repeat constructor; simpl; lia|]. split; [repeat constructor; simpl; lia|].
      split; reflexivity.
    + unfold ex_mh, mh_cw, ex_bx. simpl. unfold Rmax, Rmin. repeat destruct (Rle_dec _ _); lra.
Qed.
(** the data of two ranks with abstract cells, run completely: rank 1 receives both elements, and
    each shared face once *)
Definition ex_rank3 (a : Z) : rank3 :=
  mkRank3 (ex_faces a) (ex_elems a) (if a =? 0 then [4; 6] else [6]) (if a =? 0 then [(4, [3]); (6, [3; 10])] else [(6, [])]).
Definition ex_out (a : Z) : outgoing :=
  match halo3d_prepare 2 a (fun _ => 1) (ex_faces a) (ex_elems a) (k3_map (ex_rank3 a)) (unowned_cells (fun _ => 1) a (k3_claims (ex_rank3 a))) with
  | Ok o => o | _ => mkOutgoing [] (mkDecon [] [] []) end.
Example C87_runs :
  let sz (msg : Z -> Z -> list Z) := [(0, Z.of_nat (length (msg 0 1)))] in
  let tm a := dc_tris (og_dec (ex_out a)) in
  let qm a := dc_quads (og_dec (ex_out a)) in
  exists tris quads, create_halos_3d 2 1 ex_out (sz (face_msg tm)) (sz (face_msg qm)) (sz (stream_msg ex_out)) [0%nat] [0%nat] [0%nat] =
     H3Ok tris quads [mkRemote3D 0 3 Tet (snd ex_tet); mkRemote3D 0 10 Pyr (snd ex_pyr)] /\
     map r2_id tris = [1; 2; 3; 4; 6; 7; 8] /\ map r2_id quads = [5].
Proof.
  cbv zeta. do 2 eexists. split; [vm_compute; reflexivity|]. split; reflexivity.
Qed.
Example C87_counted_nonvacuous : forall a, 0 <= a < 2 -> rank3_ok 2 (fun _ => 1) (ex_rank3 a) /\ counted 2 (fun _ => 1) a (ex_rank3 a).
Proof.
  intros a Ha. destruct C87_nonvacuous as [(_ & _ & Hs & He & _) _]. assert (a = 0 \/ a = 1) as [-> | ->] by lia.
  - split.
    + split; [|split; [|split; [|split]]].
      * intros; lia.
      * intros c id. unfold geom_ids. cbn. repeat match goal with |- context [if ?b then _ else _] => destruct b end; cbn; tauto.
      * apply (Hs 0); lia.
      * apply (Hs 0); lia.
      * intros id e Hi. apply (He 0 id e); auto; lia.
    + intros b. destruct (Z.eq_dec b 1) as [->|Hb].
      * split; [|split]; [split; [apply Forall_forall, forallb_forall; vm_compute; reflexivity|vm_compute; reflexivity]..|vm_compute; reflexivity].
      * assert (E : wanted3 (fun _ => 1) (ex_rank3 0) b = []).
        { apply wanted3_nil. intros (c & _ & E). congruence. }
        unfold counted. rewrite !(wanted_faces_nil (fun _ => 1) (ex_rank3 0) _ b E), E. split; [|split]; [split; [constructor|vm_compute; reflexivity]..|vm_compute; reflexivity].
  - split.
    + split; [|split; [|split; [|split]]]; cbn; try constructor; try tauto; try lia.
      intros c id. unfold geom_ids. cbn. destruct (c =? 6); tauto.
    + intros b. assert (E : wanted3 (fun _ => 1) (ex_rank3 1) b = []) by reflexivity.
      rewrite !(wanted_faces_nil (fun _ => 1) (ex_rank3 1) _ b E), E. split; [|split]; [split; [constructor|vm_compute; reflexivity]..|vm_compute; reflexivity].
Qed.
(** a face missing from the rank's own map of 2D geometries is not silently left out *)
Example C87_missing_face_rejected :
  halo3d_prepare 2 0 (fun _ => 1) (removelast (removelast (ex_faces 0))) (ex_elems 0) (k3_map (ex_rank3 0)) [6; 4] = AssertFail.
Proof. vm_compute. reflexivity. Qed.
