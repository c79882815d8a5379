From Coq Require Import Sorting.Permutation Sorting.Sorted ZArith Reals Lra Lia.
From Verif Require Import M_Bytes M_Pack2D M_RemoteGeom M_Transport M_Exchange S_Exchange M_MeshIf M_ExchangeMesh.
From Verif Require Import S_Grid S_MeshIf L_MeshIf L_MeshIf2 L_Exchange L_Transport L_ListX.
From Coq Require Import List.
Import ListNotations.

Lemma zget_zlookup {V} (m : list (Z * V)) k : zget m k = zlookup m k.
Proof. induction m as [|[x y] m IH]; simpl; auto. Qed.
Lemma geom_ids_at gm c : geom_ids gm c = geoms_at gm c.
Proof. unfold geom_ids, geoms_at. now rewrite zget_zlookup. Qed.

Section One.
  Context (m : mhier) (bx : geom2d -> box) (tris quads : list (Z * geom2d)).
  Hypothesis Hm : mh_ok m.
  Hypothesis Hbt : forall e, In e (tris ++ quads) -> length (bx (snd e)) = mh_ndim m.
  Let claims := fst (fst (interface_claims_2d m bx tris quads)).
  Lemma ok_t : elems_ok m (with_box bx tris).
  Proof. apply Forall_forall. intros e Hi. apply in_map_iff in Hi as (x & <- & Hx). apply Hbt. apply in_app_iff; auto. Qed.
  Lemma ok_q : elems_ok m (with_box bx quads).
  Proof. apply Forall_forall. intros e Hi. apply in_map_iff in Hi as (x & <- & Hx). apply Hbt. apply in_app_iff; auto. Qed.
  Lemma claims_spec g : In g claims <-> exists e c, In e (tris ++ quads) /\ fine_cell m g c /\ 0 < overlap_volume (bx (snd e)) c.
  Proof.
    unfold claims, interface_claims_2d. cbn [fst snd]. rewrite claim_elements_fst. cbn [fst]. rewrite claim_elements_run.
    unfold run_claims. rewrite <- fold_left_app. fold (run_claims (flat_map (elem_claims m) (with_box bx tris) ++ flat_map (elem_claims m) (with_box bx quads))).
    rewrite <- flat_map_app.
    assert (Hok : elems_ok m (with_box bx tris ++ with_box bx quads)) by (apply Forall_app; split; [apply ok_t|apply ok_q]).
    destruct (claim_cells_run (flat_map (elem_claims m) (with_box bx tris ++ with_box bx quads))) as [_ H]. rewrite H. split.
    - intros (w & f & Hi & _). apply in_elem_claims in Hi as (e & c & H1 & H2 & H3 & _); auto.
      unfold with_box in H1. rewrite <- map_app in H1. apply in_map_iff in H1 as (x & <- & Hx). exists x, c. auto.
    - intros (e & c & H1 & H2 & H3). do 2 eexists. split; [apply in_elem_claims; auto|apply int_weight_pos].
      exists (fst e, bx (snd e)), c. split; [unfold with_box; rewrite <- map_app; apply in_map_iff; exists e; auto|]. split; [auto|]. split; [auto|]. split; reflexivity.
  Qed.
  Lemma touches_map l g : map fst (filter (fun e => touches m g (snd e)) (with_box bx l)) = map fst (filter (fun e => touches m g (bx (snd e))) l).
  Proof. unfold with_box. induction l as [|e l IH]; simpl; auto. destruct (touches m g (bx (snd e))); simpl; now rewrite IH. Qed.
  Lemma tri_map_spec g : geom_ids (snd (fst (interface_claims_2d m bx tris quads))) g = map fst (filter (fun e => touches m g (bx (snd e))) tris).
  Proof. rewrite geom_ids_at. unfold interface_claims_2d. cbn [fst snd]. rewrite (claim_elements_snd m _ g Hm ok_t). simpl. apply touches_map. Qed.
  Lemma quad_map_spec g : geom_ids (snd (interface_claims_2d m bx tris quads)) g = map fst (filter (fun e => touches m g (bx (snd e))) quads).
  Proof. rewrite geom_ids_at. unfold interface_claims_2d. cbn [fst snd]. rewrite (claim_elements_snd m _ g Hm ok_q). simpl. apply touches_map. Qed.
End One.

(** for one of the two maps *)
Lemma in_wanted m bx (all elems : list (Z * geom2d)) claims gm owner b : mh_ok m ->
  (forall e, In e all -> length (bx (snd e)) = mh_ndim m) -> (forall e, In e elems -> In e all) ->
  NoDup (map fst elems) ->
  (forall g, In g claims <-> exists e c, In e all /\ fine_cell m g c /\ 0 < overlap_volume (bx (snd e)) c) ->
  (forall g, geom_ids gm g = map fst (filter (fun e => touches m g (bx (snd e))) elems)) ->
  forall e, In e (wanted owner (mkRankData elems claims gm) b) <->
    In e elems /\ exists g c, owner g = b /\ fine_cell m g c /\ 0 < overlap_volume (bx (snd e)) c.
Proof.
  intros Hm Hb Hsub Hn Hc Hg e. unfold wanted. cbn [rd_elems rd_claims rd_map]. rewrite filter_In, existsb_exists. split.
  - intros [He (g & Hgi & Ht)]. split; auto. apply Bool.andb_true_iff in Ht as [Ho Hi]. apply Z.eqb_eq in Ho.
    apply existsb_exists in Hi as (i & Hi & Ei). apply Z.eqb_eq in Ei. subst i. rewrite Hg in Hi.
    apply in_map_iff in Hi as (e' & E & Hi). apply filter_In in Hi as [Hi Ht].
    assert (e' = e).
    { destruct e' as [k v], e as [k' v']. simpl in E. subst k'. f_equal.
      apply (proj2 (zget_in elems k v Hn)) in Hi. apply (proj2 (zget_in elems k v' Hn)) in He. congruence. }
    subst e'. apply touches_iff in Ht as (c & H1 & H2); auto. eauto.
  - intros [He (g & c & Ho & H1 & H2)]. split; auto. exists g. split; [apply Hc; exists e, c; auto|].
    cbv beta. rewrite Ho, Z.eqb_refl. simpl. apply existsb_exists. exists (fst e). split; [|apply Z.eqb_refl].
    rewrite Hg. apply in_map. apply filter_In. split; auto. apply touches_iff; eauto.
Qed.
