From Coq Require Import Sorting.Permutation Sorting.Sorted ZArith Reals Lra Lia Bool.
From Verif Require Import M_Bytes M_Pack2D M_RemoteGeom M_Transport M_Exchange S_Exchange M_MeshIf M_ExchangeMesh M_Rma.
From Verif Require Import S_Grid S_MeshIf L_MeshIf L_MeshIf2 L_Exchange L_ExchangeMesh L_Transport L_ListX L_Rma.
From Coq Require Import List.
Import ListNotations.

Lemma nsum_filter f l : (forall a, f a = if (l a : bool) then 1%nat else 0%nat) -> forall n, nsum f n = length (filter l (seq 0 n)).
Proof.
  intros H. induction n as [|n IH]; [reflexivity|]. cbn [nsum]. rewrite seq_S, filter_app, app_length, IH, H. simpl. destruct (l n); auto.
Qed.
Lemma count_nodup r l : NoDup l -> count r l = if existsb (Nat.eqb r) l then 1%nat else 0%nat.
Proof.
  unfold count. induction l as [|x l IH]; intros Hn; simpl; auto. inversion Hn; subst. destruct (Nat.eq_dec x r) as [->|].
  - rewrite Nat.eqb_refl. simpl. f_equal. apply count_occ_not_In; auto.
  - rewrite IH by auto. destruct (Nat.eqb_spec r x); [congruence|auto].
Qed.
Lemma rma_counts n sends : (forall k a t, In t (sends k a) -> (t < n)%nat) -> (forall k a, NoDup (sends k a)) ->
  forall g, greach n sends g -> forall r k v, (r < n)%nat -> nth_error (rs_reads (gs_rank g r)) k = Some v ->
  v = length (filter (fun a => existsb (Nat.eqb r) (sends k a)) (seq 0 n)).
Proof.
  intros Hs Hn g Hg r k v Hr E. rewrite (i_reads n sends g (inv_reach n sends Hs g Hg) r k v Hr E).
  apply nsum_filter. intros a. now apply count_nodup.
Qed.

Lemma in_remotes a l x : In x (remotes a l) <-> r2_rank x = a /\ In (r2_id x, r2_geom x) l.
Proof.
  unfold remotes. rewrite in_map_iff. split.
  - intros ([i g] & <- & H). simpl. auto.
  - intros [<- H]. exists (r2_id x, r2_geom x). split; auto. destruct x; reflexivity.
Qed.
Lemma nodup_remotes a l : NoDup (map fst l) -> NoDup (remotes a l).
Proof.
  intros H. unfold remotes. apply (NoDup_map_inv (fun r => r2_id r)). rewrite map_map. cbn [r2_id]. exact H.
Qed.
Lemma nodup_map_filter {A B} (f : A -> B) p l : NoDup (map f l) -> NoDup (map f (filter p l)).
Proof.
  induction l as [|x l IH]; simpl; intros H; auto. inversion H; subst. destruct (p x); simpl; auto. constructor; auto.
  intros Hi. apply H2. apply in_map_iff in Hi as (y & <- & Hy). apply filter_In in Hy as [Hy _]. now apply in_map.
Qed.
Lemma nodup_all (w : Z -> list (Z * geom2d)) l : NoDup l -> (forall a, In a l -> NoDup (map fst (w a))) ->
  NoDup (concat (map (fun a => remotes a (w a)) l)).
Proof.
  induction l as [|a l IH]; simpl; intros Hn Hw; [constructor|]. inversion Hn; subst. apply NoDup_app_intro; auto.
  - apply nodup_remotes; auto.
  - intros x H3 H4. apply in_remotes in H3 as [<- _]. apply in_concat in H4 as (y & Hy & Hx).
    apply in_map_iff in Hy as (b & <- & Hb). apply in_remotes in Hx as [<- _]. auto.
Qed.

Section EndToEnd.
  Context (size : Z) (owner : Z -> Z) (m : mhier) (bx : geom2d -> box) (all elems : Z -> list (Z * geom2d)).
  Context (claims : Z -> list Z) (gm : Z -> list (Z * list Z)).
  Local Open Scope Z_scope.
  Hypothesis Hm : mh_ok m.
  Hypothesis Hbox : forall a e, In e (all a) -> length (bx (snd e)) = mh_ndim m.
  Hypothesis Hsub : forall a e, In e (elems a) -> In e (all a).
  Hypothesis Hsort : forall a, 0 <= a < size -> StronglySorted Z.lt (map fst (elems a)).
  Hypothesis Hown : forall a e g c, 0 <= a < size -> In e (all a) -> fine_cell m g c -> (0 < overlap_volume (bx (snd e)) c)%R -> 0 <= owner g < size.
  Hypothesis Hcl : forall a g, In g (claims a) <-> exists e c, In e (all a) /\ fine_cell m g c /\ (0 < overlap_volume (bx (snd e)) c)%R.
  Hypothesis Hgm : forall a g, geom_ids (gm a) g = map fst (filter (fun e => touches m g (bx (snd e))) (elems a)).
  Let data a := mkRankData (elems a) (claims a) (gm a).
  Hypothesis Hpack : forall a b, 0 <= a < size -> packable size a (wanted owner (data a) b).
  Lemma data_ok a : 0 <= a < size -> rank_ok size owner (data a).
  Proof.
    intros Ha. split; [|split]; cbn [data rd_claims rd_elems].
    - intros g Hg. apply Hcl in Hg as (e & c & H1 & H2 & H3). eauto.
    - intros c id H. unfold registered in H. cbn [rd_map data] in H. rewrite Hgm in H.
      apply in_map_iff in H as (e & <- & He). apply filter_In in He as [He _]. now apply in_map.
    - auto.
  Qed.
  Lemma end_to_end send rem me arrival order :
    (forall a, 0 <= a < size -> exchange_get_send_ranks size a owner (elems a) (gm a) (unowned_cells owner a (claims a)) = Ok (send a, rem a)) ->
    0 <= me < size ->
    let msg a b := pack_geoms2d (remotes a (rank_elems (rem a) b)) in
    Permutation arrival (size_messages size send msg me) -> Permutation order (seq 0 (num_recv_ranks size send me)) ->
    exists l, exchange_recv (num_recv_ranks size send me) arrival (fun a => msg a me) order = XOk (Ok l) /\ NoDup l /\
      forall x, In x l <-> 0 <= r2_rank x < size /\ r2_rank x <> me /\ In (r2_id x, r2_geom x) (elems (r2_rank x)) /\
        exists g c, owner g = me /\ fine_cell m g c /\ (0 < overlap_volume (bx (r2_geom x)) c)%R.
  Proof.
    intros Hs Hme msg HA HO.
    destruct (exchange_delivers size owner data data_ok Hpack send rem Hs me arrival order Hme HA HO) as (l & El & Pl).
    exists l. split; [exact El|].
    assert (Hkeys : forall a, 0 <= a < size -> NoDup (map fst (elems a))) by (intros; apply sorted_nodup; auto).
    split.
    - eapply Permutation_NoDup; [symmetry; exact Pl|]. apply nodup_all.
      + apply NoDup_filter, nodup_ranks.
      + intros a Ha. apply filter_In in Ha as [Ha _]. apply in_ranks in Ha. unfold wanted. apply nodup_map_filter. apply Hkeys; auto.
    - intros x. rewrite (Permutation_in' (eq_refl x) Pl). rewrite in_concat. split.
      + intros (y & Hy & Hx). apply in_map_iff in Hy as (a & <- & Ha). apply filter_In in Ha as [Ha Hne]. apply in_ranks in Ha.
        apply negb_true_iff, Z.eqb_neq in Hne. apply in_remotes in Hx as [Er Hx]. rewrite Er.
        apply (in_wanted m bx (all a) (elems a) (claims a) (gm a) owner me) in Hx; auto; try (intros; eapply Hbox; eauto).
      + intros (Ha & Hne & Hx & Hex). eexists. split.
        * apply in_map_iff. exists (r2_rank x). split; [reflexivity|]. apply filter_In. split; [now apply in_ranks|].
          apply negb_true_iff, Z.eqb_neq. auto.
        * apply in_remotes. split; auto. apply (in_wanted m bx (all (r2_rank x)) (elems (r2_rank x)) (claims (r2_rank x)) (gm (r2_rank x)) owner me); auto;
          try (intros; eapply Hbox; eauto).
  Qed.
End EndToEnd.
