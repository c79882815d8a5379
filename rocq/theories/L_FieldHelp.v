From Coq Require Import Reals Psatz.
From Verif Require Import M_Bytes M_Util M_FieldHelp S_FieldHelp.
From Coq Require Import List.
Import ListNotations.
Open Scope R_scope.

Lemma store_at_spec l : forall i v, (i < length l)%nat ->
  store_at l i v = Some (firstn i l ++ v :: skipn (S i) l).
Proof.
  induction l as [|a r IH]; intros i v H; cbn [length] in H. { lia. }
  destruct i. { reflexivity. } cbn [store_at firstn skipn app]. rewrite IH by lia. reflexivity.
Qed.
Lemma set_coeffs_loop_spec n : forall cx src dst, length src = (cx + n)%nat -> length dst = (cx + n)%nat ->
  firstn cx dst = firstn cx src -> set_coeffs_loop n cx src dst = Some src.
Proof.
  induction n; intros cx src dst H1 H2 H3; cbn [set_coeffs_loop].
  - rewrite !firstn_all2 in H3 by lia. now subst.
  - destruct (nth_error src cx) eqn:E. 2:{ apply nth_error_None in E. lia. }
    rewrite store_at_spec by lia. apply IHn. { lia. }
    { rewrite app_length, firstn_length. cbn [length]. rewrite skipn_length. lia. }
    rewrite firstn_app, firstn_length, firstn_firstn, Nat.min_r by lia.
    replace (S cx - Nat.min cx (length dst))%nat with 1%nat by lia. change (firstn 1 (r :: skipn (S cx) dst)) with [r].
    rewrite H3. destruct (nth_error_split _ _ E) as (a & b & -> & Ha).
    subst cx. replace (firstn (S (length a)) (a ++ r :: b)) with (a ++ [r]).
    2:{ rewrite firstn_app, firstn_all2 by lia. replace (S (length a) - length a)%nat with 1%nat by lia. reflexivity. }
    f_equal. rewrite firstn_app, Nat.sub_diag, firstn_all. cbn [firstn]. apply app_nil_r.
Qed.
Lemma starts_nth exps : forall o i e, nth_error exps i = Some e ->
  nth_error (starts exps o) i = Some (o + total_points (firstn i exps))%nat.
Proof.
  induction exps as [|a r IH]; intros o i e H; destruct i; cbn in H; try discriminate; cbn [starts nth_error firstn total_points].
  - f_equal. lia.
  - rewrite (IH _ _ _ H). f_equal. lia.
Qed.
Lemma skipn_skipn {A} (l : list A) : forall a b, skipn a (skipn b l) = skipn (b + a) l.
Proof. induction l; intros a0 b. { now rewrite !skipn_nil. } destruct b; cbn [skipn Nat.add]; auto. Qed.
Lemma pieces_nth {A} exps : forall (l : list A) i e, nth_error exps i = Some e ->
  nth_error (pieces exps l) i = Some (firstn (ex_npts e) (skipn (total_points (firstn i exps)) l)).
Proof.
  induction exps as [|a r IH]; intros l i e H; destruct i; cbn in H; try discriminate; cbn [pieces nth_error firstn total_points].
  - now inversion H.
  - rewrite (IH _ _ _ H). now rewrite skipn_skipn.
Qed.
Lemma total_le exps : forall i e, nth_error exps i = Some e -> (total_points (firstn i exps) + ex_npts e <= total_points exps)%nat.
Proof.
  induction exps as [|a r IH]; intros i e H; destruct i; cbn in H; try discriminate; cbn [firstn total_points].
  - inversion H. subst. lia.
  - specialize (IH _ _ H). lia.
Qed.
Lemma pieces_map {A B} (g : A -> B) exps : forall l, pieces exps (map g l) = map (map g) (pieces exps l).
Proof. induction exps; intros l; cbn [pieces map]; auto. now rewrite firstn_map, skipn_map, IHexps. Qed.
Lemma raw_nth_some {A} (l : list A) i a : nth_error l i = Some a -> raw_nth l (Z.of_nat i) = Ok a.
Proof. intros H. unfold raw_nth. destruct (Z.ltb_spec (Z.of_nat i) 0); try lia. now rewrite Nat2Z.id, H. Qed.

Lemma element_values_spec fld i e v : laid_out fld -> length (nf_phys fld) = total_points (nf_exp fld) ->
  nth_error (nf_exp fld) i = Some e -> nth_error (pieces (nf_exp fld) (nf_phys fld)) i = Some v ->
  element_values fld (Z.of_nat i) = Ok (e, v).
Proof.
  intros [L1 L2] L3 He Hv. unfold element_values. rewrite L1.
  rewrite (raw_nth_some _ _ _ (starts_nth _ 0 _ _ He)). cbn [obind Nat.add].
  rewrite (raw_nth_some _ _ _ He). cbn [obind]. unfold raw_slice.
  rewrite L3. rewrite (proj2 (Nat.leb_le _ _) (total_le _ _ _ He)). cbn [obind].
  rewrite (pieces_nth _ _ _ _ He) in Hv. inversion Hv. reflexivity.
Qed.

(** ** the map from cells to expansions *)
Lemma map_find_zassign m k v k' : map_find (zassign m k v) k' = if Z.eqb k k' then Some v else map_find m k'.
Proof.
  induction m as [|[a b] r IH]; cbn [zassign map_find].
  - reflexivity.
  - destruct (Z.eqb_spec k a).
    + subst. cbn [map_find]. destruct (Z.eqb_spec a k'); reflexivity.
    + destruct (Z.ltb_spec k a); cbn [map_find].
      * destruct (Z.eqb_spec k k'); reflexivity.
      * destruct (Z.eqb_spec a k'); destruct (Z.eqb_spec k k'); try reflexivity; subst; try congruence.
Qed.

Lemma g2e_absent exps : forall ei m gid, (forall e, In e exps -> ex_gid e <> gid) ->
  map_find (geom_to_exp exps ei m) gid = map_find m gid.
Proof.
  induction exps as [|a r IH]; intros ei m gid H; cbn [geom_to_exp]. { reflexivity. }
  rewrite IH by (intros; apply H; now right). rewrite map_find_zassign.
  destruct (Z.eqb_spec (ex_gid a) gid); auto. exfalso. now apply (H a (or_introl eq_refl)).
Qed.
Lemma g2e_last exps : forall ei m gid i, last_expansion_on exps gid i ->
  map_find (geom_to_exp exps ei m) gid = Some (ei + Z.of_nat i)%Z.
Proof.
  induction exps as [|a r IH]; intros ei m gid i [(e & He & Hg) Hl]. { destruct i; discriminate. }
  cbn [geom_to_exp]. destruct i.
  - cbn in He. inversion He. subst a. rewrite g2e_absent.
    + rewrite map_find_zassign, Hg, Z.eqb_refl. f_equal. lia.
    + intros e' H'. apply In_nth_error in H'. destruct H' as [j Hj]. apply (Hl (S j) e'); [lia|exact Hj].
  - rewrite (IH (ei + 1)%Z _ gid i). { f_equal. lia. }
    split. { exists e. split; [exact He|exact Hg]. }
    intros j e' Hj He'. apply (Hl (S j) e'); [lia|exact He'].
Qed.
Lemma last_expansion_cases exps gid : (exists i, last_expansion_on exps gid i) \/ (forall e, In e exps -> ex_gid e <> gid).
Proof.
  induction exps as [|a r IH]. { right. intros e []. }
  destruct IH as [(i & (e & He & Hg) & Hl)|H].
  - left. exists (S i). split. { exists e. split; assumption. }
    intros j e' Hj He'. destruct j; [lia|]. apply (Hl j e'); [lia|exact He'].
  - destruct (Z.eq_dec (ex_gid a) gid).
    + left. exists 0%nat. split. { exists a. split; [reflexivity|assumption]. }
      intros j e' Hj He'. destruct j; [lia|]. apply H. apply nth_error_In with j. exact He'.
    + right. intros e' [<-|H']; auto.
Qed.
Lemma cell_to_exp_none g2e l : forall c m, cell_to_exp g2e l c m = None <-> exists gid, In gid l /\ map_find g2e gid = None.
Proof.
  induction l as [|g r IH]; intros c m; cbn [cell_to_exp].
  - split; [discriminate|]. intros (g & [] & _).
  - destruct (map_find g2e g) eqn:E.
    + rewrite IH. split.
      * intros (g' & H & H'). exists g'. split; [now right|assumption].
      * intros (g' & [<-|H] & H'); [congruence|]. now exists g'.
    + split; auto. intros _. exists g. split; [now left|assumption].
Qed.
Lemma cell_to_exp_find g2e l : forall c m m', cell_to_exp g2e l c m = Some m' ->
  (forall k, (k < c)%Z -> map_find m' k = map_find m k) /\
  (forall k, (c + Z.of_nat (length l) <= k)%Z -> map_find m' k = map_find m k) /\
  (forall i g, nth_error l i = Some g -> map_find m' (c + Z.of_nat i)%Z = map_find g2e g).
Proof.
  induction l as [|g r IH]; intros c m m' H; cbn [cell_to_exp] in H.
  - inversion H. subst. repeat split; auto. intros [|i] g; discriminate.
  - destruct (map_find g2e g) eqn:E; [|discriminate].
    destruct (IH _ _ _ H) as (A & B & C).
    assert (Z' : forall k v, k <> c -> map_find (zassign m c v) k = map_find m k).
    { intros k v Hk. rewrite map_find_zassign. destruct (Z.eqb_spec c k); congruence. }
    split; [|split].
    + intros k Hk. rewrite A by lia. apply Z'. lia.
    + intros k Hk. cbn [length] in Hk. rewrite B by lia. apply Z'. lia.
    + intros [|i] g' Hi; cbn in Hi.
      * inversion Hi. subst g'. rewrite A by lia. rewrite map_find_zassign.
        replace (c + Z.of_nat 0)%Z with c by lia. rewrite Z.eqb_refl. now rewrite E.
      * rewrite <- (C i g' Hi). f_equal. lia.
Qed.
