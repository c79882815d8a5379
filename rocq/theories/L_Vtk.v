(** Reading back what VTKGeometryWriter writes. *)
From Verif Require Import M_Vtk S_Vtk L_Util L_Exchange L_HaloExt3d.
From Coq Require Import Reals ZArith String List Lia Sorting.Sorted.
Import ListNotations.
Open Scope string_scope. Open Scope list_scope. Open Scope Z_scope.

(** ** reading *)
Lemma read_ints_map : forall l r, read_ints (List.length l) (map TI l ++ r) = Some (l, r).
Proof. induction l as [|i l IH]; intros r; [reflexivity|]. cbn [List.length map app read_ints]. rewrite IH. reflexivity. Qed.
Lemma read_reals_map : forall l r, read_reals (List.length l) (map TR l ++ r) = Some (l, r).
Proof. induction l as [|i l IH]; intros r; [reflexivity|]. cbn [List.length map app read_reals]. rewrite IH. reflexivity. Qed.
Lemma point_toks_eq : forall v, point_toks v = let '(x, y, z) := place v in [TR x; TR y; TR z].
Proof. intros v. unfold point_toks, place. destruct (v_dim v =? 1); [reflexivity|]. destruct (v_dim v =? 2); reflexivity. Qed.
Lemma read_points_map : forall {K} (l : list (K * vert)) r, read_points (List.length l) (flat_map (fun kv => point_toks (snd kv)) l ++ r) = Some (map (fun kv => place (snd kv)) l, r).
Proof.
  induction l as [|[k v] l IH]; intros r; [reflexivity|]. cbn [List.length flat_map snd map]. rewrite point_toks_eq. unfold place at 1. cbn [app read_points]. rewrite IH. reflexivity.
Qed.
Definition cellw (c : list Z) : list Z := Z.of_nat (List.length c) :: c.
Lemma split_cells_eq : forall cs, split_cells (List.length cs) (flat_map cellw cs) = Some cs.
Proof.
  induction cs as [|c cs IH]; [reflexivity|]. cbn [List.length flat_map cellw app split_cells]. rewrite Nat2Z.id.
  destruct (Z.leb_spec 0 (Z.of_nat (List.length c))); [|lia]. cbn [andb]. rewrite app_length.
  destruct (Nat.leb_spec (List.length c) (List.length c + List.length (flat_map cellw cs))); [|lia].
  replace (skipn (List.length c) (c ++ flat_map cellw cs)) with (flat_map cellw cs) by (rewrite skipn_app, skipn_all, Nat.sub_diag; reflexivity).
  rewrite IH. replace (firstn (List.length c) (c ++ flat_map cellw cs)) with c by (rewrite firstn_app, firstn_all, Nat.sub_diag, app_nil_r; reflexivity). reflexivity.
Qed.
Lemma expect_eq : forall l r, expect l (map TW l ++ r) = Some r.
Proof. induction l as [|s l IH]; intros r; [destruct r; reflexivity|]. cbn [map app expect]. rewrite String.eqb_refl. apply IH. Qed.

(** ** maps *)
Lemma zassign_all_get {V} (l : list (Z * V)) k : zget (zassign_all l []) k = zget (rev l) k.
Proof. unfold zassign_all. rewrite zassign_fold_get. destruct (zget (rev l) k); reflexivity. Qed.
Lemma zassign_all_keys {V} (l : list (Z * V)) : keys_sorted (zassign_all l []).
Proof. apply zassign_all_sorted. constructor. Qed.
Lemma sorted_nodup : forall (l : list Z), StronglySorted Z.lt l -> NoDup l.
Proof. induction 1 as [|a l H IH F]; constructor; auto. intros C. rewrite Forall_forall in F. specialize (F a C). lia. Qed.
Lemma zget_some_in {V} (l : list (Z * V)) k v : zget l k = Some v -> In (k, v) l.
Proof. induction l as [|[a b] l IH]; cbn; [discriminate|]. destruct (Z.eqb_spec k a) as [->|]; [injection 1 as ->; auto|auto]. Qed.
Lemma zassign_all_in {V} (l : list (Z * V)) k v : In (k, v) (zassign_all l []) -> In (k, v) l.
Proof.
  intros H. apply zget_in in H; [|apply sorted_nodup, zassign_all_keys]. rewrite zassign_all_get in H. apply zget_some_in in H. apply in_rev. exact H.
Qed.
Lemma zassign_all_has {V} (l : list (Z * V)) k : In k (map fst (zassign_all l [])) <-> In k (map fst l).
Proof.
  rewrite zget_key. rewrite zassign_all_get. rewrite <- zget_key. rewrite map_rev, <- in_rev. reflexivity.
Qed.

Section W.
  Context (w : vwriter).
  Definition allv : list vert := flat_map e_verts (all_edges w).
  Lemma in_vertices : forall k v, In (k, v) (vertices w) -> In v allv /\ v_gid v = k.
  Proof.
    intros k v H. apply zassign_all_in in H. apply in_flat_map in H as (e & He & H). apply in_map_iff in H as (v' & E & Hv). injection E as <- <-. split; [|reflexivity]. apply in_flat_map. eauto.
  Qed.
  Lemma vertices_nodup : NoDup (map fst (vertices w)).
  Proof. apply sorted_nodup, zassign_all_keys. Qed.
  Lemma vertices_has : forall k, In k (map fst (vertices w)) <-> exists v, In v allv /\ v_gid v = k.
  Proof.
    intros k. unfold vertices. rewrite zassign_all_has. split.
    - intros H. apply in_map_iff in H as ((k', v) & <- & H). apply in_flat_map in H as (e & He & H). apply in_map_iff in H as (v' & E & Hv). injection E as <- <-. exists v'. split; [|reflexivity]. apply in_flat_map. eauto.
    - intros (v & H & <-). apply in_flat_map in H as (e & He & H). apply in_map_iff. exists (v_gid v, v). split; [reflexivity|]. apply in_flat_map. exists e. split; [exact He|]. apply in_map_iff. eauto.
  Qed.
  Lemma combine_seq_nth : forall (l : list Z) s k i, In (k, i) (combine l (map Z.of_nat (seq s (List.length l)))) -> exists j, (j < List.length l)%nat /\ i = Z.of_nat (s + j) /\ nth_error l j = Some k.
  Proof.
    induction l as [|a l IH]; intros s k i H; [destruct H|]. cbn [List.length seq map combine] in H. destruct H as [E|H].
    - injection E as <- <-. exists 0%nat. split; [cbn; lia|]. split; [f_equal; lia|reflexivity].
    - destruct (IH _ _ _ H) as (j & Hj & -> & E). exists (S j). split; [cbn; lia|]. split; [f_equal; lia|exact E].
  Qed.
  Lemma combine_fst : forall (l : list Z) s, map fst (combine l (map Z.of_nat (seq s (List.length l)))) = l.
  Proof. induction l as [|a l IH]; intros s; [reflexivity|]. cbn [List.length seq map combine fst]. rewrite IH. reflexivity. Qed.
  Lemma vid_found : forall v, In v allv -> exists j v', zget (gid_to_vid w) (v_gid v) = Some (Z.of_nat j) /\ nth_error (vertices w) j = Some (v_gid v, v').
  Proof.
    intros v H. assert (K : In (v_gid v) (map fst (vertices w))) by (apply vertices_has; eauto).
    assert (K2 : In (v_gid v) (map fst (gid_to_vid w))). { unfold gid_to_vid. apply zassign_all_has. rewrite <- (map_length fst (vertices w)). rewrite combine_fst. exact K. }
    apply zget_key in K2 as [i E]. rewrite E. pose proof E as E'. apply zget_some_in in E'. unfold gid_to_vid in E'. apply zassign_all_in in E'. rewrite <- (map_length fst (vertices w)) in E'. apply combine_seq_nth in E' as (j & Hj & -> & N).
    cbn [Nat.add] in *. rewrite map_length in Hj. destruct (nth_error (vertices w) j) as [[k v']|] eqn:Q; [|apply nth_error_None in Q; lia]. exists j, v'. rewrite (map_nth_error fst _ _ Q) in N. cbn [fst] in N. injection N as ->. split; [reflexivity|exact Q].
  Qed.
  Definition vid (v : vert) : Z := match zget (gid_to_vid w) (v_gid v) with Some a => a | None => 0 end.
  Definition line_cells : list (list Z) := map (fun ke => map vid (e_verts (snd ke))) (edges w).
  Definition poly_cells : list (list Z) := map (fun g => map vid (g_verts g)) (filter flat (vw_geoms w)).
  Definition doc_of (types : list Z) : vdoc :=
    mkDoc (map (fun kv => place (snd kv)) (vertices w)) (line_cells ++ poly_cells) (map (fun _ => 3) (edges w) ++ types)
      (map (fun _ => vw_rank w) (map (fun _ => 3) (edges w) ++ types)) (firstn (List.length (edges w) + List.length types) (map (fun _ => 0%R) (edges w) ++ map (get_property w) (vw_geoms w))).
  Lemma in_edges : forall k e, In (k, e) (edges w) -> In e (all_edges w) /\ e_gid e = k.
  Proof. intros k e H. apply zassign_all_in in H. apply in_map_iff in H as (e' & E & H). injection E as <- <-. auto. Qed.
  Lemma all_some_map : forall {A B} (f : A -> option B) (h : A -> B) l, (forall a, In a l -> f a = Some (h a)) -> all_some (map f l) = Some (map h l).
  Proof. induction l as [|a l IH]; intros H; [reflexivity|]. cbn [map all_some]. rewrite H by (left; reflexivity). rewrite IH; [reflexivity|]. intros b Hb. apply H. right. exact Hb. Qed.
  Lemma all_some_length : forall {A} (l : list (option A)) r, all_some l = Some r -> List.length r = List.length l.
  Proof. induction l as [|[a|] l IH]; intros r; cbn; [injection 1 as <-; reflexivity| |discriminate]. destruct (all_some l); [|discriminate]. injection 1 as <-. cbn. rewrite (IH l0 eq_refl). reflexivity. Qed.
  Hypothesis two : forall e, In e (all_edges w) -> List.length (e_verts e) = 2%nat.
  Lemma edge_ints_eq : forall e, In e (all_edges w) -> edge_ints w e = Some (cellw (map vid (e_verts e))).
  Proof.
    intros e He. pose proof (two e He) as L. assert (A : forall v, In v (e_verts e) -> In v allv) by (intros v Hv; apply in_flat_map; eauto).
    unfold edge_ints, cellw, vid. destruct (e_verts e) as [|v0 [|v1 [|v2 l]]]; try discriminate. destruct (vid_found v0) as (j0 & u0 & E0 & _); [apply A; left; reflexivity|]. destruct (vid_found v1) as (j1 & u1 & E1 & _); [apply A; right; left; reflexivity|].
    cbn [map]. rewrite E0, E1. reflexivity.
  Qed.
  Lemma flat_map_cellw : forall {A} (f : A -> list Z) l, flat_map cellw (map f l) = flat_map (fun a => cellw (f a)) l.
  Proof. intros. induction l as [|a l IH]; [reflexivity|]. cbn [map flat_map]. rewrite IH. reflexivity. Qed.
  Lemma write_eq : forall types, all_some (map (fun g => zget map_shape_to_vtk (g_shape g)) (filter flat (vw_geoms w))) = Some types ->
    exists file, vtk_write w = VOk file /\ ((forall c i, In c (line_cells ++ poly_cells) -> In i c -> 0 <= i < Z.of_nat (List.length (vertices w))) -> read_file file = Some (doc_of types)).
  Proof.
    intros types T. unfold vtk_write. assert (F : forallb (fun e => Nat.eqb (List.length (e_verts e)) 2) (all_edges w) = true) by (apply forallb_forall; intros e He; rewrite (two e He); reflexivity). rewrite F. cbn [negb].
    rewrite (all_some_map _ (fun ke => cellw (map vid (e_verts (snd ke))))). 2:{ intros [k e] H. apply edge_ints_eq. apply (in_edges k e H). } rewrite T.
    eexists. split; [reflexivity|]. intros R.
    assert (CI : List.concat (map (fun ke => cellw (map vid (e_verts (snd ke)))) (edges w)) ++ flat_map (poly_ints w) (filter flat (vw_geoms w)) = flat_map cellw (line_cells ++ poly_cells)).
    { rewrite flat_map_app. f_equal.
      - rewrite <- flat_map_concat_map. unfold line_cells. rewrite flat_map_cellw. reflexivity.
      - unfold poly_cells. rewrite flat_map_cellw. apply flat_map_ext. intros g. unfold poly_ints, cellw. rewrite map_length. reflexivity. }
    rewrite CI. set (ct := map (fun _ => 3) (edges w) ++ types).
    assert (LT : List.length types = List.length (filter flat (vw_geoms w))) by (apply all_some_length in T; rewrite map_length in T; exact T).
    assert (LC : List.length ct = List.length (line_cells ++ poly_cells)) by (unfold ct, line_cells, poly_cells; rewrite !app_length, !map_length; lia).
    set (props := map (fun _ => 0%R) (edges w) ++ map (get_property w) (vw_geoms w)).
    assert (LP : List.length (firstn (List.length ct) props) = List.length ct).
    { apply firstn_length_le. unfold ct, props. rewrite !app_length, !map_length, LT. assert (FL : forall l, (List.length (filter flat l) <= List.length l)%nat) by (induction l as [|g l IH]; cbn; [lia|destruct (flat g); cbn; lia]). specialize (FL (vw_geoms w)). lia. }
    unfold read_file. Ltac go := cbn [app expect String.eqb Ascii.eqb Bool.eqb read_int read_one].
    go. rewrite Nat2Z.id, read_points_map. go. rewrite !Nat2Z.id, read_ints_map. rewrite LC. rewrite split_cells_eq. go. rewrite !Nat2Z.id, <- LC.
    rewrite read_ints_map. go. rewrite !Nat2Z.id.
    replace (map (fun _ : Z => TI (vw_rank w)) ct) with (map TI (map (fun _ => vw_rank w) ct)) by (rewrite map_map; reflexivity).
    replace (List.length ct) with (List.length (map (fun _ : Z => vw_rank w) ct)) at 1 by apply map_length.
    rewrite read_ints_map. go.
    replace (map TR (firstn (List.length ct) props)) with (map TR (firstn (List.length ct) props) ++ []) by apply app_nil_r. rewrite <- LP at 1. rewrite read_reals_map.
    rewrite !Z.eqb_refl. destruct (Z.leb_spec 0 (Z.of_nat (List.length (vertices w)))); [|lia]. cbn [andb].
    assert (G : forallb (forallb (fun i => (0 <=? i) && (i <? Z.of_nat (List.length (vertices w))))%bool) (line_cells ++ poly_cells) = true).
    { apply forallb_forall. intros c Hc. apply forallb_forall. intros i Hi. specialize (R c i Hc Hi). apply andb_true_intro. split; [apply Z.leb_le|apply Z.ltb_lt]; lia. }
    rewrite G. unfold doc_of. fold ct. fold props. replace (List.length (edges w) + List.length types)%nat with (List.length ct) by (unfold ct; rewrite app_length, map_length; reflexivity). reflexivity.
  Qed.
End W.
