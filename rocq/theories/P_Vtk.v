(** C93: the VTK files of the mesh. *)
From Verif Require Import M_Vtk S_Vtk L_Util L_Exchange L_HaloExt3d L_Vtk.
From Coq Require Import Reals ZArith String List Lia Lra Sorting.Sorted DecimalString DecimalNat Ascii.
Import ListNotations.
Open Scope string_scope. Open Scope list_scope. Open Scope Z_scope.

Lemma pushed_geoms : forall rank l, vw_geoms (pushed rank l) = map fst l.
Proof.
  intros rank l. unfold pushed. enough (G : forall w, vw_geoms (fold_left (fun w gp => push_back (fst gp) (snd gp) w) l w) = vw_geoms w ++ map fst l) by apply G.
  induction l as [|[g p] l IH]; intros w; [cbn; rewrite app_nil_r; reflexivity|]. cbn [fold_left map fst snd]. rewrite IH. cbn [vw_geoms push_back]. rewrite <- app_assoc. reflexivity.
Qed.
Lemma pushed_rank : forall rank l, vw_rank (pushed rank l) = rank.
Proof.
  intros rank l. unfold pushed. enough (G : forall w, vw_rank (fold_left (fun w gp => push_back (fst gp) (snd gp) w) l w) = vw_rank w) by apply G.
  induction l as [|[g p] l IH]; intros w; [reflexivity|]. cbn [fold_left]. rewrite IH. reflexivity.
Qed.
Lemma pushed_prop : forall rank l g, get_property (pushed rank l) g = latest l g.
Proof.
  intros rank l g. unfold get_property, latest, pushed.
  enough (G : forall l w, nfind (vw_props (fold_left (fun w gp => push_back (fst gp) (snd gp) w) l w)) (g_ptr g) =
     match find (fun gp => Nat.eqb (g_ptr (fst gp)) (g_ptr g)) (rev l) with Some gp => Some (snd gp) | None => nfind (vw_props w) (g_ptr g) end).
  { rewrite G. destruct (find _ (rev l)); reflexivity. }
  clear. induction l as [|[h p] l IH]; intros w; [reflexivity|]. cbn [fold_left rev fst snd]. rewrite IH.
  assert (F : forall (P : vgeo * R -> bool) l1 l2, find P (l1 ++ l2) = match find P l1 with Some x => Some x | None => find P l2 end).
  { intros P l1 l2. induction l1 as [|a l1 IH1]; [reflexivity|]. cbn [app find]. destruct (P a); auto. }
  rewrite F. destruct (find _ (rev l)); [reflexivity|]. cbn [find fst vw_props push_back nfind]. rewrite Nat.eqb_sym. destruct (Nat.eqb (g_ptr h) (g_ptr g)); reflexivity.
Qed.
Lemma vtk_type_eq : forall s, zget map_shape_to_vtk s = vtk_type s.
Proof.
  intros s. unfold vtk_type, map_shape_to_vtk. cbn [zget].
  repeat match goal with |- context [Z.eqb s ?k] => destruct (Z.eqb_spec s k); [subst s; reflexivity|] end. reflexivity.
Qed.

(** For every sequence of pushes of sound elements the file written is well formed; a reader sees every edge once, in the
    order of the ids, with its two ends where they are, then every element of a plane mesh in the order of the pushes, with
    its shape and its corners; each with the rank of the writer; no other point; edges have property 0 and, if all elements
    are those of a plane mesh, each shows the property of its latest push. *)
Theorem C93_file : forall rank l, sound (map fst l) ->
  (forall e, In e (flat_map g_edges (map fst l)) -> List.length (e_verts e) = 2%nat) ->
  (forall g, In g (map fst l) -> g_dim g = 2 -> vtk_type (g_shape g) <> None) ->
  exists file d es, vtk_write (pushed rank l) = VOk file /\ read_file file = Some d /\
    let plane := filter (fun g => g_dim g =? 2) (map fst l) in
    StronglySorted Z.lt (map e_gid es) /\ (forall e, In e es -> In e (flat_map g_edges (map fst l))) /\
    (forall e, In e (flat_map g_edges (map fst l)) -> In (e_gid e) (map e_gid es)) /\
    map (shown d) (d_cells d) = map (fun e => map place (e_verts e)) es ++ map (fun g => map place (g_verts g)) plane /\
    map Some (d_types d) = map (fun _ => Some 3) es ++ map (fun g => vtk_type (g_shape g)) plane /\
    d_rank d = map (fun _ => rank) (d_cells d) /\
    (forall p, In p (d_points d) <-> exists g v, In g (map fst l) /\ In v (ends g) /\ place v = p) /\
    List.length (d_prop d) = List.length (d_cells d) /\ firstn (List.length es) (d_prop d) = map (fun _ => 0%R) es /\
    ((forall g, In g (map fst l) -> g_dim g = 2) -> skipn (List.length es) (d_prop d) = map (latest l) (map fst l)).
Proof.
  intros rank l [SP SV] H2 HT. set (w := pushed rank l).
  assert (GW : vw_geoms w = map fst l) by apply pushed_geoms.
  assert (AE : all_edges w = flat_map g_edges (map fst l)) by (unfold all_edges; rewrite GW; reflexivity).
  assert (T2 : forall e, In e (all_edges w) -> List.length (e_verts e) = 2%nat) by (rewrite AE; exact H2).
  set (types := map (fun g => match vtk_type (g_shape g) with Some t => t | None => 0 end) (filter flat (vw_geoms w))).
  assert (TY : all_some (map (fun g => zget map_shape_to_vtk (g_shape g)) (filter flat (vw_geoms w))) = Some types).
  { apply all_some_map. intros g Hg. rewrite vtk_type_eq. apply filter_In in Hg as [Hg Hd]. rewrite GW in Hg. unfold flat in Hd. apply Z.eqb_eq in Hd. specialize (HT g Hg Hd). destruct (vtk_type (g_shape g)); [reflexivity|congruence]. }
  destruct (write_eq w T2 types TY) as (file & Ew & Er).
  assert (AV : forall v, In v (allv w) <-> exists g, In g (map fst l) /\ In v (ends g)).
  { intros v. unfold allv. rewrite AE. split.
    - intros H. apply in_flat_map in H as (e & He & Hv). apply in_flat_map in He as (g & Hg & He). exists g. split; [exact Hg|]. apply in_flat_map. eauto.
    - intros (g & Hg & H). apply in_flat_map in H as (e & He & Hv). apply in_flat_map. exists e. split; [|exact Hv]. apply in_flat_map. eauto. }
  (* a vertex of an edge or of an element: its number leads to its place *)
  assert (RES : forall v, (exists g, In g (map fst l) /\ In v (ends g ++ g_verts g)) -> exists j, vid w v = Z.of_nat j /\ (j < List.length (vertices w))%nat /\
             nth j (map (fun kv => place (snd kv)) (vertices w)) (0, 0, 0)%R = place v).
  { intros v (g & Hg & Hv). assert (HV : exists v1, In v1 (ends g) /\ v_gid v1 = v_gid v).
    { apply in_app_iff in Hv as [Hv|Hv]; [exists v; auto|]. exact (SV g v Hg Hv). }
    destruct HV as (v1 & H1 & G1). destruct (vid_found w v1) as (j & v' & E & N); [apply AV; eauto|]. exists j. unfold vid. rewrite <- G1, E. split; [reflexivity|].
    assert (J : (j < List.length (vertices w))%nat) by (apply nth_error_Some; congruence). split; [exact J|].
    pose proof N as N0. apply (map_nth_error (fun kv => place (snd kv))) in N. cbn [snd] in N. rewrite (nth_error_nth _ _ _ N).
    apply nth_error_In in N0. apply in_vertices in N0 as [Hv' G']. apply AV in Hv' as (g' & Hg' & Hv'). apply (SP g' g v' v Hg' Hg); [apply in_app_iff; left; exact Hv'|exact Hv|congruence]. }
  assert (EDG : forall k e v, In (k, e) (edges w) -> In v (e_verts e) -> exists g, In g (map fst l) /\ In v (ends g ++ g_verts g)).
  { intros k e v He Hv. apply in_edges in He as [He _]. rewrite AE in He. apply in_flat_map in He as (g & Hg & He). exists g. split; [exact Hg|]. apply in_app_iff. left. apply in_flat_map. eauto. }
  assert (PLY : forall g v, In g (filter flat (vw_geoms w)) -> In v (g_verts g) -> exists g, In g (map fst l) /\ In v (ends g ++ g_verts g)).
  { intros g v Hg Hv. apply filter_In in Hg as [Hg _]. rewrite GW in Hg. exists g. split; [exact Hg|]. apply in_app_iff. right. exact Hv. }
  exists file, (doc_of w types), (map snd (edges w)). split; [exact Ew|].
  split. { apply Er. intros c i Hc Hi. assert (Q : exists v, vid w v = i /\ exists g, In g (map fst l) /\ In v (ends g ++ g_verts g)).
    { apply in_app_iff in Hc as [Hc|Hc]; apply in_map_iff in Hc as (x & <- & Hx); apply in_map_iff in Hi as (v & <- & Hv); exists v; (split; [reflexivity|]); [destruct x as [k e]; exact (EDG k e v Hx Hv)|exact (PLY x v Hx Hv)]. }
    destruct Q as (v & <- & Hv). destruct (RES v Hv) as (j & -> & J & _). lia. }
  cbn zeta. fold flat.
  assert (KE : map e_gid (map snd (edges w)) = map fst (edges w)). { rewrite map_map. apply map_ext_in. intros [k e] H. apply in_edges in H as [_ H]. exact H. }
  split. { rewrite KE. apply zassign_all_keys. }
  split. { intros e H. apply in_map_iff in H as ((k & e') & <- & H). apply in_edges in H as [H _]. rewrite AE in H. exact H. }
  split. { intros e H. rewrite KE. unfold edges. apply zassign_all_has. rewrite map_map. cbn [fst]. rewrite AE. apply in_map. exact H. }
  assert (LT : List.length types = List.length (filter flat (vw_geoms w))) by (unfold types; apply map_length).
  assert (SHV : forall vs, (forall v, In v vs -> exists g, In g (map fst l) /\ In v (ends g ++ g_verts g)) -> shown (doc_of w types) (map (vid w) vs) = map place vs).
  { intros vs H. unfold shown. rewrite map_map. apply map_ext_in. intros v Hv. destruct (RES v (H v Hv)) as (j & -> & _ & E). rewrite Nat2Z.id. exact E. }
  split. { cbn [d_cells doc_of]. rewrite map_app. unfold line_cells, poly_cells. rewrite !map_map. f_equal.
    - apply map_ext_in. intros [k e] H. apply SHV. intros v Hv. exact (EDG k e v H Hv).
    - rewrite <- GW. apply map_ext_in. intros g H. apply SHV. intros v Hv. exact (PLY g v H Hv). }
  split. { cbn [d_types doc_of]. rewrite map_app, !map_map. f_equal. unfold types. rewrite map_map. rewrite <- GW. apply map_ext_in. intros g H. apply filter_In in H as [H Hd]. rewrite GW in H. apply Z.eqb_eq in Hd. specialize (HT g H Hd). destruct (vtk_type (g_shape g)); [reflexivity|congruence]. }
  assert (LC : List.length (map (fun _ => 3) (edges w) ++ types) = List.length (line_cells w ++ poly_cells w)) by (unfold line_cells, poly_cells; rewrite !app_length, !map_length; lia).
  split. { cbn [d_rank d_cells doc_of]. unfold w at 1. rewrite pushed_rank. clear - LC. revert LC. generalize (map (fun _ : Z * edge => 3) (edges w) ++ types). generalize (line_cells w ++ poly_cells w). induction l0 as [|a l0 IH]; intros [|b l1] E; try discriminate; [reflexivity|]. cbn [map]. f_equal. apply IH. cbn in E. lia. }
  split. { intros p. cbn [d_points doc_of]. split.
    - intros H. apply in_map_iff in H as ((k & v) & <- & H). apply in_vertices in H as [H _]. apply AV in H as (g & Hg & Hv). exists g, v. auto.
    - intros (g & v & Hg & Hv & <-). destruct (RES v) as (j & _ & J & E). { exists g. split; [exact Hg|]. apply in_app_iff. left. exact Hv. } rewrite <- E. apply nth_In. rewrite map_length. exact J. }
  assert (FL : forall l, (List.length (filter flat l) <= List.length l)%nat) by (induction l0 as [|g l0 IH]; cbn; [lia|destruct (flat g); cbn; lia]). specialize (FL (vw_geoms w)).
  split. { cbn [d_prop d_cells doc_of]. rewrite firstn_length_le; [unfold line_cells, poly_cells; rewrite app_length, !map_length; lia|]. rewrite app_length, !map_length. lia. }
  rewrite !map_length. split.
  { cbn [d_prop doc_of]. rewrite firstn_firstn. rewrite Nat.min_l by lia. rewrite firstn_app, map_length, Nat.sub_diag, app_nil_r. rewrite <- (map_length (fun _ => 0%R) (edges w)) at 1. rewrite firstn_all. rewrite map_map. reflexivity. }
  intros ALL. cbn [d_prop doc_of]. assert (FE : filter flat (vw_geoms w) = vw_geoms w).
  { rewrite GW. revert ALL. clear. induction (map fst l) as [|g gs IH]; intros ALL; [reflexivity|]. cbn [filter]. unfold flat at 1. rewrite (ALL g (or_introl eq_refl)). cbn [Z.eqb Pos.eqb]. f_equal. apply IH. intros h Hh. apply ALL. right. exact Hh. }
  rewrite LT, FE. rewrite firstn_all2 by (rewrite app_length, !map_length; lia). rewrite <- (map_length (fun _ => 0%R) (edges w)) at 1. rewrite skipn_app, skipn_all, Nat.sub_diag. cbn [app skipn]. rewrite GW. apply map_ext. intros g. apply pushed_prop.
Qed.

(** Objects pushed once show the property they were pushed with. *)
Theorem C93_own_property : forall l, NoDup (map (fun gp => g_ptr (fst gp)) l) -> map (latest l) (map fst l) = map snd l.
Proof.
  intros l N. rewrite map_map. apply map_ext_in. intros [g p] H. unfold latest. cbn [fst snd].
  destruct (find (fun gp => Nat.eqb (g_ptr (fst gp)) (g_ptr g)) (rev l)) as [[h q]|] eqn:F.
  - apply find_some in F as [Hin E]. apply in_rev in Hin. apply Nat.eqb_eq in E. cbn [fst snd] in *.
    assert (U : forall l (a b : vgeo * R), NoDup (map (fun gp => g_ptr (fst gp)) l) -> In a l -> In b l -> g_ptr (fst a) = g_ptr (fst b) -> a = b).
    { clear. induction l as [|x l IH]; intros a b N Ha Hb E; [destruct Ha|]. cbn [map] in N. inversion N as [|? ? Hx N']; subst. destruct Ha as [->|Ha], Hb as [->|Hb]; auto.
      - exfalso. apply Hx. rewrite E. apply (in_map (fun gp => g_ptr (fst gp))). exact Hb.
      - exfalso. apply Hx. rewrite <- E. apply (in_map (fun gp => g_ptr (fst gp))). exact Ha. }
    specialize (U l (h, q) (g, p) N Hin H E). injection U as _ ->. reflexivity.
  - exfalso. assert (C := find_none _ _ F (g, p) (proj1 (in_rev _ _) H)). cbn [fst] in C. rewrite Nat.eqb_refl in C. discriminate.
Qed.

(** A file is not completed exactly when an edge has not two ends (the assertion) or, failing that, an element of a plane
    mesh has no known shape (the look-up throws). *)
Theorem C93_fails : forall rank l,
  (vtk_write (pushed rank l) = VAssert <-> exists g e, In g (map fst l) /\ In e (g_edges g) /\ List.length (e_verts e) <> 2%nat) /\
  (vtk_write (pushed rank l) = VThrow <-> (forall g e, In g (map fst l) -> In e (g_edges g) -> List.length (e_verts e) = 2%nat) /\
     exists g, In g (map fst l) /\ g_dim g = 2 /\ vtk_type (g_shape g) = None).
Proof.
  intros rank l. set (w := pushed rank l). assert (GW : vw_geoms w = map fst l) by apply pushed_geoms.
  assert (AE : all_edges w = flat_map g_edges (map fst l)) by (unfold all_edges; rewrite GW; reflexivity).
  destruct (forallb (fun e => Nat.eqb (List.length (e_verts e)) 2) (all_edges w)) eqn:F.
  - assert (T2 : forall e, In e (all_edges w) -> List.length (e_verts e) = 2%nat) by (intros e He; rewrite forallb_forall in F; apply Nat.eqb_eq; apply F; exact He).
    assert (T3 : forall g e, In g (map fst l) -> In e (g_edges g) -> List.length (e_verts e) = 2%nat) by (intros g e Hg He; apply T2; rewrite AE; apply in_flat_map; eauto).
    destruct (all_some (map (fun g => zget map_shape_to_vtk (g_shape g)) (filter flat (vw_geoms w)))) as [types|] eqn:T.
    + destruct (write_eq w T2 types T) as (file & Ew & _). rewrite Ew. split; (split; [discriminate|]).
      * intros (g & e & Hg & He & C). exfalso. apply C. eauto.
      * intros (_ & g & Hg & Hd & C). exfalso. rewrite <- GW in Hg. assert (Hf : In g (filter flat (vw_geoms w))) by (apply filter_In; split; [exact Hg|]; unfold flat; rewrite Hd; reflexivity).
        clear - T Hf C. revert types T Hf. induction (filter flat (vw_geoms w)) as [|h gs IH]; intros types T Hf; [destruct Hf|]. cbn [map all_some] in T. rewrite vtk_type_eq in T.
        destruct Hf as [->|Hf]; [rewrite C in T; discriminate|]. destruct (vtk_type (g_shape h)); [|discriminate]. destruct (all_some _) eqn:A in T; [|discriminate]. exact (IH _ A Hf).
    + unfold vtk_write. rewrite F. cbn [negb]. rewrite (all_some_map _ (fun ke => cellw (map (vid w) (e_verts (snd ke))))). 2:{ intros [k e] H. apply edge_ints_eq; [exact T2|]. apply (in_edges w k e H). } rewrite T.
      split; (split; [try discriminate|]); [intros (g & e & Hg & He & C); exfalso; apply C; eauto| |reflexivity]. intros _. split; [exact T3|].
      assert (Q : exists g, In g (filter flat (vw_geoms w)) /\ vtk_type (g_shape g) = None).
      { clear - T. induction (filter flat (vw_geoms w)) as [|h gs IH]; [discriminate|]. cbn [map all_some] in T. rewrite vtk_type_eq in T. destruct (vtk_type (g_shape h)) eqn:V; [|exists h; split; [left; reflexivity|exact V]].
        destruct (all_some _) eqn:A in T; [discriminate|]. destruct (IH A) as (g & Hg & E). exists g. split; [right; exact Hg|exact E]. }
      destruct Q as (g & Hg & E). apply filter_In in Hg as [Hg Hd]. rewrite GW in Hg. unfold flat in Hd. apply Z.eqb_eq in Hd. exists g. auto.
  - assert (Q : exists e, In e (all_edges w) /\ List.length (e_verts e) <> 2%nat).
    { clear - F. induction (all_edges w) as [|e es IH]; [discriminate|]. cbn [forallb] in F. destruct (Nat.eqb_spec (List.length (e_verts e)) 2); [|exists e; split; [left; reflexivity|assumption]]. destruct (IH F) as (x & Hx & E). exists x. split; [right; exact Hx|exact E]. }
    destruct Q as (e & He & E). rewrite AE in He. apply in_flat_map in He as (g & Hg & He).
    unfold vtk_write. rewrite F. cbn [negb]. split; (split; [try discriminate|]); [eauto 6|reflexivity|]. intros (C & _). exfalso. apply E. eauto.
Qed.

(** The halo of a 3D mesh is written with the owner of every element as its property. The file does not depend on it:
    elements of a mesh in space are not written, and with them the properties are lost. *)
Theorem C93_owner_lost_3d_refuted : forall rank tris quads tris' quads' geoms geoms' name,
  map fst geoms = map fst geoms' -> (forall g, In g (map fst geoms) -> g_dim g <> 2) ->
  write_halo 3 rank tris quads geoms name = write_halo 3 rank tris' quads' geoms' name.
Proof.
  intros rank tris quads tris' quads' geoms geoms' name E D. unfold write_halo. cbn [Z.eqb Pos.eqb]. f_equal.
  assert (P : forall l, fold_left (fun w gr => push_back (fst gr) (IZR (snd gr)) w) l (vw_new (Z.of_nat rank)) = pushed (Z.of_nat rank) (map (fun gr => (fst gr, IZR (snd gr))) l)).
  { unfold pushed. intros l. generalize (vw_new (Z.of_nat rank)). induction l as [|x l IH]; intros w; [reflexivity|]. cbn [fold_left map fst snd]. apply IH. }
  rewrite !P. set (w := pushed _ _). set (w' := pushed _ (map _ geoms')).
  assert (G : vw_geoms w = map fst geoms) by (unfold w; rewrite pushed_geoms, map_map; reflexivity).
  assert (G' : vw_geoms w' = map fst geoms) by (unfold w'; rewrite pushed_geoms, map_map, E; reflexivity).
  assert (Rk : vw_rank w' = vw_rank w) by (unfold w, w'; rewrite !pushed_rank; reflexivity).
  assert (N : filter flat (map fst geoms) = []). { revert D. clear. induction (map fst geoms) as [|g gs IH]; intros D; [reflexivity|]. cbn [filter]. unfold flat at 1. destruct (Z.eqb_spec (g_dim g) 2); [exfalso; apply (D g); [left; reflexivity|assumption]|]. apply IH. intros h Hh. apply D. right. exact Hh. }
  assert (A : all_edges w' = all_edges w) by (unfold all_edges; rewrite G, G'; reflexivity).
  assert (V : vertices w' = vertices w) by (unfold vertices; rewrite A; reflexivity). assert (EE : edges w' = edges w) by (unfold edges; rewrite A; reflexivity).
  assert (I : gid_to_vid w' = gid_to_vid w) by (unfold gid_to_vid; rewrite V; reflexivity).
  unfold vtk_write. rewrite A, V, EE, G, G', N, Rk. cbn [map all_some flat_map]. destruct (negb _); [reflexivity|].
  replace (map (fun ke => edge_ints w' (snd ke)) (edges w)) with (map (fun ke => edge_ints w (snd ke)) (edges w)) by (apply map_ext; intros ke; unfold edge_ints; rewrite I; reflexivity).
  destruct (all_some _) as [ei|]; [|reflexivity]. rewrite !app_nil_r, !Nat2Z.id.
  assert (Q : forall (l1 l2 : list R), firstn (List.length (map (fun _ : Z * edge => 3) (edges w))) (map (fun _ => 0%R) (edges w) ++ l1) = firstn (List.length (map (fun _ : Z * edge => 3) (edges w))) (map (fun _ => 0%R) (edges w) ++ l2)).
  { intros l1 l2. rewrite !firstn_app, !map_length, Nat.sub_diag. reflexivity. }
  rewrite (Q (map (get_property w') (map fst geoms)) (map (get_property w) (map fst geoms))). reflexivity.
Qed.

Definition v0 := mkV 0 2 0 0 0. Definition v1 := mkV 1 2 1 0 0. Definition v2 := mkV 2 2 0 1 0.
Definition tri0 : vgeo := mkG 10 2 [mkE 5 [v0; v1]; mkE 6 [v1; v2]; mkE 7 [v2; v0]] [v0; v1; v2] 3.
Definition solid : vgeo := mkG 11 3 [mkE 5 [v0; v1]] [v0; v1] 5.
(** With elements of both kinds in one file a plane element can show the property of another one. *)
Theorem C93_mixed_refuted : exists d, (match vtk_write (pushed 0 [(solid, 7%R); (tri0, 5%R)]) with VOk f => read_file f | _ => None end) = Some d /\
  d_cells d = [[0; 1]; [1; 2]; [2; 0]; [0; 1; 2]] /\ d_prop d = [0; 0; 0; 7]%R.
Proof. eexists. split; [vm_compute; reflexivity|]. split; reflexivity. Qed.

(** Which elements the two functions write, to which file. *)
Theorem C93_entry_points : forall rank e2 e3 tris quads g3 name,
  (forall ndim, ndim = 2 \/ ndim = 3 -> write_owned ndim rank e2 e3 name = (rank_file name rank, vtk_write (pushed (Z.of_nat rank) (map (fun kg => (snd kg, 0%R)) (if ndim =? 2 then e2 else e3))))) /\
  (forall ndim, ndim = 2 \/ ndim = 3 -> write_halo ndim rank tris quads g3 name = (rank_file name rank, vtk_write (pushed (Z.of_nat rank) (map (fun gr => (fst gr, IZR (snd gr))) (if ndim =? 2 then tris ++ quads else g3))))).
Proof.
  intros rank e2 e3 tris quads g3 name. split; intros ndim H.
  - unfold write_owned. f_equal. f_equal. replace (if ndim =? 2 then e2 else if ndim =? 3 then e3 else []) with (if ndim =? 2 then e2 else e3) by (destruct H as [-> | ->]; reflexivity).
    unfold pushed. generalize (vw_new (Z.of_nat rank)). induction (if ndim =? 2 then e2 else e3) as [|x l IH]; intros w; [reflexivity|]. cbn [fold_left map]. apply IH.
  - unfold write_halo. f_equal. f_equal. replace (if ndim =? 2 then tris ++ quads else if ndim =? 3 then g3 else []) with (if ndim =? 2 then tris ++ quads else g3) by (destruct H as [-> | ->]; reflexivity).
    unfold pushed. generalize (vw_new (Z.of_nat rank)). induction (if ndim =? 2 then tris ++ quads else g3) as [|x l IH]; intros w; [reflexivity|]. cbn [fold_left map]. apply IH.
Qed.

(** ** names *)
Definition dot : ascii := "."%char.
Lemma las_app : forall a b, list_ascii_of_string (a ++ b)%string = list_ascii_of_string a ++ list_ascii_of_string b.
Proof. induction a as [|c a IH]; intros b; [reflexivity|]. cbn [String.append list_ascii_of_string app]. rewrite IH. reflexivity. Qed.
Lemma las_inj : forall a b, list_ascii_of_string a = list_ascii_of_string b -> a = b.
Proof. intros a b H. rewrite <- (string_of_list_ascii_of_string a), <- (string_of_list_ascii_of_string b), H. reflexivity. Qed.
Lemma digits_no_dot : forall r, ~ In dot (list_ascii_of_string (NilZero.string_of_uint (Nat.to_uint r))).
Proof.
  intros r. unfold NilZero.string_of_uint. assert (D : forall u, ~ In dot (list_ascii_of_string (NilEmpty.string_of_uint u))) by (induction u; cbn; intros H; repeat (destruct H as [H|H]; [discriminate H|]); auto).
  destruct (Nat.to_uint r) eqn:E; try apply D. cbn. intros [H|[]]. discriminate.
Qed.
Lemma digits_inj : forall r s, NilZero.string_of_uint (Nat.to_uint r) = NilZero.string_of_uint (Nat.to_uint s) -> r = s.
Proof.
  intros r s H. apply (f_equal NilZero.uint_of_string) in H.
  assert (U : forall n, NilZero.uint_of_string (NilZero.string_of_uint (Nat.to_uint n)) = Some (Nat.to_uint n)).
  { intros n. apply NilZero.usu. intros C. pose proof (Unsigned.of_to n) as O. rewrite C in O. cbn in O. subst n. discriminate C. }
  rewrite !U in H. injection H as H. rewrite <- (Unsigned.of_to r), <- (Unsigned.of_to s), H. reflexivity.
Qed.
Lemma last_dot : forall (a b c d : list ascii), ~ In dot b -> ~ In dot d -> a ++ dot :: b = c ++ dot :: d -> a = c /\ b = d.
Proof.
  induction a as [|x a IH]; intros b c d Hb Hd E.
  - destruct c as [|y c]; cbn in E; [injection E as ->; auto|]. injection E as <- E. exfalso. apply Hb. rewrite E. apply in_app_iff. right. left. reflexivity.
  - destruct c as [|y c]; cbn in E.
    + injection E as -> E. exfalso. apply Hd. rewrite <- E. apply in_app_iff. right. left. reflexivity.
    + injection E as -> E. destruct (IH b c d Hb Hd E) as [-> ->]. auto.
Qed.
Lemma rank_file_chars : forall n r, list_ascii_of_string (rank_file n r) = (list_ascii_of_string n ++ dot :: list_ascii_of_string (NilZero.string_of_uint (Nat.to_uint r))) ++ list_ascii_of_string ".vtk".
Proof. intros n r. unfold rank_file. rewrite !las_app. cbn [list_ascii_of_string app]. rewrite <- app_assoc. reflexivity. Qed.

(** Files of different ranks, and of different names, are different files. *)
Theorem C93_names : forall n n' r r', rank_file n r = rank_file n' r' -> n = n' /\ r = r'.
Proof.
  intros n n' r r' H. apply (f_equal list_ascii_of_string) in H. rewrite !rank_file_chars in H. apply app_inv_tail in H. apply last_dot in H as [A B]; [|apply digits_no_dot|apply digits_no_dot].
  split; [apply las_inj; exact A|apply digits_inj, las_inj; exact B].
Qed.
Lemma rank_file_not : forall n r s, ~ In dot (list_ascii_of_string s) -> rank_file n r <> (s ++ ".vtk")%string.
Proof.
  intros n r s Hs H. apply (f_equal list_ascii_of_string) in H. rewrite rank_file_chars, las_app in H. apply app_inv_tail in H. apply Hs. rewrite <- H. apply in_app_iff. right. left. reflexivity.
Qed.

(** The plotting tool never writes to one file twice, and two ranks share only the two files of the whole hierarchy. *)
Theorem C93_plot_files : forall width r, NoDup (plot_files width r) /\
  forall r' f, r <> r' -> In f (plot_files width r) -> In f (plot_files width r') -> f = "mesh_mh_fine.vtk" \/ f = "mesh_mh_coarse.vtk".
Proof.
  intros width r.
  assert (S : forall r f, In f (plot_files width r) -> f = "mesh_mh_fine.vtk" \/ f = "mesh_mh_coarse.vtk" \/ exists n, f = rank_file n r).
  { clear r. intros r f H. unfold plot_files in H. apply in_app_iff in H as [H|H].
    - cbn [In] in H. destruct H as [<-|[<-|[<-|[<-|[<-|[]]]]]]; eauto.
    - apply in_map_iff in H as (sx & <- & _). eauto. }
  assert (N1 : forall n, rank_file n r <> "mesh_mh_fine.vtk") by (intros n; apply (rank_file_not n r "mesh_mh_fine"); cbn; intros H; repeat (destruct H as [H|H]; [discriminate H|]); exact H).
  assert (N2 : forall n, rank_file n r <> "mesh_mh_coarse.vtk") by (intros n; apply (rank_file_not n r "mesh_mh_coarse"); cbn; intros H; repeat (destruct H as [H|H]; [discriminate H|]); exact H).
  split.
  - unfold plot_files. set (ws := map _ (seq 0 _)).
    assert (W : forall f, In f ws -> exists k, f = rank_file ("mesh_halo_width_" ++ NilZero.string_of_uint (Nat.to_uint k))%string r) by (intros f H; apply in_map_iff in H as (k & <- & _); eauto).
    assert (NW : NoDup ws).
    { unfold ws. apply FinFun.Injective_map_NoDup; [|apply seq_NoDup]. intros a b E. apply C93_names in E as [E _]. apply digits_inj. apply las_inj. apply (f_equal list_ascii_of_string) in E. rewrite !las_app in E. apply app_inv_head in E. exact E. }
    assert (X : forall n m, n <> m -> rank_file n r <> rank_file m r) by (intros n m H E; apply C93_names in E as [E _]; auto).
    assert (Y : forall n, (forall k, n <> ("mesh_halo_width_" ++ NilZero.string_of_uint (Nat.to_uint k))%string) -> ~ In (rank_file n r) ws) by (intros n H I; destruct (W _ I) as (k & E); apply C93_names in E as [E _]; exact (H k E)).
    cbn [app]. repeat constructor; auto; cbn [In].
    + intros [H|[H|[H|[H|H]]]]; [revert H; apply X; discriminate|revert H; apply X; discriminate|exact (N1 _ (eq_sym H))|exact (N2 _ (eq_sym H))|]. revert H. apply Y. intros k E. cbn in E. discriminate.
    + intros [H|[H|[H|H]]]; [revert H; apply X; discriminate|exact (N1 _ (eq_sym H))|exact (N2 _ (eq_sym H))|]. revert H. apply Y. intros k E. cbn in E. discriminate.
    + intros [H|[H|H]]; [exact (N1 _ (eq_sym H))|exact (N2 _ (eq_sym H))|]. revert H. apply Y. intros k E. cbn in E. discriminate.
    + intros [H|H]; [discriminate|]. destruct (W _ H) as (k & E). exact (N1 _ (eq_sym E)).
    + intros H. destruct (W _ H) as (k & E). exact (N2 _ (eq_sym E)).
  - intros r' f D H H'. destruct (S _ _ H) as [->|[->|[n ->]]]; auto. destruct (S _ _ H') as [E|[E|[n' E]]]; auto. exfalso. apply C93_names in E as [_ E]. auto.
Qed.

(** Two triangles sharing an edge: five lines and two triangles, with their properties. *)
Definition v3 := mkV 3 2 1 1 0.
Definition tri1 : vgeo := mkG 12 2 [mkE 8 [v1; v3]; mkE 6 [v1; v2]; mkE 9 [v3; v2]] [v1; v3; v2] 3.
Example C93_nonvacuous : sound (map fst [(tri1, 4%R); (tri0, 5%R)]) /\
  exists d, (match vtk_write (pushed 1 [(tri1, 4%R); (tri0, 5%R)]) with VOk f => read_file f | _ => None end) = Some d /\
  d_cells d = [[0; 1]; [1; 2]; [2; 0]; [1; 3]; [3; 2]; [1; 3; 2]; [0; 1; 2]] /\ d_prop d = [0; 0; 0; 0; 0; 4; 5]%R /\ d_types d = [3; 3; 3; 3; 3; 5; 5].
Proof.
  split; [|eexists; split; [vm_compute; reflexivity|]; repeat split; reflexivity]. split.
  - intros g g' v v' Hg Hg' Hv Hv'. cbn in Hg, Hg'. destruct Hg as [<-|[<-|[]]], Hg' as [<-|[<-|[]]]; cbn in Hv, Hv';
      repeat (destruct Hv as [<-|Hv]); try (destruct Hv); repeat (destruct Hv' as [<-|Hv']); try (destruct Hv'); cbn; intros E; first [reflexivity|discriminate].
  - intros g v Hg Hv. cbn in Hg. destruct Hg as [<-|[<-|[]]]; cbn in Hv; repeat (destruct Hv as [<-|Hv]); try (destruct Hv); (eexists; split; [|reflexivity]); cbn; tauto.
Qed.

Print Assumptions C93_file.
Print Assumptions C93_own_property.
Print Assumptions C93_fails.
Print Assumptions C93_owner_lost_3d_refuted.
Print Assumptions C93_mixed_refuted.
Print Assumptions C93_entry_points.
Print Assumptions C93_names.
Print Assumptions C93_plot_files.
(** The names: the owned elements, the default halos, the hierarchy (per rank, fine, coarse), and the halos of each width. *)
Theorem C93_plot_files_exactly : forall width r f, In f (plot_files width r) <->
  In f [rank_file "mesh_owned" r; rank_file "mesh_halo_default" r; rank_file "mesh_mh" r; "mesh_mh_fine.vtk"; "mesh_mh_coarse.vtk"] \/
  exists k, Z.of_nat k <= width /\ f = rank_file ("mesh_halo_width_" ++ NilZero.string_of_uint (Nat.to_uint k)) r.
Proof.
  intros width r f. unfold plot_files. rewrite in_app_iff, in_map_iff. split; (intros [H|H]; [left; exact H|right]); destruct H as (k & A & B); exists k.
  - apply in_seq in B. split; [lia|auto].
  - split; [auto|]. apply in_seq. lia.
Qed.
Print Assumptions C93_plot_files_exactly.
Print Assumptions C93_nonvacuous.
