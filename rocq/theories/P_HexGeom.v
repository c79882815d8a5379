(** C92: the curved hexahedron made from three coordinate maps. *)
From Verif Require Import M_HexGeom S_HexGeom L_HexGeom.
From Coq Require Import Reals List Lra Lia.
Import ListNotations.
Open Scope R_scope.

Section C92.
  Context (n : nat) (fx fy fz : p3 -> R).
  (** the coordinate map *)
  Let X (p : R * R * R) : R * R * R := (fx p, fy p, fz p).
  Let hex := make_hex_geom n fx fy fz.
  Let hv k := nth k (h_verts hex) (mkP 0 (0, 0, 0)).
  Let he k := nth k (h_edges hex) (mkS 0 [] 0 []).
  Let hf k := nth k (h_faces hex) (mkQ 0 [] 0 []).
  Let at_ (l : list pgeom) i := p_xyz (nth i l (mkP 0 (0, 0, 0))).

  Lemma hv_eq : forall k, (k < 8)%nat -> hv k = mkP k (X (corner k)).
  Proof. intros k H. unfold hv, hex. rewrite make_eq. cbn [h_verts]. apply vert_eq. exact H. Qed.
  Lemma he_eq : forall k, (k < 12)%nat -> he k = theE n fx fy fz k.
  Proof.
    intros k H. unfold he, hex. rewrite make_eq. cbn [h_edges]. rewrite nth_indep with (d' := theE n fx fy fz 0) by (rewrite map_length, seq_length; exact H). rewrite map_nth, seq_nth by exact H. reflexivity.
  Qed.
  Lemma hf_eq : forall k, (k < 6)%nat -> hf k = theF n fx fy fz k.
  Proof.
    intros k H. unfold hf, hex. rewrite make_eq. cbn [h_faces]. rewrite nth_indep with (d' := theF n fx fy fz 0) by (rewrite map_length, seq_length; exact H). rewrite map_nth, seq_nth by exact H. reflexivity.
  Qed.
  Ltac cases k H := repeat (destruct k as [|k]; [|try (exfalso; lia)]); try (exfalso; lia); clear H.

  (** Eight vertices, each the image of its corner of the cube. *)
  Theorem C92_vertices : length (h_verts hex) = 8%nat /\ forall k, (k < 8)%nat -> p_id (hv k) = k /\ p_xyz (hv k) = X (corner k).
  Proof. split; [unfold hex; rewrite make_eq; reflexivity|]. intros k H. rewrite hv_eq by exact H. split; reflexivity. Qed.

  (** Every point made has its own number, from 0 upwards without a gap; so has every curve. *)
  Theorem C92_numbering :
    map p_id (h_verts hex ++ flat_map s_points (h_edges hex) ++ flat_map q_points (h_faces hex)) = seq 0 (8 + 12 * n + 6 * (n * n)) /\
    map s_curve (h_edges hex) ++ map q_curve (h_faces hex) = seq 0 18 /\
    map s_id (h_edges hex) = seq 0 12 /\ map q_id (h_faces hex) = seq 0 6.
  Proof.
    unfold hex. rewrite make_eq. cbn [h_verts h_edges h_faces]. split; [|split; [reflexivity|split; reflexivity]].
    rewrite !map_app. change (map p_id (verts fx fy fz)) with (seq 0 8).
    assert (E : forall m s, map p_id (flat_map s_points (map (theE n fx fy fz) (seq s m))) = seq (8 + s * n) (m * n)).
    { induction m as [|m IH]; intros s; [reflexivity|]. cbn [seq map flat_map]. rewrite map_app, IH. cbn [s_points theE]. unfold ptsE. rewrite (proj1 (proj2 (proj2 (push_points_eq fx fy fz _ _)))), length_erefs.
      replace (S m * n)%nat with (n + m * n)%nat by lia. rewrite seq_app. f_equal. f_equal; lia. }
    assert (F : forall m s, map p_id (flat_map q_points (map (theF n fx fy fz) (seq s m))) = seq (8 + 12 * n + s * (n * n)) (m * (n * n))).
    { induction m as [|m IH]; intros s; [reflexivity|]. cbn [seq map flat_map]. rewrite map_app, IH. cbn [q_points theF]. unfold ptsF. rewrite (proj1 (proj2 (proj2 (push_points_eq fx fy fz _ _)))), length_frefs.
      replace (S m * (n * n))%nat with (n * n + m * (n * n))%nat by lia. rewrite seq_app. f_equal. f_equal; lia. }
    rewrite E, F. replace (8 + 0 * n)%nat with (0 + 8)%nat by lia. replace (8 + 12 * n + 0 * (n * n))%nat with (0 + 8 + 12 * n)%nat by lia. rewrite <- Nat.add_assoc, !seq_app. reflexivity.
  Qed.

  (** Every edge joins the two vertices that are the corners on it, and has [n] control points: the images of evenly spaced
      points of the reference edge, from the first vertex to the second. *)
  Theorem C92_edges : (2 <= n)%nat -> forall k, (k < 12)%nat -> exists a b, (a < 8)%nat /\ (b < 8)%nat /\
    s_verts (he k) = [hv a; hv b] /\ (forall c, (c < 8)%nat -> ref_edge k (corner c) <-> c = a \/ c = b) /\ a <> b /\
    length (s_points (he k)) = n /\
    (forall i, (i < n)%nat -> let p := along (frac n i) 0 (corner a) (corner b) (corner a) in ref_edge k p /\ at_ (s_points (he k)) i = X p) /\
    at_ (s_points (he k)) 0 = p_xyz (hv a) /\ at_ (s_points (he k)) (n - 1) = p_xyz (hv b).
  Proof.
    intros Hn k Hk. exists (tab map_edge_to_vertices k 0), (tab map_edge_to_vertices k 1).
    assert (Ha : (tab map_edge_to_vertices k 0 < 8)%nat) by (clear - Hk; cases k Hk; cbv; lia).
    assert (Hb : (tab map_edge_to_vertices k 1 < 8)%nat) by (clear - Hk; cases k Hk; cbv; lia).
    split; [exact Ha|]. split; [exact Hb|]. rewrite he_eq by exact Hk.
    assert (PT : forall i, (i < n)%nat -> at_ (s_points (theE n fx fy fz k)) i = X (along (frac n i) 0 (corner (tab map_edge_to_vertices k 0)) (corner (tab map_edge_to_vertices k 1)) (corner (tab map_edge_to_vertices k 0)))).
    { intros i Hi. unfold at_. cbn [s_points theE]. rewrite (ptE_xyz n fx fy fz k i _ Hi). rewrite (qpoint1_eq n Hn _ _ _ (vtx (tab map_edge_to_vertices k 0))). rewrite !corner_eq by assumption. reflexivity. }
    split. { cbn [s_verts theE map]. unfold hv, hex. rewrite make_eq. reflexivity. }
    split. { intros c Hc. clear - Hk Hc. cases k Hk; cases c Hc; (split; [intros H|intros [H|H]]); cbv in H |- *; try tauto; try (left; reflexivity); try (right; reflexivity); try discriminate; try (exfalso; lra); try (repeat split; lra). }
    split. { clear - Hk. cases k Hk; cbv; discriminate. }
    split; [apply length_ptsE|].
    split. { intros i Hi p. split; [|apply PT; exact Hi]. unfold p. pose proof (frac_range n Hn i Hi) as Hf. clear - Hk Hf. set (s := frac n i) in *. clearbody s.
      cases k Hk; cbn [tab nth map_edge_to_vertices]; unfold corner, along, ref_edge, within; cbn [memb existsb Nat.eqb orb pm]; repeat split; lra. }
    split; rewrite PT by lia; [rewrite frac_0|rewrite frac_last by exact Hn].
    - rewrite hv_eq by exact Ha. cbn [p_xyz]. f_equal. destruct (corner (tab map_edge_to_vertices k 0)) as [[? ?] ?], (corner (tab map_edge_to_vertices k 1)) as [[? ?] ?]. unfold along. f_equal; [f_equal|]; ring.
    - rewrite hv_eq by exact Hb. cbn [p_xyz]. f_equal. destruct (corner (tab map_edge_to_vertices k 0)) as [[? ?] ?], (corner (tab map_edge_to_vertices k 1)) as [[? ?] ?]. unfold along. f_equal; [f_equal|]; ring.
  Qed.

  (** The four edges of a face are the four edges of the hexahedron that lie in that face of the cube, in an order in which
      each shares a vertex with the next. *)
  Theorem C92_face_edges : forall k, (k < 6)%nat -> exists e0 e1 e2 e3, q_edges (hf k) = [he e0; he e1; he e2; he e3] /\
    NoDup [e0; e1; e2; e3] /\ (forall e, (e < 12)%nat -> In e [e0; e1; e2; e3] <-> forall p, ref_edge e p -> ref_face k p) /\
    forall a b, In (a, b) [(e0, e1); (e1, e2); (e2, e3); (e3, e0)] -> exists v, In v (s_verts (he a)) /\ In v (s_verts (he b)).
  Proof.
    intros k Hk. exists (tab map_face_to_edges k 0), (tab map_face_to_edges k 1), (tab map_face_to_edges k 2), (tab map_face_to_edges k 3).
    rewrite hf_eq by exact Hk. split. { cbn [q_edges theF map]. unfold he, hex. rewrite make_eq. reflexivity. }
    split. { clear - Hk. cases k Hk; cbv; repeat constructor; cbn; lia. }
    split.
    - intros e He. clear - Hk He. cases k Hk; cases e He; cbn [tab nth map_face_to_edges In]; (split; [intros H [[x y] z]|intros H; pose proof (H (-1, -1, -1)); pose proof (H (1, 1, 1)); pose proof (H (1, 1, -1)); pose proof (H (1, -1, -1)); pose proof (H (-1, 1, -1)); pose proof (H (-1, -1, 1)); pose proof (H (-1, 1, 1)); pose proof (H (1, -1, 1)); clear H]); unfold ref_edge, ref_face, within in *; try lia; try (intros; lra).
      all: try (exfalso; lra).
    - intros a b H. assert (V : forall e, (e < 12)%nat -> forall j, (j < 2)%nat -> In (hv (tab map_edge_to_vertices e j)) (s_verts (he e))).
      { intros e He j Hj. rewrite he_eq by exact He. cbn [s_verts theE map]. unfold hv, hex. rewrite make_eq. cbn [h_verts]. destruct j as [|[|j]]; [left; reflexivity|right; left; reflexivity|lia]. }
      assert (S : exists i j, (a < 12)%nat /\ (b < 12)%nat /\ (i < 2)%nat /\ (j < 2)%nat /\ tab map_edge_to_vertices a i = tab map_edge_to_vertices b j).
      { clear - Hk H. cases k Hk; cbn [tab nth map_face_to_edges In] in H; repeat (destruct H as [H|H]; [injection H as <- <-; first [exists 0%nat, 0%nat; repeat split; first [lia|reflexivity]|exists 0%nat, 1%nat; repeat split; first [lia|reflexivity]|exists 1%nat, 0%nat; repeat split; first [lia|reflexivity]|exists 1%nat, 1%nat; repeat split; first [lia|reflexivity]]|]); destruct H. }
      destruct S as (i & j & Ha & Hb & Hi & Hj & E). exists (hv (tab map_edge_to_vertices a i)). split; [apply V; assumption|]. rewrite E. apply V; assumption.
  Qed.

  (** The control points of face k, entry i*n+j for i, j < n: on the faces bottom, right, back and top, the image of the
      point of the reference face a fraction i/(n-1) along its first side and j/(n-1) along its last side. Missing: the
      same for the front and the left face, which is false (below). *)
  Theorem C92_face_points_partial : (2 <= n)%nat -> forall k, In k [0; 2; 3; 5]%nat -> length (q_points (hf k)) = (n * n)%nat /\
    forall i j, (i < n)%nat -> (j < n)%nat ->
      let c m := corner (nth m (face_corners k) 0%nat) in
      let p := along (frac n i) (frac n j) (c 0%nat) (c 1%nat) (c 3%nat) in ref_face k p /\ at_ (q_points (hf k)) (i * n + j) = X p.
  Proof.
    intros Hn k Hk. assert (K : (k < 6)%nat) by (cbn in Hk; lia). rewrite hf_eq by exact K. split; [apply length_ptsF|]. intros i j Hi Hj c p. split.
    - unfold p, c. pose proof (frac_range n Hn i Hi) as Hf. pose proof (frac_range n Hn j Hj) as Hg. set (s := frac n i) in *. set (t := frac n j) in *. clearbody s t.
      cbn in Hk. destruct Hk as [<-|[<-|[<-|[<-|[]]]]]; cbn [face_corners nth]; unfold corner, along, ref_face, within; cbn [memb existsb Nat.eqb orb pm]; repeat split; lra.
    - unfold at_. cbn [q_points theF]. rewrite ptF_xyz by assumption. rewrite qpoint2_eq by exact Hn. unfold p, c. cbn in Hk. destruct Hk as [<-|[<-|[<-|[<-|[]]]]]; reflexivity.
  Qed.

  (** On these faces the control points of the edges are among those of the face: edges and faces meet without a gap. *)
  Theorem C92_face_meets_edges_partial : (2 <= n)%nat -> forall k, In k [0; 2; 3; 5]%nat -> forall e, In e (q_edges (hf k)) ->
    forall q, In q (s_points e) -> exists q', In q' (q_points (hf k)) /\ p_xyz q' = p_xyz q.
  Proof.
    intros Hn k Hk e He q Hq. pose proof (C92_face_points_partial Hn k Hk) as [L P]. assert (K : (k < 6)%nat) by (cbn in Hk; lia).
    rewrite hf_eq in He by exact K. cbn [q_edges theF] in He.
    assert (E : exists m, (m < 12)%nat /\ In m (nth k map_face_to_edges []) /\ e = theE n fx fy fz m).
    { apply in_map_iff in He as (j & <- & Hj). exists (tab map_face_to_edges k j). unfold tab. clear - K Hj. cases k K; cbn [In] in Hj; (destruct Hj as [<-|[<-|[<-|[<-|[]]]]]); (split; [cbn; lia|split; [cbn; tauto|reflexivity]]). }
    destruct E as (m & Hm & Hmk & ->). cbn [s_points theE] in Hq. apply (In_nth _ _ (mkP 0 (0, 0, 0))) in Hq as (i & Hi & <-). rewrite length_ptsE in Hi. rewrite (ptE_xyz n fx fy fz m i _ Hi).
    rewrite (qpoint1_eq n Hn i _ _ (vtx (tab map_edge_to_vertices m 0))).
    assert (G : exists a b, (a < n)%nat /\ (b < n)%nat /\ (let c x := corner (nth x (face_corners k) 0%nat) in along (frac n a) (frac n b) (c 0%nat) (c 1%nat) (c 3%nat)) =
      along (frac n i) 0 (vtx (tab map_edge_to_vertices m 0)) (vtx (tab map_edge_to_vertices m 1)) (vtx (tab map_edge_to_vertices m 0))).
    { pose proof (frac_0 n) as F0. pose proof (frac_last n Hn) as F1. pose proof (frac_mirror n Hn i Hi) as Fm.
      assert (Z0 : (0 < n)%nat) by lia. assert (Z1 : (n - 1 < n)%nat) by lia. assert (Zm : (n - 1 - i < n)%nat) by lia.
      clear - Hk Hmk Hi F0 F1 Fm Z0 Z1 Zm.
      Ltac tryab a b := exists a, b; split; [assumption|split; [assumption|]];
        repeat match goal with H : frac _ _ = _ |- _ => rewrite !H end; cbn [face_corners nth tab map_edge_to_vertices vtx coords_vertices]; unfold corner, along; cbn [memb existsb Nat.eqb orb pm]; apply f_equal2; [apply f_equal2|]; lra.
      cbn in Hk. destruct Hk as [<-|[<-|[<-|[<-|[]]]]]; cbn in Hmk; destruct Hmk as [<-|[<-|[<-|[<-|[]]]]];
        first [tryab i 0%nat | tryab (n - 1 - i)%nat 0%nat | tryab i (n - 1)%nat | tryab (n - 1 - i)%nat (n - 1)%nat | tryab 0%nat i | tryab 0%nat (n - 1 - i)%nat | tryab (n - 1)%nat i | tryab (n - 1)%nat (n - 1 - i)%nat]. }
    destruct G as (a & b & Ha & Hb & E). destruct (P a b Ha Hb) as [_ Q]. cbv zeta in E. exists (nth (a * n + b) (q_points (hf k)) (mkP 0 (0, 0, 0))). split; [apply nth_In; rewrite L; nia|].
    unfold at_ in Q. rewrite Q. unfold X. rewrite E. reflexivity.
  Qed.

  (** Front and left face: the control point (i, j) is the image of a point that lies outside the reference face unless
      i + j <= n-1 (front), i + j = n-1 (left): the tables of these two faces list the wrong vertices. *)
  Theorem C92_front_left_faces_refuted : (2 <= n)%nat -> forall i j, (i < n)%nat -> (j < n)%nat ->
    (exists p, at_ (q_points (hf 1)) (i * n + j) = X p /\ (ref_face 1 p <-> (i + j <= n - 1)%nat)) /\
    (exists p, at_ (q_points (hf 4)) (i * n + j) = X p /\ (ref_face 4 p <-> (i + j = n - 1)%nat)).
  Proof.
    intros Hn i j Hi Hj.
    assert (Q : frac n i + frac n j <= 1 <-> (i + j <= n - 1)%nat).
    { unfold frac. assert (0 < INR (n - 1)) by (apply lt_0_INR; lia). replace (INR i / INR (n - 1) + INR j / INR (n - 1)) with (INR (i + j) / INR (n - 1)) by (rewrite plus_INR; field; lra). split; intros C.
      - apply INR_le. apply Rmult_le_reg_r with (/ INR (n - 1)); [apply Rinv_0_lt_compat; assumption|]. rewrite Rinv_r by lra. exact C.
      - apply le_INR in C. apply Rmult_le_reg_r with (INR (n - 1)); [assumption|]. unfold Rdiv. rewrite Rmult_assoc, Rinv_l by lra. lra. }
    assert (Q' : 1 <= frac n i + frac n j <-> (n - 1 <= i + j)%nat).
    { unfold frac. assert (0 < INR (n - 1)) by (apply lt_0_INR; lia). replace (INR i / INR (n - 1) + INR j / INR (n - 1)) with (INR (i + j) / INR (n - 1)) by (rewrite plus_INR; field; lra). split; intros C.
      - apply INR_le. apply Rmult_le_reg_r with (/ INR (n - 1)); [apply Rinv_0_lt_compat; assumption|]. rewrite Rinv_r by lra. exact C.
      - apply le_INR in C. apply Rmult_le_reg_r with (INR (n - 1)); [assumption|]. unfold Rdiv. rewrite Rmult_assoc, Rinv_l by lra. lra. }
    pose proof (frac_range n Hn i Hi) as Hf. pose proof (frac_range n Hn j Hj) as Hg.
    split; eexists; (split; [unfold at_; rewrite hf_eq by lia; cbn [q_points theF]; rewrite ptF_xyz by assumption; rewrite qpoint2_eq by exact Hn; reflexivity|]).
    - rewrite <- Q. set (s := frac n i) in *. set (t := frac n j) in *. clearbody s t. cbn [tab nth map_face_to_vertices vtx coords_vertices]. unfold along, ref_face, within. split; [intros (C & _)|intros C; repeat split]; lra.
    - assert (Q2 : frac n i + frac n j = 1 <-> (i + j = n - 1)%nat) by (split; intros C; [apply Nat.le_antisymm; [apply Q|apply Q']; lra|apply Rle_antisym; [apply Q|apply Q']; lia]).
      rewrite <- Q2. set (s := frac n i) in *. set (t := frac n j) in *. clearbody s t. cbn [tab nth map_face_to_vertices vtx coords_vertices]. unfold along, ref_face, within. split; [intros (C & _)|intros C; repeat split]; lra.
  Qed.
End C92.

(** The comment in the code has the first direction of a face run fastest in its list of control points. It runs slowest:
    of the identity map, the second control point of the bottom face lies on the left edge, not on the front one. *)
Theorem C92_face_order_refuted : forall n, (2 <= n)%nat ->
  let hex := make_hex_geom n (fun p => fst (fst p)) (fun p => snd (fst p)) (fun p => snd p) in
  let q := p_xyz (nth 1 (q_points (nth 0 (h_faces hex) (mkQ 0 [] 0 []))) (mkP 0 (0, 0, 0))) in
  ref_edge 3 q /\ ~ ref_edge 0 q.
Proof.
  intros n Hn hex q. destruct (C92_face_points_partial n (fun p => fst (fst p)) (fun p => snd (fst p)) (fun p => snd p) Hn 0 (or_introl eq_refl)) as [_ P].
  destruct (P 0%nat 1%nat ltac:(lia) ltac:(lia)) as [_ E]. cbn [Nat.mul Nat.add] in E. fold hex in E. fold q in E. rewrite E. rewrite frac_0.
  assert (F : 0 < frac n 1 <= 1). { split; [|apply frac_range; lia]. unfold frac. apply Rdiv_lt_0_compat; [cbn; lra|apply lt_0_INR; lia]. }
  set (t := frac n 1) in *. clearbody t. cbn [face_corners nth]. unfold corner, along, ref_edge, within. cbn [memb existsb Nat.eqb orb pm fst snd]. split; [repeat split; lra|]. intros (_ & C & _). lra.
Qed.

(** The front face of the identity map with any number of modes reaches outside the cube [-1,1]^3, to (3, -1, 1). *)
Theorem C92_outside_cube_refuted : forall n, (2 <= n)%nat ->
  let hex := make_hex_geom n (fun p => fst (fst p)) (fun p => snd (fst p)) (fun p => snd p) in
  exists q, In q (q_points (nth 1 (h_faces hex) (mkQ 0 [] 0 []))) /\ p_xyz q = (3, -1, 1).
Proof.
  intros n Hn hex. exists (nth ((n - 1) * n + (n - 1)) (q_points (nth 1 (h_faces hex) (mkQ 0 [] 0 []))) (mkP 0 (0, 0, 0))).
  unfold hex. rewrite make_eq. cbn [h_faces map seq nth]. cbn [q_points theF]. split; [apply nth_In; rewrite length_ptsF; nia|].
  rewrite ptF_xyz by lia. rewrite qpoint2_eq by exact Hn. rewrite frac_last by exact Hn. cbn [tab nth map_face_to_vertices vtx coords_vertices]. unfold along, Xp. cbn [fst snd]. f_equal; [f_equal|]; ring.
Qed.

(** A stretched and sheared box with three modes: 98 points, the middle control point of edge 6 in the middle of it. *)
Example C92_nonvacuous : let hex := make_hex_geom 3 (fun p => 2 * fst (fst p) + snd p) (fun p => snd (fst p)) (fun p => snd p) in
  (2 <= 3)%nat /\ length (map p_id (h_verts hex ++ flat_map s_points (h_edges hex) ++ flat_map q_points (h_faces hex))) = 98%nat /\
  p_xyz (nth 1 (s_points (nth 6 (h_edges hex) (mkS 0 [] 0 []))) (mkP 0 (0, 0, 0))) = (2, 1, 0).
Proof.
  intros hex. split; [lia|]. split; [unfold hex; rewrite (proj1 (C92_numbering 3 _ _ _)); apply seq_length|].
  destruct (C92_edges 3 (fun p => 2 * fst (fst p) + snd p) (fun p => snd (fst p)) (fun p => snd p) ltac:(lia) 6 ltac:(lia)) as (a & b & Ha & Hb & _ & C & _ & _ & P & _).
  fold hex in P. destruct (P 1%nat ltac:(lia)) as [E Q]. rewrite Q. clear - Ha Hb C E.
  destruct (along (frac 3 1) 0 (corner a) (corner b) (corner a)) as [[x y] z] eqn:W. cbn [ref_edge] in E. destruct E as (-> & -> & Hz).
  assert (Z : z = 0).
  { pose proof (proj2 (C a Ha) (or_introl eq_refl)) as A. pose proof (proj2 (C b Hb) (or_intror eq_refl)) as B.
    unfold frac in W. cbn in W.
    assert (A' : a = 2%nat \/ a = 6%nat) by (do 8 (destruct a as [|a]; [first [left; reflexivity|right; reflexivity|exfalso; cbv in A; lra]|]); lia).
    assert (B' : b = 2%nat \/ b = 6%nat) by (do 8 (destruct b as [|b]; [first [left; reflexivity|right; reflexivity|exfalso; cbv in B; lra]|]); lia).
    pose proof (proj1 (C 2%nat ltac:(lia))) as C2. pose proof (proj1 (C 6%nat ltac:(lia))) as C6.
    assert (R2 : ref_edge 6 (corner 2)) by (cbv; repeat split; lra). assert (R6 : ref_edge 6 (corner 6)) by (cbv; repeat split; lra). specialize (C2 R2). specialize (C6 R6).
    destruct A' as [-> | ->], B' as [-> | ->]; try (exfalso; lia); cbn in W; injection W; intros; lra. }
  rewrite Z. cbn [fst snd]. apply f_equal2; [apply f_equal2|]; ring.
Qed.

Print Assumptions C92_vertices.
Print Assumptions C92_numbering.
Print Assumptions C92_edges.
Print Assumptions C92_face_edges.
Print Assumptions C92_face_points_partial.
Print Assumptions C92_face_meets_edges_partial.
Print Assumptions C92_front_left_faces_refuted.
Print Assumptions C92_face_order_refuted.
Print Assumptions C92_outside_cube_refuted.
Print Assumptions C92_nonvacuous.
