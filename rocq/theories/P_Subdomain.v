(** C96: a point of the local part of the mesh. *)
From Coq Require Import Reals List ZArith Lra Lia.
From Verif Require Import M_Subdomain.
Import ListNotations.
Open Scope R_scope.

(** All elements of the graph with their shapes. *)
Definition local_elements (g : mgraph) : list (shape * element) :=
  map (fun p => (Quad, snd p)) (g_quads g) ++ map (fun p => (Tri, snd p)) (g_tris g) ++
  map (fun p => (Tet, snd p)) (g_tets g) ++ map (fun p => (Pyr, snd p)) (g_pyrs g) ++
  map (fun p => (Prism, snd p)) (g_prisms g) ++ map (fun p => (Hex, snd p)) (g_hexs g).
Definition local_element (g : mgraph) (e : element) : Prop := In (el_shape e, e) (local_elements g).
(** Every map holds elements of its shape, in a space of 2 or 3 dimensions that can hold them. *)
Definition graph_ok (g : mgraph) : Prop :=
  forall s e, In (s, e) (local_elements g) ->
    el_shape e = s /\ (dimension_of s <= el_space e <= 3)%nat /\ flat_above e.
(** Nektar++'s point location accepts every point of an element. *)
Definition accepts_points (contains : element -> R * R * R -> bool) : Prop :=
  forall e p, point_of e p -> contains e p = true.
(** ... and only those. *)
Definition exact_location (contains : element -> R * R * R -> bool) : Prop :=
  forall e p, contains e p = true <-> point_of e p.
Definition padded (p : list R) : R * R * R := (nth 0 p 0, nth 1 p 0, nth 2 p 0).

Lemma corner_in s i : (i < vertices_of s)%nat -> in_reference s (corner s i).
Proof.
  intros H. destruct s; cbn [vertices_of] in H;
    (destruct i as [|[|[|[|[|[|[|[|i]]]]]]]]; try lia; cbn; lra).
Qed.

Lemma fold_left_sum (f : nat -> R) : forall l a, fold_left (fun acc i => acc + f i) l a = a + fold_right (fun i acc => f i + acc) 0 l.
Proof. induction l as [|x r IH]; intros a; cbn; [lra|]. rewrite IH. lra. Qed.

(** The reference point whose image is the average of the vertices. *)
Definition centre (s : shape) : R * R * R :=
  match s with
  | Tri => (-1/3, -1/3, 0) | Quad => (0, 0, 0) | Tet => (-1/2, -1/2, -1/2) | Pyr => (-1/5, -1/5, -3/5)
  | Prism => (-1/3, 0, -1/3) | Hex => (0, 0, 0)
  end.
Lemma centre_in s : inside_reference s (centre s).
Proof. destruct s; cbn; lra. Qed.
Lemma inside_in s xi : inside_reference s xi -> in_reference s xi.
Proof. destruct s, xi as [[x y] z]; cbn; lra. Qed.
Lemma straight_centre s c a :
  straight s c (centre s) a = fold_right (fun i acc => c i a + acc) 0 (seq 0 (vertices_of s)) / INR (vertices_of s).
Proof.
  destruct s; cbn [straight centre Xtri Xmap vertices_of nverts seq fold_right shapef bilin lin refvert comp nth];
    unfold bilin, lin; cbn [refvert comp nth]; cbn [INR]; field.
Qed.

Lemma average_value e l : get_vertex_average e = Some l ->
  List.length l = el_space e /\ forall a, (a < el_space e)%nat -> nth a l 0 = mean_corner e a.
Proof.
  unfold get_vertex_average. destruct (Nat.ltb (el_space e) 4) eqn:E; [|discriminate]. intros H. injection H as <-.
  split; [rewrite map_length, seq_length; reflexivity|]. intros a Ha.
  rewrite (nth_indep _ 0 ((fun dx => fold_left (fun acc vx => acc + vertex e vx dx) (seq 0 (vertices_of (el_shape e))) 0
     / INR (vertices_of (el_shape e))) 0%nat)) by (rewrite map_length, seq_length; exact Ha).
  rewrite (map_nth (fun dx => fold_left (fun acc vx => acc + vertex e vx dx) (seq 0 (vertices_of (el_shape e))) 0
     / INR (vertices_of (el_shape e)))). rewrite seq_nth by exact Ha. cbn [Nat.add].
  unfold mean_corner. f_equal. rewrite (fold_left_sum (fun vx => vertex e vx a)). unfold vertex. lra.
Qed.

Lemma chosen g ndim e : graph_ok g ->
  (if Nat.eqb ndim 2 then get_element_2d g else get_element_3d g) = Some e -> (ndim = 2 \/ ndim = 3)%nat ->
  local_element g e /\ dimension_of (el_shape e) = ndim /\ (ndim <= el_space e <= 3)%nat /\ flat_above e.
Proof.
  intros G H D.
  assert (Q : exists s, In (s, e) (local_elements g) /\ dimension_of s = ndim).
  { unfold local_elements. destruct D as [-> | ->]; cbn [Nat.eqb] in H.
    - unfold get_element_2d in H. destruct (g_quads g) as [|[i x] r] eqn:E1.
      + destruct (g_tris g) as [|[j y] r2] eqn:E2; [discriminate|]. injection H as ->. exists Tri. split; [|reflexivity].
        cbn. left. reflexivity.
      + injection H as ->. exists Quad. split; [cbn; left; reflexivity | reflexivity].
    - unfold get_element_3d in H. destruct (g_tets g) as [|[i x] r] eqn:E1.
      + destruct (g_pyrs g) as [|[i2 x2] r2] eqn:E2.
        * destruct (g_prisms g) as [|[i3 x3] r3] eqn:E3.
          -- destruct (g_hexs g) as [|[i4 x4] r4] eqn:E4; [discriminate|]. injection H as ->. exists Hex. split; [|reflexivity].
             rewrite !in_app_iff. do 5 right. cbn. left. reflexivity.
          -- injection H as ->. exists Prism. split; [|reflexivity]. rewrite !in_app_iff. do 4 right. left. cbn. left. reflexivity.
        * injection H as ->. exists Pyr. split; [|reflexivity]. rewrite !in_app_iff. do 3 right. left. cbn. left. reflexivity.
      + injection H as ->. exists Tet. split; [|reflexivity]. rewrite !in_app_iff. do 2 right. left. cbn. left. reflexivity. }
  destruct Q as (s & I & Ds). destruct (G s e I) as (S1 & S2 & S3). subst s. unfold local_element.
  rewrite Ds in S2. auto.
Qed.

Lemma none_chosen g ndim : graph_ok g -> (ndim = 2 \/ ndim = 3)%nat ->
  (if Nat.eqb ndim 2 then get_element_2d g else get_element_3d g) = None ->
  ~ exists e, local_element g e /\ dimension_of (el_shape e) = ndim.
Proof.
  intros G D H (e & I & De). unfold local_element, local_elements in I. rewrite !in_app_iff, !in_map_iff in I.
  destruct D as [-> | ->]; cbn [Nat.eqb] in H.
  - unfold get_element_2d in H. destruct (g_quads g) as [|[? ?] ?]; [|discriminate].
    destruct (g_tris g) as [|[? ?] ?]; [|discriminate].
    destruct I as [(x & E & I) | [(x & E & I) | [(x & E & I) | [(x & E & I) | [(x & E & I) | (x & E & I)]]]]]; try contradiction;
      injection E as E1 E2; rewrite <- E1 in De; discriminate.
  - unfold get_element_3d in H. destruct (g_tets g) as [|[? ?] ?]; [|discriminate].
    destruct (g_pyrs g) as [|[? ?] ?]; [|discriminate]. destruct (g_prisms g) as [|[? ?] ?]; [|discriminate].
    destruct (g_hexs g) as [|[? ?] ?]; [|discriminate].
    destruct I as [(x & E & I) | [(x & E & I) | [(x & E & I) | [(x & E & I) | [(x & E & I) | (x & E & I)]]]]]; try contradiction;
      injection E as E1 E2; rewrite <- E1 in De; discriminate.
Qed.

Lemma overwrite_vertex e c : flat_above e -> (el_space e <= 3)%nat ->
  (forall a, (el_space e <= a < 3)%nat -> comp c a = 0) -> point_of e (overwrite e c).
Proof.
  intros F L Z. exists (corner (el_shape e) 0). split; [apply corner_in; destruct (el_shape e); cbn; lia|].
  intros a Ha. unfold overwrite.
  assert (W : forall b, (b < 3)%nat -> (if Nat.ltb b (el_space e) then vertex e 0 b else comp c b) = el_map e (corner (el_shape e) 0) b).
  { intros b Hb. destruct (Nat.ltb b (el_space e)) eqn:E; [reflexivity|]. apply Nat.ltb_ge in E. rewrite Z by lia.
    symmetry. apply F. exact E. }
  destruct a as [|[|[|a]]]; cbn [comp]; try apply W; lia.
Qed.

Lemma coords3_above p a : (List.length p <= a < 3)%nat -> comp (coords3 p) a = 0.
Proof. intros H. destruct a as [|[|[|a]]]; cbn [comp coords3]; try (apply nth_overflow; lia); lia. Qed.

Lemma nth_firstn_r (n : nat) : forall (l : list R) a, (a < n)%nat -> nth a (firstn n l) 0 = nth a l 0.
Proof. induction n as [|n IH]; intros l a H; [lia|]. destruct l as [|x r]; [destruct a; reflexivity|]. destruct a as [|a]; [reflexivity|]. cbn. apply IH. lia. Qed.

Lemma comp_coords3 p a : (a < 3)%nat -> comp (coords3 p) a = nth a p 0.
Proof. intros H. destruct a as [|[|[|a]]]; try reflexivity; lia. Qed.

Lemma list_by_comp p n : List.length p = n -> (n <= 3)%nat -> map (comp (coords3 p)) (seq 0 n) = p.
Proof.
  intros <- H. apply (nth_ext _ _ 0 0); [rewrite map_length, seq_length; reflexivity|].
  intros a Ha. rewrite map_length, seq_length in Ha.
  rewrite (nth_indep _ 0 (comp (coords3 p) 0%nat)) by (rewrite map_length, seq_length; exact Ha).
  rewrite map_nth, seq_nth by exact Ha. apply comp_coords3. lia.
Qed.

(** On a rank with an element of the mesh dimension the call succeeds: it writes the components of a point that Nektar++
    locates in a local element of that dimension. *)
Theorem C96_point_found : forall contains ndim g, accepts_points contains -> graph_ok g -> (ndim = 2 \/ ndim = 3)%nat ->
  (exists e, local_element g e /\ dimension_of (el_shape e) = ndim) ->
  exists p e q, get_point_in_subdomain contains ndim g = SPoint p /\ local_element g e /\ dimension_of (el_shape e) = ndim /\
    contains e q = true /\ p = map (comp q) (seq 0 ndim).
Proof.
  intros contains ndim g A G D X. unfold get_point_in_subdomain.
  replace (negb (Nat.eqb ndim 2 || Nat.eqb ndim 3)) with false by (destruct D as [-> | ->]; reflexivity).
  destruct (if Nat.eqb ndim 2 then get_element_2d g else get_element_3d g) as [e|] eqn:E; [|exfalso; exact (none_chosen g ndim G D E X)].
  destruct (chosen g ndim e G E D) as (I & De & L & F).
  destruct (get_vertex_average e) as [tmp|] eqn:V.
  2:{ unfold get_vertex_average in V. replace (Nat.ltb (el_space e) 4) with true in V by (symmetry; apply Nat.ltb_lt; lia). discriminate. }
  destruct (average_value e tmp V) as [Vl Vn].
  replace (Nat.ltb (List.length tmp) ndim) with false by (symmetry; apply Nat.ltb_ge; lia).
  set (point := firstn ndim tmp).
  assert (Lp : List.length point = ndim) by (unfold point; rewrite firstn_length; lia).
  destruct (contains e (coords3 point)) eqn:C1.
  - exists point, e, (coords3 point). repeat split; auto. symmetry. apply list_by_comp; [exact Lp | lia].
  - assert (C2 : contains e (overwrite e (coords3 point)) = true).
    { apply A. apply overwrite_vertex; [exact F | lia |]. intros a Ha. apply coords3_above. lia. }
    rewrite C2. exists (map (comp (overwrite e (coords3 point))) (seq 0 ndim)), e, (overwrite e (coords3 point)). auto.
Qed.

(** If the mesh lives in a space of its own dimension and point location is exact, the returned point is a point of a local
    element: the sub-domain of this rank. *)
Theorem C96_point_in_subdomain : forall contains ndim g, exact_location contains -> graph_ok g -> (ndim = 2 \/ ndim = 3)%nat ->
  (forall e, local_element g e -> el_space e = ndim) ->
  (exists e, local_element g e /\ dimension_of (el_shape e) = ndim) ->
  exists p e, get_point_in_subdomain contains ndim g = SPoint p /\ List.length p = ndim /\ local_element g e /\ point_of e (padded p).
Proof.
  intros contains ndim g A G D S X.
  destruct (C96_point_found contains ndim g (fun e p => proj2 (A e p)) G D X) as (p & e & q & R & I & De & C & P).
  exists p, e. apply A in C. repeat split; auto.
  - subst p. rewrite map_length, seq_length. reflexivity.
  - assert (G1 := G _ _ I). destruct G1 as (_ & _ & F). specialize (S e I).
    destruct C as (xi & Hxi & Hq). exists xi. split; [exact Hxi|]. intros a Ha. rewrite <- (Hq a Ha).
    assert (Z : ndim = 2%nat -> comp q 2 = 0). { intros ->. rewrite (Hq 2%nat ltac:(lia)). apply F. lia. }
    subst p. destruct q as [[x y] z]. destruct D as [-> | ->].
    + specialize (Z eq_refl). cbn in Z. subst z. destruct a as [|[|[|a]]]; try reflexivity; lia.
    + destruct a as [|[|[|a]]]; try reflexivity; lia.
Qed.

(** For straight-sided elements (convex or not, even degenerate) the returned point is the average of the vertices, and it is
    an interior point of the element: the fall back to a vertex is never taken. *)
Theorem C96_straight_sided : forall contains ndim g, accepts_points contains -> graph_ok g -> (ndim = 2 \/ ndim = 3)%nat ->
  (forall e, local_element g e -> el_space e = ndim /\ straight_sided e) ->
  (exists e, local_element g e /\ dimension_of (el_shape e) = ndim) ->
  exists e, local_element g e /\ dimension_of (el_shape e) = ndim /\
    get_point_in_subdomain contains ndim g = SPoint (map (mean_corner e) (seq 0 ndim)) /\
    interior_point_of e (padded (map (mean_corner e) (seq 0 ndim))).
Proof.
  intros contains ndim g A G D S X. unfold get_point_in_subdomain.
  replace (negb (Nat.eqb ndim 2 || Nat.eqb ndim 3)) with false by (destruct D as [-> | ->]; reflexivity).
  destruct (if Nat.eqb ndim 2 then get_element_2d g else get_element_3d g) as [e|] eqn:E; [|exfalso; exact (none_chosen g ndim G D E X)].
  destruct (chosen g ndim e G E D) as (I & De & L & F). destruct (S e I) as [Sp St].
  destruct (get_vertex_average e) as [tmp|] eqn:V.
  2:{ unfold get_vertex_average in V. replace (Nat.ltb (el_space e) 4) with true in V by (symmetry; apply Nat.ltb_lt; lia). discriminate. }
  destruct (average_value e tmp V) as [Vl Vn].
  replace (Nat.ltb (List.length tmp) ndim) with false by (symmetry; apply Nat.ltb_ge; lia).
  assert (P : firstn ndim tmp = map (mean_corner e) (seq 0 ndim)).
  { apply (nth_ext _ _ 0 0); [rewrite firstn_length, map_length, seq_length; lia|].
    intros a Ha. rewrite firstn_length in Ha. rewrite nth_firstn_r by lia.
    rewrite (nth_indep (map _ _) 0 (mean_corner e 0%nat)) by (rewrite map_length, seq_length; lia).
    rewrite map_nth, seq_nth by lia. apply Vn. lia. }
  rewrite P.
  assert (N : interior_point_of e (padded (map (mean_corner e) (seq 0 ndim)))).
  { exists (centre (el_shape e)). split; [apply centre_in|]. intros a Ha.
    rewrite (St (centre (el_shape e)) a Ha (centre_in _)), straight_centre.
    assert (M : forall b, fold_right (fun i acc => el_map e (corner (el_shape e) i) b + acc) 0 (seq 0 (vertices_of (el_shape e)))
                 / INR (vertices_of (el_shape e)) = mean_corner e b) by reflexivity.
    rewrite M.
    assert (Z : ndim = 2%nat -> mean_corner e 2 = 0).
    { intros N2. pose proof (St (centre (el_shape e)) 2%nat ltac:(lia) (centre_in _)) as Q. rewrite straight_centre in Q.
      cbv beta in Q. rewrite M in Q. rewrite <- Q. apply F. lia. }
    destruct D as [-> | ->]; destruct a as [|[|[|a]]]; try reflexivity; try lia. symmetry. exact (Z eq_refl). }
  exists e. split; [exact I|]. split; [exact De|]. split; [|exact N].
  replace (contains e (coords3 (map (mean_corner e) (seq 0 ndim)))) with true; [reflexivity|].
  symmetry. apply A. destruct N as (xi & Hi & Hv). exists xi. split; [apply inside_in; exact Hi|]. exact Hv.
Qed.

(** The only failures: a mesh dimension other than 2 or 3, or a rank without an element of that dimension. *)
Theorem C96_fails_exactly : forall contains ndim g, accepts_points contains -> graph_ok g ->
  (get_point_in_subdomain contains ndim g = SAssert <->
   ~ ((ndim = 2 \/ ndim = 3)%nat /\ exists e, local_element g e /\ dimension_of (el_shape e) = ndim)) /\
  get_point_in_subdomain contains ndim g <> SThrow.
Proof.
  intros contains ndim g A G.
  assert (T : ~ ((ndim = 2 \/ ndim = 3)%nat /\ exists e, local_element g e /\ dimension_of (el_shape e) = ndim) ->
              get_point_in_subdomain contains ndim g = SAssert).
  { intros H. unfold get_point_in_subdomain. destruct (negb (Nat.eqb ndim 2 || Nat.eqb ndim 3)) eqn:D; [reflexivity|].
    assert (D2 : (ndim = 2 \/ ndim = 3)%nat).
    { apply Bool.negb_false_iff, Bool.orb_true_iff in D. rewrite !Nat.eqb_eq in D. exact D. }
    destruct (if Nat.eqb ndim 2 then get_element_2d g else get_element_3d g) as [e|] eqn:E; [|reflexivity].
    exfalso. apply H. split; [exact D2|]. exists e. destruct (chosen g ndim e G E D2) as (I & De & _). auto. }
  assert (K : (ndim = 2 \/ ndim = 3)%nat /\ (exists e, local_element g e /\ dimension_of (el_shape e) = ndim) ->
              exists p, get_point_in_subdomain contains ndim g = SPoint p).
  { intros [D X]. destruct (C96_point_found contains ndim g A G D X) as (p & e & q & R & _). exists p. exact R. }
  split.
  - split; [|exact T]. intros H C. destruct (K C) as [p P]. rewrite P in H. discriminate.
  - intros H.
    destruct (Nat.eq_dec ndim 2) as [N2|N2]; [|destruct (Nat.eq_dec ndim 3) as [N3|N3]].
    1,2: destruct (if Nat.eqb ndim 2 then get_element_2d g else get_element_3d g) as [e|] eqn:E;
      [ assert (D : (ndim = 2 \/ ndim = 3)%nat) by lia;
        destruct (chosen g ndim e G E D) as (I & De & _); destruct (K (conj D (ex_intro _ e (conj I De)))) as [p P]; rewrite P in H; discriminate
      | rewrite T in H; [discriminate|]; intros [D X]; exact (none_chosen g ndim G D E X) ].
    rewrite T in H; [discriminate|]. intros [D _]. lia.
Qed.

(** A surface mesh in 3D space: only the first two components are returned; they are not a point of the surface. *)
Definition raised_triangle : element :=
  {| el_shape := Tri; el_space := 3; el_map := fun xi a => match a with 0%nat => fst (fst xi) | 1%nat => snd (fst xi) | 2%nat => 1 | _ => 0 end |}.
Definition raised_graph : mgraph :=
  {| g_tris := [(0%Z, raised_triangle)]; g_quads := []; g_tets := []; g_pyrs := []; g_prisms := []; g_hexs := [] |}.
Theorem C96_surface_mesh_refuted : exists g, graph_ok g /\ (exists e, local_element g e /\ dimension_of (el_shape e) = 2%nat) /\
  forall contains, exact_location contains ->
  exists p, get_point_in_subdomain contains 2 g = SPoint p /\ ~ exists e, local_element g e /\ point_of e (padded p).
Proof.
  exists raised_graph.
  assert (G : graph_ok raised_graph).
  { intros s e [H|[]]. injection H as <- <-. repeat split; cbn; try lia. intros xi a Ha. cbn in *. destruct a as [|[|[|a]]]; try lia. reflexivity. }
  assert (X : exists e, local_element raised_graph e /\ dimension_of (el_shape e) = 2%nat).
  { exists raised_triangle. split; [left; reflexivity | reflexivity]. }
  split; [exact G|]. split; [exact X|]. intros contains A.
  destruct (C96_point_found contains 2 raised_graph (fun e p => proj2 (A e p)) G (or_introl eq_refl) X) as (p & e & q & R & _ & _ & _ & P).
  exists p. split; [exact R|]. intros (e2 & [I|[]] & xi & _ & Hv). injection I as _ I. rewrite <- I in Hv. specialize (Hv 2%nat ltac:(lia)).
  subst p. cbn in Hv. lra.
Qed.

(** Non-vacuity: a rank with one skewed quadrilateral and one triangle; the quadrilateral's vertex average is returned. *)
Definition ex_quad : element :=
  {| el_shape := Quad; el_space := 2;
     el_map := fun xi a => if Nat.ltb a 2 then Xmap EQuad (fun i b => nth b (nth i [[0;0];[4;0];[3;3];[1;5]] []) 0) xi a else 0 |}.
Definition ex_tri : element :=
  {| el_shape := Tri; el_space := 2;
     el_map := fun xi a => if Nat.ltb a 2 then Xtri (fun i b => nth b (nth i [[0;0];[4;0];[2;-3]] []) 0) xi a else 0 |}.
Definition ex_graph : mgraph :=
  {| g_tris := [(1%Z, ex_tri)]; g_quads := [(7%Z, ex_quad)]; g_tets := []; g_pyrs := []; g_prisms := []; g_hexs := [] |}.
Example C96_example : forall contains, accepts_points contains -> get_point_in_subdomain contains 2 ex_graph = SPoint [2; 2].
Proof.
  intros contains A.
  assert (G : graph_ok ex_graph).
  { intros s e [H|[H|[]]]; injection H as <- <-; (split; [reflexivity|]); (split; [cbn; lia|]); intros xi a Ha;
      cbn [el_space ex_quad ex_tri] in Ha; cbn [el_map ex_quad ex_tri]; (replace (Nat.ltb a 2) with false by (symmetry; apply Nat.ltb_ge; lia)); reflexivity. }
  assert (S : forall e, local_element ex_graph e -> el_space e = 2%nat /\ straight_sided e).
  { intros e [H|[H|[]]]; injection H as _ <-; (split; [reflexivity|]); intros [[x y] z] a Ha Hi;
      (destruct a as [|[|[|a]]]; [..|lia]); cbn in Hi |- *; unfold bilin, lin; cbn; field. }
  assert (X : exists e, local_element ex_graph e /\ dimension_of (el_shape e) = 2%nat).
  { exists ex_quad. split; [left; reflexivity | reflexivity]. }
  unfold get_point_in_subdomain. cbn [ex_graph Nat.eqb orb negb get_element_2d g_quads].
  assert (V : get_vertex_average ex_quad = Some [2; 2]).
  { unfold get_vertex_average, vertex. cbn. unfold bilin, lin. cbn. f_equal. apply f_equal2; [field|]. apply f_equal2; [field|reflexivity]. }
  rewrite V. cbn [List.length Nat.ltb Nat.leb firstn].
  replace (contains ex_quad (coords3 [2; 2])) with true; [reflexivity|]. symmetry. apply A.
  exists (0, 0, 0). split; [cbn; lra|]. intros a Ha. destruct a as [|[|[|a]]]; [..|lia]; cbn; unfold bilin, lin; cbn; field.
Qed.

Print Assumptions C96_point_found.
Print Assumptions C96_point_in_subdomain.
Print Assumptions C96_straight_sided.
Print Assumptions C96_fails_exactly.
Print Assumptions C96_surface_mesh_refuted.
