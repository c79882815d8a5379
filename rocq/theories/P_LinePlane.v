(** Property theorems C36-C38 (boundary elements as planes). *)
From Verif Require Import M_LinePlane S_LinePlane L_RealBase L_LinePlane.

(** C36: for every plane and every segment, the test reports a hit exactly when the segment meets
    the plane, and the point it returns is then on both. *)
Theorem C36_plane_test : forall l a b h i, plane_hit l a b = (h, i) ->
  (h = true <-> exists x, on_segment a b x /\ in_plane (lp_point l) (lp_normal l) x) /\
  (h = true -> on_segment a b i /\ in_plane (lp_point l) (lp_normal l) i).
Proof. intros l a b h i E. pose proof (plane_hit_spec l a b) as H. rewrite E in H. tauto. Qed.
Print Assumptions C36_plane_test.
(** C36: it is the only such point if the segment is not parallel to the plane; a segment in the
    plane is reported at its start. *)
Theorem C36_point_unique : forall l a b i, plane_hit l a b = (true, i) ->
  (~ parallel (lp_normal l) a b -> forall x, on_segment a b x -> in_plane (lp_point l) (lp_normal l) x -> x = i) /\
  (parallel (lp_normal l) a b -> i = a).
Proof. intros l a b i E. pose proof (plane_hit_spec l a b) as H. rewrite E in H. destruct H as (_ & _ & H3 & H4). auto. Qed.
Print Assumptions C36_point_unique.
Definition ex_square : list v3 := [mkV3 0 0 1; mkV3 2 0 1; mkV3 2 2 1; mkV3 0 2 1].
Lemma ex_lpi : exists l, lpi_make false ex_square = Some l /\ lp_point l = mkV3 1 1 1 /\ lp_normal l = mkV3 0 0 1 /\ lp_radius2 l = 2.
Proof.
  unfold lpi_make, ex_square, normal_2d. cbn [last]. unfold cross, vsub, dot. cbn [vx vy vz].
  case Req_bool_spec; intros H; [exfalso; lra|].
  replace ((0 - 0) * (1 - 1) - (1 - 1) * (2 - 0)) with 0 by ring. replace ((1 - 1) * (0 - 0) - (2 - 0) * (1 - 1)) with 0 by ring.
  replace ((2 - 0) * (2 - 0) - (0 - 0) * (0 - 0)) with 4 by ring. replace (0 * 0 + 0 * 0 + 4 * 4) with (4 * 4) by ring.
  rewrite sqrt_square by lra. eexists. split; [reflexivity|]. cbn [lp_point lp_normal lp_radius2].
  assert (E : vertex_average [mkV3 0 0 1; mkV3 2 0 1; mkV3 2 2 1; mkV3 0 2 1] = mkV3 1 1 1) by (unfold vertex_average; simpl; f_equal; field).
  rewrite E. split; [reflexivity|]. split; [f_equal; field|]. unfold dist2_centre. cbn [fold_left vx vy vz].
  unfold fmax. repeat (case Rlt_bool_spec; intros); lra.
Qed.
Example C36_nonvacuous : exists l, lpi_make false ex_square = Some l /\ ~ parallel (lp_normal l) (mkV3 1 1 0) (mkV3 1 1 4) /\
  on_segment (mkV3 1 1 0) (mkV3 1 1 4) (mkV3 1 1 1) /\ in_plane (lp_point l) (lp_normal l) (mkV3 1 1 1).
Proof.
  destruct ex_lpi as (l & El & Ep & En & _). exists l. split; auto. rewrite Ep, En. split.
  - unfold parallel, dot, vsub. cbn [vx vy vz]. lra.
  - split; [exists (1 / 4); split; [lra|unfold along; cbn [vx vy vz]; f_equal; field]|unfold in_plane, dot, vsub; cbn [vx vy vz]; ring].
Qed.

(** C37: every point of an element (convex combination of its vertices) passes the filter *)
Theorem C37_filter_conservative : forall curved verts l x, lpi_make curved verts = Some l ->
  convex_combination verts x -> point_near l x = true.
Proof. exact near_convex. Qed.
Print Assumptions C37_filter_conservative.
(** C37 with C36: a trajectory crossing a planar element at [x], not along its plane, passes
    both tests and the point found is [x]. *)
Theorem C37_crossing_is_found : forall curved verts l a b x, lpi_make curved verts = Some l -> planar verts ->
  convex_combination verts x -> on_segment a b x -> ~ parallel (lp_normal l) a b ->
  plane_hit l a b = (true, x) /\ point_near l x = true.
Proof. exact element_hit. Qed.
Print Assumptions C37_crossing_is_found.
Example C37_nonvacuous : exists l, lpi_make false ex_square = Some l /\ planar ex_square /\
  convex_combination ex_square (mkV3 (1/2) 1 1) /\ on_segment (mkV3 (1/2) 1 0) (mkV3 (1/2) 1 4) (mkV3 (1/2) 1 1) /\
  ~ parallel (lp_normal l) (mkV3 (1/2) 1 0) (mkV3 (1/2) 1 4) /\ point_near l (mkV3 4 1 1) = false.
Proof.
  destruct ex_lpi as (l & El & Ep & En & Er). exists l. split; auto. split; [|split; [|split; [|split]]].
  - exists (mkV3 0 0 1), (mkV3 0 0 1). split; [intros [=]; lra|]. repeat constructor; unfold in_plane, dot, vsub; cbn [vx vy vz]; ring.
  - exists [3/8; 1/8; 1/8; 3/8]. split; [reflexivity|]. split; [repeat constructor; lra|]. split; simpl; [field|f_equal; field].
  - exists (1 / 4). split; [lra|unfold along; cbn [vx vy vz]; f_equal; field].
  - rewrite En. unfold parallel, dot, vsub. cbn [vx vy vz]. lra.
  - unfold point_near. rewrite Ep, Er. unfold dist2_centre. cbn [vx vy vz]. apply Rle_bool_false. lra.
Qed.

(** C38, 3D: the normal is a unit vector orthogonal to the element's two edges at its first
    vertex, and for a planar element to the difference of any two of its vertices. *)
Theorem C38_normal_of_face : forall curved verts n, normal_2d curved verts = Some n ->
  dot n n = 1 /\
  (exists v0 v1, nth_error verts 0 = Some v0 /\ nth_error verts 1 = Some v1 /\
     dot n (vsub v1 v0) = 0 /\ dot n (vsub (last verts v0) v0) = 0) /\
  (planar verts -> forall a b, In a verts -> In b verts -> dot (vsub b a) n = 0).
Proof.
  intros curved verts n H. destruct (normal_2d_spec curved verts n H) as [A B]. split; auto. split; auto.
  intros Hp a b Ha Hb. exact (planar_orth curved verts n H Hp a b Ha Hb).
Qed.
Print Assumptions C38_normal_of_face.
(** C38: it exists exactly for straight elements whose first edges are not collinear *)
Theorem C38_normal_exists : forall v0 v1 rest, let verts := v0 :: v1 :: rest in
  (exists n, normal_2d false verts = Some n) <-> cross (vsub v1 v0) (vsub (last verts v0) v0) <> mkV3 0 0 0.
Proof.
  intros v0 v1 rest verts. split.
  - intros [n H]. apply normal_2d_inv in H as (w0 & w1 & r & E & _ & H). injection E as <- <- <-. cbn zeta in H. fold verts in H.
    destruct H as [H _]. intros Hz. apply H. rewrite Hz. unfold dot. simpl. ring.
  - intros H. unfold normal_2d, verts. fold verts. cbv zeta. case Req_bool_spec; intros Hs; [|eauto]. exfalso. apply H. now apply dot_zero.
Qed.
Print Assumptions C38_normal_exists.
(** C38, 2D: the normal of a segment is a unit vector orthogonal to it; it exists for every
    straight segment with distinct ends. *)
Theorem C38_normal_of_edge : forall a b,
  (forall curved n, normal_1d curved a b = Some n -> curved = false /\ a <> b /\
     fst n * fst n + snd n * snd n = 1 /\ fst n * (fst b - fst a) + snd n * (snd b - snd a) = 0) /\
  (a <> b -> exists n, normal_1d false a b = Some n).
Proof. intros a b. split; [intros; now apply normal_1d_spec|apply normal_1d_total]. Qed.
Print Assumptions C38_normal_of_edge.
(** C38: the plane of a planar element contains the whole element *)
Theorem C38_plane_contains_element : forall curved verts l x, lpi_make curved verts = Some l -> planar verts ->
  convex_combination verts x -> in_plane (lp_point l) (lp_normal l) x.
Proof. exact element_in_plane. Qed.
Print Assumptions C38_plane_contains_element.
Example C38_nonvacuous : (exists n, normal_2d false ex_square = Some n) /\ (exists n, normal_1d false (0, 0) (3, 4) = Some n /\ fst n = -4/5).
Proof.
  split.
  - apply C38_normal_exists. unfold cross, vsub. cbn [vx vy vz last]. intros [=]; lra.
  - unfold normal_1d. cbn [fst snd]. case Req_bool_spec; intros H; [exfalso; lra|]. eexists. split; [reflexivity|]. cbn [fst].
    replace (- (4 - 0) * - (4 - 0) + (3 - 0) * (3 - 0)) with (5 * 5) by ring. rewrite sqrt_square by lra. field.
Qed.
