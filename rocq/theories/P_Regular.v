(** Property theorems C48 (regular elements) and C57 (every element is covered by a mapper). *)
From Coq Require Import String.
From Verif Require Import M_RealBase M_Grid M_Coord M_NewtonMap M_NewtonBind M_Regular S_Newton S_NewtonM S_NewtonBind S_Regular
  L_RealBase L_Coord L_NewtonMap S_Grid L_Coarse L_Regular L_Regular2 L_Regular3 L_Regular4.

(** ** C48 *)
(** For every element whose map is affine and not degenerate (triangle, parallelogram, tetrahedron, and affine prism,
    hexahedron, pyramid): the closed form accepts p with xi exactly if b + A xi = p and the collapsed coordinates of xi
    are within tolerance of the cube. *)
Theorem C48_accepts_exactly : forall s g A b tol p xi, g_shape g = shape_number s -> is_affine s (g_verts g) A b ->
  det (adim s) A <> 0 -> 0 <= tol ->
  (regular_accepts (adim s) tol g p = Some xi <->
   (adim s = 2%nat -> comp xi 2 = 0) /\ at_affine (adim s) A b xi p /\
   exists eta, acollapse s xi = Some eta /\ in_cube_tol (adim s) tol eta).
Proof. exact accepts_iff. Qed.
Print Assumptions C48_accepts_exactly.
(** Hence every physical point of the element is accepted, with its own reference coordinates; and what is accepted
    with tolerance zero away from collapsed coordinates is in the reference element. *)
Theorem C48_points_of_element_accepted : forall s g A b tol p xi, g_shape g = shape_number s -> is_affine s (g_verts g) A b ->
  det (adim s) A <> 0 -> 0 <= tol -> in_areference s xi -> at_affine (adim s) A b xi p ->
  regular_accepts (adim s) tol g p = Some xi.
Proof.
  intros s g A b tol p xi Hs Ha Hd Ht Hin Hat. apply (accepts_iff s g A b); auto. split; [|split; auto].
  - intros E. destruct s as [|[]]; cbn in E; try discriminate; cbn in Hin; destruct xi as [[? ?] ?]; tauto.
  - apply ref_in_cube; auto.
Qed.
Theorem C48_accepted_is_in_element : forall s g A b p xi, g_shape g = shape_number s -> is_affine s (g_verts g) A b ->
  det (adim s) A <> 0 -> regular_accepts (adim s) 0 g p = Some xi -> aaway s kNekZeroTol xi -> in_areference s xi.
Proof.
  intros s g A b p xi Hs Ha Hd H Hw. apply (accepts_iff s g A b 0 p xi Hs Ha Hd (Rle_refl 0)) in H as (Hz & _ & eta & E & C).
  eapply cube_in_ref; eauto.
Qed.
(** The vertices give the coefficients: the columns of A are half the edges from the first vertex. *)
Theorem C48_coefficients : forall s c A b, is_affine s c A b -> forall a k, (a < adim s)%nat -> (k < adim s)%nat ->
  A a k = (c (vix s k) a - c 0%nat a) / 2.
Proof. intros s c A b H a k Ha Hk. exact (proj1 (affine_cols s c A b H a k Ha Hk)). Qed.
Theorem C48_degenerate_rejected : forall s g A b tol p, g_shape g = shape_number s -> is_affine s (g_verts g) A b ->
  det (adim s) A = 0 -> adim s = 2%nat -> regular_accepts (adim s) tol g p = None.
Proof. intros; eapply degenerate_rejected; eauto. Qed.
(** The host test agrees with the device test. *)
Theorem C48_host_agrees : forall tol g p, 0 <= tol -> contains_point_2d tol g p = regular_accepts 2 tol g p.
Proof. exact host_agrees. Qed.
Print Assumptions C48_host_agrees.
(** The mapper built over the regular elements binds the first accepting candidate, and binds every particle that lies
    in a regular element (and in its box), to an element that accepts it. *)
Theorem C48_mapper_binds_first : forall n tol geoms m q, make_regular_mapper n tol geoms = Some m -> (1 <= n <= 3)%nat ->
  filter g_regular geoms <> [] -> good_geoms n (filter g_regular geoms) -> (n <= length (q_ref q))%nat -> (q_rank q < 0)%Z ->
  exists lk cands q', make_lookup n (map g_box (filter g_regular geoms)) = Some lk /\ kernel_candidates lk (q_pos q) = Some cands /\
    regular_kernel m q = Some q' /\
    binds_first n (filter g_regular geoms) cands (fun g => regular_accepts n tol g (kernel_pos n q)) q q'.
Proof. exact regular_first. Qed.
Theorem C48_particle_in_element_bound : forall n tol geoms m q k g s A b xs, make_regular_mapper n tol geoms = Some m ->
  (2 <= n <= 3)%nat -> good_geoms n (filter g_regular geoms) -> (n <= length (q_ref q))%nat -> (q_rank q < 0)%Z -> 0 <= tol ->
  nth_error (filter g_regular geoms) k = Some g -> adim s = n -> g_shape g = shape_number s ->
  is_affine s (g_verts g) A b -> det n A <> 0 -> in_areference s xs -> at_affine n A b xs (kernel_pos n q) ->
  (forall d, (d < n)%nat -> lo (g_box g) d <= nthR (q_pos q) d < hi (g_box g) d \/
     (nthR (q_pos q) d = hi (g_box g) d /\ hi (g_box g) d = hi (mhbb_bounding_box n (map g_box (filter g_regular geoms))) d)) ->
  exists q' g' xi', regular_kernel m q = Some q' /\ In g' (filter g_regular geoms) /\
    regular_accepts n tol g' (kernel_pos n q) = Some xi' /\ bound_to n (g_id g') (g_rank g') xi' q q'.
Proof. exact regular_in_element. Qed.
Theorem C48_mapper_well_behaved : forall n tol geoms m, make_regular_mapper n tol geoms = Some m -> (1 <= n <= 3)%nat ->
  good_geoms n (filter g_regular geoms) -> good_stage (regular_kernel m).
Proof. exact regular_good. Qed.
Print Assumptions C48_particle_in_element_bound.

(** Non-vacuity: every shape has a non-degenerate affine element: its own reference element. *)
Definition refvertices (s : ashape) : nat -> nat -> R :=
  match s with
  | ATri => fun i a => match i, a with 1%nat, 0%nat => 1 | 2%nat, 1%nat => 1 | _, _ => -1 end
  | AElem e => fun i a => comp (refvert e i) a
  end.
Definition delta (a k : nat) : R := if Nat.eqb a k then 1 else 0.
Example C48_not_vacuous : forall s, is_affine s (refvertices s) delta (fun _ => 0) /\ det (adim s) delta <> 0.
Proof.
  intros s. split.
  - destruct s as [|e].
    + intros [[x y] z] a Ha. unfold Xtri, affine_coeffs, refvertices. cbn [seq fold_right comp]. destruct a as [|[|]]; [..|lia]; unfold delta; simpl Nat.eqb; cbn iota; lra.
    + intros [[x y] z] a Ha Hr. destruct e; cbn [ndims] in *; cbn [regular comp] in Hr; unfold Xmap, refvertices; cbn [nverts seq fold_right shapef refvert nth comp]; unfold bilin, lin; cbn [refvert nth comp]; unfold delta;
      try (assert (1 - z <> 0) by (intros Q; apply Hr; lra)); destruct a as [|[|[|]]]; try lia; cbn [refvert nth comp Nat.eqb]; field; auto.
  - destruct s as [|[]]; cbn [adim ndims det]; unfold delta; simpl Nat.eqb; cbn iota; lra.
Qed.
Example C48_not_vacuous_accept : forall g p, g_shape g = eTriangle -> g_verts g = refvertices ATri -> p = (-1/2, -1/2, 0) ->
  regular_accepts 2 0 g p = Some (-1/2, -1/2, 0).
Proof.
  intros g p Hs Hv ->. apply (C48_points_of_element_accepted ATri g delta (fun _ => 0)); auto.
  - rewrite Hv. apply (proj1 (C48_not_vacuous ATri)).
  - apply (proj2 (C48_not_vacuous ATri)).
  - lra.
  - cbn. lra.
  - intros [|[|]] Ha; [..|simpl in Ha; lia]; unfold affine_coeffs, delta; cbn [adim seq fold_right comp Nat.eqb]; lra.
Qed.

(** ** C57: every element known to the rank is offered to the particles *)
(** 3D: to exactly one of the device mappers, whatever the mesh and the configuration. A particle in the box of an
    element that accepts it is bound after the call; the call fails its assertion exactly if an unbound particle is left. *)
Theorem C57_every_3d_element_covered_once : forall all_generic geoms g, In g geoms -> known3 g ->
  covered_once (offers_3d all_generic geoms) g.
Proof. exact covered_3d. Qed.
Theorem C57_map3d_binds : forall conf geoms host grp map_cell, good_geoms 3 geoms -> Forall known3 geoms ->
  good_stage (host_stage host) -> cell_ok grp map_cell ->
  exists grp', (map_particles_3d conf geoms host grp map_cell = Mapped grp' \/
                ((-1 < map_cell)%Z /\ map_particles_3d conf geoms host grp map_cell = AssertFailed grp')) /\
  (forall i cell, nth_error grp i = Some cell -> cell_selected map_cell i = true -> exists cell', nth_error grp' i = Some cell' /\
    Forall2 (fun q q' => forall g, In g geoms -> in_half_open 3 g q -> (3 <= length (q_ref q))%nat ->
      element_accepts 3 (regular_tol_3d conf) conf (negb (all_generic_newton conf) && g_regular g) g q -> (0 <= q_rank q')%Z) cell cell') /\
  (map_particles_3d conf geoms host grp map_cell = AssertFailed grp' <-> (-1 < map_cell)%Z /\ ~ selected_bound (-1) grp').
Proof. exact map3d_total. Qed.
Print Assumptions C57_map3d_binds.
(** The tolerances and the switch of the theorems above and below, as given in the session. *)
Theorem C57_mapper_settings : forall conf,
  (all_generic_newton conf = true <-> exists z, get_int conf "MapParticles3D/all_generic_newton"%string = Some z /\ z <> 0%Z) /\
  (forall t, get_real conf "MapParticles3DRegular/tol"%string = Some t -> regular_tol_3d conf = t) /\
  (get_real conf "MapParticles3DRegular/tol"%string = None -> regular_tol_3d conf = 0) /\
  (forall t, get_real conf "MapParticles2DRegular/tol"%string = Some t -> regular_tol_2d conf = t) /\
  (get_real conf "MapParticles2DRegular/tol"%string = None -> regular_tol_2d conf = / 10 ^ 12).
Proof. exact mapper_settings. Qed.
Print Assumptions C57_mapper_settings.
(** 2D: the same, except for deformed triangles, which no mapper covers. *)
Theorem C57_2d_elements_covered_once_partial : forall geoms g, In g geoms -> known2 g ->
  (~ deformed_triangle g -> covered_once (offers_2d geoms) g) /\
  (deformed_triangle g -> forall l, In l (offers_2d geoms) -> ~ In g l).
Proof. exact covered_2d. Qed.
Theorem C57_map2d_binds_partial : forall conf geoms grp map_cell, good_geoms 2 geoms -> Forall known2 geoms ->
  cell_ok grp map_cell -> ref_room 2 grp ->
  exists grp', (map_particles_2d conf geoms grp map_cell = Mapped grp' \/ map_particles_2d conf geoms grp map_cell = AssertFailed grp') /\
  rel_group (fun q q' =>
    (q' = q \/ exists g, In g geoms /\ ~ deformed_triangle g /\ q_cell q' = g_id g) /\
    (forall g, In g geoms -> ~ deformed_triangle g -> in_half_open 2 g q -> (2 <= length (q_ref q))%nat ->
       element_accepts 2 (regular_tol_2d conf) conf (g_regular g) g q -> (0 <= q_rank q')%Z)) map_cell grp grp' /\
  (map_particles_2d conf geoms grp map_cell = AssertFailed grp' <-> (-1 < map_cell)%Z /\ ~ selected_bound map_cell grp').
Proof. exact map2d_total. Qed.
(** On a mesh of deformed triangles no particle is ever bound, wherever it is: mapping a cell that has an unbound
    particle fails. *)
Theorem C57_deformed_triangles_refuted : forall conf geoms grp, good_geoms 2 geoms -> Forall deformed_triangle geoms ->
  ref_room 2 grp -> map_particles_2d conf geoms grp (-1) = Mapped grp /\
  forall i cell q, nth_error grp i = Some cell -> In q cell -> (q_rank q < 0)%Z ->
    map_particles_2d conf geoms grp (Z.of_nat i) = AssertFailed grp.
Proof. exact deformed_triangles_lost. Qed.
Print Assumptions C57_deformed_triangles_refuted.
(** Non-vacuity: such a mesh. *)
Example C57_not_vacuous : exists geoms, geoms <> [] /\ good_geoms 2 geoms /\ Forall deformed_triangle geoms.
Proof.
  exists [{| g_box := [(0, 1); (0, 1)]; g_id := 0; g_rank := 0; g_newton := quad_type (refvertices (AElem EQuad)) (1, 1, 1); g_modes := 3;
    g_shape := eTriangle; g_regular := false; g_linear := false; g_verts := refvertices ATri |}].
  split; [discriminate|]. split.
  - split; [repeat constructor; simpl; tauto|]. split; [repeat constructor; simpl; lia|].
    constructor; [|constructor]. split; auto. unfold solid. repeat constructor; simpl; lra.
  - repeat constructor.
Qed.
