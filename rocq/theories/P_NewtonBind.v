(** Property theorems C46 (Newton inversion), C47 (binding particles to elements), C49 (configuration). *)
From Coq Require Import String.
From Verif Require Import M_RealBase M_Grid M_Coord M_NewtonGen M_NewtonMap S_Newton S_NewtonM L_RealBase L_Coord L_Newton
  L_Newton2 M_NewtonBind S_NewtonBind L_NewtonBind L_NewtonBind2 L_Coarse L_NewtonMap S_Grid.

Import List. Open Scope string_scope. Open Scope list_scope. Open Scope R_scope.
(** ** C46 *)
(** The inversion reports success with xi exactly if xi is the first Newton iterate with residual within the tolerance,
    within the iteration limit, no earlier iterate having left [-15,15]^3. *)
Theorem C46_success_exactly : forall nt p xi_in max tol override xi,
  x_inverse_kernel nt p xi_in max tol override = (Some xi, true) <->
  exists start k, (if override then Some xi_in else nt_init nt p) = Some start /\
    (k <= Z.to_nat max)%nat /\ first_within nt p start tol k xi.
Proof. exact kernel_exact. Qed.
Print Assumptions C46_success_exactly.

(** A linear element accepts a point only with coordinates that uncollapse from the cube enlarged by the containment
    tolerance and at which every component of X(xi) - p is within tolerance in the scaled norm
    (or the pyramid's apex special case applies). *)
Theorem C46_accepted_is_close : forall e c s p xi_in max tol ctol override xi,
  (e = EHex -> 0 <= comp s 0) -> 0 <= ctol ->
  try_cell (linear_type e c s) p xi_in max tol ctol override = Some xi ->
  (exists eta, xi = uncollapse e eta /\ forall a, (a < 3)%nat -> Rabs (comp eta a) <= 1 + ctol) /\
  ((forall a, (a < ndims e)%nat -> Rabs (Xmap e c xi a - comp p a) * scale_of e s a <= tol)
   \/ (apex_target e c p /\ apex_ref xi)).
Proof. exact try_cell_linear. Qed.
Theorem C46_x_inverse_is_close : forall e c s n grid p tol ctol xi,
  (e = EHex -> 0 <= comp s 0) -> 0 <= ctol ->
  x_inverse (linear_type e c s) n grid p tol ctol = Some xi ->
  (exists eta, xi = uncollapse e eta /\ forall a, (a < 3)%nat -> Rabs (comp eta a) <= 1 + ctol) /\
  ((forall a, (a < ndims e)%nat -> Rabs (Xmap e c xi a - comp p a) * scale_of e s a <= tol)
   \/ (apex_target e c p /\ apex_ref xi)).
Proof. exact x_inverse_sound. Qed.
(** With a zero containment tolerance the accepted coordinates are in the reference element. *)
Theorem C46_zero_tolerance_in_element : forall e c s p xi_in max tol override xi,
  (e = EHex -> 0 <= comp s 0) ->
  try_cell (linear_type e c s) p xi_in max tol 0 override = Some xi -> in_element e xi.
Proof.
  intros e c s p x0 mx tol ov xi Hs H. destruct (try_cell_linear _ _ _ _ _ _ _ _ _ _ Hs (Rle_refl 0) H) as [(eta & -> & B) _].
  apply uncollapse_in; intros _ a Ha; specialize (B a ltac:(lia)); lra.
Qed.
(** The scaling by the Jacobian is the reciprocal of the absolute mean Jacobian of the element's points. *)
Theorem C46_jacobian_scaling : forall jac, jac <> [] ->
  mean_jac jac * INR (length jac) = fold_right Rplus 0 jac /\
  (forall J, Forall (fun j => j = J) jac -> mean_jac jac = J) /\
  (mean_jac jac <> 0 -> exists s, exit_scaling_jacobian jac = Some s /\ 0 < s /\ s * Rabs (mean_jac jac) = 1).
Proof. exact jacobian_scaling. Qed.
Print Assumptions C46_jacobian_scaling.
(** What the scaled norm means when the mean Jacobian is positive: distance relative to the bounding box's largest
    absolute coordinate times the mean Jacobian. *)
Theorem C46_exit_scaling : forall jac lo hi, 0 < mean_jac jac -> (lo <> 0 \/ hi <> 0) ->
  exists s, exit_scaling_dir jac lo hi = Some s /\ 0 < s /\
    forall d tol, Rabs d * s <= tol <-> Rabs d <= tol * (Rmax (Rabs lo) (Rabs hi) * mean_jac jac).
Proof. exact exit_scaling_pos. Qed.
(** The full property says acceptance implies a small distance. It fails when the scalings are not positive (mean
    Jacobian negative): every regular point then has residual at most zero, whatever the target. *)
Theorem C46_negative_jacobian_refuted :
  (forall e c s xi p fin, e <> EHex -> regular e xi -> (forall a, (a < 3)%nat -> comp s a <= 0) ->
     exists r f, nt_resid (linear_type e c s) xi p fin = Some (r, f) /\ r <= 0) /\
  (forall jac lo hi, mean_jac jac < 0 -> (lo <> 0 \/ hi <> 0) ->
     exists s, exit_scaling_dir jac lo hi = Some s /\ s < 0).
Proof. split. exact nonpos_scale_accepts. exact exit_scaling_neg. Qed.
Print Assumptions C46_negative_jacobian_refuted.

(** Completeness: a converged iterate inside the element is accepted; and on an affine element every point of the
    element (away from collapsed coordinates) is found, from any start grid. *)
Theorem C46_converged_inside_accepted : forall e c s p xi_in max tol ctol override xi, 0 <= ctol ->
  x_inverse_kernel (linear_type e c s) p xi_in max tol override = (Some xi, true) ->
  in_element e xi -> away e kNekZeroTol xi ->
  try_cell (linear_type e c s) p xi_in max tol ctol override = Some xi.
Proof. exact try_cell_complete. Qed.
Theorem C46_affine_point_found : forall e c A b s xs p grid tol ctol, e <> EPyr -> affine_map e c A b ->
  det (ndims e) A <> 0 -> in_element e xs -> away e kNekZeroTol xs ->
  (forall a, (a < ndims e)%nat -> comp p a = Xmap e c xs a) -> 0 <= tol -> 0 <= ctol ->
  exists xi, x_inverse (linear_type e c s) (ndims e) grid p tol ctol = Some xi /\ (xi = xs \/ xi = refvert e 0).
Proof. exact affine_x_inverse. Qed.
Print Assumptions C46_affine_point_found.

(** Non-vacuity: the reference tetrahedron and an interior point of it. *)
Example C46_not_vacuous :
  exists xi, x_inverse (linear_type ETet (fun i a => comp (refvert ETet i) a) (1, 1, 1)) 3 4
      (-1/2, -1/2, -1/2) (/ 100000000) 0 = Some xi /\ (xi = (-1/2, -1/2, -1/2) \/ xi = refvert ETet 0) /\ in_element ETet xi.
Proof.
  set (c := fun i a => comp (refvert ETet i) a).
  destruct (affine_x_inverse ETet c (fun a k => (c (S k) a - c 0%nat a) / 2) (fun a => (c 1%nat a + c 2%nat a + c 3%nat a - c 0%nat a) / 2) (1,1,1) (-1/2,-1/2,-1/2) (-1/2,-1/2,-1/2) 4 (/100000000) 0) as (xi & E & H).
  - discriminate.
  - apply tet_affine.
  - unfold c; cbn [ndims det comp refvert nth]. lra.
  - cbn [in_element in_ref3]. repeat split; lra.
  - pose proof tol_lt1. cbn [away away3]. repeat split; try lra.
  - intros a Ha. unfold c. cbn [ndims] in Ha. destruct a as [|[|[|]]]; [..|lia]; unfold Xmap; cbn [nverts seq fold_right shapef comp refvert nth]; lra.
  - lra. - lra.
  - exists xi. split; [exact E|]. split; [exact H|]. destruct H as [->| ->]; cbn [in_element in_ref3 refvert nth]; repeat split; lra.
Qed.

(** ** C47 *)
(** For a mesh with distinct ids, ranks and solid boxes the mapper can be built; both passes bind an unbound particle to
    the first candidate of the lookup (C22: ordered by decreasing overlap) that accepts it, or leave it as it is. *)
Theorem C47_mapper_exists : forall n conf geoms, (0 < n)%nat -> good_geoms n geoms ->
  exists m, make_newton_mapper n conf geoms = Some m.
Proof. exact mapper_exists. Qed.
Theorem C47_initial_binds_first : forall n conf geoms m q, make_newton_mapper n conf geoms = Some m ->
  (1 <= n <= 3)%nat -> geoms <> [] -> good_geoms n geoms -> (n <= length (q_ref q))%nat -> (q_rank q < 0)%Z ->
  exists lk cands q', make_lookup n (map g_box geoms) = Some lk /\ kernel_candidates lk (q_pos q) = Some cands /\
    initial_kernel m q = Some q' /\
    binds_first n geoms cands (accepts_initial (read_config conf) (kernel_pos n q)) q q'.
Proof. exact initial_first. Qed.
Theorem C47_final_binds_first : forall n conf geoms m q, make_newton_mapper n conf geoms = Some m ->
  (1 <= n <= 3)%nat -> geoms <> [] -> good_geoms n geoms -> (n <= length (q_ref q))%nat -> (q_rank q < 0)%Z ->
  exists lk cands q', make_lookup n (map g_box geoms) = Some lk /\ kernel_candidates lk (q_pos q) = Some cands /\
    final_kernel m q = Some q' /\
    binds_first n geoms cands
      (accepts_final (read_config conf) n
         (grid_size_of (read_config conf) (fold_left Z.max (map g_modes geoms) 0%Z)) (kernel_pos n q)) q q'.
Proof. exact final_first. Qed.
Print Assumptions C47_final_binds_first.
(** The point the kernels look for is the particle's position in the n dimensions of the mesh, zero in the others. *)
Theorem C47_position : forall n q k, (1 <= n <= 3)%nat -> (k < 3)%nat -> comp (kernel_pos n q) k = if Nat.ltb k n then nthR (q_pos q) k else 0.
Proof. intros n q k Hn Hk. destruct n as [|[|[|[|]]]]; [lia|..|lia]; destruct k as [|[|[|]]]; try lia; reflexivity. Qed.
Print Assumptions C47_position.
(** A bound particle is left alone, a particle that changes becomes bound and is not moved; without geometries nothing
    happens. *)
Theorem C47_passes_well_behaved : forall n conf geoms m, make_newton_mapper n conf geoms = Some m ->
  (1 <= n <= 3)%nat -> good_geoms n geoms -> good_stage (initial_kernel m) /\ good_stage (final_kernel m).
Proof. intros n conf geoms m H Hn Hg. split; intros q; eapply good_newton; eauto. Qed.
Theorem C47_bound_untouched : forall m q, (0 <= q_rank q)%Z ->
  initial_kernel m q = Some q /\ final_kernel m q = Some q.
Proof. exact bound_untouched. Qed.
Theorem C47_no_geometries : forall n conf m q, make_newton_mapper n conf [] = Some m ->
  initial_kernel m q = Some q /\ final_kernel m q = Some q.
Proof. intros n conf m q H. injection H as <-. split; reflexivity. Qed.
(** A particle inside the box of an element that accepts it (half-open box, closed at the end of the domain) does get
    bound, to an element that accepts it. *)
Theorem C47_accepted_in_box_is_bound : forall n conf geoms m q k g xi, make_newton_mapper n conf geoms = Some m ->
  (1 <= n <= 3)%nat -> good_geoms n geoms -> (n <= length (q_ref q))%nat -> (q_rank q < 0)%Z ->
  nth_error geoms k = Some g ->
  (forall d, (d < n)%nat -> lo (g_box g) d <= nthR (q_pos q) d < hi (g_box g) d \/
     (nthR (q_pos q) d = hi (g_box g) d /\ hi (g_box g) d = hi (mhbb_bounding_box n (map g_box geoms)) d)) ->
  accepts_initial (read_config conf) (kernel_pos n q) g = Some xi ->
  exists q' g' xi', initial_kernel m q = Some q' /\ In g' geoms /\
    accepts_initial (read_config conf) (kernel_pos n q) g' = Some xi' /\ bound_to n (g_id g') (g_rank g') xi' q q'.
Proof. exact accepted_bound. Qed.
Print Assumptions C47_accepted_in_box_is_bound.
(** The host mapper: first local, then first remote candidate. *)
Theorem C47_host_binds_first : forall n locals remotes q, (n <= 3)%nat -> (n <= length (q_ref q))%nat ->
  ((0 <= q_rank q)%Z -> host_kernel n locals remotes q = q) /\
  ((q_rank q < 0)%Z ->
    (exists l1 h l2 xi, locals (q_pos q) ++ remotes = l1 ++ h :: l2 /\ h_contains h (q_pos q) = Some xi /\
       (forall h', In h' l1 -> h_contains h' (q_pos q) = None) /\
       bound_to n (h_id h) (h_rank h) xi q (host_kernel n locals remotes q)) \/
    ((forall h, In h (locals (q_pos q) ++ remotes) -> h_contains h (q_pos q) = None) /\
       host_kernel n locals remotes q = q)).
Proof. exact host_first. Qed.
(** The pipelines: every particle of the selected cells is decided by the first pass that binds it, other cells are not
    touched. On a single cell the call ends in a failed assertion exactly if a particle of it is left unbound (2D);
    with map_cell = -1 unmatched particles are left unbound silently. *)
Theorem C47_map2d : forall regular newton grp map_cell,
  (forall k, regular = Some k -> good_stage k) ->
  (forall m, newton = Some m -> good_stage (initial_kernel m) /\ good_stage (final_kernel m)) -> cell_ok grp map_cell ->
  exists grp', rel_group (decided_by (opt_list regular ++ newton_stages (opt_list newton))) map_cell grp grp' /\
    ((map2d regular newton grp map_cell = Mapped grp' /\ ((map_cell <= -1)%Z \/ selected_bound map_cell grp')) \/
     (map2d regular newton grp map_cell = AssertFailed grp' /\ (-1 < map_cell)%Z /\ ~ selected_bound map_cell grp')).
Proof. exact map2d_spec. Qed.
(** 3D: as 2D, then, if a particle of the cell is left, the host mapper on the whole group; the assertion is about the
    whole group. *)
Theorem C47_map3d : forall regular mappers host grp map_cell,
  (forall k, regular = Some k -> good_stage k) ->
  (forall m, In m mappers -> good_stage (initial_kernel m) /\ good_stage (final_kernel m)) ->
  good_stage (host_stage host) -> cell_ok grp map_cell ->
  exists grp2, rel_group (decided_by (opt_list regular ++ newton_stages mappers)) map_cell grp grp2 /\
  exists grp3, (grp3 = grp2 \/ rel_group (decided_by [host_stage host]) (-1) grp2 grp3) /\
    ((map3d regular mappers host grp map_cell = Mapped grp3 /\
        ((map_cell <= -1)%Z /\ grp3 = grp2 \/ selected_bound (-1) grp3)) \/
     (map3d regular mappers host grp map_cell = AssertFailed grp3 /\ (-1 < map_cell)%Z /\ ~ selected_bound (-1) grp3)) /\
    ((-1 < map_cell)%Z -> ~ selected_bound map_cell grp2 -> rel_group (decided_by [host_stage host]) (-1) grp2 grp3).
Proof. exact map3d_spec. Qed.
Print Assumptions C47_map3d.
(** Non-vacuity: a mapper over one tetrahedron, and a particle its first pass binds. *)
Definition one_tet : mgeom := {| g_box := [(-1, 1); (-1, 1); (-1, 1)]; g_id := 7; g_rank := 2;
  g_newton := tet_type (fun i a => comp (refvert ETet i) a) (1, 1, 1); g_modes := 2;
  g_shape := eTetrahedron; g_regular := false; g_linear := true; g_verts := fun i a => comp (refvert ETet i) a |}.
Definition no_conf : store := {| get_real := fun _ => None; get_int := fun _ => None |}.
Definition some_particle : particle := {| q_pos := [-1/2; -1/2; -1/2]; q_cell := 0; q_rank := -1; q_ref := [0; 0; 0] |}.
Lemma one_tet_good : good_geoms 3 [one_tet].
Proof.
  unfold good_geoms. cbn [map g_id g_box one_tet]. split; [repeat constructor; simpl; tauto|]. split.
  - constructor; [simpl; lia|constructor].
  - constructor; [|constructor]. split; auto. unfold solid. repeat constructor; simpl; lra.
Qed.
Example C47_not_vacuous : exists m q', make_newton_mapper 3 no_conf [one_tet] = Some m /\
  final_kernel m some_particle = Some q' /\ q_cell q' = 7%Z /\ q_rank q' = 2%Z.
Proof.
  destruct (mapper_exists 3 no_conf [one_tet] ltac:(lia) one_tet_good) as (m & E). exists m.
  destruct (final_first 3 no_conf [one_tet] m some_particle E ltac:(lia) ltac:(discriminate) one_tet_good ltac:(simpl; lia) ltac:(simpl; lia))
    as (lk & cands & q' & El & Ec & Ek & B).
  exists q'. split; auto. split; auto. destruct B as [(l1 & k & l2 & g & xi & _ & Hg & _ & _ & Hb)|[N _]].
  - destruct k as [|k]; [|destruct k; discriminate]. injection Hg as <-. destruct Hb as (_ & A & B & _). auto.
  - exfalso. destruct (coarse_half_open 3 (map g_box [one_tet]) lk El ltac:(lia)) with (k := 0%nat) (g := g_box one_tet) (p := q_pos some_particle)
      as (l & E1 & E2).
    + exact (proj2 (proj2 one_tet_good)).
    + reflexivity.
    + intros d Hd. left. unfold lo, hi, nthR. destruct d as [|[|[|]]]; [..|lia]; simpl; lra.
    + rewrite Ec in E1. injection E1 as <-. specialize (N 0%nat one_tet E2 eq_refl).
      set (c := fun i a => comp (refvert ETet i) a).
      unfold accepts_final in N. apply (proj1 (find_first_none _ _)) with (x := (-1,-1,-1)) in N.
      2:{ destruct (first_start 3 (grid_size_of (read_config no_conf) (fold_left Z.max (map g_modes [one_tet]) 0%Z))) as (r & ->). left; auto. }
      assert (T10 : 0 <= / 10 ^ 8) by (left; apply Rinv_0_lt_compat, pow_lt; lra).
      destruct (affine_found ETet c (fun a k => (c (S k) a - c 0%nat a) / 2) (fun a => (c 1%nat a + c 2%nat a + c 3%nat a - c 0%nat a) / 2) (1,1,1) (-1/2,-1/2,-1/2) (kernel_pos 3 some_particle) (-1,-1,-1)
         (/ 10 ^ 8) (/ 10 ^ 8) 51) as (xi & Ex & _); auto.
      * discriminate.
      * apply tet_affine.
      * unfold c; cbn [ndims det comp refvert nth]. lra.
      * cbn [in_element in_ref3]. repeat split; lra.
      * pose proof tol_lt1. cbn [away away3]. repeat split; try lra.
      * intros a Ha. unfold c. cbn [ndims] in Ha. destruct a as [|[|[|]]]; [..|lia]; unfold Xmap, kernel_pos, nthR; cbn [nverts seq fold_right shapef comp refvert nth Nat.ltb Nat.leb q_pos some_particle]; lra.
      * lia.
      * left. apply first_start_in. discriminate.
      * change (linear_type ETet c (1, 1, 1)) with (g_newton one_tet) in Ex.
        match type of N with ?l = None => match type of Ex with ?r = Some _ => assert (Q : l = r) by reflexivity end end.
        congruence.
Qed.

(** ** C49 *)
(** Every key but the last two sets the quantity it names; the documented default applies when it is absent. *)
Definition unset (c : store) (key : string) : Prop := get_real c key = None /\ get_int c key = None.
Theorem C49_keys_partial : forall c,
  (forall x, get_real c "MapParticlesNewton/newton_tol" = Some x -> newton_tol (read_config c) = x) /\
  (forall n, get_int c "MapParticlesNewton/newton_max_iteration" = Some n -> newton_max_iteration (read_config c) = n) /\
  (forall x, get_real c "MapParticlesNewton/contained_tol" = Some x -> contained_tol (read_config c) = x) /\
  (forall x, get_real c "MapParticlesNewton/num_modes_factor" = Some x -> num_modes_factor (read_config c) = x) /\
  (forall n, get_int c "MapParticlesNewton/grid_size_min" = Some n -> grid_size_min (read_config c) = n) /\
  (unset c "MapParticlesNewton/newton_tol" -> newton_tol (read_config c) = / 10 ^ 8) /\
  (unset c "MapParticlesNewton/newton_max_iteration" -> newton_max_iteration (read_config c) = 51%Z) /\
  (unset c "MapParticlesNewton/contained_tol" -> contained_tol (read_config c) = newton_tol (read_config c)) /\
  (unset c "MapParticlesNewton/num_modes_factor" -> num_modes_factor (read_config c) = 1) /\
  (unset c "MapParticlesNewton/grid_size_min" -> grid_size_min (read_config c) = 2%Z /\ grid_size_max (read_config c) = 4%Z).
Proof. intros c. unfold read_config, unset. cbn [newton_tol newton_max_iteration contained_tol num_modes_factor grid_size_min grid_size_max].
  repeat split; intros; match goal with H : _ = Some _ |- _ => rewrite H | H : _ /\ _ |- _ => destruct H as [H1 H2]; rewrite ?H1, ?H2 end; reflexivity. Qed.
Print Assumptions C49_keys_partial.
(** The start grid has the size the configuration asks for, clamped to [min, max]. *)
Theorem C49_start_grid : forall c modes n, (grid_size_min c <= grid_size_max c)%Z ->
  let g := grid_size_of c modes in
  (grid_size_min c <= g <= grid_size_max c)%Z /\
  ((grid_size_min c <= Ztrunc (IZR modes * num_modes_factor c) <= grid_size_max c)%Z -> g = Ztrunc (IZR modes * num_modes_factor c)) /\
  Z.of_nat (length (grid_starts n g)) =
    ((Z.max (g - 1) 1 + 1) * (if Nat.ltb 1 n then Z.max (g - 1) 1 + 1 else 2) * (if Nat.ltb 2 n then Z.max (g - 1) 1 + 1 else 2))%Z.
Proof. exact start_grid. Qed.
(** The starting points are the points of the regular grid over the reference cube (dimensions beyond the mesh's: two points). *)
Theorem C49_start_points : forall n g a b c,
  let G := Z.max (g - 1) 1 in
  In (a, b, c) (grid_starts n g) <-> exists i j k, (0 <= i <= G)%Z /\ (0 <= j <= (if Nat.ltb 1 n then G else 1))%Z /\ (0 <= k <= (if Nat.ltb 2 n then G else 1))%Z /\
    a = -1 + 2 * (IZR i / IZR G) /\ b = -1 + 2 * (IZR j / IZR G) /\ c = -1 + 2 * (IZR k / IZR G).
Proof. exact start_points. Qed.
Theorem C49_starts_in_cube : forall n g a b c, In (a, b, c) (grid_starts n g) -> -1 <= a <= 1 /\ -1 <= b <= 1 /\ -1 <= c <= 1.
Proof. exact starts_in_cube. Qed.
Print Assumptions C49_starts_in_cube.
(** The key that names the maximum is not read: changing it never changes the configuration; and asking for a minimum
    of n also sets the maximum to n. *)
Theorem C49_grid_size_max_refuted : forall c v,
  let c' := {| get_real := get_real c; get_int := fun k => if String.eqb k "MapParticlesNewton/grid_size_max" then Some v else get_int c k |} in
  read_config c' = read_config c /\
  (forall n, get_int c "MapParticlesNewton/grid_size_min" = Some n ->
     grid_size_max (read_config c) = n /\ forall modes, grid_size_of (read_config c) modes = n).
Proof. exact grid_size_max_ignored. Qed.
Print Assumptions C49_grid_size_max_refuted.
Example C49_not_vacuous : exists c, get_int c "MapParticlesNewton/grid_size_min" = Some 3%Z /\
  get_int c "MapParticlesNewton/grid_size_max" = Some 9%Z /\ grid_size_max (read_config c) = 3%Z.
Proof.
  exists {| get_real := fun _ => None; get_int := fun k => if String.eqb k "MapParticlesNewton/grid_size_min" then Some 3%Z
    else if String.eqb k "MapParticlesNewton/grid_size_max" then Some 9%Z else None |}. repeat split; reflexivity.
Qed.
