(** Property theorems C23, C24. *)
From Verif Require Import M_Coord S_Coord L_Coord.

(** C23, one coordinate: the value is clamped to [-(1+tol), 1+tol] (inf/NaN to 0), in-range values
    are unchanged, and the flag says exactly whether it was out of range. *)
Theorem C23_clamp_single : forall (tol : R) (c : coord), 0 <= tol ->
  let '(c', b) := clamp_loc_coord tol c in
  clamped tol c c' /\ in_range tol c' /\ (b = true <-> ~ in_range tol c) /\ (b = false -> c' = c).
Proof. exact clamp1_spec. Qed.
Print Assumptions C23_clamp_single.
(** C23, two and three coordinates: the flag is right, and nothing changes when it is false; but a
    component is only clamped when all components before it were in range (short circuit). The
    full statement, every component clamped, is refuted below. *)
Theorem C23_clamp_pair_partial : forall (tol : R) (c0 c1 : coord), 0 <= tol ->
  let '(c0', c1', b) := clamp_loc_coords2 tol c0 c1 in
  clamped tol c0 c0' /\ in_range tol c0' /\
  (b = true <-> ~ (in_range tol c0 /\ in_range tol c1)) /\
  (b = false -> c0' = c0 /\ c1' = c1) /\
  (in_range tol c0 -> clamped tol c1 c1' /\ in_range tol c1') /\
  (~ in_range tol c0 -> c1' = c1).
Proof. exact clamp2_spec. Qed.
Print Assumptions C23_clamp_pair_partial.
Theorem C23_clamp_triple_partial : forall (tol : R) (c0 c1 c2 : coord), 0 <= tol ->
  let '(c0', c1', c2', b) := clamp_loc_coords3 tol c0 c1 c2 in
  (b = true <-> ~ (in_range tol c0 /\ in_range tol c1 /\ in_range tol c2)) /\
  (b = false -> c0' = c0 /\ c1' = c1 /\ c2' = c2) /\
  clamped tol c0 c0' /\ in_range tol c0' /\
  (~ in_range tol c0 -> c1' = c1 /\ c2' = c2) /\
  (in_range tol c0 -> clamped tol c1 c1' /\ in_range tol c1') /\
  (in_range tol c0 -> in_range tol c1 -> clamped tol c2 c2' /\ in_range tol c2') /\
  (in_range tol c0 -> ~ in_range tol c1 -> c2' = c2).
Proof. exact clamp3_spec. Qed.
Print Assumptions C23_clamp_triple_partial.
(** The claim for several coordinates is false of the code: after clamping (5, 7) the second
    coordinate is still 7. *)
Theorem C23_clamp_pair_refuted : ~ (forall (tol : R) (c0 c1 : coord), 0 <= tol ->
  let '(c0', c1', b) := clamp_loc_coords2 tol c0 c1 in in_range tol c0' /\ in_range tol c1').
Proof.
  intros H. specialize (H 0 (Fin 5) (Fin 7) ltac:(lra)). unfold clamp_loc_coords2, clamp_loc_coord in H.
  rewrite Rlt_bool_false in H by lra. rewrite Rlt_bool_true in H by lra. cbn in H. lra.
Qed.
Print Assumptions C23_clamp_pair_refuted.
Theorem C23_clamp_triple_refuted : ~ (forall (tol : R) (c0 c1 c2 : coord), 0 <= tol ->
  let '(c0', c1', c2', b) := clamp_loc_coords3 tol c0 c1 c2 in in_range tol c0' /\ in_range tol c1' /\ in_range tol c2').
Proof.
  intros H. specialize (H 0 NonFinite (Fin 1) (Fin 7) ltac:(lra)). cbn in H. lra.
Qed.
Print Assumptions C23_clamp_triple_refuted.
Example C23_nonvacuous : clamp_loc_coord 0 (Fin 3) = (Fin (1 + 0), true) /\ clamp_loc_coord 0 (Fin (1/2)) = (Fin (1/2), false)
  /\ clamp_loc_coords2 0 (Fin (1/2)) (Fin 3) = (Fin (1/2), Fin (1 + 0), true).
Proof.
  unfold clamp_loc_coords2, clamp_loc_coord. repeat split; repeat (rewrite ?Rlt_bool_false by lra; rewrite ?Rlt_bool_true by lra); auto.
Qed.

(** C24, 3D: local->collapsed never divides by zero; on the reference element it lands in the cube
    and going back recovers the point to within the zero tolerance, everywhere including the
    collapsed set; away from the collapsed set the round trip is exact. *)
Theorem C24_collapsed_round_trip_3d : forall (s : shape3) (xi : pt3),
  exists eta, to_collapsed3 s xi = Some eta /\
    (in_ref3 s xi -> in_cube3 eta /\ close3 kNekZeroTol (to_loc3 s eta) xi) /\
    (away3 s kNekZeroTol xi -> to_loc3 s eta = xi).
Proof.
  intros s xi. destruct (to_collapsed3_total s xi) as [eta E]. exists eta. split; [exact E|]. split.
  - intros H. exact (element3 s xi eta H E).
  - intros H. pose proof (roundtrip3 s xi H) as Q. rewrite E in Q. injection Q. auto.
Qed.
Print Assumptions C24_collapsed_round_trip_3d.
Theorem C24_collapsed_round_trip_2d : forall (s : shape2) (xi : pt2),
  exists eta, to_collapsed2 s xi = Some eta /\
    (in_ref2 s xi -> in_cube2 eta /\ close2 kNekZeroTol (to_loc2 s eta) xi) /\
    (away2 s kNekZeroTol xi -> to_loc2 s eta = xi).
Proof.
  intros s xi. destruct (to_collapsed2_total s xi) as [eta E]. exists eta. split; [exact E|]. split.
  - intros H. exact (element2 s xi eta H E).
  - intros H. pose proof (roundtrip2 s xi H) as Q. rewrite E in Q. injection Q. auto.
Qed.
Print Assumptions C24_collapsed_round_trip_2d.
(** C24: collapsed->local maps the cube into the reference element and, away from the collapsed
    set, mapping back is exact. *)
Theorem C24_inverse_direction :
  (forall (s : shape3) (eta : pt3), in_cube3 eta -> in_ref3 s (to_loc3 s eta)) /\
  (forall (s : shape3) (eta : pt3), away3 s kNekZeroTol (to_loc3 s eta) -> to_collapsed3 s (to_loc3 s eta) = Some eta) /\
  (forall (s : shape2) (eta : pt2), in_cube2 eta -> in_ref2 s (to_loc2 s eta)) /\
  (forall (s : shape2) (eta : pt2), away2 s kNekZeroTol (to_loc2 s eta) -> to_collapsed2 s (to_loc2 s eta) = Some eta).
Proof. exact (conj cube_to_ref3 (conj roundtrip3' (conj cube_to_ref2 roundtrip2'))). Qed.
Print Assumptions C24_inverse_direction.
(** C24: the dispatch on the shape number equals the per-shape functions. *)
Theorem C24_dispatch :
  (forall (s : shape3) (x : pt3), generic_to_collapsed_3d (shape_int3 s) x = to_collapsed3 s x /\
                                  generic_to_loc_3d (shape_int3 s) x = to_loc3 s x) /\
  (forall (s : shape2) (x : pt2), generic_to_collapsed_2d (shape_int2 s) x = to_collapsed2 s x /\
                                  generic_to_loc_2d (shape_int2 s) x = to_loc2 s x).
Proof. exact (conj generic3 generic2). Qed.
Print Assumptions C24_dispatch.
(** A point of the tetrahedron with non-trivial collapsed image. *)
Example C24_nonvacuous : in_ref3 Tet (-1/2, -3/4, -1/4) /\ away3 Tet kNekZeroTol (-1/2, -3/4, -1/4) /\
  to_collapsed3 Tet (-1/2, -3/4, -1/4) = Some (0, -3/5, -1/4).
Proof.
  pose proof tol_lt1 as T. pose proof tol_pos. split; [cbn; lra|]. split; [cbn; lra|]. cbn.
  rewrite !guard_far by lra. rewrite !rdiv_ok by lra. cbn. f_equal. apply pair3; field.
Qed.
