(** C45: the Newton kernels of the linear elements. *)
From Verif Require Import M_RealBase M_Coord M_NewtonGen M_NewtonMap S_Newton S_NewtonM L_RealBase L_Coord L_Newton L_Newton2.

(** The vector returned by the residual is X(xi) - p. *)
Theorem C45_residual_is_X_minus_p : forall e c s xi p fin,
  regular e xi -> ~ (apex_target e c p /\ apex_ref xi) ->
  exists r f, nt_resid (linear_type e c s) xi p fin = Some (r, f) /\
    forall a, (a < ndims e)%nat -> comp f a = Xmap e c xi a - comp p a.
Proof. exact resid_X. Qed.
Print Assumptions C45_residual_is_X_minus_p.

(** The map object's X is the specified map ... *)
Theorem C45_x_is_X : forall e c s xi, regular e xi -> ~ (apex_target e c (0, 0, 0) /\ apex_ref xi) ->
  exists x, x_map (linear_type e c s) xi = Some x /\ forall a, (a < ndims e)%nat -> comp x a = Xmap e c xi a.
Proof. exact x_map_X. Qed.
(** ... which takes reference vertices to element vertices ... *)
Theorem C45_X_maps_reference_vertices : forall e c i a, (i < nverts e)%nat -> ~ (e = EPyr /\ i = 4%nat) ->
  Xmap e c (refvert e i) a = c i a.
Proof. exact X_vertices. Qed.
(** ... and, for the pyramid, is in collapsed coordinates the base quadrilateral shrunk linearly onto the apex. *)
Theorem C45_pyramid_shrinks_base_to_apex : forall c eta a, comp eta 2 <> 1 ->
  Xmap EPyr c (pyr_to_loc eta) a = (1 - comp eta 2) / 2 * Xmap EQuad c eta a + (1 + comp eta 2) / 2 * c 4%nat a.
Proof. exact pyr_collapsed. Qed.
(** But X evaluated by the code at the pyramid's apex reference vertex is not finite (unless the apex is at the
    origin): the English claim fails there. *)
Theorem C45_x_at_pyramid_apex_refuted : forall c s, ~ apex_target EPyr c (0, 0, 0) ->
  x_map (linear_type EPyr c s) (refvert EPyr 4) = None.
Proof. exact x_apex. Qed.
Print Assumptions C45_x_at_pyramid_apex_refuted.

(** The Jacobian exists, and the step solves J (xin - xi) = -f with it; a singular J never yields a finite step. *)
Theorem C45_jacobian_exists : forall e c xi, regular e xi -> exists J, is_jacobian (ndims e) (Xmap e c) xi J.
Proof. intros e c xi H. exists (Jx e c xi). apply Jx_jac. exact H. Qed.
Theorem C45_step_is_newton : forall e c s xi p f J,
  regular e xi -> ~ apex_target e c p -> is_jacobian (ndims e) (Xmap e c) xi J ->
  (det (ndims e) J <> 0 ->
     exists xin, nt_step (linear_type e c s) xi p f = Some xin /\ newton_update (ndims e) J xi f xin)
  /\ (det (ndims e) J = 0 -> nt_step (linear_type e c s) xi p f = None).
Proof. exact step_newton. Qed.
Print Assumptions C45_step_is_newton.

(** An affine element is inverted by one step from any starting point; every tetrahedron is affine. *)
Theorem C45_affine_exact_in_one_step : forall e c A b s xi p fin,
  e <> EPyr -> affine_map e c A b -> det (ndims e) A <> 0 ->
  exists r f xin, nt_resid (linear_type e c s) xi p fin = Some (r, f) /\
    nt_step (linear_type e c s) xi p f = Some xin /\
    forall a, (a < ndims e)%nat -> Xmap e c xin a = comp p a.
Proof. exact affine_one_step. Qed.
Theorem C45_tet_is_affine : forall c, exists A b, affine_map ETet c A b /\
  forall a k, A a k = (c (S k) a - c 0%nat a) / 2.
Proof. intros c. eexists. eexists. split. apply tet_affine. reflexivity. Qed.

(** The pyramid's apex: a target within 1e-12 of it starts, and is accepted with residual zero, at the apex. *)
Theorem C45_pyramid_apex_accepted : forall c s p fin, apex_target EPyr c p ->
  nt_init (linear_type EPyr c s) p = Some (refvert EPyr 4) /\
  nt_resid (linear_type EPyr c s) (refvert EPyr 4) p fin = Some (0, fin).
Proof. exact apex_accepts. Qed.

(** Quadrilateral embedded in 3D, with w the cross product (v1 - v0) x (v3 - v0). *)
Theorem C45_embedded_quad_residual : forall c s xi p fin,
  exists r f, nt_resid (quademb_type c s) xi p fin = Some (r, f) /\
    (forall a, (a < 3)%nat -> comp f a = Xquad3 c (quademb_normal c) xi a - comp p a) /\
    (forall a, (a < 3)%nat -> Rabs (comp f a) * comp s a <= r) /\ (exists a, (a < 3)%nat /\ r = Rabs (comp f a) * comp s a).
Proof. exact quademb_resid. Qed.
Theorem C45_embedded_quad_normal : forall c, let '(n0, n1, n2) := quademb_normal c in
  (forall i, i = 1%nat \/ i = 3%nat -> n0 * (c i 0%nat - c 0%nat 0%nat) + n1 * (c i 1%nat - c 0%nat 1%nat) + n2 * (c i 2%nat - c 0%nat 2%nat) = 0) /\
  n0 * n0 + n1 * n1 + n2 * n2 =
    let d i j := (c i 0%nat - c 0%nat 0%nat) * (c j 0%nat - c 0%nat 0%nat) + (c i 1%nat - c 0%nat 1%nat) * (c j 1%nat - c 0%nat 1%nat) + (c i 2%nat - c 0%nat 2%nat) * (c j 2%nat - c 0%nat 2%nat) in
    d 1%nat 1%nat * d 3%nat 3%nat - d 1%nat 3%nat * d 1%nat 3%nat.
Proof. intros c. unfold quademb_normal, mcross, co. split; [intros i [-> | ->]; ring|cbv zeta; ring]. Qed.
Theorem C45_embedded_quad_step : forall c s xi p f J, is_jacobian 3 (Xquad3 c (quademb_normal c)) xi J ->
  (det 3 J <> 0 -> exists xin, nt_step (quademb_type c s) xi p f = Some xin /\ newton_update 3 J xi f xin)
  /\ (det 3 J = 0 -> nt_step (quademb_type c s) xi p f = None).
Proof. exact quademb_step_newton. Qed.
Print Assumptions C45_embedded_quad_step.

(** Triangle embedded in 3D: the start point is already the orthogonal projection onto the triangle's plane, exact
    for points of the plane; a degenerate triangle gives no finite answer. *)
Theorem C45_embedded_triangle_residual : forall c s xi p fin,
  exists r f, nt_resid (triemb_type c s) xi p fin = Some (r, f) /\
    (forall a, (a < 3)%nat -> comp f a = Xtri c xi a - comp p a) /\
    (forall a, (a < 3)%nat -> Rabs (comp f a) * comp s a <= r) /\ (exists a, (a < 3)%nat /\ r = Rabs (comp f a) * comp s a).
Proof. exact triemb_resid. Qed.
Theorem C45_embedded_triangle_projects : forall c s p, noncollinear c ->
  exists xi, nt_init (triemb_type c s) p = Some xi /\ nt_step (triemb_type c s) xi p = (fun _ => Some xi) /\
    comp xi 2 = 0 /\
    dot3 (fun a => Xtri c xi a - comp p a) (edge c 1) = 0 /\ dot3 (fun a => Xtri c xi a - comp p a) (edge c 2) = 0.
Proof. exact triemb_project. Qed.
Theorem C45_embedded_triangle_exact_in_plane : forall c s p, noncollinear c ->
  (exists xi', forall a, (a < 3)%nat -> Xtri c xi' a = comp p a) ->
  exists xi, nt_init (triemb_type c s) p = Some xi /\ forall a, (a < 3)%nat -> Xtri c xi a = comp p a.
Proof. exact triemb_inplane. Qed.
Theorem C45_embedded_triangle_degenerate : forall c s p, ~ noncollinear c -> nt_init (triemb_type c s) p = None.
Proof. exact triemb_degenerate. Qed.
Print Assumptions C45_embedded_triangle_exact_in_plane.

(** Non-vacuity: a distorted (non-affine, except for the tetrahedron) element of each kind, a point where its
    Jacobian is invertible, and a target that is not the apex. *)
Definition distorted (e : elem) : nat -> nat -> R :=
  fun i a => comp (refvert e i) a + match i, a with 2%nat, 0%nat => 1 | _, _ => 0 end.
Example C45_not_vacuous : forall e,
  regular e (0, 0, 0) /\ ~ apex_target e (distorted e) (1/10, 0, 0) /\
  is_jacobian (ndims e) (Xmap e (distorted e)) (0, 0, 0) (Jx e (distorted e) (0, 0, 0)) /\
  det (ndims e) (Jx e (distorted e) (0, 0, 0)) <> 0.
Proof.
  intros e. assert (Hr : regular e (0, 0, 0)) by (destruct e; simpl; auto; lra).
  split; [exact Hr|]. split.
  - intros [-> H]. specialize (H 1%nat ltac:(lia)). unfold distorted in H. cbn [comp refvert nth] in H.
    rewrite Rabs_left in H by lra. pose proof tol_lt1. lra.
  - split. { apply Jx_jac; exact Hr. }
    destruct e; cbn [ndims det]; unfold Jx, distorted; expand_shape; lra.
Qed.
Example C45_triangle_not_vacuous : noncollinear (fun i a => if Nat.eqb (S a) i then 1 else 0).
Proof. unfold noncollinear, dot3, edge. simpl. lra. Qed.
