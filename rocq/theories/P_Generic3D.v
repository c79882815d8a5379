(** Property theorems C85 (curved three dimensional elements: MappingGeneric3D). *)
From Verif Require Import M_Loop S_Loop L_Loop M_Bary S_Bary L_RealBase S_Coord M_Coord L_Coord M_NewtonMap M_NewtonBind M_Generic3D S_Newton S_Generic3D L_Generic3D L_Generic3D2 L_Generic3D3.
From Coq Require Import Lia Lra List.
Import ListNotations.
Open Scope R_scope.

(** C85: writing the data of any well formed element succeeds and fills the one buffer exactly; the assertions reject a map
    that does not have three directions or whose number of points is not the product of theirs. *)
Theorem C85_write : forall s x, good_xmap s x -> exists d, g3_write x = Ok d /\
  g_local d = (npts x 0 + npts x 1 + npts x 2)%nat /\
  length (g_mem d) = (2 * (npts x 0 + npts x 1 + npts x 2) + 12 * (npts x 0 * npts x 1 * npts x 2))%nat.
Proof.
  intros s x Hg. destruct (write_ok s x Hg) as (d & E & W). exists d. split; auto. split; [apply (wr_local _ _ _ W)|].
  rewrite (wr_len _ _ _ W). destruct x as [base tot phys deriv scale shape]. destruct Hg as (H3 & _). cbn [xm_base] in H3.
  destruct base as [|[z0 b0] [|[z1 b1] [|[z2 b2] [|]]]]; try discriminate. unfold g3_write in E. cbn [xm_base xm_tot] in E.
  repeat match type of E with (if ?c then _ else _) = _ => destruct c; [|discriminate] end. injection E as <-. cbn [g_deriv].
  unfold npts, pts. cbn [xm_base nth fst]. lia.
Qed.
Print Assumptions C85_write.
Theorem C85_write_rejects : forall x, length (xm_base x) <> 3%nat \/ xm_tot x <> (npts x 0 * npts x 1 * npts x 2)%nat -> g3_write x = AssertFail.
Proof.
  intros [base tot phys deriv scale shape] H. unfold g3_write. unfold npts, pts in H. cbn [xm_base xm_tot] in *.
  destruct base as [|[z0 b0] [|[z1 b1] [|[z2 b2] [|]]]]; auto. cbn [length nth fst] in H. destruct H as [H|H]; [congruence|].
  apply Nat.eqb_neq in H. rewrite H. reflexivity.
Qed.
Print Assumptions C85_write_rejects.

(** C85: at every reference point, whatever the local memory held before, the map evaluated is the tensor product Lagrange
    interpolant of the nodal values at the collapsed coordinates, never failing, and only the local memory the element asked
    for is written. *)
Theorem C85_position : forall s x d xi loc, good_xmap s x -> g3_write x = Ok d ->
  exists l, g3_x d xi loc = Some ((elem_X s x xi 0, elem_X s x xi 1, elem_X s x xi 2), l) /\ forall k, (g_local d <= k)%nat -> l k = loc k.
Proof.
  intros s x d xi loc Hg E. destruct (write_ok s x Hg) as (d' & E' & W). rewrite E in E'. injection E' as <-.
  destruct (resid_ok s x d xi (0, 0, 0) loc Hg W) as (l & Er & _ & F). exists l. unfold g3_x. rewrite Er. cbn [bind fst snd comp]. rewrite !Rminus_0_r. auto.
Qed.
Print Assumptions C85_position.
(** C85: the residual, and then the step, of the same point: Newton's update for the interpolated derivative matrix, or a
    non-finite value if and only if that matrix is singular. *)
Theorem C85_residual_then_step : forall s x d xi p loc, good_xmap s x -> g3_write x = Ok d ->
  exists r f l, g3_resid d xi p loc = Some (r, f, l) /\
    (forall a, (a < 3)%nat -> comp f a = elem_X s x xi a - comp p a) /\
    (forall t, r <= t <-> forall a, (a < 3)%nat -> Rabs (comp f a) * comp (xm_scale x) a <= t) /\
    match g3_step d xi f l with
    | Some xin => det 3 (elem_J s x xi) <> 0 /\ newton_update 3 (elem_J s x xi) xi f xin
    | None => det 3 (elem_J s x xi) = 0
    end.
Proof.
  intros s x d xi p loc Hg E. destruct (write_ok s x Hg) as (d' & E' & W). rewrite E in E'. injection E' as <-.
  destruct (resid_ok s x d xi p loc Hg W) as (l & Er & Hw & F). rewrite rel3_max in Er. eexists _, _, l. split; [exact Er|].
  split; [intros [|[|[|a]]] Ha; try lia; reflexivity|]. split.
  - intros t. rewrite max3_le. cbn [comp]. split.
    + intros (A & B & C) [|[|[|a]]] Ha; try lia; auto.
    + intros H. split; [apply (H 0%nat); lia|]. split; [apply (H 1%nat); lia|apply (H 2%nat); lia].
  - rewrite (step_ok s x d xi _ l Hg W Hw). apply solve_spec.
Qed.
Print Assumptions C85_residual_then_step.
(** C85: the complete inversion and cell test, with one local memory reused by all its steps and by all start points and
    never initialised, is Newton's method on the element's map: the local memory has no influence on the result. *)
Theorem C85_inversion : forall s x d p xi_in mx tol ov loc, good_xmap s x -> g3_write x = Ok d ->
  fst (g3_x_inverse d p xi_in mx tol ov loc) = x_inverse_kernel (element_type s x) p xi_in mx tol ov /\
  forall k, (g_local d <= k)%nat -> snd (g3_x_inverse d p xi_in mx tol ov loc) k = loc k.
Proof. intros s x d p xi_in mx tol ov loc Hg E. destruct (write_ok s x Hg) as (d' & E' & W). rewrite E in E'. injection E' as <-. now apply inverse_eq. Qed.
Theorem C85_cell_test : forall s x d p xi_in mx tol ctol ov loc, good_xmap s x -> g3_write x = Ok d ->
  fst (g3_try_cell d p xi_in mx tol ctol ov loc) = try_cell (element_type s x) p xi_in mx tol ctol ov /\
  forall k, (g_local d <= k)%nat -> snd (g3_try_cell d p xi_in mx tol ctol ov loc) k = loc k.
Proof. intros s x d p xi_in mx tol ctol ov loc Hg E. destruct (write_ok s x Hg) as (d' & E' & W). rewrite E in E'. injection E' as <-. now apply try_eq. Qed.
Theorem C85_start_grid : forall s x d p mx tol ctol starts loc, good_xmap s x -> g3_write x = Ok d ->
  fst (g3_find d p mx tol ctol starts loc) = find_first (fun st => try_cell (element_type s x) p st mx tol ctol true) starts /\
  forall k, (g_local d <= k)%nat -> snd (g3_find d p mx tol ctol starts loc) k = loc k.
Proof. intros s x d p mx tol ctol starts loc Hg E. destruct (write_ok s x Hg) as (d' & E' & W). rewrite E in E'. injection E' as <-. now apply find_eq. Qed.
Print Assumptions C85_start_grid.
(** C85: an accepted particle comes with reference coordinates of the cube enlarged by the containment tolerance whose image is
    within tolerance of the particle; a converged point inside the reference element is accepted as it is. *)
Theorem C85_accepted_is_close : forall s x d p xi_in mx tol ctol ov loc xi, good_xmap s x -> g3_write x = Ok d -> 0 <= ctol ->
  fst (g3_try_cell d p xi_in mx tol ctol ov loc) = Some xi ->
  (exists eta, xi = to_loc3 s eta /\ forall a, (a < 3)%nat -> Rabs (comp eta a) <= 1 + ctol) /\
  forall a, (a < 3)%nat -> Rabs (elem_X s x xi a - comp p a) * comp (xm_scale x) a <= tol.
Proof. intros s x d p xi_in mx tol ctol ov loc xi Hg E Hc H. destruct (C85_cell_test s x d p xi_in mx tol ctol ov loc Hg E) as [Q _]. rewrite Q in H. revert H. now apply accepted. Qed.
Theorem C85_inside_is_accepted : forall s x d p xi_in mx tol ctol ov loc xi, good_xmap s x -> g3_write x = Ok d -> 0 <= ctol ->
  fst (g3_x_inverse d p xi_in mx tol ov loc) = (Some xi, true) -> in_ref3 s xi -> away3 s kNekZeroTol xi ->
  forall loc', fst (g3_try_cell d p xi_in mx tol ctol ov loc') = Some xi.
Proof.
  intros s x d p xi_in mx tol ctol ov loc xi Hg E Hc H Hi Ha loc'. destruct (C85_cell_test s x d p xi_in mx tol ctol ov loc' Hg E) as [Q _]. rewrite Q.
  destruct (C85_inversion s x d p xi_in mx tol ov loc Hg E) as [Q2 _]. rewrite Q2 in H. now apply inside_accepted.
Qed.
Print Assumptions C85_inside_is_accepted.
(** C85: if the element represents the map G with derivatives DG exactly (polynomials in the collapsed coordinates), then away
    from the collapsed edge the element evaluates G, and a residual followed by a step is Newton's step for G: DG (xin - xi) =
    -(G xi - p). *)
Theorem C85_exact_maps : forall s x d G DG xi p loc, good_xmap s x -> g3_write x = Ok d -> represents s x G DG -> away3 s kNekZeroTol xi ->
  (exists l, g3_x d xi loc = Some ((G xi 0%nat, G xi 1%nat, G xi 2%nat), l)) /\
  exists r f l, g3_resid d xi p loc = Some (r, f, l) /\ (forall a, (a < 3)%nat -> comp f a = G xi a - comp p a) /\
    (det 3 (DG xi) <> 0 -> exists xin, g3_step d xi f l = Some xin /\
      forall a, (a < 3)%nat -> DG xi a 0%nat * (comp xin 0 - comp xi 0) + DG xi a 1%nat * (comp xin 1 - comp xi 1) + DG xi a 2%nat * (comp xin 2 - comp xi 2) = - (G xi a - comp p a)).
Proof.
  intros s x d G DG xi p loc Hg E Hr Ha. destruct (exact_at s x G DG xi Hg Hr Ha) as [X J]. split.
  - destruct (C85_position s x d xi loc Hg E) as (l & El & _). rewrite !X in El by lia. eauto.
  - destruct (C85_residual_then_step s x d xi p loc Hg E) as (r & f & l & E1 & Hf & _ & Hs). exists r, f, l. split; auto.
    split; [intros a La; rewrite Hf, X; auto|]. intros Hd. assert (D : det 3 (elem_J s x xi) = det 3 (DG xi)) by (cbn [det]; rewrite !J by lia; reflexivity).
    destruct (g3_step d xi f l) as [xin|]; [|congruence]. exists xin. split; auto. intros a La. destruct Hs as [_ Hs]. specialize (Hs a La). cbn [seq fold_right] in Hs.
    rewrite !J in Hs by lia. rewrite (Hf a La), X in Hs by auto. lra.
Qed.
Print Assumptions C85_exact_maps.
(** C85: on an element whose map is affine every point whose reference coordinates are inside (and off the collapsed edge) is
    found from any start in the element, in one step; only a start point that is itself within tolerance is kept instead. *)
Theorem C85_affine_found : forall s x d A b xs start p mx tol ctol loc, good_xmap s x -> g3_write x = Ok d ->
  represents s x (affineG A b) (fun _ => A) -> det 3 A <> 0 -> in_ref3 s xs -> away3 s kNekZeroTol xs -> in_ref3 s start -> away3 s kNekZeroTol start ->
  (forall a, (a < 3)%nat -> comp p a = affineG A b xs a) -> 0 <= tol -> 0 <= ctol -> (1 <= mx)%Z ->
  exists xi, fst (g3_try_cell d p start mx tol ctol true loc) = Some xi /\
    (xi = xs \/ xi = start /\ forall a, (a < 3)%nat -> Rabs (affineG A b start a - comp p a) * comp (xm_scale x) a <= tol).
Proof.
  intros s x d A b xs start p mx tol ctol loc Hg E Hr Hd Hi Ha His Has Hp Ht Hc Hm.
  destruct (affine_solve s x A b xs start p mx tol Hg Hr Hd Ha Has Hp Ht Hm) as [Q|[Q C]].
  - exists xs. split; auto. destruct (C85_cell_test s x d p start mx tol ctol true loc Hg E) as [-> _]. apply inside_accepted; auto.
  - exists start. split; auto. destruct (C85_cell_test s x d p start mx tol ctol true loc Hg E) as [-> _]. apply inside_accepted; auto.
Qed.
Print Assumptions C85_affine_found.
(** The derivatives DG of the hypothesis are those of G (non-vacuity and reading of [represents]): a twisted hexahedron
    (xi0 + xi1 xi2 / 4, xi1 + 1, 3 xi2) on two points per direction. *)
Definition ex_deriv (v : list R) (b : nat) : list R :=
  let at3 i0 i1 i2 := nth (i2 * 4 + i1 * 2 + i0)%nat v 0 in
  flat_map (fun i2 => flat_map (fun i1 => map (fun i0 =>
    match b with
    | 0%nat => (at3 1%nat i1 i2 - at3 0%nat i1 i2) / 2
    | 1%nat => (at3 i0 1%nat i2 - at3 i0 0%nat i2) / 2
    | _ => (at3 i0 i1 1%nat - at3 i0 i1 0%nat) / 2
    end) [0; 1]%nat) [0; 1]%nat) [0; 1]%nat.
Definition ex_map : xmap := {| xm_base := [([-1; 1], [-1; 1]); ([-1; 1], [-1; 1]); ([-1; 1], [-1; 1])]; xm_tot := 8;
  xm_phys := fun a => match a with
    | 0%nat => [-1 + 1/4; 1 + 1/4; -1 - 1/4; 1 - 1/4; -1 - 1/4; 1 - 1/4; -1 + 1/4; 1 + 1/4]
    | 1%nat => [0; 0; 2; 2; 0; 0; 2; 2]
    | _ => [-3; -3; -3; -3; 3; 3; 3; 3] end;
  xm_deriv := ex_deriv; xm_scale := (1, 1, 1); xm_shape := 8 |}.
Definition ex_G (xi : pt3) (a : nat) : R := match a with 0%nat => comp xi 0 + comp xi 1 * comp xi 2 / 4 | 1%nat => comp xi 1 + 1 | _ => 3 * comp xi 2 end.
Definition ex_DG (xi : pt3) (a b : nat) : R :=
  match a, b with 0%nat, 0%nat => 1 | 0%nat, 1%nat => comp xi 2 / 4 | 0%nat, _ => comp xi 1 / 4 | 1%nat, 1%nat => 1 | 1%nat, _ => 0 | _, 0%nat | _, 1%nat => 0 | _, _ => 3 end.
Lemma ex_poly g c : (forall e0 e1 e2, g (e0, e1, e2) = c 0%nat 0%nat 0%nat + c 1%nat 0%nat 0%nat * e0 + c 0%nat 1%nat 0%nat * e1 + c 1%nat 1%nat 0%nat * e0 * e1 + c 0%nat 0%nat 1%nat * e2 + c 1%nat 0%nat 1%nat * e0 * e2 + c 0%nat 1%nat 1%nat * e1 * e2 + c 1%nat 1%nat 1%nat * e0 * e1 * e2) ->
  tensor_poly ex_map Hex g.
Proof.
  intros H. exists c. intros e0 e1 e2. change (to_loc3 Hex (e0, e1, e2)) with (e0, e1, e2). rewrite H. change (npts ex_map 0) with 2%nat. change (npts ex_map 1) with 2%nat. change (npts ex_map 2) with 2%nat.
  unfold polynomial3. cbn [sumn pow]. ring.
Qed.
Definition lin_coef (c0 cx cy cz cyz : R) : nat -> nat -> nat -> R := fun i j k =>
  match i, j, k with 0%nat, 0%nat, 0%nat => c0 | 1%nat, 0%nat, 0%nat => cx | 0%nat, 1%nat, 0%nat => cy | 0%nat, 0%nat, 1%nat => cz | 0%nat, 1%nat, 1%nat => cyz | _, _, _ => 0 end.
Example C85_nonvacuous : good_xmap Hex ex_map /\ represents Hex ex_map ex_G ex_DG /\ det 3 (ex_DG (1/2, 1/2, 1/2)) = 3 /\
  exists d, g3_write ex_map = Ok d /\ exists l, g3_x d (1/2, 1/2, 1/2) (fun _ => 7) = Some ((9/16, 3/2, 3/2), l).
Proof.
  assert (Hg : good_xmap Hex ex_map).
  { split; [reflexivity|]. split; [reflexivity|]. split; [reflexivity|]. intros a Ha.
    assert (C : npts ex_map a = 2%nat /\ node ex_map a 0 = -1 /\ node ex_map a 1 = 1 /\ wts ex_map a = [-1; 1]) by (destruct a as [|[|[|a]]]; try lia; repeat split; reflexivity).
    destruct C as (-> & N0 & N1 & ->). split; [lia|]. split; [reflexivity|]. split.
    - intros [|[|i]] [|[|j]] Hi Hj E; try lia; auto; lra.
    - exists 2. split; [lra|]. intros [|[|i]] Hi; try lia; cbn [prodn Nat.eqb nth]; rewrite N0, N1; field. }
  assert (Hr : represents Hex ex_map ex_G ex_DG).
  { assert (S : forall v g, (forall i0 i1 i2, (i0 < 2)%nat -> (i1 < 2)%nat -> (i2 < 2)%nat -> nth (i2 * 4 + i1 * 2 + i0)%nat v 0 = g ((match i0 with 0%nat => -1 | _ => 1 end), (match i1 with 0%nat => -1 | _ => 1 end), (match i2 with 0%nat => -1 | _ => 1 end))) -> sampled ex_map Hex v g).
    { intros v g H i0 i1 i2 H0 H1 H2. change (npts ex_map 0) with 2%nat in *. change (npts ex_map 1) with 2%nat in *. change (npts ex_map 2) with 2%nat in *.
      unfold nodal. change (npts ex_map 0 * npts ex_map 1)%nat with 4%nat. change (npts ex_map 0) with 2%nat. rewrite H by auto. unfold to_loc3, hex_to_loc. f_equal.
      destruct i0 as [|[|i0]], i1 as [|[|i1]], i2 as [|[|i2]]; try lia; reflexivity. }
    intros a Ha. destruct a as [|[|[|a]]]; try lia.
    - split; [apply (ex_poly _ (lin_coef 0 1 0 0 (1/4))); intros; unfold lin_coef; cbn [ex_G comp]; field|].
      split; [apply S; intros [|[|i0]] [|[|i1]] [|[|i2]] H0 H1 H2; try lia; cbn; field|].
      intros [|[|[|b]]] Hb; try lia; (split; [|apply S; intros [|[|i0]] [|[|i1]] [|[|i2]] H0 H1 H2; try lia; cbn; field]).
      + apply (ex_poly _ (lin_coef 1 0 0 0 0)); intros; unfold lin_coef; cbn [ex_DG comp]; field.
      + apply (ex_poly _ (lin_coef 0 0 0 (1/4) 0)); intros; unfold lin_coef; cbn [ex_DG comp]; field.
      + apply (ex_poly _ (lin_coef 0 0 (1/4) 0 0)); intros; unfold lin_coef; cbn [ex_DG comp]; field.
    - split; [apply (ex_poly _ (lin_coef 1 0 1 0 0)); intros; unfold lin_coef; cbn [ex_G comp]; field|].
      split; [apply S; intros [|[|i0]] [|[|i1]] [|[|i2]] H0 H1 H2; try lia; cbn; field|].
      intros [|[|[|b]]] Hb; try lia; (split; [|apply S; intros [|[|i0]] [|[|i1]] [|[|i2]] H0 H1 H2; try lia; cbn; field]).
      + apply (ex_poly _ (lin_coef 0 0 0 0 0)); intros; unfold lin_coef; cbn [ex_DG comp]; field.
      + apply (ex_poly _ (lin_coef 1 0 0 0 0)); intros; unfold lin_coef; cbn [ex_DG comp]; field.
      + apply (ex_poly _ (lin_coef 0 0 0 0 0)); intros; unfold lin_coef; cbn [ex_DG comp]; field.
    - split; [apply (ex_poly _ (lin_coef 0 0 0 3 0)); intros; unfold lin_coef; cbn [ex_G comp]; field|].
      split; [apply S; intros [|[|i0]] [|[|i1]] [|[|i2]] H0 H1 H2; try lia; cbn; field|].
      intros [|[|[|b]]] Hb; try lia; (split; [|apply S; intros [|[|i0]] [|[|i1]] [|[|i2]] H0 H1 H2; try lia; cbn; field]).
      + apply (ex_poly _ (lin_coef 0 0 0 0 0)); intros; unfold lin_coef; cbn [ex_DG comp]; field.
      + apply (ex_poly _ (lin_coef 0 0 0 0 0)); intros; unfold lin_coef; cbn [ex_DG comp]; field.
      + apply (ex_poly _ (lin_coef 3 0 0 0 0)); intros; unfold lin_coef; cbn [ex_DG comp]; field. }
  split; auto. split; auto. split; [cbn; field|]. destruct (C85_write Hex ex_map Hg) as (d & E & _). exists d. split; auto.
  destruct (C85_exact_maps Hex ex_map d ex_G ex_DG (1/2, 1/2, 1/2) (0, 0, 0) (fun _ => 7) Hg E Hr I) as [[l El] _]. exists l. rewrite El.
  cbn [ex_G comp]. f_equal. f_equal. apply pair3; field.
Qed.
(** C85: the step relies on the residual of the same point having been computed: with a local memory that holds zeros it is
    not finite. *)
Theorem C85_step_needs_residual : forall s x d xi f, good_xmap s x -> g3_write x = Ok d -> g3_step d xi f (fun _ => 0) = None.
Proof.
  intros s x d xi f Hg E. unfold g3_step.
  match goal with |- context [compute_dir_210_interlaced_N ?N ?a ?b ?c ?ph ?u ?v ?w ?st ?o] => destruct (L_Bary2.dir_210_interlaced_N N a b c ph u v w st o) as [X _]; set (J := compute_dir_210_interlaced_N N a b c ph u v w st o) in * end.
  cbv zeta in X. fold J in X.
  assert (Z : forall k, (k < 9)%nat -> J k = 0).
  { intros k Hk. rewrite X by auto. unfold tensor3. apply sumn_zero. intros. apply sumn_zero. intros. apply sumn_zero. intros. unfold at_ at 2. ring. }
  clearbody J. destruct xi as [[x0 x1] x2], f as [[f0 f1] f2]. unfold at_. cbn [Nat.add]. rewrite !Z by lia. unfold rdiv.
  match goal with |- context [Req_bool ?a 0] => replace a with 0 by ring end. destruct (Req_bool_spec 0 0) as [_|H]; [reflexivity|congruence].
Qed.
Print Assumptions C85_step_needs_residual.
