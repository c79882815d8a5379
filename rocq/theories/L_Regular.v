From Verif Require Import M_RealBase M_Grid M_Coord M_NewtonMap M_NewtonBind M_Regular S_Newton S_NewtonM S_NewtonBind S_Regular
  L_RealBase L_Coord L_Newton L_Newton2 L_NewtonBind L_NewtonBind2 L_NewtonMap S_Grid L_Coarse L_Coarse2.

Definition vix (s : ashape) (k : nat) : nat :=
  match s with
  | ATri => S k
  | AElem EQuad => match k with O => 1 | _ => 3 end
  | AElem ETet => S k
  | AElem _ => match k with O => 1 | 1%nat => 3 | _ => 4 end
  end%nat.
Ltac expand_hyps := cbn [nverts seq fold_right shapef bilin refvert nth comp setc Nat.add ndims] in *; unfold bilin, lin in *;
  cbn [refvert nth comp setc] in *; unfold lin in *.
Lemma affine_cols s c A b : is_affine s c A b -> forall a k, (a < adim s)%nat -> (k < adim s)%nat ->
  A a k = (c (vix s k) a - c 0%nat a) / 2 /\
  b a = c 0%nat a + fold_right (fun k acc => A a k + acc) 0 (seq 0 (adim s)).
Proof.
  intros H a k Ha Hk. destruct s as [|e].
  - cbn [adim is_affine] in *. unfold affine_coeffs in H.
    pose proof (H (-1,-1,0) a Ha) as H0. pose proof (H (1,-1,0) a Ha) as H1. pose proof (H (-1,1,0) a Ha) as H2.
    unfold Xtri in *. cbn [seq fold_right comp] in *. destruct k as [|[|]]; [..|lia]; cbn [vix]; split; lra.
  - cbn [adim is_affine] in *. destruct e; cbn [ndims] in *.
    + pose proof (H (-1,-1,0) a Ha I) as H0. pose proof (H (1,-1,0) a Ha I) as H1. pose proof (H (-1,1,0) a Ha I) as H2.
      unfold Xmap in *. expand_hyps. destruct k as [|[|]]; [..|lia]; cbn [vix]; split; lra.
    + pose proof (H (-1,-1,-1) a Ha I) as H0. pose proof (H (1,-1,-1) a Ha I) as H1. pose proof (H (-1,1,-1) a Ha I) as H2. pose proof (H (-1,-1,1) a Ha I) as H3.
      unfold Xmap in *. expand_hyps. destruct k as [|[|[|]]]; [..|lia]; cbn [vix]; split; lra.
    + pose proof (H (-1,-1,-1) a Ha I) as H0. pose proof (H (1,-1,-1) a Ha I) as H1. pose proof (H (-1,1,-1) a Ha I) as H2. pose proof (H (-1,-1,1) a Ha I) as H3.
      unfold Xmap in *. expand_hyps. destruct k as [|[|[|]]]; [..|lia]; cbn [vix]; split; lra.
    + pose proof (H (-1,-1,-1) a Ha I) as H0. pose proof (H (1,-1,-1) a Ha I) as H1. pose proof (H (-1,1,-1) a Ha I) as H2. pose proof (H (-1,-1,1) a Ha I) as H3.
      unfold Xmap in *. expand_hyps. destruct k as [|[|[|]]]; [..|lia]; cbn [vix]; split; lra.
    + assert (R1 : forall x y z, z <> 1 -> regular EPyr (x, y, z)) by (intros; exact H0).
      pose proof (H (-1,-1,-1) a Ha ltac:(apply R1; lra)) as H0. pose proof (H (1,-1,-1) a Ha ltac:(apply R1; lra)) as H1.
      pose proof (H (-1,1,-1) a Ha ltac:(apply R1; lra)) as H2. pose proof (H (-1,-1,0) a Ha ltac:(apply R1; lra)) as H3.
      unfold Xmap in *. expand_hyps.
      replace (2 * (1 + -1) / (1 - -1) - 1) with (-1) in * by field. replace (2 * (1 + 1) / (1 - -1) - 1) with 1 in * by field.
      replace (2 * (1 + -1) / (1 - 0) - 1) with (-1) in * by field.
      destruct k as [|[|[|]]]; [..|lia]; cbn [vix]; split; lra.
Qed.

Lemma xi2_spec ax ay bx by_ cx cy px py : let D := (bx - ax) * (cy - ay) - (by_ - ay) * (cx - ax) in
  (D <> 0 -> exists x y, regular_xi_2d (ax, ay, 0) (bx, by_, 0) (cx, cy, 0) (px, py, 0) = Some (x, y) /\
     (forall x' y', (ax + (1 + x') * (bx - ax) / 2 + (1 + y') * (cx - ax) / 2 = px /\
                     ay + (1 + x') * (by_ - ay) / 2 + (1 + y') * (cy - ay) / 2 = py) <-> (x' = x /\ y' = y))) /\
  (D = 0 -> regular_xi_2d (ax, ay, 0) (bx, by_, 0) (cx, cy, 0) (px, py, 0) = None).
Proof.
  intros D. unfold regular_xi_2d, vsub, vcross, vdot. cbv zeta. 
  set (e0 := bx - ax). set (e1 := by_ - ay). set (f0 := cx - ax). set (f1 := cy - ay).
  assert (ED : D = e0 * f1 - e1 * f0) by reflexivity. clearbody D.
  match goal with |- context [rdiv ?n0 ?d0] => assert (N0 : d0 = - (D * D)) by (subst D; ring) end.
  match goal with |- context [bind _ (fun _ => bind (rdiv ?n1 ?d1) _)] => assert (N1 : d1 = D * D) by (subst D; ring) end.
  rewrite N0, N1. split; intros HD.
  - assert (D * D <> 0) by (apply Rmult_integral_contrapositive; auto).
    rewrite !rdiv_ok by lra. cbn [bind]. eexists. eexists. split; [reflexivity|].
    intros x' y'. split.
    + intros [E1 E2]. replace (px - ax) with ((1 + x') * e0 / 2 + (1 + y') * f0 / 2) by lra.
      replace (py - ay) with ((1 + x') * e1 / 2 + (1 + y') * f1 / 2) by lra.
      split; subst D; field; intros Q; apply HD; nra.
    + intros [-> ->]. split; subst D; field; intros Q; apply HD; nra.
  - subst D. rewrite HD. replace (- (0 * 0)) with 0 by ring. unfold rdiv. rewrite Req_bool_true by ring. reflexivity.
Qed.
Lemma xi3_spec a0 a1 a2 b0 b1 b2 c0 c1 c2 d0 d1 d2 p0 p1 p2 :
  let D := (b0 - a0) * ((c1 - a1) * (d2 - a2) - (d1 - a1) * (c2 - a2))
         - (c0 - a0) * ((b1 - a1) * (d2 - a2) - (d1 - a1) * (b2 - a2))
         + (d0 - a0) * ((b1 - a1) * (c2 - a2) - (c1 - a1) * (b2 - a2)) in
  (D <> 0 -> exists x y z, regular_xi_3d (a0, a1, a2) (b0, b1, b2) (c0, c1, c2) (d0, d1, d2) (p0, p1, p2) = Some (x, y, z) /\
     (forall x' y' z', (a0 + (1 + x') * (b0 - a0) / 2 + (1 + y') * (c0 - a0) / 2 + (1 + z') * (d0 - a0) / 2 = p0 /\
                        a1 + (1 + x') * (b1 - a1) / 2 + (1 + y') * (c1 - a1) / 2 + (1 + z') * (d1 - a1) / 2 = p1 /\
                        a2 + (1 + x') * (b2 - a2) / 2 + (1 + y') * (c2 - a2) / 2 + (1 + z') * (d2 - a2) / 2 = p2)
        <-> (x' = x /\ y' = y /\ z' = z))) /\
  (D = 0 -> regular_xi_3d (a0, a1, a2) (b0, b1, b2) (c0, c1, c2) (d0, d1, d2) (p0, p1, p2) = None).
Proof.
  intros D. unfold regular_xi_3d, vsub, vcross, vdot. cbv zeta.
  match goal with |- context [rdiv ?n0 ?d] => assert (N0 : d = D) by (unfold D; ring) end.
  rewrite N0. split; intros HD.
  - rewrite rdiv_ok by auto. cbn [bind]. eexists. eexists. eexists. split; [reflexivity|].
    intros x' y' z'. split.
    + intros (E0 & E1 & E2). rewrite <- E0, <- E1, <- E2. repeat split; unfold D in *; field; auto.
    + intros (-> & -> & ->). repeat split; unfold D in *; field; auto.
  - rewrite HD. unfold rdiv. rewrite Req_bool_true by auto. reflexivity.
Qed.

Lemma std_max_le a b t : std_max a b <= t <-> a <= t /\ b <= t.
Proof. unfold std_max. case Rlt_bool_spec; intros; lra. Qed.
Lemma excess_lo_le e t : 0 <= t -> (excess_lo e <= t <-> -1 - t <= e).
Proof. intros. unfold excess_lo. case Rlt_bool_spec; intros; lra. Qed.
Lemma excess_hi_le e t : 0 <= t -> (excess_hi e <= t <-> e <= 1 + t).
Proof. intros. unfold excess_hi. case Rlt_bool_spec; intros; lra. Qed.
Lemma inside1_spec e : inside1 e = true -> -1 <= e <= 1.
Proof. unfold inside1. intros H. apply andb_true_iff in H as [H1 H2]. split; [revert H2|revert H1]; case Rle_bool_spec; intros; try discriminate; lra. Qed.
Lemma Rle_bool_iff x y : Rle_bool x y = true <-> x <= y.
Proof. case Rle_bool_spec; intros; split; intros; try lra; try discriminate; auto. Qed.
Lemma abs_range x t : Rabs x <= 1 + t <-> -1 - t <= x /\ x <= 1 + t.
Proof. split; [intros H; apply Rabs_le_inv in H; lra|intros; apply Rabs_le; lra]. Qed.
Lemma cube2_tol tol x y z : in_cube_tol 2 tol (x, y, z) <-> (Rabs x <= 1 + tol /\ Rabs y <= 1 + tol).
Proof. unfold in_cube_tol. split; [intros H; split; [apply (H 0%nat)|apply (H 1%nat)]; lia|intros [? ?] [|[|]] Ha; [..|lia]; auto]. Qed.
Lemma cube3_tol tol x y z : in_cube_tol 3 tol (x, y, z) <-> (Rabs x <= 1 + tol /\ Rabs y <= 1 + tol /\ Rabs z <= 1 + tol).
Proof. unfold in_cube_tol. split; [intros H; repeat split; [apply (H 0%nat)|apply (H 1%nat)|apply (H 2%nat)]; lia|intros (? & ? & ?) [|[|[|]]] Ha; [..|lia]; auto]. Qed.
Lemma dist3_le eta tol : 0 <= tol -> (dist_3d eta <= tol <-> in_cube_tol 3 tol eta).
Proof.
  intros Ht. destruct eta as [[x y] z]. rewrite cube3_tol, !abs_range. unfold dist_3d.
  destruct (inside1 x && inside1 y && inside1 z) eqn:E.
  - apply andb_true_iff in E as [E E3]. apply andb_true_iff in E as [E1 E2].
    apply inside1_spec in E1, E2, E3. lra.
  - rewrite !std_max_le, !excess_lo_le, !excess_hi_le by auto. tauto.
Qed.
Lemma dist2_le x y z tol : 0 <= tol -> (host_dist_2d x y <= tol <-> in_cube_tol 2 tol (x, y, z)).
Proof.
  intros Ht. rewrite cube2_tol, !abs_range. unfold host_dist_2d.
  destruct (inside1 x && inside1 y) eqn:E.
  - apply andb_true_iff in E as [E1 E2]. apply inside1_spec in E1, E2. lra.
  - rewrite !std_max_le, !excess_lo_le, !excess_hi_le by auto. tauto.
Qed.
Lemma eta2_spec s x y z : adim s = 2%nat -> exists e0 e1, regular_eta_2d (shape_number s) (x, y) = Some (e0, e1) /\
  acollapse s (x, y, z) = Some (e0, e1, z).
Proof.
  destruct s as [|[]]; intros H; try discriminate H; unfold regular_eta_2d; cbn [shape_number].
  - change (Z.eqb eTriangle eTriangle) with true. cbn iota. rewrite rdiv_ok by apply guard_nonzero. cbn [bind acollapse fst snd].
    unfold tri_to_collapsed. rewrite rdiv_ok by apply guard_nonzero. cbn [bind option_map]. eauto.
  - change (Z.eqb eQuadrilateral eTriangle) with false. cbn [acollapse]. eauto.
Qed.
Lemma eta3_spec e xi : e <> EQuad -> exists eta, generic_to_collapsed_3d (shape_number (AElem e)) xi = Some eta /\
  acollapse (AElem e) xi = Some eta.
Proof.
  intros H. assert (G : exists s, shape_number (AElem e) = shape_int3 s /\ acollapse (AElem e) xi = to_collapsed3 s xi).
  { destruct e; [congruence|exists Tet|exists Pri|exists Hex|exists Pyr]; split; reflexivity. }
  destruct G as (s & E1 & E2). rewrite E1, E2, (proj1 (generic3 s xi)).
  destruct (to_collapsed3_total s xi) as (eta & ->). eauto.
Qed.

Lemma accepts_iff s g A b tol p xi : g_shape g = shape_number s -> is_affine s (g_verts g) A b -> det (adim s) A <> 0 -> 0 <= tol ->
  (regular_accepts (adim s) tol g p = Some xi <->
   (adim s = 2%nat -> comp xi 2 = 0) /\ at_affine (adim s) A b xi p /\
   exists eta, acollapse s xi = Some eta /\ in_cube_tol (adim s) tol eta).
Proof.
  intros Hs Ha Hdet Ht. pose proof (affine_cols s (g_verts g) A b Ha) as HC.
  set (c := g_verts g) in *.
  assert (Hd : adim s = 2%nat \/ adim s = 3%nat) by (destruct s as [|[]]; cbn; auto).
  unfold regular_accepts. destruct Hd as [Hd|Hd]; rewrite Hd in *.
  - change (Nat.eqb 2 2) with true. cbn iota. unfold try_regular_2d. rewrite Hs.
    assert (HL : last_point_index (shape_number s) = Some (vix s 1)) by (destruct s as [|[]]; cbn in Hd; try discriminate; reflexivity).
    assert (V0 : vix s 0 = 1%nat) by (destruct s as [|[]]; cbn in Hd; try discriminate; reflexivity).
    rewrite HL. cbn [bind]. set (l := vix s 1) in *.
    destruct p as [[px py] pz]. cbn [fst snd]. unfold vertex2. fold c.
    destruct (HC 0%nat 0%nat ltac:(lia) ltac:(lia)) as [A00 B0]. destruct (HC 0%nat 1%nat ltac:(lia) ltac:(lia)) as [A01 _].
    destruct (HC 1%nat 0%nat ltac:(lia) ltac:(lia)) as [A10 B1]. destruct (HC 1%nat 1%nat ltac:(lia) ltac:(lia)) as [A11 _].
    rewrite V0 in *. cbn [seq fold_right] in B0, B1.
    destruct (xi2_spec (c 0%nat 0%nat) (c 0%nat 1%nat) (c 1%nat 0%nat) (c 1%nat 1%nat) (c l 0%nat) (c l 1%nat) px py) as [X _].
    destruct X as (x & y & E & U).
    { intros Q. apply Hdet. cbn [det]. rewrite A00, A01, A10, A11. fold l. lra. }
    rewrite E. cbn [bind]. destruct xi as [[x' y'] z'].
    assert (HA : at_affine 2 A b (x', y', z') (px, py, pz) <-> (x' = x /\ y' = y)).
    { rewrite <- U. unfold at_affine, affine_coeffs. cbn [seq fold_right].
      split.
      - intros H. pose proof (H 0%nat ltac:(lia)) as H0. pose proof (H 1%nat ltac:(lia)) as H1. cbn [comp] in *.
        rewrite B0, A00, A01 in H0. rewrite B1, A10, A11 in H1. fold l in H0, H1. lra.
      - intros [H0 H1] [|[|]] Hx; [..|lia]; cbn [comp]; rewrite ?B0, ?B1, ?A00, ?A01, ?A10, ?A11; fold l; lra. }
    destruct (eta2_spec s x y z' Hd) as (e0 & e1 & Ee & Ec). rewrite Ee. cbn [bind fst snd].
    rewrite HA. split.
    + intros H. match type of H with (if ?q then _ else _) = _ => destruct q eqn:Q end; [|discriminate].
      injection H as <- <- <-. split; auto. split; auto.
      apply andb_true_iff in Q as [Q Q4]. apply andb_true_iff in Q as [Q Q3]. apply andb_true_iff in Q as [Q1 Q2].
      rewrite Rle_bool_iff in *. exists (e0, e1, 0). split; auto.
      rewrite cube2_tol, !abs_range. lra.
    + intros (Hz & [-> ->] & eta & H1 & H2). specialize (Hz eq_refl). cbn [comp] in Hz. subst z'. rewrite Ec in H1. injection H1 as <-.
      rewrite cube2_tol, !abs_range in H2. destruct H2 as [[? ?] [? ?]]. rewrite !Rle_bool_true by lra. reflexivity.
  - change (Nat.eqb 3 2) with false. cbn iota. unfold try_regular_3d. rewrite Hs.
    assert (HL : vertex_indices_3d (shape_number s) = Some (vix s 0, vix s 1, vix s 2)) by (destruct s as [|[]]; cbn in Hd; try discriminate; reflexivity).
    rewrite HL. cbn [bind]. set (i0 := vix s 0) in *. set (i1 := vix s 1) in *. set (i2 := vix s 2) in *.
    destruct p as [[p0 p1] p2]. unfold vertex3. fold c.
    destruct (HC 0%nat 0%nat ltac:(lia) ltac:(lia)) as [A00 B0]. destruct (HC 0%nat 1%nat ltac:(lia) ltac:(lia)) as [A01 _]. destruct (HC 0%nat 2%nat ltac:(lia) ltac:(lia)) as [A02 _].
    destruct (HC 1%nat 0%nat ltac:(lia) ltac:(lia)) as [A10 B1]. destruct (HC 1%nat 1%nat ltac:(lia) ltac:(lia)) as [A11 _]. destruct (HC 1%nat 2%nat ltac:(lia) ltac:(lia)) as [A12 _].
    destruct (HC 2%nat 0%nat ltac:(lia) ltac:(lia)) as [A20 B2]. destruct (HC 2%nat 1%nat ltac:(lia) ltac:(lia)) as [A21 _]. destruct (HC 2%nat 2%nat ltac:(lia) ltac:(lia)) as [A22 _].
    fold i0 i1 i2 in A00, A01, A02, A10, A11, A12, A20, A21, A22. cbn [seq fold_right] in B0, B1, B2.
    destruct (xi3_spec (c 0%nat 0%nat) (c 0%nat 1%nat) (c 0%nat 2%nat) (c i0 0%nat) (c i0 1%nat) (c i0 2%nat) (c i1 0%nat) (c i1 1%nat) (c i1 2%nat)
       (c i2 0%nat) (c i2 1%nat) (c i2 2%nat) p0 p1 p2) as [X _].
    destruct X as (x & y & z & E & U).
    { intros Q. apply Hdet. cbn [det]. rewrite A00, A01, A02, A10, A11, A12, A20, A21, A22. lra. }
    rewrite E. cbn [bind]. destruct xi as [[x' y'] z'].
    assert (HA : at_affine 3 A b (x', y', z') (p0, p1, p2) <-> (x' = x /\ y' = y /\ z' = z)).
    { rewrite <- U. unfold at_affine, affine_coeffs. cbn [seq fold_right].
      split.
      - intros H. pose proof (H 0%nat ltac:(lia)) as H0. pose proof (H 1%nat ltac:(lia)) as H1. pose proof (H 2%nat ltac:(lia)) as H2. cbn [comp] in *.
        rewrite B0, A00, A01, A02 in H0. rewrite B1, A10, A11, A12 in H1. rewrite B2, A20, A21, A22 in H2. lra.
      - intros (H0 & H1 & H2) [|[|[|]]] Hx; [..|lia]; cbn [comp]; rewrite ?B0, ?B1, ?B2, ?A00, ?A01, ?A02, ?A10, ?A11, ?A12, ?A20, ?A21, ?A22; lra. }
    assert (He : exists e, s = AElem e /\ e <> EQuad) by (destruct s as [|[]]; cbn in Hd; try discriminate; eexists; split; eauto; discriminate).
    destruct He as (e & Es & He). destruct (eta3_spec e (x, y, z) He) as (eta & Ee & Ec). rewrite <- Es in *. rewrite Ee. cbn [bind].
    rewrite HA. split.
    + intros H. destruct (Rle_bool (dist_3d eta) tol) eqn:Q; [|discriminate]. injection H as <- <- <-. split; [intros; lia|]. split; auto.
      exists eta. split; auto. apply dist3_le; auto. apply Rle_bool_iff; auto.
    + intros (_ & (-> & -> & ->) & eta' & H1 & H2). rewrite Ec in H1. injection H1 as <-. apply dist3_le in H2; auto.
      rewrite Rle_bool_true by auto. reflexivity.
Qed.
