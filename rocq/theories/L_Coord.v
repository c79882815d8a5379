From Verif Require Import M_Coord S_Coord L_RealBase.

Lemma tol_pos : 0 < kNekZeroTol.
Proof. unfold kNekZeroTol. apply Rinv_0_lt_compat, pow_lt. lra. Qed.
Lemma tol_lt1 : kNekZeroTol < 1.
Proof.
  unfold kNekZeroTol. rewrite <- Rinv_1. apply Rinv_lt_contravar; [|apply Rlt_pow_R1; [lra|lia]].
  rewrite Rmult_1_l. apply pow_lt. lra.
Qed.
Global Opaque kNekZeroTol.

Lemma guard_nonzero d : guard d <> 0.
Proof.
  pose proof tol_pos. unfold guard. case Rlt_bool_spec; intros.
  - destruct Rle_bool; lra.
  - intros E. subst. rewrite Rabs_R0 in *. lra.
Qed.
Lemma guard_far d : kNekZeroTol <= d -> guard d = d.
Proof.
  pose proof tol_pos. intros. unfold guard. case Rlt_bool_spec; auto; intros.
  rewrite Rabs_right in *; lra.
Qed.
Lemma guard_cases d : 0 <= d -> (guard d = d /\ kNekZeroTol <= d) \/ (guard d = kNekZeroTol /\ d < kNekZeroTol).
Proof.
  intros. unfold guard. case Rlt_bool_spec; intros; rewrite Rabs_right in * by lra; auto.
  right. rewrite Rle_bool_true; auto.
Qed.
Lemma rdiv_ok a b : b <> 0 -> rdiv a b = Some (a / b).
Proof. intros. unfold rdiv. rewrite Req_bool_false; auto. Qed.

Lemma scaled_range a d g : 0 <= a <= d -> d <= g -> 0 < g -> 0 <= a / g <= 1.
Proof.
  intros. split.
  - apply Rmult_le_pos; [lra|]. left. apply Rinv_0_lt_compat. lra.
  - apply Rmult_le_reg_r with g; auto. unfold Rdiv. rewrite Rmult_assoc, Rinv_l; lra.
Qed.
(** one collapsed coordinate and its inverse on the element *)
Lemma one_dir a d : 0 <= a <= d ->
  0 <= a / guard d <= 1 /\ Rabs (a / guard d * d - a) <= kNekZeroTol /\ (0 <= a / guard d * d <= a).
Proof.
  pose proof tol_pos as T. intros H.
  destruct (guard_cases d ltac:(lra)) as [[E L]|[E L]]; rewrite E.
  - split; [apply scaled_range with d; lra|]. replace (a / d * d) with a by (field; lra).
    replace (a - a) with 0 by ring. rewrite Rabs_R0. lra.
  - assert (R1 : 0 <= a / kNekZeroTol <= 1) by (apply scaled_range with d; lra).
    assert (R2 : 0 <= d / kNekZeroTol <= 1) by (apply scaled_range with d; lra).
    replace (a / kNekZeroTol * d) with (a * (d / kNekZeroTol)) by (field; lra).
    split; auto. split; [|nra]. rewrite Rabs_left1; nra.
Qed.

Lemma pair3 (a b c a' b' c' : R) : a = a' -> b = b' -> c = c' -> (a, b, c) = (a', b', c').
Proof. intros; subst; auto. Qed.
Ltac unpt := repeat match goal with p : (_ * _)%type |- _ => destruct p end.

Lemma to_collapsed3_total s xi : exists eta, to_collapsed3 s xi = Some eta.
Proof.
  unpt. destruct s; cbn; unfold tet_to_collapsed, pyr_to_collapsed, prism_to_collapsed, hex_to_collapsed;
    rewrite ?rdiv_ok by apply guard_nonzero; cbn; eauto.
Qed.
Lemma to_collapsed2_total s xi : exists eta, to_collapsed2 s xi = Some eta.
Proof.
  unpt. destruct s; cbn; unfold tri_to_collapsed, quad_to_collapsed;
    rewrite ?rdiv_ok by apply guard_nonzero; cbn; eauto.
Qed.

Lemma Rabs0 a : Rabs (a - a) <= kNekZeroTol.
Proof. pose proof tol_pos. replace (a - a) with 0 by ring. rewrite Rabs_R0. lra. Qed.

Lemma two_div a g : 2 * a / g - 1 = 2 * (a / g) - 1.
Proof. unfold Rdiv. ring. Qed.

Lemma element3 s xi eta : in_ref3 s xi -> to_collapsed3 s xi = Some eta ->
  in_cube3 eta /\ close3 kNekZeroTol (to_loc3 s eta) xi.
Proof.
  destruct xi as [[x0 x1] x2]. pose proof tol_pos as T.
  destruct s; cbn [in_ref3 to_collapsed3 to_loc3]; intros H E.
  - unfold tet_to_collapsed in E. rewrite !rdiv_ok in E by apply guard_nonzero. cbn in E. injection E as <-.
    rewrite !two_div.
    destruct (one_dir (1 + x1) (1 - x2)) as (A1 & A2 & A3); [lra|].
    destruct (one_dir (1 + x0) (- x1 - x2)) as (B1 & B2 & B3); [lra|].
    split; [unfold in_cube3; cbn; lra|].
    unfold close3, tet_to_loc; cbn.
    set (q1 := (1 + x1) / guard (1 - x2)) in *. set (q0 := (1 + x0) / guard (- x1 - x2)) in *.
    set (y1 := (1 + (2 * q1 - 1)) * (1 - x2) * (1 / 2) - 1).
    assert (Y1 : y1 = q1 * (1 - x2) - 1) by (unfold y1; field).
    split; [|split]; [| |apply Rabs0].
    + replace ((1 + (2 * q0 - 1)) * (- y1 - x2) * (1 / 2) - 1 - x0) with (q0 * (- y1 - x2) - (1 + x0)) by field.
      rewrite Y1.
      (* either d2 is far (y1 = x1) or everything is below tol *)
      destruct (guard_cases (1 - x2)) as [[G L]|[G L]]; [lra| |].
      * assert (Q : q1 * (1 - x2) = 1 + x1) by (unfold q1; rewrite G; field; lra).
        rewrite Q. replace (q0 * (- (1 + x1 - 1) - x2) - (1 + x0)) with (q0 * (- x1 - x2) - (1 + x0)) by ring. lra.
      * set (w := q1 * (1 - x2)) in *.
        assert (0 <= - (w - 1) - x2 <= kNekZeroTol) by lra.
        assert (0 <= 1 + x0 <= kNekZeroTol) by lra.
        apply Rabs_le. nra.
    + replace (y1 - x1) with (q1 * (1 - x2) - (1 + x1)) by (rewrite Y1; ring). lra.
  - unfold pyr_to_collapsed in E. rewrite !rdiv_ok in E by apply guard_nonzero. cbn in E. injection E as <-.
    rewrite !two_div.
    destruct (one_dir (1 + x1) (1 - x2)) as (A1 & A2 & A3); [lra|].
    destruct (one_dir (1 + x0) (1 - x2)) as (B1 & B2 & B3); [lra|].
    split; [unfold in_cube3; cbn; lra|]. unfold close3, pyr_to_loc; cbn.
    set (q1 := (1 + x1) / guard (1 - x2)) in *. set (q0 := (1 + x0) / guard (1 - x2)) in *.
    replace ((1 + (2 * q0 - 1)) * (1 - x2) * (1 / 2) - 1 - x0) with (q0 * (1 - x2) - (1 + x0)) by field.
    replace ((1 + (2 * q1 - 1)) * (1 - x2) * (1 / 2) - 1 - x1) with (q1 * (1 - x2) - (1 + x1)) by field.
    split; [auto|split; [auto|apply Rabs0]].
  - unfold prism_to_collapsed in E. rewrite !rdiv_ok in E by apply guard_nonzero. cbn in E. injection E as <-.
    rewrite !two_div.
    destruct (one_dir (1 + x0) (1 - x2)) as (B1 & B2 & B3); [lra|].
    split; [unfold in_cube3; cbn; lra|]. unfold close3, prism_to_loc; cbn.
    set (q0 := (1 + x0) / guard (1 - x2)) in *.
    replace ((1 + (2 * q0 - 1)) * (1 - x2) * (1 / 2) - 1 - x0) with (q0 * (1 - x2) - (1 + x0)) by field.
    split; [auto|split; apply Rabs0].
  - injection E as <-. cbn. split; [unfold in_cube3; cbn; lra|]. unfold close3, hex_to_loc; cbn.
    repeat split; apply Rabs0.
Qed.
Lemma element2 s xi eta : in_ref2 s xi -> to_collapsed2 s xi = Some eta ->
  in_cube2 eta /\ close2 kNekZeroTol (to_loc2 s eta) xi.
Proof.
  destruct xi as [x0 x1]. pose proof tol_pos as T.
  destruct s; cbn [in_ref2 to_collapsed2 to_loc2]; intros H E.
  - unfold tri_to_collapsed in E. rewrite !rdiv_ok in E by apply guard_nonzero. cbn in E. injection E as <-.
    rewrite !two_div.
    destruct (one_dir (1 + x0) (1 - x1)) as (B1 & B2 & B3); [lra|].
    split; [unfold in_cube2; cbn; lra|]. unfold close2, tri_to_loc; cbn.
    set (q0 := (1 + x0) / guard (1 - x1)) in *.
    replace ((1 + (2 * q0 - 1)) * (1 - x1) * (1 / 2) - 1 - x0) with (q0 * (1 - x1) - (1 + x0)) by field.
    split; [auto|apply Rabs0].
  - injection E as <-. split; [unfold in_cube2; cbn; lra|]. unfold close2, quad_to_loc; cbn.
    split; apply Rabs0.
Qed.

Lemma roundtrip3 s xi : away3 s kNekZeroTol xi -> option_map (to_loc3 s) (to_collapsed3 s xi) = Some xi.
Proof.
  destruct xi as [[x0 x1] x2]. pose proof tol_pos as T.
  destruct s; cbn [away3 to_collapsed3 to_loc3]; intros H.
  - destruct H as [H1 H2]. unfold tet_to_collapsed. rewrite !guard_far by lra. rewrite !rdiv_ok by lra. cbn.
    f_equal. apply pair3; try reflexivity; field; lra.
  - unfold pyr_to_collapsed. rewrite !guard_far by lra. rewrite !rdiv_ok by lra. cbn.
    f_equal. apply pair3; try reflexivity; field; lra.
  - unfold prism_to_collapsed. rewrite !guard_far by lra. rewrite !rdiv_ok by lra. cbn.
    f_equal. apply pair3; try reflexivity; field; lra.
  - reflexivity.
Qed.
Lemma roundtrip2 s xi : away2 s kNekZeroTol xi -> option_map (to_loc2 s) (to_collapsed2 s xi) = Some xi.
Proof.
  destruct xi as [x0 x1]. pose proof tol_pos as T.
  destruct s; cbn [away2 to_collapsed2 to_loc2 snd]; intros H; [|reflexivity].
  unfold tri_to_collapsed. rewrite !guard_far by lra. rewrite !rdiv_ok by lra. cbn. f_equal. f_equal. field; lra.
Qed.
Lemma cube_to_ref3 s eta : in_cube3 eta -> in_ref3 s (to_loc3 s eta).
Proof. destruct eta as [[e0 e1] e2]. unfold in_cube3. cbn [fst snd]. intros ([? ?] & [? ?] & [? ?]).
  assert (0 <= (1 + e0) * (1 - e2)) by (apply Rmult_le_pos; lra). assert (0 <= (1 + e1) * (1 - e2)) by (apply Rmult_le_pos; lra).
  assert (0 <= (1 - e0) * (1 - e2)) by (apply Rmult_le_pos; lra). assert (0 <= (1 - e1) * (1 - e2)) by (apply Rmult_le_pos; lra).
  assert (0 <= (1 + e0) * ((1 - e1) * (1 - e2))) by (apply Rmult_le_pos; lra).
  assert (0 <= (1 - e0) * ((1 - e1) * (1 - e2))) by (apply Rmult_le_pos; lra).
  destruct s; cbn [to_loc3 in_ref3 tet_to_loc pyr_to_loc prism_to_loc hex_to_loc]; repeat split; lra. Qed.
Lemma cube_to_ref2 s eta : in_cube2 eta -> in_ref2 s (to_loc2 s eta).
Proof. destruct eta as [e0 e1]. unfold in_cube2. cbn [fst snd]. intros ([? ?] & [? ?]).
  assert (0 <= (1 + e0) * (1 - e1)) by (apply Rmult_le_pos; lra). assert (0 <= (1 - e0) * (1 - e1)) by (apply Rmult_le_pos; lra).
  destruct s; cbn [to_loc2 in_ref2 tri_to_loc quad_to_loc]; repeat split; lra. Qed.
Lemma roundtrip3' s eta : away3 s kNekZeroTol (to_loc3 s eta) -> to_collapsed3 s (to_loc3 s eta) = Some eta.
Proof.
  destruct eta as [[e0 e1] e2]. pose proof tol_pos as T.
  destruct s; cbn [away3 to_collapsed3 to_loc3]; intros H.
  - unfold tet_to_loc in H. destruct H as [H1 H2]. unfold tet_to_collapsed, tet_to_loc. rewrite !guard_far by lra.
    rewrite !rdiv_ok by lra. cbn. f_equal.
    set (y := (1 + e1) * (1 - e2) * (1 / 2) - 1) in *. apply pair3; try reflexivity; [field; lra|].
    unfold y. field; lra.
  - unfold pyr_to_loc in H. cbn [away3] in H. unfold pyr_to_collapsed, pyr_to_loc. rewrite !guard_far by lra.
    rewrite !rdiv_ok by lra. cbn. f_equal. apply pair3; try reflexivity; field; lra.
  - unfold prism_to_loc in H. cbn [away3] in H. unfold prism_to_collapsed, prism_to_loc. rewrite !guard_far by lra.
    rewrite !rdiv_ok by lra. cbn. f_equal. apply pair3; try reflexivity; field; lra.
  - reflexivity.
Qed.
Lemma roundtrip2' s eta : away2 s kNekZeroTol (to_loc2 s eta) -> to_collapsed2 s (to_loc2 s eta) = Some eta.
Proof.
  destruct eta as [e0 e1]. pose proof tol_pos as T.
  destruct s; cbn [away2 to_collapsed2 to_loc2 snd]; intros H; [|reflexivity].
  unfold tri_to_loc in H. unfold tri_to_collapsed, tri_to_loc. rewrite !guard_far by (cbn in *; lra).
  rewrite !rdiv_ok by (cbn in *; lra). cbn in *. f_equal. f_equal. field; lra.
Qed.
Lemma generic3 s xi : generic_to_collapsed_3d (shape_int3 s) xi = to_collapsed3 s xi /\
                      generic_to_loc_3d (shape_int3 s) xi = to_loc3 s xi.
Proof.
  destruct xi as [[x0 x1] x2]. split.
  - unfold generic_to_collapsed_3d. rewrite !rdiv_ok by apply guard_nonzero. cbn [bind].
    destruct s; cbn; unfold tet_to_collapsed, pyr_to_collapsed, prism_to_collapsed, hex_to_collapsed;
      rewrite ?rdiv_ok by apply guard_nonzero; cbn; try reflexivity;
      f_equal; apply pair3; try reflexivity; field; apply guard_nonzero.
  - destruct s; cbn; reflexivity.
Qed.
Lemma generic2 s xi : generic_to_collapsed_2d (shape_int2 s) xi = to_collapsed2 s xi /\
                      generic_to_loc_2d (shape_int2 s) xi = to_loc2 s xi.
Proof.
  destruct xi as [x0 x1]. split.
  - unfold generic_to_collapsed_2d. rewrite !rdiv_ok by apply guard_nonzero. cbn [bind].
    destruct s; cbn; unfold tri_to_collapsed; rewrite ?rdiv_ok by apply guard_nonzero; reflexivity.
  - destruct s; reflexivity.
Qed.

(** C23 *)
Lemma clamp1_spec tol c : 0 <= tol ->
  let '(c', b) := clamp_loc_coord tol c in
  clamped tol c c' /\ in_range tol c' /\ (b = true <-> ~ in_range tol c) /\ (b = false -> c' = c).
Proof.
  intros T. destruct c as [x|]; cbn.
  - case Rlt_bool_spec; intros.
    + repeat split; cbn; try lra; try discriminate. f_equal. rewrite Rmin_right, Rmax_left; lra.
    + case Rlt_bool_spec; intros.
      * repeat split; cbn; try lra; try discriminate. f_equal. rewrite Rmin_left, Rmax_right; lra.
      * repeat split; cbn; try lra; try discriminate. f_equal. rewrite Rmin_right, Rmax_right; lra.
  - repeat split; cbn; try lra; try discriminate.
Qed.
Lemma clamp2_spec tol c0 c1 : 0 <= tol ->
  let '(c0', c1', b) := clamp_loc_coords2 tol c0 c1 in
  clamped tol c0 c0' /\ in_range tol c0' /\
  (b = true <-> ~ (in_range tol c0 /\ in_range tol c1)) /\
  (b = false -> c0' = c0 /\ c1' = c1) /\
  (in_range tol c0 -> clamped tol c1 c1' /\ in_range tol c1') /\
  (~ in_range tol c0 -> c1' = c1).
Proof.
  intros T. pose proof (clamp1_spec tol c0 T) as H0. unfold clamp_loc_coords2.
  destruct (clamp_loc_coord tol c0) as [c0' b0]. destruct H0 as (A & B & C & D).
  destruct b0.
  - assert (~ in_range tol c0) by tauto. repeat split; auto; try tauto; discriminate.
  - pose proof (clamp1_spec tol c1 T) as H1. destruct (clamp_loc_coord tol c1) as [c1' b1].
    destruct H1 as (A1 & B1 & C1 & D1). specialize (D eq_refl). subst c0'.
    assert (Rng : in_range tol c0) by auto. repeat split; auto; try tauto.
Qed.
Lemma clamp3_spec tol c0 c1 c2 : 0 <= tol ->
  let '(c0', c1', c2', b) := clamp_loc_coords3 tol c0 c1 c2 in
  (b = true <-> ~ (in_range tol c0 /\ in_range tol c1 /\ in_range tol c2)) /\
  (b = false -> c0' = c0 /\ c1' = c1 /\ c2' = c2) /\
  clamped tol c0 c0' /\ in_range tol c0' /\
  (~ in_range tol c0 -> c1' = c1 /\ c2' = c2) /\
  (in_range tol c0 -> clamped tol c1 c1' /\ in_range tol c1') /\
  (in_range tol c0 -> in_range tol c1 -> clamped tol c2 c2' /\ in_range tol c2') /\
  (in_range tol c0 -> ~ in_range tol c1 -> c2' = c2).
Proof.
  intros T. pose proof (clamp1_spec tol c0 T) as H0. unfold clamp_loc_coords3.
  destruct (clamp_loc_coord tol c0) as [c0' b0]. destruct H0 as (A & B & C & D).
  destruct b0.
  - assert (~ in_range tol c0) by tauto. repeat split; auto; try tauto; discriminate.
  - pose proof (clamp2_spec tol c1 c2 T) as H1. destruct (clamp_loc_coords2 tol c1 c2) as [[c1' c2'] b1].
    destruct H1 as (A1 & B1 & C1 & D1 & E1 & F1). specialize (D eq_refl). subst c0'.
    assert (Rng : in_range tol c0) by auto. repeat split; auto; try tauto.
Qed.
