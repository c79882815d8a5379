From Verif Require Import M_RealBase M_Coord M_NewtonGen M_NewtonMap S_Newton S_NewtonM L_RealBase L_Coord L_Newton.

Lemma affine_jac e c A b xi : e <> EPyr -> affine_map e c A b -> is_jacobian (ndims e) (Xmap e c) xi A.
Proof.
  intros He H a k Ha Hk. apply der_affine. intros t.
  assert (Hr : forall x, regular e x) by (destruct e; simpl; auto; congruence).
  rewrite (H (setc xi k t)), (H (setc xi k (comp xi k))) by auto.
  destruct xi as [[x y] z]. destruct e; try congruence; simpl in Hk;
  destruct k as [|[|[|]]]; try lia; cbn [ndims seq fold_right comp setc]; ring.
Qed.
Lemma affine_one_step e c A b s xi p fin : e <> EPyr -> affine_map e c A b -> det (ndims e) A <> 0 ->
  exists r f xin, nt_resid (linear_type e c s) xi p fin = Some (r, f) /\
    nt_step (linear_type e c s) xi p f = Some xin /\
    forall a, (a < ndims e)%nat -> Xmap e c xin a = comp p a.
Proof.
  intros He H Hd.
  assert (Hr : forall x, regular e x) by (destruct e; simpl; auto; congruence).
  destruct (resid_X e c s xi p fin) as (r & f & E1 & E2); auto.
  { intros [[Q _] _]. auto. }
  destruct (step_newton e c s xi p f A) as [S1 _]; auto.
  { intros [Q _]; auto. }
  { eapply affine_jac; eauto. }
  destruct (S1 Hd) as (xin & E3 & E4). exists r, f, xin. split; [auto|]. split; [auto|].
  intros a Ha. specialize (E4 a Ha). specialize (E2 a Ha).
  rewrite (H xin a) by auto. rewrite E2 in E4. rewrite (H xi a) in E4 by auto.
  destruct e; try congruence; cbn [ndims seq fold_right] in *; lra.
Qed.

Lemma tet_affine c : affine_map ETet c (fun a b => (c (S b) a - c 0%nat a) / 2)
  (fun a => (c 1%nat a + c 2%nat a + c 3%nat a - c 0%nat a) / 2).
Proof. intros [[x y] z] a Ha _. unfold Xmap. expand_shape. cbn [ndims seq fold_right comp]. field. Qed.

Lemma pyr_collapsed c eta a : comp eta 2 <> 1 ->
  Xmap EPyr c (pyr_to_loc eta) a =
    (1 - comp eta 2) / 2 * Xmap EQuad c eta a + (1 + comp eta 2) / 2 * c 4%nat a.
Proof.
  destruct eta as [[x y] z]. cbn [comp]. intros H. assert (Hw : 1 - z <> 0) by (intro; apply H; lra).
  unfold Xmap, pyr_to_loc. expand_shape. field. auto.
Qed.

Lemma apex_accepts c s p fin : apex_target EPyr c p ->
  nt_init (linear_type EPyr c s) p = Some (refvert EPyr 4) /\
  nt_resid (linear_type EPyr c s) (refvert EPyr 4) p fin = Some (0, fin).
Proof.
  intros H. apply vt_spec in H. destruct p as [[p0 p1] p2]. cbn [comp] in H. cbn [linear_type pyr_type nt_init nt_resid refvert nth].
  unfold co. rewrite H. split; auto.
  assert (N : forall a, near a a = true).
  { intros. apply near_spec. replace (a - a) with 0 by ring. rewrite Rabs_R0. pose proof tol_pos. lra. }
  rewrite !N. reflexivity.
Qed.
Lemma x_apex c s : ~ apex_target EPyr c (0, 0, 0) -> x_map (linear_type EPyr c s) (refvert EPyr 4) = None.
Proof.
  intros H. unfold x_map. cbn [linear_type pyr_type nt_resid refvert nth].
  match goal with |- context [if (?b && _)%bool then _ else _] => assert (Eb : b = false) end.
  { apply Bool.not_true_is_false. intros Q. apply H. apply vt_spec. exact Q. }
  rewrite Eb. cbn [andb]. unfold pyr_f. cbv zeta. rewrite rdiv_zero by ring. reflexivity.
Qed.
Lemma x_map_X e c s xi : regular e xi -> ~ (apex_target e c (0, 0, 0) /\ apex_ref xi) ->
  exists x, x_map (linear_type e c s) xi = Some x /\ forall a, (a < ndims e)%nat -> comp x a = Xmap e c xi a.
Proof.
  intros Hr Ha. destruct (resid_X e c s xi (0, 0, 0) (0, 0, 0)) as (r & f & E & F); auto.
  exists f. unfold x_map. rewrite E. split; auto. intros a Hl. rewrite (F a Hl).
  destruct a as [|[|[|]]]; cbn [comp]; ring.
Qed.

(** Embedded quadrilateral. *)
Definition Jq3 (c : nat -> nat -> R) (w xi : R * R * R) (a b : nat) : R :=
  match b with 0%nat | 1%nat => Jx EQuad c xi a b | _ => comp w a end.
Lemma quademb_jac c w xi : is_jacobian 3 (Xquad3 c w) xi (Jq3 c w xi).
Proof.
  intros a b Ha Hb. destruct xi as [[x y] z]. apply der_affine. intros t. unfold Xquad3, Xmap, Jq3.
  destruct b as [|[|[|]]]; try lia; unfold Jx; expand_shape; field.
Qed.
Lemma quademb_step_newton c s xi p f J : is_jacobian 3 (Xquad3 c (quademb_normal c)) xi J ->
  (det 3 J <> 0 -> exists xin, nt_step (quademb_type c s) xi p f = Some xin /\ newton_update 3 J xi f xin)
  /\ (det 3 J = 0 -> nt_step (quademb_type c s) xi p f = None).
Proof.
  intros HJ. set (w := quademb_normal c) in *.
  assert (E : forall a b, (a < 3)%nat -> (b < 3)%nat -> Jq3 c w xi a b = J a b).
  { apply jac_unique with (X := Xquad3 c w) (xi := xi); auto. apply quademb_jac. }
  rewrite <- (det_ext 3 _ _ (or_intror eq_refl) E).
  assert (Es : nt_step (quademb_type c s) xi p f =
    solve3 (co (Jq3 c w xi) 0 0) (co (Jq3 c w xi) 0 1) (co (Jq3 c w xi) 0 2) (co (Jq3 c w xi) 1 0) (co (Jq3 c w xi) 1 1)
   (co (Jq3 c w xi) 1 2) (co (Jq3 c w xi) 2 0) (co (Jq3 c w xi) 2 1) (co (Jq3 c w xi) 2 2)
   (comp xi 0) (comp xi 1) (comp xi 2) (comp f 0) (comp f 1) (comp f 2)).
  { destruct xi as [[x y] z], p as [[p0 p1] p2], f as [[f0 f1] f2].
  assert (G : forall a00 a01 a02 a10 a11 a12 a20 a21 a22 b00 b01 b02 b10 b11 b12 b20 b21 b22,
    a00 = b00 -> a01 = b01 -> a02 = b02 -> a10 = b10 -> a11 = b11 -> a12 = b12 -> a20 = b20 -> a21 = b21 -> a22 = b22 ->
    solve3 a00 a01 a02 a10 a11 a12 a20 a21 a22 x y z f0 f1 f2 = solve3 b00 b01 b02 b10 b11 b12 b20 b21 b22 x y z f0 f1 f2)
   by (intros; subst; reflexivity).
   cbn [quademb_type nt_step comp]. fold w. destruct w as [[w0 w1] w2].
   unfold quademb_step. cbv zeta. apply G; unfold co, Jq3, Jx; expand_shape; field. }
  rewrite Es. destruct (solve3_spec (Jq3 c w xi) (comp xi 0) (comp xi 1) (comp xi 2) (comp f 0) (comp f 1) (comp f 2)) as [A B].
  split; [|exact A]. intros H. destruct (B H) as (xin & E1 & E2). exists xin. split; auto.
  destruct xi as [[x y] z], f as [[f0 f1] f2]. eapply newton_update_ext; [|exact E2]. exact E.
Qed.
Lemma rel3_max s f0 f1 f2 : let r := get_relative_error_3d s f0 f1 f2 in
  (forall a, (a < 3)%nat -> Rabs (comp (f0, f1, f2) a) * comp s a <= r) /\
  (exists a, (a < 3)%nat /\ r = Rabs (comp (f0, f1, f2) a) * comp s a).
Proof.
  destruct s as [[s0 s1] s2]. cbv zeta. unfold get_relative_error_3d.
  set (x := Rabs f0 * s0). set (y := Rabs f1 * s1). set (z := Rabs f2 * s2).
  pose proof (fmax_ge_l x y). pose proof (fmax_ge_r x y). pose proof (fmax_ge_l (fmax x y) z). pose proof (fmax_ge_r (fmax x y) z).
  split.
  - intros a Ha. destruct a as [|[|[|]]]; try lia; cbn [comp]; fold x y z; lra.
  - assert (C : forall a b, fmax a b = a \/ fmax a b = b). { intros a b. unfold fmax. destruct (Rlt_bool _ _) || destruct (Rle_bool _ _); auto. }
    destruct (C (fmax x y) z) as [E|E]; rewrite E; [destruct (C x y) as [E2|E2]; rewrite E2|]; [exists 0%nat|exists 1%nat|exists 2%nat]; split; try lia; reflexivity.
Qed.
Lemma quademb_resid c s xi p fin : exists r f, nt_resid (quademb_type c s) xi p fin = Some (r, f) /\
    (forall a, (a < 3)%nat -> comp f a = Xquad3 c (quademb_normal c) xi a - comp p a) /\
    (forall a, (a < 3)%nat -> Rabs (comp f a) * comp s a <= r) /\ (exists a, (a < 3)%nat /\ r = Rabs (comp f a) * comp s a).
Proof.
  destruct xi as [[x y] z], p as [[p0 p1] p2]. cbn [quademb_type nt_resid].
  destruct (quademb_normal c) as [[w0 w1] w2]. unfold quademb_f. cbv zeta. do 2 eexists. split. reflexivity.
  split; [|apply rel3_max].
  intros a Hl. destruct a as [|[|[|]]]; [| | |lia]; unfold Xquad3, Xmap, co; expand_shape; field.
Qed.
(** On the surface (xi2 = 0) the embedded map is the bilinear map. *)

(** Embedded triangle. *)
Lemma triemb_project c s p : noncollinear c ->
  exists xi, nt_init (triemb_type c s) p = Some xi /\ nt_step (triemb_type c s) xi p = (fun _ => Some xi) /\ comp xi 2 = 0 /\
    dot3 (fun a => Xtri c xi a - comp p a) (edge c 1) = 0 /\ dot3 (fun a => Xtri c xi a - comp p a) (edge c 2) = 0.
Proof.
  intros H. destruct p as [[p0 p1] p2]. unfold noncollinear, dot3, edge in H.
  assert (Hi : exists xi, triemb_init c (p0, p1, p2) = Some xi /\ comp xi 2 = 0 /\
    dot3 (fun a => Xtri c xi a - comp (p0, p1, p2) a) (edge c 1) = 0 /\ dot3 (fun a => Xtri c xi a - comp (p0, p1, p2) a) (edge c 2) = 0).
  2:{ destruct Hi as (xi & A & B). exists xi. cbn [triemb_type nt_init nt_step]. split; [exact A|]. split; [|exact B].
      rewrite A. reflexivity. }
  unfold triemb_init, triemb_data, mcross, mdot, co.
  assert (Hex : exists u0 u1 u2 v0 v1 v2 a0 a1 a2, 
     u0 = c 1%nat 0%nat - c 0%nat 0%nat /\ u1 = c 1%nat 1%nat - c 0%nat 1%nat /\ u2 = c 1%nat 2%nat - c 0%nat 2%nat /\
     v0 = c 2%nat 0%nat - c 0%nat 0%nat /\ v1 = c 2%nat 1%nat - c 0%nat 1%nat /\ v2 = c 2%nat 2%nat - c 0%nat 2%nat /\
     a0 = p0 - c 0%nat 0%nat /\ a1 = p1 - c 0%nat 1%nat /\ a2 = p2 - c 0%nat 2%nat) by (do 9 eexists; repeat split).
  destruct Hex as (u0 & u1 & u2 & v0 & v1 & v2 & a0 & a1 & a2 & E1 & E2 & E3 & E4 & E5 & E6 & E7 & E8 & E9).
  rewrite <- E1, <- E2, <- E3, <- E4, <- E5, <- E6 in H.
  rewrite <- E1, <- E2, <- E3, <- E4, <- E5, <- E6, <- E7, <- E8, <- E9.
  set (D := (u0 * u0 + u1 * u1 + u2 * u2) * (v0 * v0 + v1 * v1 + v2 * v2) - (u0 * v0 + u1 * v1 + u2 * v2) * (u0 * v0 + u1 * v1 + u2 * v2)) in *.
  rewrite rdiv_ok. 2:{ intros Q. apply H. unfold D. nra. }
  cbn iota. rewrite rdiv_ok. 2:{ intros Q. apply H. unfold D. nra. }
  eexists. split. reflexivity. cbn [comp]. split; auto.
  unfold dot3, Xtri, edge. cbn [comp].
  assert (c 0%nat 0%nat = p0 - a0) by lra. assert (c 0%nat 1%nat = p1 - a1) by lra. assert (c 0%nat 2%nat = p2 - a2) by lra.
  assert (c 1%nat 0%nat = u0 + (p0 - a0)) by lra. assert (c 1%nat 1%nat = u1 + (p1 - a1)) by lra. assert (c 1%nat 2%nat = u2 + (p2 - a2)) by lra.
  assert (c 2%nat 0%nat = v0 + (p0 - a0)) by lra. assert (c 2%nat 1%nat = v1 + (p1 - a1)) by lra. assert (c 2%nat 2%nat = v2 + (p2 - a2)) by lra.
  rewrite H0, H1, H2, H3, H4, H5, H6, H7, H8.
  clear - H. unfold D in H. clear D.
  split; field; split; intros Q; apply H; nra.
Qed.
Lemma triemb_inplane c s p : noncollinear c -> (exists xi', forall a, (a < 3)%nat -> Xtri c xi' a = comp p a) ->
  exists xi, nt_init (triemb_type c s) p = Some xi /\ forall a, (a < 3)%nat -> Xtri c xi a = comp p a.
Proof.
  intros H [[[x' y'] z'] Hp]. destruct (triemb_project c s p H) as (xi & A & _ & _ & D1 & D2).
  exists xi. split; auto. destruct xi as [[x y] z].
  pose proof (Hp 0%nat ltac:(lia)) as P0. pose proof (Hp 1%nat ltac:(lia)) as P1. pose proof (Hp 2%nat ltac:(lia)) as P2.
  unfold dot3 in D1, D2. rewrite <- P0, <- P1, <- P2 in D1, D2.
  unfold Xtri, edge in D1, D2.
  set (al := (x - x') / 2). set (be := (y - y') / 2).
  set (d := fun a => al * (c 1%nat a - c 0%nat a) + be * (c 2%nat a - c 0%nat a)).
  assert (Ed : forall a, Xtri c (x, y, z) a - Xtri c (x', y', z') a = d a).
  { intros a. unfold Xtri, d, al, be. field. }
  assert (Z : d 0%nat * d 0%nat + d 1%nat * d 1%nat + d 2%nat * d 2%nat = 0).
  { transitivity (al * 0 + be * 0); [|ring]. rewrite <- D1 at 1. rewrite <- D2. unfold d, al, be. field. }
  assert (Q : d 0%nat = 0 /\ d 1%nat = 0 /\ d 2%nat = 0) by (repeat split; nra).
  intros a Ha. rewrite <- (Hp a Ha). specialize (Ed a).
  destruct Q as (Q0 & Q1 & Q2). destruct a as [|[|[|]]]; try lia; lra.
Qed.
Lemma triemb_degenerate c s p : ~ noncollinear c -> nt_init (triemb_type c s) p = None.
Proof.
  intros H. unfold noncollinear in H. match type of H with ~ (?t <> 0) => destruct (Req_dec t 0) as [H0|H0]; [clear H; rename H0 into H|exfalso; auto] end. destruct p as [[p0 p1] p2]. cbn [triemb_type nt_init].
  unfold triemb_init, triemb_data, mcross, mdot, co. unfold dot3, edge in H.
  rewrite rdiv_zero. reflexivity. rewrite <- Ropp_0, <- H. ring.
Qed.
Lemma triemb_resid c s xi p fin : exists r f, nt_resid (triemb_type c s) xi p fin = Some (r, f) /\
    (forall a, (a < 3)%nat -> comp f a = Xtri c xi a - comp p a) /\
    (forall a, (a < 3)%nat -> Rabs (comp f a) * comp s a <= r) /\ (exists a, (a < 3)%nat /\ r = Rabs (comp f a) * comp s a).
Proof.
  destruct xi as [[x y] z], p as [[p0 p1] p2]. cbn [triemb_type nt_resid triemb_data].
  do 2 eexists. split. reflexivity. split; [|apply rel3_max].
  intros a Hl. destruct a as [|[|[|]]]; [| | |lia]; unfold Xtri, co; cbn [comp]; field.
Qed.
