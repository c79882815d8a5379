From Verif Require Import M_RealBase M_Coord M_NewtonGen M_NewtonMap S_Newton S_NewtonM L_RealBase L_Coord.

Lemma der_affine g x B : (forall t, g t = g x + B * (t - x)) -> derivable_pt_lim g x B.
Proof.
  intros H eps He. exists (mkposreal 1 Rlt_0_1). intros h Hh _.
  replace ((g (x + h) - g x) / h - B) with 0. rewrite Rabs_R0. auto.
  rewrite (H (x + h)). field. auto.
Qed.
Lemma der_ratl g x A B C : x <> 1 -> (forall t, t <> 1 -> g t = A + B * t + C / (1 - t)) ->
  derivable_pt_lim g x (B + C / ((1 - x) * (1 - x))).
Proof.
  intros Hx H.
  assert (D : derivable_pt_lim (fun t => A + B * t + C / (1 - t)) x (B + C / ((1 - x) * (1 - x)))).
  { assert (D1 : derivable_pt_lim (plus_fct (fun t => A + B * t) (div_fct (fct_cte C) (fun t => 1 - t))) x
       (B + (0 * (1 - x) - (-1) * fct_cte C x) / (Rsqr (1 - x)))).
    { apply derivable_pt_lim_plus.
      - apply der_affine. intros; ring.
      - apply (derivable_pt_lim_div (fct_cte C) (fun t => 1 - t) x 0 (-1)).
        + apply derivable_pt_lim_const.
        + apply der_affine. intros; ring.
        + lra. }
    replace (B + C / ((1 - x) * (1 - x))) with (B + (0 * (1 - x) - (-1) * fct_cte C x) / (Rsqr (1 - x))).
    exact D1. unfold fct_cte, Rsqr. field. lra. }
  intros eps He. destruct (D eps He) as [d Hd].
  assert (Hp : 0 < Rmin d (Rabs (1 - x))). { apply Rmin_pos. apply cond_pos. apply Rabs_pos_lt. lra. }
  exists (mkposreal _ Hp). intros h Hh Hlt. simpl in Hlt.
  assert (Rabs h < d) by (pose proof (Rmin_l d (Rabs (1 - x))); lra).
  assert (Hh1 : Rabs h < Rabs (1 - x)) by (pose proof (Rmin_r d (Rabs (1 - x))); lra).
  specialize (Hd h Hh H0).
  rewrite (H (x + h)), (H x); auto.
  intros E. replace h with (1 - x) in Hh1 by lra. lra.
Qed.

(** The common tail of the generated step functions. *)
Definition solve3 (J00 J01 J02 J10 J11 J12 J20 J21 J22 xi0 xi1 xi2 f0 f1 f2 : R) : option (R * R * R) :=
  let y0 := J11 * J22 in
  let y1 := J00 * y0 in
  let y2 := J01 * J12 in
  let y3 := J20 * y2 in
  let y4 := J02 * J21 in
  let y5 := J10 * y4 in
  let y6 := J12 * J21 in
  let y7 := J00 * y6 in
  let y8 := J01 * J22 in
  let y9 := J10 * y8 in
  let y10 := J02 * J11 in
  let y11 := J20 * y10 in
  match rdiv (1) ((y1 - y11 + y3 + y5 - y7 - y9)) with None => None | Some y12 =>
  let y13 := J00 * f2 in
  let y14 := J20 * f1 in
  let y15 := J10 * f0 in
  let y16 := J00 * f1 in
  let y17 := J10 * f2 in
  let y18 := J20 * f0 in
  let xin0_tmp := y12 * (-f0 * y0 + f0 * y6 - f1 * y4 + f1 * y8 + f2 * y10 - f2 * y2 + xi0 * y1 - xi0 * y11 + xi0 * y3 + xi0 * y5 - xi0 * y7 - xi0 * y9) in
  let xin1_tmp := y12 * (J02 * y14 - J02 * y17 + J12 * y13 - J12 * y18 + J22 * y15 - J22 * y16 + xi1 * y1 - xi1 * y11 + xi1 * y3 + xi1 * y5 - xi1 * y7 - xi1 * y9) in
  let xin2_tmp := y12 * (-J01 * y14 + J01 * y17 - J11 * y13 + J11 * y18 - J21 * y15 + J21 * y16 + xi2 * y1 - xi2 * y11 + xi2 * y3 + xi2 * y5 - xi2 * y7 - xi2 * y9) in
  Some (xin0_tmp, xin1_tmp, xin2_tmp) end.
Lemma rdiv_zero a b : b = 0 -> rdiv a b = None.
Proof. intros ->. unfold rdiv. rewrite Req_bool_true; auto. Qed.

Lemma solve3_spec (J : nat -> nat -> R) xi0 xi1 xi2 f0 f1 f2 :
  let r := solve3 (co J 0 0) (co J 0 1) (co J 0 2) (co J 1 0) (co J 1 1) (co J 1 2) (co J 2 0) (co J 2 1) (co J 2 2) xi0 xi1 xi2 f0 f1 f2 in
  (det 3 J = 0 -> r = None) /\
  (det 3 J <> 0 -> exists xin, r = Some xin /\ newton_update 3 J (xi0, xi1, xi2) (f0, f1, f2) xin).
Proof.
  assert (E : forall a b c d e f g h i : R, a * (e * i) - g * (c * e) + g * (b * f) + d * (c * h) - a * (f * h) - d * (b * i)
     = a * (e * i - f * h) - b * (d * i - f * g) + c * (d * h - e * g)) by (intros; ring).
  unfold det, solve3, co. cbv zeta. split; intros H.
  - rewrite rdiv_zero; auto. rewrite E. exact H.
  - rewrite rdiv_ok by (rewrite E; exact H).
    eexists. split. reflexivity.
    assert (D : forall J00 J01 J02 J10 J11 J12 J20 J21 J22 : R,
      J00 * (J11 * J22 - J12 * J21) - J01 * (J10 * J22 - J12 * J20) + J02 * (J10 * J21 - J11 * J20) <> 0 ->
      J00 * (J11 * J22) - J20 * (J02 * J11) + J20 * (J01 * J12) + J10 * (J02 * J21) - J00 * (J12 * J21) - J10 * (J01 * J22) <> 0).
    { intros. intros Q. apply H0. rewrite <- Q. ring. }
    apply D in H. clear D E.
    intros a Ha. destruct a as [|[|[|]]]; [| | |lia]; cbn [seq fold_right comp];
    generalize dependent (J 0 0)%nat; generalize dependent (J 0 1)%nat; generalize dependent (J 0 2)%nat;
    generalize dependent (J 1 0)%nat; generalize dependent (J 1 1)%nat; generalize dependent (J 1 2)%nat;
    generalize dependent (J 2 0)%nat; generalize dependent (J 2 1)%nat; generalize dependent (J 2 2)%nat;
    intros; field; auto.
Qed.

(** Explicit Jacobians of the specification maps. *)
Definition dlin (s : R) : R := s / 2.
Definition dshape (e : elem) (b i : nat) (xi : R * R * R) : R :=
  let '(x, y, z) := xi in
  let r := refvert e i in
  match e with
  | EQuad => match b with 0%nat => dlin (comp r 0) * lin (comp r 1) y | _ => lin (comp r 0) x * dlin (comp r 1) end
  | EHex => match b with 0%nat => dlin (comp r 0) * lin (comp r 1) y * lin (comp r 2) z
            | 1%nat => lin (comp r 0) x * dlin (comp r 1) * lin (comp r 2) z
            | _ => lin (comp r 0) x * lin (comp r 1) y * dlin (comp r 2) end
  | ETet => match i with 0%nat => - 1/2 | 1%nat => match b with 0%nat => 1/2 | _ => 0 end
            | 2%nat => match b with 1%nat => 1/2 | _ => 0 end | _ => match b with 0%nat | 1%nat => 0 | _ => 1/2 end end
  | EPrism => match b with
     | 0%nat => match i with 0%nat | 3%nat => -1/2 | 1%nat | 2%nat => 1/2 | _ => 0 end * lin (comp r 1) y
     | 1%nat => match i with 0%nat | 3%nat => - (x + z) / 2 | 1%nat | 2%nat => (1 + x) / 2 | _ => (1 + z) / 2 end * dlin (comp r 1)
     | _ => match i with 0%nat | 3%nat => -1/2 | 1%nat | 2%nat => 0 | _ => 1/2 end * lin (comp r 1) y end
  | EPyr =>
     let w := 1 - z in
     match b with
     | 0%nat => match i with 0%nat => (-1 + (1 + y) / w) / 2 | 1%nat => (1 - (1 + y) / w) / 2
                | 2%nat => (1 + y) / w / 2 | 3%nat => - ((1 + y) / w) / 2 | _ => 0 end
     | 1%nat => match i with 0%nat => (-1 + (1 + x) / w) / 2 | 1%nat => - ((1 + x) / w) / 2
                | 2%nat => (1 + x) / w / 2 | 3%nat => (1 - (1 + x) / w) / 2 | _ => 0 end
     | _ => let q := (1 + x) * (1 + y) / (w * w) in
            match i with 0%nat => (-1 + q) / 2 | 1%nat => - q / 2 | 2%nat => q / 2 | 3%nat => - q / 2 | _ => 1/2 end
     end
  end.
Definition Jx (e : elem) (c : nat -> nat -> R) (xi : R * R * R) (a b : nat) : R :=
  fold_right (fun i acc => dshape e b i xi * c i a + acc) 0 (seq 0 (nverts e)).

Ltac expand_shape := cbn [Xmap Jx nverts seq fold_right shapef dshape bilin refvert nth comp setc Nat.add]; unfold bilin, lin, dlin;
  cbn [refvert nth comp setc]; unfold lin, dlin.

Lemma Jx_jac e c xi : regular e xi -> is_jacobian (ndims e) (Xmap e c) xi (Jx e c xi).
Proof.
  destruct xi as [[x y] z]. intros Hr a b Ha Hb.
  assert (Hb' : b = 0%nat \/ b = 1%nat \/ b = 2%nat) by (destruct e; simpl in Hb; lia).
  destruct e; try (apply der_affine; intros t; unfold Xmap, Jx; destruct Hb' as [->|[->| ->]]; expand_shape; field).
  - assert (Hq : b = 0%nat \/ b = 1%nat) by (simpl in Hb; lia).
    apply der_affine; intros t; unfold Xmap, Jx; destruct Hq as [->| ->]; expand_shape; field.
  - simpl in Hr. assert (Hw : 1 - z <> 0) by (intro; apply Hr; lra). destruct Hb' as [->|[->| ->]]; cbn [comp setc].
    + apply der_affine. intros t. unfold Xmap, Jx. expand_shape. field. auto.
    + apply der_affine. intros t. unfold Xmap, Jx. expand_shape. field. auto.
    + set (K := (1 + x) * (1 + y) * (c 0%nat a - c 1%nat a + c 2%nat a - c 3%nat a) / 2).
      replace (Jx EPyr c (x, y, z) a 2) with ((c 4%nat a - c 0%nat a) / 2 + K / ((1 - z) * (1 - z))).
      * apply (der_ratl _ z ((c 4%nat a + c 0%nat a) / 2 - (1 + x) * c 0%nat a / 2 - (1 + y) * c 0%nat a / 2
             + (1 + x) * c 1%nat a / 2 + (1 + y) * c 3%nat a / 2)); auto.
        intros t Ht. unfold Xmap, K. expand_shape. field. intro; apply Ht; lra.
      * unfold Jx, K. expand_shape. field. auto.
Qed.

Lemma jac_unique n X xi J J' : is_jacobian n X xi J -> is_jacobian n X xi J' ->
  forall a b, (a < n)%nat -> (b < n)%nat -> J a b = J' a b.
Proof. intros H H' a b Ha Hb. eapply uniqueness_limite; [apply H|apply H']; auto. Qed.

Lemma newton_update_ext n J J' xi f xin : (forall a b, (a < n)%nat -> (b < n)%nat -> J a b = J' a b) ->
  newton_update n J xi f xin -> newton_update n J' xi f xin.
Proof.
  intros E H a Ha. rewrite <- (H a Ha).
  assert (G : forall l, (forall b, In b l -> (b < n)%nat) ->
    fold_right (fun b acc => J' a b * (comp xin b - comp xi b) + acc) 0 l =
    fold_right (fun b acc => J a b * (comp xin b - comp xi b) + acc) 0 l).
  { induction l; simpl; intros Hl; auto. rewrite IHl by (intros; apply Hl; auto). rewrite E; auto. }
  apply G. intros b Hb. apply in_seq in Hb. lia.
Qed.
Lemma det_ext n J J' : (n = 2 \/ n = 3)%nat -> (forall a b, (a < n)%nat -> (b < n)%nat -> J a b = J' a b) -> det n J = det n J'.
Proof. intros [-> | ->] E; unfold det; rewrite !E by lia; reflexivity. Qed.

Lemma near_spec a b : near a b = true <-> Rabs (a - b) <= kNekZeroTol.
Proof. unfold near. destruct (Rle_bool_spec (Rabs (a - b)) kNekZeroTol); split; intros; auto; try discriminate; lra. Qed.
Lemma vt_spec c p : (near (c 4%nat 0%nat) (comp p 0) && near (c 4%nat 1%nat) (comp p 1) && near (c 4%nat 2%nat) (comp p 2))%bool = true
  <-> apex_target EPyr c p.
Proof.
  rewrite !Bool.andb_true_iff, !near_spec. unfold apex_target. split.
  - intros [[A B] C]. split; auto. intros a Ha. destruct a as [|[|[|]]]; try lia; auto.
  - intros [_ H]. repeat split; apply H; lia.
Qed.

Lemma step3_solve e c s xi p f : ndims e = 3%nat -> regular e xi -> ~ apex_target e c p ->
  nt_step (linear_type e c s) xi p f =
  solve3 (co (Jx e c xi) 0 0) (co (Jx e c xi) 0 1) (co (Jx e c xi) 0 2) (co (Jx e c xi) 1 0) (co (Jx e c xi) 1 1)
   (co (Jx e c xi) 1 2) (co (Jx e c xi) 2 0) (co (Jx e c xi) 2 1) (co (Jx e c xi) 2 2)
   (comp xi 0) (comp xi 1) (comp xi 2) (comp f 0) (comp f 1) (comp f 2).
Proof.
  destruct xi as [[x y] z], p as [[p0 p1] p2], f as [[f0 f1] f2]. intros Hn Hr Ha.
  assert (G : forall a00 a01 a02 a10 a11 a12 a20 a21 a22 b00 b01 b02 b10 b11 b12 b20 b21 b22,
    a00 = b00 -> a01 = b01 -> a02 = b02 -> a10 = b10 -> a11 = b11 -> a12 = b12 -> a20 = b20 -> a21 = b21 -> a22 = b22 ->
    solve3 a00 a01 a02 a10 a11 a12 a20 a21 a22 x y z f0 f1 f2 = solve3 b00 b01 b02 b10 b11 b12 b20 b21 b22 x y z f0 f1 f2)
   by (intros; subst; reflexivity).
  destruct e; try discriminate Hn; cbn [linear_type nt_step tet_type prism_type hex_type pyr_type comp].
  - unfold tet_step. cbv zeta. apply G; unfold co, Jx; expand_shape; field.
  - unfold prism_step. cbv zeta. apply G; unfold co, Jx; expand_shape; field.
  - unfold hex_step. cbv zeta. apply G; unfold co, Jx; expand_shape; field.
  - simpl in Hr. assert (Hw : 1 - z <> 0) by (intro; apply Hr; lra). assert (Hw' : z - 1 <> 0) by (intro; apply Hr; lra).
    match goal with |- (if ?b then _ else _) = _ => destruct b eqn:Eb end.
    { exfalso. apply Ha. apply vt_spec. exact Eb. }
    unfold pyr_step. cbv zeta. rewrite (rdiv_ok 1) by auto.
    rewrite rdiv_ok by (apply Rmult_integral_contrapositive_currified; auto).
    apply G; unfold co, Jx; expand_shape; field; auto.
Qed.

Lemma step_newton e c s xi p f J : regular e xi -> ~ apex_target e c p ->
  is_jacobian (ndims e) (Xmap e c) xi J ->
  (det (ndims e) J <> 0 -> exists xin, nt_step (linear_type e c s) xi p f = Some xin /\ newton_update (ndims e) J xi f xin)
  /\ (det (ndims e) J = 0 -> nt_step (linear_type e c s) xi p f = None).
Proof.
  intros Hr Ha HJ.
  assert (E : forall a b, (a < ndims e)%nat -> (b < ndims e)%nat -> Jx e c xi a b = J a b).
  { apply jac_unique with (X := Xmap e c) (xi := xi); auto. apply Jx_jac; auto. }
  assert (Hd : (ndims e = 2 \/ ndims e = 3)%nat) by (destruct e; simpl; auto).
  rewrite <- (det_ext _ _ _ Hd E).
  assert (G : (det (ndims e) (Jx e c xi) <> 0 -> exists xin, nt_step (linear_type e c s) xi p f = Some xin /\
      newton_update (ndims e) (Jx e c xi) xi f xin) /\
      (det (ndims e) (Jx e c xi) = 0 -> nt_step (linear_type e c s) xi p f = None)).
  2:{ destruct G as [G1 G2]. split; auto. intros H. destruct (G1 H) as (xin & A & B). exists xin. split; auto.
      eapply newton_update_ext; eauto. }
  clear J HJ E. destruct Hd as [Hd|Hd].
  - destruct e; try discriminate Hd. destruct xi as [[x y] z], p as [[p0 p1] p2], f as [[f0 f1] f2].
    cbn [ndims det linear_type quad_type nt_step].
    set (J := Jx EQuad c (x, y, z)).
    assert (E00 : J 0%nat 0%nat = 1 / 4 * co c 0 0 * (y - 1) - 1 / 4 * co c 1 0 * (y - 1) + 1 / 4 * co c 2 0 * (y + 1) - 1 / 4 * co c 3 0 * (y + 1))
      by (unfold J, Jx, co; expand_shape; field).
    assert (E01 : J 0%nat 1%nat = 1 / 4 * co c 0 0 * (x - 1) - 1 / 4 * co c 1 0 * (x + 1) + 1 / 4 * co c 2 0 * (x + 1) - 1 / 4 * co c 3 0 * (x - 1))
      by (unfold J, Jx, co; expand_shape; field).
    assert (E10 : J 1%nat 0%nat = 1 / 4 * co c 0 1 * (y - 1) - 1 / 4 * co c 1 1 * (y - 1) + 1 / 4 * co c 2 1 * (y + 1) - 1 / 4 * co c 3 1 * (y + 1))
      by (unfold J, Jx, co; expand_shape; field).
    assert (E11 : J 1%nat 1%nat = 1 / 4 * co c 0 1 * (x - 1) - 1 / 4 * co c 1 1 * (x + 1) + 1 / 4 * co c 2 1 * (x + 1) - 1 / 4 * co c 3 1 * (x - 1))
      by (unfold J, Jx, co; expand_shape; field).
    unfold quad_step. cbv zeta. rewrite <- E00, <- E01, <- E10, <- E11. clear E00 E01 E10 E11.
    assert (Ed : J 0%nat 0%nat * J 1%nat 1%nat - J 0%nat 1%nat * J 1%nat 0%nat = det 2 J) by reflexivity.
    rewrite Ed. split; intros H.
    + rewrite rdiv_ok by auto. eexists. split. reflexivity. rewrite <- Ed in H |- *. clear Ed.
      intros a Ha'. destruct a as [|[|]]; [| |lia]; cbn [seq fold_right comp];
      generalize dependent (J 0 0)%nat; generalize dependent (J 0 1)%nat; 
      generalize dependent (J 1 0)%nat; generalize dependent (J 1 1)%nat; intros; field; auto.
    + rewrite rdiv_zero; auto.
  - rewrite Hd. rewrite step3_solve by auto.
    destruct (solve3_spec (Jx e c xi) (comp xi 0) (comp xi 1) (comp xi 2) (comp f 0) (comp f 1) (comp f 2)) as [A B].
    split; [|exact A]. intros H. destruct (B H) as (xin & E1 & E2). exists xin. split; auto.
    destruct xi as [[x y] z], f as [[f0 f1] f2]. exact E2.
Qed.

Lemma resid_X e c s xi p fin : regular e xi -> ~ (apex_target e c p /\ apex_ref xi) ->
  exists r f, nt_resid (linear_type e c s) xi p fin = Some (r, f) /\
    forall a, (a < ndims e)%nat -> comp f a = Xmap e c xi a - comp p a.
Proof.
  destruct xi as [[x y] z], p as [[p0 p1] p2]. intros Hr Ha.
  destruct e; cbn [linear_type quad_type tet_type prism_type hex_type pyr_type nt_resid].
  - unfold quad_f. cbv zeta. cbn iota beta. do 2 eexists. split. reflexivity.
    intros a Hl. destruct a as [|[|]]; [| |simpl in Hl; lia]; unfold Xmap, co; expand_shape; field.
  - unfold tet_f. cbv zeta. do 2 eexists. split. reflexivity.
    intros a Hl. destruct a as [|[|[|]]]; [| | |simpl in Hl; lia]; unfold Xmap, co; expand_shape; field.
  - unfold prism_f. cbv zeta. do 2 eexists. split. reflexivity.
    intros a Hl. destruct a as [|[|[|]]]; [| | |simpl in Hl; lia]; unfold Xmap, co; expand_shape; field.
  - unfold hex_f. cbv zeta. do 2 eexists. split. reflexivity.
    intros a Hl. destruct a as [|[|[|]]]; [| | |simpl in Hl; lia]; unfold Xmap, co; expand_shape; field.
  - simpl in Hr. assert (Hw : 1 - z <> 0) by (intro; apply Hr; lra). assert (Hw' : z - 1 <> 0) by (intro; apply Hr; lra).
    match goal with |- exists r f, (if ?b then _ else _) = _ /\ _ => destruct b eqn:Eb end.
    { exfalso. apply Ha. apply Bool.andb_true_iff in Eb. destruct Eb as [Ev Ex]. split.
      - apply vt_spec. exact Ev.
      - rewrite !Bool.andb_true_iff, !near_spec in Ex. destruct Ex as [[? ?] ?]. repeat split; auto. }
    unfold pyr_f. cbv zeta. rewrite rdiv_ok by auto. do 2 eexists. split. reflexivity.
    intros a Hl. destruct a as [|[|[|]]]; [| | |simpl in Hl; lia]; unfold Xmap, co; expand_shape; field; auto.
Qed.

Lemma X_vertices e c i a : (i < nverts e)%nat -> ~ (e = EPyr /\ i = 4%nat) -> Xmap e c (refvert e i) a = c i a.
Proof.
  intros Hi Hp. unfold Xmap.
  destruct e; cbn in Hi;
  do 8 (try (destruct i as [|i]; [try solve [expand_shape; field | exfalso; auto]|])); exfalso; lia.
Qed.
