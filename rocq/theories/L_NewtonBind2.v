From Verif Require Import M_RealBase M_Coord M_NewtonGen M_NewtonMap S_Newton S_NewtonM L_RealBase L_Coord L_Newton L_Newton2
  M_NewtonBind S_NewtonBind L_NewtonBind.

Lemma det_inj e (A : nat -> nat -> R) u : (e = EQuad -> comp u 2 = 0) -> det (ndims e) A <> 0 ->
  (forall a, (a < ndims e)%nat -> fold_right (fun k acc => A a k * comp u k + acc) 0 (seq 0 (ndims e)) = 0) -> u = (0, 0, 0).
Proof.
  destruct u as [[x y] z]. intros H2 Hd H.
  assert (K : forall q : R, det (ndims e) A * q = 0 -> q = 0). { intros q Q. apply Rmult_integral in Q as [?|?]; auto; contradiction. }
  destruct e; cbn [ndims seq fold_right det comp] in *;
  pose proof (H 0%nat ltac:(lia)) as H0; pose proof (H 1%nat ltac:(lia)) as H1; try pose proof (H 2%nat ltac:(lia)) as H3.
  1:{ rewrite (H2 eq_refl).
      assert (x = 0) by (apply K; replace (_ * x) with (A 1%nat 1%nat * (A 0%nat 0%nat * x + (A 0%nat 1%nat * y + 0)) - A 0%nat 1%nat * (A 1%nat 0%nat * x + (A 1%nat 1%nat * y + 0))) by ring; rewrite H0, H1; ring).
      assert (y = 0) by (apply K; replace (_ * y) with (A 0%nat 0%nat * (A 1%nat 0%nat * x + (A 1%nat 1%nat * y + 0)) - A 1%nat 0%nat * (A 0%nat 0%nat * x + (A 0%nat 1%nat * y + 0))) by ring; rewrite H0, H1; ring).
      congruence. }
  all: set (a00 := A 0%nat 0%nat) in *; set (a01 := A 0%nat 1%nat) in *; set (a02 := A 0%nat 2%nat) in *;
    set (a10 := A 1%nat 0%nat) in *; set (a11 := A 1%nat 1%nat) in *; set (a12 := A 1%nat 2%nat) in *;
    set (a20 := A 2%nat 0%nat) in *; set (a21 := A 2%nat 1%nat) in *; set (a22 := A 2%nat 2%nat) in *;
    set (e0 := a00 * x + (a01 * y + (a02 * z + 0))) in *; set (e1 := a10 * x + (a11 * y + (a12 * z + 0))) in *;
    set (e2 := a20 * x + (a21 * y + (a22 * z + 0))) in *;
    assert (x = 0) by (apply K; replace (_ * x) with ((a11 * a22 - a12 * a21) * e0 + (a02 * a21 - a01 * a22) * e1 + (a01 * a12 - a02 * a11) * e2)
       by (unfold e0, e1, e2; ring); rewrite H0, H1, H3; ring);
    assert (y = 0) by (apply K; replace (_ * y) with ((a12 * a20 - a10 * a22) * e0 + (a00 * a22 - a02 * a20) * e1 + (a02 * a10 - a00 * a12) * e2)
       by (unfold e0, e1, e2; ring); rewrite H0, H1, H3; ring);
    assert (z = 0) by (apply K; replace (_ * z) with ((a10 * a21 - a11 * a20) * e0 + (a01 * a20 - a00 * a21) * e1 + (a00 * a11 - a01 * a10) * e2)
       by (unfold e0, e1, e2; ring); rewrite H0, H1, H3; ring);
    congruence.
Qed.
Lemma affine_inj e c A b xi xs : e <> EPyr -> affine_map e c A b -> det (ndims e) A <> 0 ->
  (e = EQuad -> comp xi 2 = comp xs 2) ->
  (forall a, (a < ndims e)%nat -> Xmap e c xi a = Xmap e c xs a) -> xi = xs.
Proof.
  intros He Ha Hd H2 H. destruct xi as [[x y] z], xs as [[x' y'] z'].
  assert (Hr : forall x, regular e x) by (destruct e; simpl; auto; congruence).
  assert (Q : (x - x', y - y', z - z') = (0, 0, 0)).
  { apply (det_inj e A); auto.
    - intros E. specialize (H2 E). cbn [comp] in *. lra.
    - intros a Hlt. specialize (H a Hlt). rewrite !(Ha _ a Hlt) in H by auto.
      destruct e; try congruence; cbn [ndims seq fold_right comp] in *; lra. }
  injection Q as Q1 Q2 Q3. apply pair3; lra.
Qed.
Lemma resid_zero e c s xi p fin r f : e <> EPyr -> nt_resid (linear_type e c s) xi p fin = Some (r, f) ->
  (forall a, (a < ndims e)%nat -> comp f a = 0) -> r = 0.
Proof.
  intros He H Hf. destruct xi as [[x y] z], p as [[p0 p1] p2].
  assert (Z0 : fmax 0 0 = 0). { unfold fmax. rewrite Rlt_bool_false; lra. }
  destruct e; try congruence; cbn [linear_type quad_type tet_type prism_type hex_type nt_resid] in H; cbn [ndims] in Hf.
  - match type of H with bind ?q _ = _ => destruct q as [[f0 f1]|]; [|discriminate] end. cbn [bind] in H. injection H as <- <-.
    pose proof (Hf 0%nat ltac:(lia)) as E0. pose proof (Hf 1%nat ltac:(lia)) as E1. cbn [comp] in *. subst.
    destruct s as [[s0 s1] s2]. unfold get_relative_error_2d. rewrite Rabs_R0, !Rmult_0_l. auto.
  - match type of H with bind ?q _ = _ => destruct q as [[[f0 f1] f2]|]; [|discriminate] end. cbn [bind] in H. injection H as <- <-.
    pose proof (Hf 0%nat ltac:(lia)) as E0. pose proof (Hf 1%nat ltac:(lia)) as E1. pose proof (Hf 2%nat ltac:(lia)) as E2. cbn [comp] in *. subst.
    destruct s as [[s0 s1] s2]. unfold get_relative_error_3d. rewrite Rabs_R0, !Rmult_0_l, Z0. auto.
  - match type of H with bind ?q _ = _ => destruct q as [[[f0 f1] f2]|]; [|discriminate] end. cbn [bind] in H. injection H as <- <-.
    pose proof (Hf 0%nat ltac:(lia)) as E0. pose proof (Hf 1%nat ltac:(lia)) as E1. pose proof (Hf 2%nat ltac:(lia)) as E2. cbn [comp] in *. subst.
    destruct s as [[s0 s1] s2]. unfold get_relative_error_3d. rewrite Rabs_R0, !Rmult_0_l, Z0. auto.
  - match type of H with bind ?q _ = _ => destruct q as [[[f0 f1] f2]|]; [|discriminate] end. cbn [bind] in H. cbv zeta in H. injection H as <- <-.
    pose proof (Hf 0%nat ltac:(lia)) as E0. pose proof (Hf 1%nat ltac:(lia)) as E1. pose proof (Hf 2%nat ltac:(lia)) as E2. cbn [comp] in *. subst.
    rewrite Rabs_R0, !Z0. ring.
Qed.

(** Collapse, clamp and uncollapse of a point of the reference element. *)
Lemma clamp3_id ctol eta : 0 <= ctol -> in_cube3 eta -> clamp3 ctol eta = eta.
Proof. destruct eta as [[x y] z]. unfold in_cube3, clamp3. cbn [fst snd]. intros H (A & B & C). rewrite !clamp1_id; auto. Qed.
Lemma clamp_element e c s ctol xi : 0 <= ctol -> in_element e xi -> away e kNekZeroTol xi ->
  exists eta, nt_coll (linear_type e c s) xi = Some eta /\ nt_loc (linear_type e c s) (clamp3 ctol eta) = xi.
Proof.
  intros Hc Hi Ha. destruct xi as [[x y] z].
  assert (G : forall sh, in_ref3 sh (x, y, z) -> away3 sh kNekZeroTol (x, y, z) -> exists eta, to_collapsed3 sh (x, y, z) = Some eta /\
     to_loc3 sh (clamp3 ctol eta) = (x, y, z)).
  { intros sh H1 H2. destruct (to_collapsed3_total sh (x, y, z)) as [eta E]. exists eta. split; auto.
    destruct (element3 sh _ _ H1 E) as [C _]. rewrite clamp3_id by auto.
    pose proof (roundtrip3 sh (x, y, z) H2) as Q. rewrite E in Q. injection Q. auto. }
  destruct e; cbn [in_element away] in *.
  - destruct Hi as [[Hx Hy] Hz]. cbn [snd fst in_ref2] in *. subst z. exists (x, y, 0). split; auto.
    cbn [linear_type quad_type nt_loc]. rewrite clamp3_id; auto. unfold in_cube3; cbn [fst snd]. lra.
  - destruct (G Tet) as (eta & E & L); auto. exists eta; auto.
  - destruct (G Pri) as (eta & E & L); auto. exists eta; auto.
  - destruct (G Hex) as (eta & E & L); auto. exists eta; auto.
  - destruct (G Pyr) as (eta & E & L); auto. exists eta; auto.
Qed.
Lemma resid_indep e c s xi p f1 f2 r g : nt_resid (linear_type e c s) xi p f1 = Some (r, g) ->
  exists g', nt_resid (linear_type e c s) xi p f2 = Some (r, g').
Proof.
  destruct xi as [[x y] z], p as [[p0 p1] p2].
  destruct e; cbn [linear_type quad_type tet_type prism_type hex_type pyr_type nt_resid]; eauto.
  match goal with |- (if ?q then _ else _) = _ -> _ => destruct q end; eauto.
  intros H. injection H as <- <-. eauto.
Qed.
Lemma iterate_resid nt p start k xi r f : iterate nt p start k = Some (xi, r, f) -> exists fin, nt_resid nt xi p fin = Some (r, f).
Proof.
  intros Ek. destruct k; simpl in Ek.
  - destruct (nt_resid nt start p _) as [[r' f']|] eqn:Q; [|discriminate]. injection Ek as <- <- <-. eauto.
  - destruct (iterate _ p start k) as [[[xk rk] fk]|]; [|discriminate]. destruct (nt_step _ xk p fk) as [xin|]; [|discriminate].
    destruct (nt_resid nt xin p fk) as [[r' f']|] eqn:Q; [|discriminate]. injection Ek as <- <- <-. eauto.
Qed.
(** Whatever the kernel returned, if it is in the element (away from the collapsed edges) it is accepted. *)
Lemma try_cell_complete e c s p xi_in max tol ctol ov xi : 0 <= ctol ->
  x_inverse_kernel (linear_type e c s) p xi_in max tol ov = (Some xi, true) -> in_element e xi -> away e kNekZeroTol xi ->
  try_cell (linear_type e c s) p xi_in max tol ctol ov = Some xi.
Proof.
  intros Hc H Hi Ha. unfold try_cell. rewrite H. cbn [bind].
  destruct (clamp_element e c s ctol xi Hc Hi Ha) as (eta & E & L). rewrite E. cbn [bind]. rewrite L.
  apply kernel_exact in H as (start & k & _ & _ & (r & f & Ek & Hr) & _).
  apply iterate_resid in Ek. rename Ek into R.
  destruct R as [fin R]. destruct (resid_indep _ _ _ _ _ _ (clamp3 ctol eta) _ _ R) as [g' R']. rewrite R'. cbn [bind fst].
  rewrite Rle_bool_true by auto. reflexivity.
Qed.

Lemma affine_kernel e c A b s xs p start tol max : e <> EPyr -> affine_map e c A b -> det (ndims e) A <> 0 ->
  (e = EQuad -> comp xs 2 = 0) ->
  (forall a, (a < ndims e)%nat -> comp p a = Xmap e c xs a) -> 0 <= tol -> (1 <= max)%Z ->
  exists xi, x_inverse_kernel (linear_type e c s) p start max tol true = (Some xi, true) /\
    ((xi = start /\ exists r f, nt_resid (linear_type e c s) start p (0, 0, 0) = Some (r, f) /\ r <= tol) \/ xi = xs).
Proof.
  intros He Ha Hd Hq Hp Ht Hm.
  destruct (affine_one_step e c A b s start p (0, 0, 0) He Ha Hd) as (r & f & xin & E1 & E2 & E3).
  assert (Hxin : xin = xs).
  { apply (affine_inj e c A b); auto.
    - intros ->. rewrite Hq by auto. destruct start as [[x y] z], p as [[p0 p1] p2], f as [[f0 f1] f2].
      cbn [linear_type quad_type nt_step] in E2. match type of E2 with bind ?q _ = _ => destruct q as [[a' b']|]; [|discriminate] end.
      cbn [bind] in E2. injection E2 as <-. reflexivity.
    - intros a Hlt. rewrite E3, Hp; auto. }
  subst xin.
  destruct (Rle_dec r tol) as [Hr|Hr].
  - exists start. split; [|left; split; auto; exists r, f; auto].
    apply kernel_exact. exists start, 0%nat. split; [reflexivity|]. split; [lia|]. split; [|intros j Hj; lia].
    exists r, f. split; auto. simpl. rewrite E1. reflexivity.
  - exists xs. split; [|right; auto].
    apply kernel_exact. exists start, 1%nat. split; [reflexivity|]. split; [lia|]. split.
    + assert (Hr' : forall x, regular e x) by (destruct e; simpl; auto; congruence).
      destruct (resid_X e c s xs p f (Hr' _)) as (r1 & f1 & E4 & E5). { intros [[Q _] _]; auto. }
      exists r1, f1. split. { simpl. rewrite E1, E2, E4. reflexivity. }
      rewrite (resid_zero e c s xs p f r1 f1); auto. intros a Hlt. rewrite E5 by auto. rewrite Hp by auto. ring.
    + intros j Hj. assert (j = 0%nat) by lia. subst j. exists start, r, f. split; [simpl; rewrite E1; reflexivity|]. split; [lra|lia].
Qed.
(** Affine elements: a point of the element is found, from every start in the element or with residual above tol. *)
Lemma affine_found e c A b s xs p start tol ctol max : e <> EPyr -> affine_map e c A b -> det (ndims e) A <> 0 ->
  in_element e xs -> away e kNekZeroTol xs ->
  (forall a, (a < ndims e)%nat -> comp p a = Xmap e c xs a) -> 0 <= tol -> 0 <= ctol -> (1 <= max)%Z ->
  (in_element e start /\ away e kNekZeroTol start \/
   exists r f, nt_resid (linear_type e c s) start p (0, 0, 0) = Some (r, f) /\ tol < r) ->
  exists xi, try_cell (linear_type e c s) p start max tol ctol true = Some xi /\ (xi = xs \/ xi = start).
Proof.
  intros He Ha Hd Hi Haw Hp Ht Hc Hm Hs.
  assert (Hq : e = EQuad -> comp xs 2 = 0). { intros ->. destruct Hi as [_ Hz]. destruct xs as [[x y] z]. exact Hz. }
  destruct (affine_kernel e c A b s xs p start tol max He Ha Hd Hq Hp Ht Hm) as (xi & E & [[-> (r & f & Er & Hr)]| ->]).
  - exists start. split; auto. apply try_cell_complete; auto; destruct Hs as [[? ?]|(r' & f' & E' & H')]; auto; rewrite Er in E'; injection E' as <- <-; lra.
  - exists xs. split; auto. apply try_cell_complete; auto.
Qed.
Lemma first_start n g : exists l, grid_starts n g = (-1, -1, -1) :: l.
Proof.
  unfold grid_starts, grid_sizes. set (gx := Z.max (g - 1) 1).
  assert (Hz : forall k, (0 <= k)%Z -> exists l, zrange 0 k = 0%Z :: l).
  { intros k Hk. unfold zrange. replace (Z.to_nat (k - 0 + 1)) with (S (Z.to_nat k)) by lia. simpl. eauto. }
  destruct (Hz gx ltac:(lia)) as [lx Ex].
  destruct (Hz (if Nat.ltb 1 n then gx else 1%Z)) as [ly Ey]. { destruct (Nat.ltb 1 n); lia. }
  destruct (Hz (if Nat.ltb 2 n then gx else 1%Z)) as [lz Ez]. { destruct (Nat.ltb 2 n); lia. }
  rewrite Ez. cbn [flat_map]. rewrite Ey. cbn [flat_map]. rewrite Ex. cbn [map app]. eexists.
  f_equal. apply pair3; ring.
Qed.
Lemma first_start_in e : e <> EQuad -> in_element e (-1, -1, -1) /\ away e kNekZeroTol (-1, -1, -1).
Proof. intros H. pose proof tol_lt1. destruct e; cbn [in_element away in_ref3 away3]; try congruence; repeat split; try lra. Qed.

Lemma try_cell_complete_quad c s p xi_in max tol ctol ov x y z : 0 <= ctol -> -1 <= x <= 1 -> -1 <= y <= 1 ->
  x_inverse_kernel (quad_type c s) p xi_in max tol ov = (Some (x, y, z), true) ->
  try_cell (quad_type c s) p xi_in max tol ctol ov = Some (x, y, 0).
Proof.
  intros Hc Hx Hy H. unfold try_cell. rewrite H. cbn [bind].
  change (nt_coll (quad_type c s) (x, y, z)) with (Some (x, y, 0)). cbn [bind].
  rewrite clamp3_id by (auto; unfold in_cube3; cbn [fst snd]; lra). change (nt_loc (quad_type c s) (x, y, 0)) with (x, y, 0).
  apply kernel_exact in H as (start & k & _ & _ & (r & f & Ek & Hr) & _).
  apply iterate_resid in Ek. rename Ek into R.
  destruct R as [fin R].
  assert (R' : nt_resid (quad_type c s) (x, y, 0) p (x, y, 0) = Some (r, f)) by (destruct p as [[p0 p1] p2]; exact R).
  rewrite R'. cbn [bind fst]. rewrite Rle_bool_true by auto. reflexivity.
Qed.
Lemma affine_x_inverse e c A b s xs p g tol ctol : e <> EPyr -> affine_map e c A b -> det (ndims e) A <> 0 ->
  in_element e xs -> away e kNekZeroTol xs ->
  (forall a, (a < ndims e)%nat -> comp p a = Xmap e c xs a) -> 0 <= tol -> 0 <= ctol ->
  exists xi, x_inverse (linear_type e c s) (ndims e) g p tol ctol = Some xi /\ (xi = xs \/ xi = refvert e 0).
Proof.
  intros He Ha Hd Hi Haw Hp Ht Hc. unfold x_inverse. destruct (first_start (ndims e) g) as [l ->]. cbn [find_first].
  destruct (match e with EQuad => true | _ => false end) eqn:Eq.
  - destruct e; try discriminate.
    destruct (affine_kernel EQuad c A b s xs p (-1, -1, -1) tol 51 He Ha Hd) as (xi & E & Hx); auto; try lia.
    { intros _. destruct Hi as [_ Hz]. destruct xs as [[x y] z]. exact Hz. }
    destruct Hx as [[-> _]| ->].
    + change (linear_type EQuad c s) with (quad_type c s) in *.
      rewrite (try_cell_complete_quad c s p (-1, -1, -1) 51 tol ctol true (-1) (-1) (-1)); auto; try lra.
      exists (-1, -1, 0). auto.
    + rewrite (try_cell_complete EQuad c s p (-1, -1, -1) 51 tol ctol true xs); auto. exists xs; auto.
  - assert (Hne : e <> EQuad) by (intros ->; discriminate).
    destruct (affine_found e c A b s xs p (-1, -1, -1) tol ctol 51 He Ha Hd Hi Haw Hp Ht Hc ltac:(lia) (or_introl (first_start_in e Hne)))
      as (xi & E & Hx). rewrite E. exists xi. split; auto. destruct Hx as [->| ->]; auto. right. destruct e; try congruence; reflexivity.
Qed.
Lemma x_inverse_sound e c s n g p tol ctol xi : (e = EHex -> 0 <= comp s 0) -> 0 <= ctol ->
  x_inverse (linear_type e c s) n g p tol ctol = Some xi ->
  (exists eta, xi = uncollapse e eta /\ forall a, (a < 3)%nat -> Rabs (comp eta a) <= 1 + ctol) /\
  ((forall a, (a < ndims e)%nat -> Rabs (Xmap e c xi a - comp p a) * scale_of e s a <= tol)
   \/ (apex_target e c p /\ apex_ref xi)).
Proof.
  intros Hs Hc H. unfold x_inverse in H. apply find_first_some in H as (l1 & x & l2 & _ & H & _).
  eapply try_cell_linear; eauto.
Qed.

(** Tolerance scalings. *)
Lemma exit_scaling_pos jac lo hi : 0 < mean_jac jac -> (lo <> 0 \/ hi <> 0) ->
  exists s, exit_scaling_dir jac lo hi = Some s /\ 0 < s /\
    forall d tol, Rabs d * s <= tol <-> Rabs d <= tol * (Rmax (Rabs lo) (Rabs hi) * mean_jac jac).
Proof.
  intros Hj Hl. unfold exit_scaling_dir. rewrite fmax_Rmax.
  assert (Hm : 0 < Rmax (Rabs lo) (Rabs hi)).
  { destruct Hl as [Hl|Hl]; apply Rabs_pos_lt in Hl; [eapply Rlt_le_trans; [exact Hl|apply Rmax_l]|eapply Rlt_le_trans; [exact Hl|apply Rmax_r]]. }
  set (m := Rmax (Rabs lo) (Rabs hi) * mean_jac jac). assert (0 < m) by (apply Rmult_lt_0_compat; auto).
  rewrite rdiv_ok by lra. exists (1 / m). split; auto. assert (0 < 1 / m) by (apply Rdiv_lt_0_compat; lra).
  split; auto. intros d tol. split; intros Q.
  - replace (Rabs d) with (Rabs d * (1 / m) * m) by (field; lra). apply Rmult_le_compat_r; lra.
  - apply Rmult_le_reg_r with m; auto. replace (Rabs d * (1 / m) * m) with (Rabs d) by (field; lra). auto.
Qed.
Lemma nonpos_scale_accepts e c s xi p fin : e <> EHex -> regular e xi -> (forall a, (a < 3)%nat -> comp s a <= 0) ->
  exists r f, nt_resid (linear_type e c s) xi p fin = Some (r, f) /\ r <= 0.
Proof.
  intros He Hr Hs. destruct s as [[s0 s1] s2]. pose proof (Hs 0%nat ltac:(lia)) as H0. pose proof (Hs 1%nat ltac:(lia)) as H1.
  pose proof (Hs 2%nat ltac:(lia)) as H2. cbn [comp] in *.
  assert (N : forall f q, q <= 0 -> Rabs f * q <= 0) by (intros f q Q; pose proof (Rabs_pos f); nra).
  assert (M : forall a b, a <= 0 -> b <= 0 -> fmax a b <= 0) by (intros a b; rewrite fmax_Rmax; intros; apply Rmax_lub; auto).
  assert (D : (apex_target e c p /\ apex_ref xi) \/ ~ (apex_target e c p /\ apex_ref xi)).
  { destruct e; try (right; intros [[Q _] _]; discriminate).
    destruct (near (c 4%nat 0%nat) (comp p 0) && near (c 4%nat 1%nat) (comp p 1) && near (c 4%nat 2%nat) (comp p 2))%bool eqn:E.
    - apply vt_spec in E. unfold apex_ref.
      destruct (Rle_dec (Rabs (comp xi 0 - -1)) kNekZeroTol); [|right; tauto].
      destruct (Rle_dec (Rabs (comp xi 1 - -1)) kNekZeroTol); [|right; tauto].
      destruct (Rle_dec (Rabs (comp xi 2 - 1)) kNekZeroTol); [|right; tauto]. left; auto.
    - right. intros [Q _]. apply vt_spec in Q. congruence. }
  destruct D as [[D1 D2]|D].
  - destruct e; try (destruct D1; discriminate). apply vt_spec in D1. destruct xi as [[x y] z], p as [[p0 p1] p2]. cbn [comp] in D1.
    cbn [linear_type pyr_type nt_resid]. unfold co. rewrite D1. unfold apex_ref in D2. cbn [comp] in D2. destruct D2 as (A & B & C).
    apply near_spec in A, B, C. rewrite A, B, C. cbn [andb]. exists 0, fin. split; auto. lra.
  - destruct (resid_X e c (s0, s1, s2) xi p fin Hr D) as (r & f & E & _). exists r, f. split; auto.
    destruct xi as [[x y] z], p as [[p0 p1] p2].
    destruct e; try congruence; cbn [linear_type quad_type tet_type prism_type pyr_type nt_resid] in E.
    1-3: match type of E with bind ?q _ = _ => destruct q as [[? ?]|]; [|discriminate] end; cbn [bind] in E; try destruct p;
      injection E as <- <-; unfold get_relative_error_2d, get_relative_error_3d; auto.
    match type of E with (if ?q then _ else _) = _ => destruct q end. { injection E as <- <-. lra. }
    match type of E with bind ?q _ = _ => destruct q as [[[? ?] ?]|]; [|discriminate] end; cbn [bind] in E.
    injection E as <- <-; unfold get_relative_error_3d; auto.
Qed.

Lemma fold_plus_r l : forall a, fold_left Rplus l a = a + fold_right Rplus 0 l.
Proof. induction l as [|x l IH]; intros a; simpl; [ring|]. rewrite IH. ring. Qed.
Lemma jacobian_scaling jac : jac <> [] ->
  mean_jac jac * INR (length jac) = fold_right Rplus 0 jac /\
  (forall J, Forall (fun j => j = J) jac -> mean_jac jac = J) /\
  (mean_jac jac <> 0 -> exists s, exit_scaling_jacobian jac = Some s /\ 0 < s /\ s * Rabs (mean_jac jac) = 1).
Proof.
  intros Hn. assert (Hl : INR (length jac) <> 0) by (apply not_0_INR; destruct jac; [congruence|discriminate]).
  assert (E : mean_jac jac * INR (length jac) = fold_right Rplus 0 jac).
  { unfold mean_jac. rewrite fold_plus_r. field. exact Hl. }
  split; [exact E|]. split.
  - intros J HJ. assert (S : fold_right Rplus 0 jac = J * INR (length jac)).
    { clear Hn Hl E. induction HJ as [|x l Hx _ IH]; [simpl; ring|]. cbn [fold_right length]. rewrite S_INR, IH, Hx. ring. }
    rewrite S in E. apply Rmult_eq_reg_r in E; auto.
  - intros Hz. unfold exit_scaling_jacobian. rewrite rdiv_ok by exact Hz. cbn. exists (Rabs (1 / mean_jac jac)). split; [reflexivity|]. split.
    + apply Rabs_pos_lt. unfold Rdiv. rewrite Rmult_1_l. now apply Rinv_neq_0_compat.
    + rewrite <- Rabs_mult. replace (1 / mean_jac jac * mean_jac jac) with 1 by (field; auto). apply Rabs_R1.
Qed.
