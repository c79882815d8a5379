From Verif Require Import M_RealBase M_Coord M_NewtonGen M_NewtonMap S_Newton S_NewtonM L_RealBase L_Coord L_Newton L_Newton2
  M_NewtonBind S_NewtonBind.

Lemma over15_spec xi : over15 xi = false <-> within15 xi.
Proof.
  destruct xi as [[a b] c]. unfold over15, within15. rewrite !orb_false_iff. split.
  - intros [[H1 H2] H3] k Hk.
    destruct (Rlt_bool_spec 15 (Rabs a)); [discriminate|].
    destruct (Rlt_bool_spec 15 (Rabs b)); [discriminate|].
    destruct (Rlt_bool_spec 15 (Rabs c)); [discriminate|].
    destruct k as [|[|[|]]]; simpl; auto; lia.
  - intros H. pose proof (H 0%nat ltac:(lia)) as A. pose proof (H 1%nat ltac:(lia)) as B. pose proof (H 2%nat ltac:(lia)) as C.
    cbn [comp] in *. rewrite !Rlt_bool_false by auto. auto.
Qed.

(** Loop state after j iterations. *)
Lemma loop_sound nt p tol start : forall fuel j xj rj fj dj xi,
  iterate nt p start j = Some (xj, rj, fj) ->
  ((0 < j)%nat -> dj = over15 xj) -> (j = 0%nat -> dj = false) ->
  inverse_loop nt p tol fuel xj rj fj dj = (Some xi, true) ->
  exists k, (j <= k <= j + fuel)%nat /\ (exists r f, iterate nt p start k = Some (xi, r, f) /\ r <= tol) /\
    forall i, (j <= i < k)%nat -> exists xj rj fj, iterate nt p start i = Some (xj, rj, fj) /\ tol < rj /\
    ((0 < i)%nat -> within15 xj).
Proof.
  induction fuel as [|fuel IH]; intros j xj rj fj dj xi Hj Hd Hd0 H; simpl in H.
  - injection H as <- H. exists j. split; [lia|]. split.
    + exists rj, fj. split; auto. destruct (Rle_bool_spec rj tol); auto; discriminate.
    + intros i Hi; lia.
  - destruct (Rlt_bool_spec tol rj) as [Hlt|Hle]; simpl in H.
    + destruct dj eqn:Ed; simpl in H.
      * injection H as <- H. exists j. split; [lia|]. split.
        -- exists rj, fj. split; auto. destruct (Rle_bool_spec rj tol); auto; discriminate.
        -- intros i Hi; lia.
      * destruct (nt_step nt xj p fj) as [xin|] eqn:E1; [|discriminate].
        destruct (nt_resid nt xin p fj) as [[r f']|] eqn:E2; [|discriminate].
        assert (Hs : iterate nt p start (S j) = Some (xin, r, f')). { simpl. rewrite Hj, E1, E2. reflexivity. }
        destruct (IH (S j) xin r f' (over15 xin) xi Hs ltac:(auto) ltac:(lia) H) as (k & Hk & Hf & Hb).
        exists k. split; [lia|]. split; auto. intros i Hi.
        destruct (Nat.eq_dec i j) as [->|]; [|apply Hb; lia].
        exists xj, rj, fj. split; auto. split; auto. intros Hpos. apply over15_spec. rewrite <- Hd; auto.
    + injection H as <- H. exists j. split; [lia|]. split.
      * exists rj, fj. split; auto.
      * intros i Hi; lia.
Qed.
Lemma loop_complete nt p tol start xi k : first_within nt p start tol k xi -> forall fuel j xj rj fj dj,
  (j <= k <= j + fuel)%nat ->
  iterate nt p start j = Some (xj, rj, fj) ->
  ((0 < j)%nat -> dj = over15 xj) -> (j = 0%nat -> dj = false) ->
  inverse_loop nt p tol fuel xj rj fj dj = (Some xi, true).
Proof.
  intros [[r [f [Ek Hr]]] Hb]. induction fuel as [|fuel IH]; intros j xj rj fj dj Hk Hj Hd Hd0.
  - assert (j = k) by lia. subst j. rewrite Hj in Ek. injection Ek as -> -> ->. simpl. rewrite Rle_bool_true by auto. reflexivity.
  - destruct (Nat.eq_dec j k) as [->|Hne].
    + rewrite Hj in Ek. injection Ek as -> -> ->. simpl. rewrite Rlt_bool_false by auto. simpl. rewrite Rle_bool_true by auto. reflexivity.
    + destruct (Hb j ltac:(lia)) as (xj' & rj' & fj' & Ej & Hgt & H15). rewrite Hj in Ej. injection Ej as <- <- <-.
      simpl. rewrite Rlt_bool_true by auto.
      assert (dj = false). { destruct j; auto. rewrite Hd by lia. apply over15_spec. apply H15. lia. } subst dj. simpl.
      assert (Hs : exists a b c, iterate nt p start (S j) = Some (a, b, c)).
      { destruct (Nat.eq_dec (S j) k) as [<-|]; [eauto|]. destruct (Hb (S j) ltac:(lia)) as (a & b & c & E & _). eauto. }
      destruct Hs as (xin & r1 & f1 & Hs). pose proof Hs as Hs'. simpl in Hs. rewrite Hj in Hs.
      destruct (nt_step nt xj p fj) as [x'|]; [|discriminate]. destruct (nt_resid nt x' p fj) as [[r' f']|]; [|discriminate].
      injection Hs as -> -> ->. apply (IH (S j)); auto; lia.
Qed.

(** Start point of the kernel. *)
Definition start_of (nt : newton_type) (p xi_in : pt3) (ov : bool) : option pt3 := if ov then Some xi_in else nt_init nt p.
Lemma kernel_exact nt p xi_in max tol ov xi :
  x_inverse_kernel nt p xi_in max tol ov = (Some xi, true) <->
  exists start k, start_of nt p xi_in ov = Some start /\ (k <= Z.to_nat max)%nat /\ first_within nt p start tol k xi.
Proof.
  unfold x_inverse_kernel. fold (start_of nt p xi_in ov). split.
  - intros H. destruct (start_of nt p xi_in ov) as [start|]; [|discriminate].
    destruct (nt_resid nt start p (0, 0, 0)) as [[r f]|] eqn:E; [|discriminate].
    assert (H0 : iterate nt p start 0 = Some (start, r, f)) by (simpl; rewrite E; reflexivity).
    destruct (loop_sound nt p tol start _ 0%nat _ _ _ _ _ H0 ltac:(lia) ltac:(auto) H) as (k & Hk & Hf & Hb).
    exists start, k. split; auto. split; [lia|]. split; auto. intros j Hj. apply Hb. lia.
  - intros (start & k & -> & Hk & Hf).
    assert (Hs : exists r f, iterate nt p start 0 = Some (start, r, f)).
    { destruct k as [|k].
      - destruct Hf as [(r & f & E & _) _]. pose proof E as E'. simpl in E'. destruct (nt_resid nt start p (0, 0, 0)) as [[r' f']|]; [|discriminate].
        injection E' as <- <- <-. eauto.
      - destruct Hf as [_ Hb]. destruct (Hb 0%nat ltac:(lia)) as (a & b & c & E & _). pose proof E as E'. simpl in E'.
        destruct (nt_resid nt start p (0, 0, 0)) as [[r' f']|]; [|discriminate]. injection E' as <- <- <-. eauto. }
    destruct Hs as (r & f & H0). pose proof H0 as E. simpl in E. destruct (nt_resid nt start p (0, 0, 0)) as [[r' f']|] eqn:E'; [|discriminate].
    injection E as -> ->. eapply loop_complete; eauto; try lia.
Qed.

Lemma find_first_some {A B} (f : A -> option B) l y : find_first f l = Some y <->
  exists l1 x l2, l = l1 ++ x :: l2 /\ f x = Some y /\ forall z, In z l1 -> f z = None.
Proof.
  induction l as [|a l IH]; simpl.
  - split; [discriminate|]. intros ([|] & x & l2 & E & _); discriminate.
  - destruct (f a) as [y'|] eqn:E.
    + split.
      * intros H; injection H as <-. exists [], a, l. simpl. repeat split; auto. intros z [].
      * intros ([|b l1] & x & l2 & E' & Ex & Hn); simpl in E'.
        -- injection E' as -> ->. congruence.
        -- injection E' as -> ->. rewrite (Hn b) in E by (left; auto). discriminate.
    + rewrite IH. split.
      * intros (l1 & x & l2 & -> & Ex & Hn). exists (a :: l1), x, l2. repeat split; auto. intros z [<-|Hz]; auto.
      * intros ([|b l1] & x & l2 & E' & Ex & Hn); simpl in E'.
        -- injection E' as -> ->. congruence.
        -- injection E' as -> ->. exists l1, x, l2. repeat split; auto. intros z Hz. apply Hn. now right.
Qed.
Lemma find_first_none {A B} (f : A -> option B) l : find_first f l = None <-> forall x, In x l -> f x = None.
Proof.
  induction l as [|a l IH]; simpl. { split; auto. intros _ x []. }
  destruct (f a) eqn:E.
  - split; [discriminate|]. intros H. rewrite H in E by auto. discriminate.
  - rewrite IH. split.
    + intros H x [<-|]; auto.
    + intros H x Hx. auto.
Qed.

Lemma clamp1_range ctol x : 0 <= ctol -> - (1 + ctol) <= clamp1 ctol x <= 1 + ctol.
Proof. intros H. unfold clamp1. rewrite fmax_Rmax, fmin_Rmin. unfold Rmax, Rmin. destruct (Rle_dec x (1 + ctol)), Rle_dec; lra. Qed.
Lemma clamp1_id ctol x : 0 <= ctol -> -1 <= x <= 1 -> clamp1 ctol x = x.
Proof. intros H Hx. unfold clamp1. rewrite fmax_Rmax, fmin_Rmin. unfold Rmax, Rmin. destruct (Rle_dec x (1 + ctol)), Rle_dec; lra. Qed.

Lemma nt_loc_linear e c s eta : nt_loc (linear_type e c s) eta = uncollapse e eta.
Proof. destruct eta as [[a b] d]. destruct e; reflexivity. Qed.
Lemma coll_total e c s xi : exists eta, nt_coll (linear_type e c s) xi = Some eta.
Proof.
  destruct xi as [[a b] d]. destruct e.
  - eexists; reflexivity.
  - exact (to_collapsed3_total Tet (a, b, d)).
  - exact (to_collapsed3_total Pri (a, b, d)).
  - eexists; reflexivity.
  - exact (to_collapsed3_total Pyr (a, b, d)).
Qed.

Lemma try_cell_sound nt p xi_in max tol ctol ov xi : try_cell nt p xi_in max tol ctol ov = Some xi ->
  exists xi0 eta0, x_inverse_kernel nt p xi_in max tol ov = (Some xi0, true) /\ nt_coll nt xi0 = Some eta0 /\
   xi = nt_loc nt (clamp3 ctol eta0) /\ exists r f, nt_resid nt xi p (clamp3 ctol eta0) = Some (r, f) /\ r <= tol.
Proof.
  unfold try_cell. destruct (x_inverse_kernel nt p xi_in max tol ov) as [x conv] eqn:E. intros H.
  destruct x as [xi0|]; [|discriminate]. cbn [bind] in H. destruct (nt_coll nt xi0) as [eta0|] eqn:E1; [|discriminate]. cbn [bind] in H.
  destruct (nt_resid nt (nt_loc nt (clamp3 ctol eta0)) p (clamp3 ctol eta0)) as [[r f]|] eqn:E2; [|discriminate]. cbn [bind fst] in H.
  destruct (Rle_bool_spec r tol); [|discriminate]. destruct conv; [|discriminate]. simpl in H. injection H as <-.
  exists xi0, eta0. repeat split; auto. eauto.
Qed.
Lemma clamp3_range ctol eta : 0 <= ctol -> forall a, (a < 3)%nat -> Rabs (comp (clamp3 ctol eta) a) <= 1 + ctol.
Proof.
  intros H a Ha. destruct eta as [[x y] z]. cbn [clamp3].
  destruct a as [|[|[|]]]; try lia; cbn [comp]; apply Rabs_le; apply clamp1_range; auto.
Qed.

(** The residual of the linear types bounds the distance. *)
Lemma resid_some_regular e c s xi p fin r f : nt_resid (linear_type e c s) xi p fin = Some (r, f) ->
  regular e xi \/ (apex_target e c p /\ apex_ref xi).
Proof.
  intros H. destruct e; try (left; exact I). destruct xi as [[x y] z], p as [[p0 p1] p2].
  destruct (Req_dec z 1) as [->|Hz]; [|left; exact Hz]. right.
  cbn [linear_type pyr_type nt_resid] in H.
  match type of H with context [if (?a && ?b)%bool then _ else _] => destruct a eqn:Ea; [destruct b eqn:Eb|] end; cbn [andb] in H.
  - split; [apply vt_spec; exact Ea|]. unfold apex_ref. cbn [comp].
    rewrite !andb_true_iff in Eb. destruct Eb as [[E1 E2] E3]. apply near_spec in E1, E2, E3. auto.
  - unfold pyr_f in H. cbv zeta in H. rewrite rdiv_zero in H by ring. discriminate.
  - unfold pyr_f in H. cbv zeta in H. rewrite rdiv_zero in H by ring. discriminate.
Qed.
Lemma fmax_le a b t : fmax a b <= t -> a <= t /\ b <= t.
Proof. pose proof (fmax_ge_l a b). pose proof (fmax_ge_r a b). lra. Qed.
Lemma rel3 s f0 f1 f2 t : get_relative_error_3d s f0 f1 f2 <= t ->
  forall a, (a < 3)%nat -> Rabs (comp (f0, f1, f2) a) * comp s a <= t.
Proof.
  destruct s as [[s0 s1] s2]. unfold get_relative_error_3d. intros H a Ha. apply fmax_le in H as [H H2]. apply fmax_le in H as [H0 H1].
  destruct a as [|[|[|]]]; try lia; cbn [comp]; auto.
Qed.
Lemma resid_bound e c s xi p fin r f tol : (e = EHex -> 0 <= comp s 0) ->
  nt_resid (linear_type e c s) xi p fin = Some (r, f) -> r <= tol ->
  (forall a, (a < ndims e)%nat -> Rabs (Xmap e c xi a - comp p a) * scale_of e s a <= tol)
  \/ (apex_target e c p /\ apex_ref xi).
Proof.
  intros Hs H Hr.
  assert (D : (apex_target e c p /\ apex_ref xi) \/ ~ (apex_target e c p /\ apex_ref xi)).
  { destruct e; try (right; intros [[Q _] _]; discriminate).
    assert (Da : forall x y z, {Rabs (x - y) <= z} + {~ Rabs (x - y) <= z}) by (intros; apply Rle_dec).
    destruct xi as [[x y] z]. destruct p as [[p0 p1] p2]. unfold apex_target, apex_ref. cbn [comp].
    destruct (Da x (-1) kNekZeroTol); [|right; tauto]. destruct (Da y (-1) kNekZeroTol); [|right; tauto].
    destruct (Da z 1 kNekZeroTol); [|right; tauto].
    destruct (Da (c 4%nat 0%nat) p0 kNekZeroTol) as [n0|n]; [|right; intros [[_ Q] _]; exact (n (Q 0%nat ltac:(lia)))].
    destruct (Da (c 4%nat 1%nat) p1 kNekZeroTol) as [n1|n]; [|right; intros [[_ Q] _]; exact (n (Q 1%nat ltac:(lia)))].
    destruct (Da (c 4%nat 2%nat) p2 kNekZeroTol) as [n2|n]; [|right; intros [[_ Q] _]; exact (n (Q 2%nat ltac:(lia)))].
    left. split; [|tauto]. split; auto. intros a Ha. destruct a as [|[|[|]]]; try lia; cbn [comp]; auto. }
  destruct D as [D|D]; [right; exact D|left].
  destruct (resid_some_regular _ _ _ _ _ _ _ _ H) as [Hreg|Q]; [|contradiction].
  destruct (resid_X e c s xi p fin Hreg D) as (r' & f' & E & HX). rewrite H in E. injection E as <- <-.
  intros a Ha. rewrite <- (HX a Ha). clear HX.
  destruct xi as [[x y] z], p as [[p0 p1] p2].
  destruct e; cbn [linear_type quad_type tet_type prism_type hex_type pyr_type nt_resid] in H; cbn [ndims] in Ha; cbn [scale_of].
  - match type of H with bind ?q _ = _ => destruct q as [[f0 f1]|]; [|discriminate] end. cbn [bind] in H. injection H as <- <-.
    destruct s as [[s0 s1] s2]. unfold get_relative_error_2d in Hr. apply fmax_le in Hr as [H0 H1].
    destruct a as [|[|]]; try lia; cbn [comp]; auto.
  - match type of H with bind ?q _ = _ => destruct q as [[[f0 f1] f2]|]; [|discriminate] end. cbn [bind] in H. injection H as <- <-.
    apply rel3; auto.
  - match type of H with bind ?q _ = _ => destruct q as [[[f0 f1] f2]|]; [|discriminate] end. cbn [bind] in H. injection H as <- <-.
    apply rel3; auto.
  - match type of H with bind ?q _ = _ => destruct q as [[[f0 f1] f2]|]; [|discriminate] end. cbn [bind] in H. cbv zeta in H. injection H as <- <-.
    specialize (Hs eq_refl). eapply Rle_trans; [|exact Hr]. apply Rmult_le_compat_r; auto.
    pose proof (fmax_ge_l (fmax (Rabs f0) (Rabs f1)) (Rabs f2)). pose proof (fmax_ge_r (fmax (Rabs f0) (Rabs f1)) (Rabs f2)).
    pose proof (fmax_ge_l (Rabs f0) (Rabs f1)). pose proof (fmax_ge_r (Rabs f0) (Rabs f1)).
    destruct a as [|[|[|]]]; try lia; cbn [comp]; lra.
  - match type of H with (if ?q then _ else _) = _ => destruct q eqn:Eq end.
    + exfalso. apply D. apply andb_true_iff in Eq as [Ea Eb]. split; [apply vt_spec; exact Ea|]. unfold apex_ref. cbn [comp].
      rewrite !andb_true_iff in Eb. destruct Eb as [[E1 E2] E3]. apply near_spec in E1, E2, E3. auto.
    + match type of H with bind ?q _ = _ => destruct q as [[[f0 f1] f2]|]; [|discriminate] end. cbn [bind] in H. injection H as <- <-.
      apply rel3; auto.
Qed.

(** Every coordinate accepted by the test of one element. *)
Lemma try_cell_linear e c s p xi_in max tol ctol ov xi : (e = EHex -> 0 <= comp s 0) -> 0 <= ctol ->
  try_cell (linear_type e c s) p xi_in max tol ctol ov = Some xi ->
  (exists eta, xi = uncollapse e eta /\ forall a, (a < 3)%nat -> Rabs (comp eta a) <= 1 + ctol) /\ ((forall a, (a < ndims e)%nat -> Rabs (Xmap e c xi a - comp p a) * scale_of e s a <= tol)
   \/ (apex_target e c p /\ apex_ref xi)).
Proof.
  intros Hs Hc H. apply try_cell_sound in H as (xi0 & eta0 & _ & _ & E & r & f & Hr & Ht). split.
  - exists (clamp3 ctol eta0). split; [rewrite E; apply nt_loc_linear|]. apply clamp3_range; auto.
  - eapply resid_bound; eauto.
Qed.
Lemma uncollapse_in e eta : (e <> EQuad -> forall a, (a < 3)%nat -> Rabs (comp eta a) <= 1) ->
  (e = EQuad -> forall a, (a < 2)%nat -> Rabs (comp eta a) <= 1) -> in_element e (uncollapse e eta).
Proof.
  intros H H2. destruct eta as [[x y] z].
  assert (D : forall q, Rabs q <= 1 -> -1 <= q <= 1) by (intros q Q; apply Rabs_def2b in Q || (unfold Rabs in Q; destruct (Rcase_abs q)); lra).
  destruct e; cbn [uncollapse in_element comp] in *;
  try (assert (C : in_cube3 (x, y, z));
    [unfold in_cube3; cbn [fst snd]; pose proof (H ltac:(discriminate) 0%nat ltac:(lia)); pose proof (H ltac:(discriminate) 1%nat ltac:(lia));
     pose proof (H ltac:(discriminate) 2%nat ltac:(lia)); cbn [comp] in *; auto|]).
  - split; auto. cbn [fst in_ref2]. pose proof (H2 eq_refl 0%nat ltac:(lia)). pose proof (H2 eq_refl 1%nat ltac:(lia)). cbn [comp] in *. auto.
  - exact (cube_to_ref3 Tet _ C).
  - exact (cube_to_ref3 Pri _ C).
  - exact (cube_to_ref3 Hex _ C).
  - exact (cube_to_ref3 Pyr _ C).
Qed.
