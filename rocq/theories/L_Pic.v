From Verif Require Import M_Pic S_Pic L_Coord.

Lemma cross_macro_spec a b : cross_macro a b = cross3 a b.
Proof. destruct a as [[? ?] ?], b as [[? ?] ?]. reflexivity. Qed.
Lemma cross3_ok a b : dot3 (cross3 a b) a = 0 /\ dot3 (cross3 a b) b = 0 /\ cross3 (1,0,0) (0,1,0) = (0,0,1).
Proof. destruct a as [[? ?] ?], b as [[? ?] ?]. unfold cross3, dot3. repeat split; [ring..|]. f_equal; [f_equal|]; ring. Qed.

Lemma sq3_pos a b c : 1 + (a * a + b * b + c * c) <> 0.
Proof. nra. Qed.
Lemma triple_eq (a b c x y z : R) : (a, b, c) = (x, y, z) <-> a = x /\ b = y /\ c = z.
Proof. split; [intros H; injection H; auto|intros (-> & -> & ->); reflexivity]. Qed.

Ltac v3d p := let P := fresh "p" in destruct p as [[? ?] [[? ?] ?] [? ?] ? ?].

Lemma boris_some dt B coef p : cp_M p <> 0 -> exists p', boris_kernel dt B coef p = Some p'.
Proof.
  destruct B as [[B0 B1] B2]. destruct p as [[P0 P1] [[V0 V1] V2] [E0 E1] q m]. cbn. intros Hm.
  unfold boris_kernel. cbn [cp_Q cp_M cp_V cp_E cp_P]. rewrite rdiv_ok by auto. cbv zeta. rewrite rdiv_ok by apply sq3_pos. eauto.
Qed.
Lemma boris_none dt B coef p : cp_M p = 0 -> boris_kernel dt B coef p = None.
Proof.
  destruct B as [[B0 B1] B2]. destruct p as [[P0 P1] [[V0 V1] V2] [E0 E1] q m]. cbn. intros ->.
  unfold boris_kernel. cbn [cp_Q cp_M]. unfold rdiv at 1. rewrite Req_bool_true; auto.
Qed.

Lemma boris_eq dt B coef p p' : boris_kernel dt B coef p = Some p' ->
  cp_M p <> 0 /\ lorentz_step dt B coef (cp_M p) (cp_Q p) (cp_E p) (cp_V p) (cp_V p') /\
  cp_P p' = add2 (cp_P p) (scal2 dt (xy (cp_V p'))) /\
  cp_E p' = cp_E p /\ cp_Q p' = cp_Q p /\ cp_M p' = cp_M p.
Proof.
  intros H. destruct (Req_dec (cp_M p) 0) as [E|Hm]; [rewrite boris_none in H by auto; discriminate|].
  destruct B as [[B0 B1] B2]. destruct p as [[P0 P1] [[V0 V1] V2] [E0 E1] q m]. cbn in Hm.
  unfold boris_kernel in H. cbn [cp_Q cp_M cp_V cp_E cp_P] in H. rewrite rdiv_ok in H by auto. cbv zeta in H. rewrite rdiv_ok in H by apply sq3_pos.
  injection H as <-. cbn [cp_Q cp_M cp_V cp_E cp_P xy].
  split; auto. split; [|repeat split].
  unfold lorentz_step, scal3, sub3, add3, cross3, up. cbn [fst snd].
  remember (q / m) as k eqn:Ek. assert (Eq : q = k * m) by (rewrite Ek; field; auto). clear Ek.
  remember (dt * (1/2)) as h eqn:Eh. assert (Ed : dt = 2 * h) by lra. clear Eh. subst q dt.
  pose proof (sq3_pos (B0 * (k * h)) (B1 * (k * h)) (B2 * (k * h))).
  rewrite triple_eq. split; [|split]; field; auto.
Qed.

(** The linear equation has a unique solution. *)
Lemma lorentz_unique dt B coef m q e V W1 W2 : m <> 0 ->
  lorentz_step dt B coef m q e V W1 -> lorentz_step dt B coef m q e V W2 -> W1 = W2.
Proof.
  intros Hm. destruct B as [[B0 B1] B2], V as [[V0 V1] V2], W1 as [[a b] c], W2 as [[a' b'] c'].
  unfold lorentz_step, scal3, sub3, add3, cross3, up. rewrite !triple_eq. intros (A1 & A2 & A3) (C1 & C2 & C3).
  set (k := dt * q * (1/2) / m).
  assert (Hk : dt * q = 2 * k * m) by (unfold k; field; auto). clearbody k. rewrite Hk in *.
  assert (D1 : a - a' = k * ((b - b') * B2 - (c - c') * B1)) by (apply (Rmult_eq_reg_l m); auto; lra).
  assert (D2 : b - b' = k * ((c - c') * B0 - (a - a') * B2)) by (apply (Rmult_eq_reg_l m); auto; lra).
  assert (D3 : c - c' = k * ((a - a') * B1 - (b - b') * B0)) by (apply (Rmult_eq_reg_l m); auto; lra).
  set (x := a - a') in *. set (y := b - b') in *. set (z := c - c') in *.
  assert (S : x * x + y * y + z * z = 0).
  { replace (x * x) with (x * (k * (y * B2 - z * B1))) by (rewrite <- D1; ring).
    replace (y * y) with (y * (k * (z * B0 - x * B2))) by (rewrite <- D2; ring).
    replace (z * z) with (z * (k * (x * B1 - y * B0))) by (rewrite <- D3; ring). ring. }
  assert (x = 0) by nra. assert (y = 0) by nra. assert (z = 0) by nra.
  split; [|split]; apply Rminus_diag_uniq; assumption.
Qed.

(** Work-energy: the magnetic field does no work. *)
Lemma lorentz_work dt B coef m q e V W : lorentz_step dt B coef m q e V W ->
  1/2 * m * speed2 W - 1/2 * m * speed2 V = dt * q * dot3 (scal3 (- coef) (up e)) (scal3 (1/2) (add3 V W)).
Proof.
  destruct B as [[B0 B1] B2], V as [[V0 V1] V2], W as [[a b] c]. unfold lorentz_step, speed2, dot3, scal3, sub3, add3, cross3, up.
  rewrite triple_eq. cbn [fst snd]. intros (A1 & A2 & A3).
  replace (1 / 2 * m * (a * a + b * b + c * c) - 1 / 2 * m * (V0 * V0 + V1 * V1 + V2 * V2)) with
    ((m * (a - V0)) * (1/2 * (V0 + a)) + (m * (b - V1)) * (1/2 * (V1 + b)) + (m * (c - V2)) * (1/2 * (V2 + c))) by field.
  rewrite A1, A2, A3. ring.
Qed.
Lemma lorentz_parallel dt B coef m q V W : m <> 0 -> lorentz_step dt B coef m q (0, 0) V W -> dot3 B W = dot3 B V.
Proof.
  destruct B as [[B0 B1] B2], V as [[V0 V1] V2], W as [[a b] c]. unfold lorentz_step, dot3, scal3, sub3, add3, cross3, up.
  rewrite triple_eq. cbn [fst snd]. intros Hm (A1 & A2 & A3). apply (Rmult_eq_reg_l m); auto.
  assert (B0 * (m * (a - V0)) + B1 * (m * (b - V1)) + B2 * (m * (c - V2)) = 0) by (rewrite A1, A2, A3; ring). lra.
Qed.
Lemma lorentz_no_B dt coef m q e V W : m <> 0 -> lorentz_step dt (0,0,0) coef m q e V W ->
  W = add3 V (scal3 (- (dt * q / m * coef)) (up e)).
Proof.
  destruct V as [[V0 V1] V2], W as [[a b] c]. unfold lorentz_step, dot3, scal3, sub3, add3, cross3, up.
  rewrite !triple_eq. cbn [fst snd]. intros Hm (A1 & A2 & A3). repeat split; apply (Rmult_eq_reg_l m); auto; field_simplify; auto; lra.
Qed.
Lemma lorentz_reverse dt B coef m q e V W : lorentz_step dt B coef m q e V W -> lorentz_step (- dt) B coef m q e W V.
Proof.
  destruct B as [[B0 B1] B2], V as [[V0 V1] V2], W as [[a b] c]. unfold lorentz_step, dot3, scal3, sub3, add3, cross3, up.
  rewrite !triple_eq. cbn [fst snd]. intros (A1 & A2 & A3). repeat split; lra.
Qed.

Lemma boris_reverse dt B coef p p' : boris_kernel dt B coef p = Some p' ->
  exists p'', boris_kernel (- dt) B coef p' = Some p'' /\ cp_V p'' = cp_V p.
Proof.
  intros H. destruct (boris_eq _ _ _ _ _ H) as (Hm & HL & _ & He & Hq & HM).
  destruct (boris_some (- dt) B coef p') as [p'' H']; [congruence|]. exists p''. split; auto.
  destruct (boris_eq _ _ _ _ _ H') as (Hm' & HL' & _). rewrite He, Hq, HM in *.
  eapply lorentz_unique; [|exact HL'|apply lorentz_reverse; exact HL]. auto.
Qed.

Lemma boris_steps dt B coef n : forall p, cp_M p <> 0 -> cp_E p = (0, 0) ->
  exists p', steps n (boris_kernel dt B coef) p = Some p' /\ speed2 (cp_V p') = speed2 (cp_V p) /\ dot3 B (cp_V p') = dot3 B (cp_V p).
Proof.
  induction n as [|n IH]; intros p Hm He; cbn [steps]; eauto.
  destruct (boris_some dt B coef p Hm) as [p1 H1]. rewrite H1.
  destruct (boris_eq _ _ _ _ _ H1) as (_ & HL & _ & E1 & _ & M1). rewrite He in HL.
  destruct (IH p1) as (p' & Hs & S & D); [congruence|congruence|]. exists p'. split; auto. split.
  - rewrite S. apply lorentz_work in HL. unfold up, scal3, dot3 in HL. cbn [fst snd] in HL. destruct (add3 (cp_V p) (cp_V p1)) as [[? ?] ?].
    apply (Rmult_eq_reg_l (1/2 * cp_M p)); [|lra]. lra.
  - rewrite D. eapply lorentz_parallel; [|exact HL]. auto.
Qed.

(** ** Velocity Verlet *)
Lemma pair_eq (a b x y : R) : (a, b) = (x, y) <-> a = x /\ b = y.
Proof. split; [intros H; injection H; auto|intros (-> & ->); reflexivity]. Qed.

Lemma vv_step dt B coef bc g p : cp_M p <> 0 ->
  exists p', time_step 0 dt B coef bc g p = Some p' /\
  let k := - (coef * cp_Q p / cp_M p) in
  cp_P p' = bc (add2 (cp_P p) (add2 (scal2 dt (xy (cp_V p))) (scal2 (dt * dt / 2) (scal2 k (cp_E p))))) /\
  xy (cp_V p') = add2 (xy (cp_V p)) (scal2 (dt / 2) (add2 (scal2 k (cp_E p)) (accel coef (cp_M p) (cp_Q p) g (cp_P p')))) /\
  snd (cp_V p') = snd (cp_V p) /\ cp_E p' = g (cp_P p') /\ cp_Q p' = cp_Q p /\ cp_M p' = cp_M p.
Proof.
  destruct p as [[P0 P1] [[V0 V1] V2] [E0 E1] q m]. cbn [cp_M cp_Q cp_E cp_V cp_P]. intros Hm.
  unfold time_step. change (Z.eqb 0 0) with true. cbn iota. unfold vv1_kernel, vv2_kernel, obind, set_field, transfer. cbn [cp_M cp_Q cp_E cp_V cp_P].
  rewrite rdiv_ok by auto. cbv zeta. cbn [cp_M cp_Q cp_E cp_V cp_P]. rewrite rdiv_ok by auto.
  match goal with |- context [bc ?x] => set (X := x) end.
  destruct (g (bc X)) as [G0 G1] eqn:EG.
  eexists. split; [reflexivity|]. cbn [cp_M cp_Q cp_E cp_V cp_P].
  assert (EX : X = add2 (P0, P1) (add2 (scal2 dt (xy (V0, V1, V2))) (scal2 (dt * dt / 2) (scal2 (- (coef * q / m)) (E0, E1))))).
  { unfold X, add2, scal2, xy. cbn [fst snd]. rewrite pair_eq. split; field; auto. }
  split; [rewrite EX; reflexivity|]. split; [|cbn [snd]; auto].
  unfold accel. rewrite EG. unfold add2, scal2, xy. cbn [fst snd]. rewrite pair_eq. split; field; auto.
Qed.

(** Reversal *)
Lemma same_site_refl Lx Ly a : same_site Lx Ly a a.
Proof. exists 0%Z, 0%Z. split; lra. Qed.
Lemma same_site_trans Lx Ly a b c : same_site Lx Ly a b -> same_site Lx Ly b c -> same_site Lx Ly a c.
Proof. intros (i & j & H1 & H2) (i' & j' & H3 & H4). exists (i + i')%Z, (j + j')%Z. rewrite !plus_IZR. split; lra. Qed.
Lemma same_site_add Lx Ly a b d : same_site Lx Ly a b -> same_site Lx Ly (add2 a d) (add2 b d).
Proof. intros (i & j & H1 & H2). exists i, j. unfold add2. cbn [fst snd]. split; lra. Qed.

Lemma vv_reverse dt B coef bc g Lx Ly p p' :
  (forall x, same_site Lx Ly (bc x) x) -> (forall x y, same_site Lx Ly x y -> g x = g y) ->
  cp_E p = g (cp_P p) -> time_step 0 dt B coef bc g p = Some p' ->
  exists p'', time_step 0 (- dt) B coef bc g p' = Some p'' /\ cp_V p'' = cp_V p /\ same_site Lx Ly (cp_P p'') (cp_P p).
Proof.
  intros Hbc Hg HE H.
  assert (Hm : cp_M p <> 0).
  { intros E. unfold time_step in H. change (Z.eqb 0 0) with true in H. cbn iota in H. unfold vv1_kernel, rdiv in H. rewrite E, Req_bool_true in H by auto. discriminate H. }
  destruct (vv_step dt B coef bc g p Hm) as (q' & Hq & HP & HV & HZ & HE' & HQ' & HM'). rewrite H in Hq. injection Hq as <-.
  destruct (vv_step (- dt) B coef bc g p') as (p'' & Hp & HP2 & HV2 & HZ2 & HE2 & HQ2 & HM2); [congruence|].
  exists p''. split; auto. rewrite HQ', HM', HE' in *. cbv zeta in *.
  assert (S : same_site Lx Ly (cp_P p'') (cp_P p)).
  { rewrite HP2, HV. eapply same_site_trans; [apply Hbc|].
    match goal with |- same_site _ _ (add2 _ ?x) _ => set (d := x) end.
    eapply same_site_trans.
    - apply same_site_add. rewrite HP. apply Hbc.
    - unfold d, accel. rewrite HE. unfold same_site. exists 0%Z, 0%Z. unfold add2, scal2. cbn [fst snd].
      split; field; auto. }
  split; auto.
  assert (EG : g (cp_P p'') = g (cp_P p)) by (apply Hg; auto).
  unfold accel in *. rewrite EG in HV2. rewrite HV in HV2. rewrite HE in HV2.
  destruct (cp_V p) as [[V0 V1] V2], (cp_V p'') as [[W0 W1] W2], (cp_V p') as [[U0 U1] U2].
  cbn [xy snd] in *. unfold add2, scal2 in HV2. cbn [fst snd] in HV2. injection HV2 as A1 A2.
  rewrite triple_eq. repeat split; [rewrite A1; field; auto|rewrite A2; field; auto|congruence].
Qed.

(** Two consecutive steps without boundary: Stormer. *)
Lemma vv_stormer dt B coef g p p1 p2 : cp_E p = g (cp_P p) ->
  time_step 0 dt B coef (fun x => x) g p = Some p1 -> time_step 0 dt B coef (fun x => x) g p1 = Some p2 ->
  add2 (sub2 (cp_P p2) (scal2 2 (cp_P p1))) (cp_P p) = scal2 (dt * dt) (accel coef (cp_M p) (cp_Q p) g (cp_P p1)).
Proof.
  intros HE H H'.
  assert (Hm : cp_M p <> 0).
  { intros E. unfold time_step in H. change (Z.eqb 0 0) with true in H. cbn iota in H. unfold vv1_kernel, rdiv in H. rewrite E, Req_bool_true in H by auto. discriminate H. }
  destruct (vv_step dt B coef (fun x => x) g p Hm) as (q' & Hq & HP & HV & HZ & HE' & HQ' & HM'). rewrite H in Hq. injection Hq as <-.
  destruct (vv_step dt B coef (fun x => x) g p1) as (q2 & Hq2 & HP2 & _); [congruence|]. rewrite H' in Hq2. injection Hq2 as <-.
  cbv zeta in *. rewrite HP2, HV, HE', HQ', HM'. unfold accel. set (G := g (cp_P p1)). rewrite HP.
  unfold add2, sub2, scal2. cbn [fst snd]. rewrite pair_eq. split; field; auto.
Qed.

(** ** Charges *)
Lemma charges_ok c s : set_charges c = Some s -> cc_volume c <> 0 ->
  ch_num s = num_particles c /\
  ch_weight s * IZR (ch_num s) = ch_density s * cc_volume c /\
  (forall rho, cc_charge_density c = Some rho -> ch_weight s * IZR (ch_num s) * ch_charge s = rho * cc_volume c) /\
  (forall rho, ch_charge_density s = Some rho -> ch_weight s * IZR (ch_num s) * ch_charge s = rho * cc_volume c) /\
  (ch_charge_density s = None <-> cc_charge_density c = None /\ cc_charge c = None).
Proof.
  unfold set_charges. intros H Hv. set (N := num_particles c) in *. clearbody N.
  destruct (if Rlt_bool (cc_density c) 0 then _ else _) as [[w d]|] eqn:E; [|discriminate].
  assert (Hw : w * IZR N = d * cc_volume c).
  { destruct (Rlt_bool (cc_density c) 0).
    - rewrite rdiv_ok in E by auto. injection E as <- <-. field; auto.
    - unfold rdiv in E. destruct (Req_bool_spec (IZR N) 0) as [EN|HN]; [discriminate|]. injection E as <- <-. field; auto. }
  destruct (cc_charge_density c) as [rho|].
  - unfold rdiv in H. destruct (Req_bool_spec (d * cc_volume c) 0) as [Ez|Hz]; [discriminate|]. injection H as <-. cbn [ch_num ch_weight ch_density ch_charge ch_charge_density].
    split; auto. split; auto. assert (Hd : d <> 0) by (intros ->; apply Hz; ring).
    assert (G : w * IZR N * (rho * cc_volume c / (d * cc_volume c)) = rho * cc_volume c) by (rewrite Hw; field; auto).
    split; [intros r [= <-]; auto|]. split; [intros r [= <-]; auto|]. split; [discriminate|intros [? _]; discriminate].
  - destruct (cc_charge c) as [q|]; injection H as <-; cbn [ch_num ch_weight ch_density ch_charge ch_charge_density].
    + split; auto. split; auto. split; [discriminate|]. split; [intros r [= <-]; rewrite Hw; ring|]. split; [discriminate|intros [_ ?]; discriminate].
    + split; auto. split; auto. split; [discriminate|]. split; [discriminate|]. split; auto.
Qed.
Lemma charges_finite c : (0 < num_particles c)%Z -> cc_volume c <> 0 -> cc_density c <> 0 -> exists s, set_charges c = Some s.
Proof.
  intros HN Hv Hd. unfold set_charges. set (N := num_particles c) in *. clearbody N.
  assert (HNr : IZR N <> 0) by (apply IZR_neq; lia).
  assert (E : exists w d, d <> 0 /\ (if Rlt_bool (cc_density c) 0 then
       match rdiv (IZR N) (cc_volume c) with Some d => Some (1, d) | None => None end
     else match rdiv (cc_density c * cc_volume c) (IZR N) with Some w => Some (w, cc_density c) | None => None end) = Some (w, d)).
  { destruct (Rlt_bool (cc_density c) 0); rewrite rdiv_ok by auto; do 2 eexists; split; try reflexivity; auto.
    unfold Rdiv. apply Rmult_integral_contrapositive. split; auto. apply Rinv_neq_0_compat; auto. }
  destruct E as (w & d & Hd' & ->). destruct (cc_charge_density c); [|destruct (cc_charge c); eauto].
  rewrite rdiv_ok; eauto.
Qed.

(** ** Poisson coupling *)
Lemma vsum_add n f g : vsum n (fun i => f i + g i) = vsum n f + vsum n g.
Proof. induction n; cbn; lra. Qed.
Lemma vsum_scal n k f : vsum n (fun i => k * f i) = k * vsum n f.
Proof. induction n; cbn; lra. Qed.
Lemma vsum_ext n f g : (forall i, (i < n)%nat -> f i = g i) -> vsum n f = vsum n g.
Proof. induction n; cbn; intros H; auto. rewrite IHn, H; auto. Qed.
Lemma vsum_nonneg n f : (forall i, (i < n)%nat -> 0 <= f i) -> 0 <= vsum n f.
Proof. induction n; cbn; intros H; [lra|]. pose proof (H n (Nat.lt_succ_diag_r _)). assert (0 <= vsum n f) by auto. lra. Qed.
Lemma integral_add F f g : integral F (fun i => f i + g i) = integral F f + integral F g.
Proof. unfold integral. rewrite <- vsum_add. apply vsum_ext. intros; ring. Qed.
Lemma integral_scal F k f : integral F (fun i => f i * k) = k * integral F f.
Proof. unfold integral. rewrite <- vsum_scal. apply vsum_ext. intros; ring. Qed.

Lemma neutral F w st : volume F <> 0 -> integral F (ncd_phys F) = integral F (fun _ => -1) ->
  exists st', add_neutralising F w st = CFields st' /\ integral F (ff_phys st') = 0 /\
   (forall i, ff_phys st' i = ff_phys st i + (integral F (ff_phys st) / volume F) * ncd_phys F i) /\
   (forall i, ff_coeffs st' i = ff_coeffs st i + (integral F (ff_phys st) / volume F) * ncd_coeffs F i).
Proof.
  intros Hv Hn. unfold add_neutralising. rewrite rdiv_ok by auto. cbv zeta. cbn [ff_phys].
  assert (E : integral F (fun i => ff_phys st i + ncd_phys F i * (integral F (ff_phys st) / volume F)) = 0).
  { rewrite integral_add, integral_scal, Hn. unfold volume in *. field. lra. }
  rewrite E, Rmult_0_l, Rabs_R0. rewrite Rlt_bool_true by (apply Rdiv_lt_0_compat; [lra|apply pow_lt; lra]).
  eexists. split; [reflexivity|]. cbn [ff_phys ff_coeffs]. split; auto. split; intros; ring.
Qed.

Lemma compute_field_ok F w proj : volume F <> 0 -> integral F (ncd_phys F) = integral F (fun _ => -1) ->
  exists st, compute_field F w proj = CFields st /\ integral F (ff_phys st) = 0 /\
   (forall i, ff_phys st i = - w * (f_bwd F proj i + (integral F (f_bwd F proj) / volume F) * ncd_phys F i)) /\
   fu_coeffs st = f_helm F (ff_phys st) /\ fu_phys st = f_bwd F (fu_coeffs st) /\
   (forall i, ff_coeffs st i = - w).
Proof.
  intros Hv Hn. unfold compute_field.
  destruct (neutral F w (project_charge F proj {| fu_phys := fun _ => 0; fu_coeffs := fun _ => 0; ff_phys := fun _ => 0; ff_coeffs := fun _ => 0 |}) Hv Hn) as (st & -> & H0 & Hp & Hc).
  eexists. split; [reflexivity|]. unfold solve_system, do_solve. cbn [ff_phys ff_coeffs fu_phys fu_coeffs].
  split; [rewrite integral_scal, H0; ring|]. split; [intros i; rewrite Hp; cbn [project_charge ff_phys]; ring|]. auto.
Qed.

(** ** Diagnostics *)
Lemma fold_sum (f : cpart -> R) l a : fold_left (fun a p => a + f p) l a = a + fold_right (fun p acc => f p + acc) 0 l.
Proof. revert a. induction l as [|x l IH]; intros a; cbn; [lra|]. rewrite IH. lra. Qed.
Lemma fold_right_app_sum (f : cpart -> R) l1 l2 : fold_right (fun p acc => f p + acc) 0 (l1 ++ l2) =
  fold_right (fun p acc => f p + acc) 0 l1 + fold_right (fun p acc => f p + acc) 0 l2.
Proof. induction l1; cbn; lra. Qed.
Lemma global_sum_total f grp : global_sum f grp = total f grp.
Proof.
  unfold global_sum, total. assert (G : forall a, fold_left (fun acc rk => acc + fold_left (fun a p => a + f p) rk 0) grp a = a + fold_right (fun p acc => f p + acc) 0 (concat grp)).
  { induction grp as [|x l IH]; intros a; cbn [fold_left concat]; [cbn; lra|]. rewrite IH, fold_sum, fold_right_app_sum. lra. }
  rewrite G. lra.
Qed.
Lemma total_ext f g grp : (forall rk p, In rk grp -> In p rk -> f p = g p) -> total f grp = total g grp.
Proof.
  intros H. unfold total. assert (G : forall p, In p (concat grp) -> f p = g p).
  { intros p Hp. apply in_concat in Hp as (rk & H1 & H2). eauto. }
  clear H. induction (concat grp) as [|x l IH]; cbn; auto. rewrite G, IH by (cbn; auto using in_cons). reflexivity.
Qed.
Lemma kinetic_ok m grp : (forall rk p, In rk grp -> In p rk -> cp_M p = m) -> kinetic_energy m grp = total true_kinetic grp.
Proof.
  intros H. unfold kinetic_energy. rewrite global_sum_total. apply total_ext. intros rk p H1 H2. unfold true_kinetic. rewrite (H rk p) by auto.
  destruct (cp_V p) as [[a b] c]. unfold speed2, dot3. lra.
Qed.

Lemma integral_const F c : integral F (fun _ => c) = c * integral F (fun _ => 1).
Proof. unfold integral. rewrite <- vsum_scal. apply vsum_ext. intros; ring. Qed.
Lemma integral_ext F f g : (forall i, (i < f_points F)%nat -> f i = g i) -> integral F f = integral F g.
Proof. intros H. apply vsum_ext. intros i Hi. rewrite H; auto. Qed.
Lemma mean_shift F phys c mu : field_mean F phys = Some mu -> field_mean F (fun i => phys i + c) = Some (mu + c).
Proof.
  unfold field_mean. unfold rdiv. destruct (Req_bool_spec (integral F (fun _ => 1)) 0) as [|Hv]; [discriminate|]. intros [= <-].
  rewrite integral_add, integral_const. f_equal. field; auto.
Qed.
Lemma field_energy_gauge F phys c : field_energy F (fun i => phys i + c) = field_energy F phys.
Proof.
  unfold field_energy. destruct (field_mean F phys) as [mu|] eqn:E.
  - rewrite (mean_shift _ _ c _ E). f_equal. apply integral_ext. intros; ring.
  - unfold field_mean, rdiv in *. destruct (Req_bool_spec (integral F (fun _ => 1)) 0); [reflexivity|discriminate].
Qed.
Lemma potential_energy_gauge F phys phi grp c :
  potential_energy F (fun i => phys i + c) (fun p => phi p + c) grp = potential_energy F phys phi grp.
Proof.
  unfold potential_energy. destruct (field_mean F phys) as [mu|] eqn:E.
  - rewrite (mean_shift _ _ c _ E). f_equal. f_equal. rewrite !global_sum_total. apply total_ext. intros; ring.
  - unfold field_mean, rdiv in *. destruct (Req_bool_spec (integral F (fun _ => 1)) 0); [reflexivity|discriminate].
Qed.
Lemma energy_nonneg F phys e : (forall i, (i < f_points F)%nat -> 0 <= f_wq F i) -> field_energy F phys = Some e -> 0 <= e.
Proof.
  intros Hw. unfold field_energy. destruct (field_mean F phys) as [mu|]; [|discriminate]. intros [= <-].
  apply vsum_nonneg. intros i Hi. pose proof (Hw i Hi). apply Rmult_le_pos; auto. apply Rle_0_sqr.
Qed.
Lemma mean_zero F phys mu : field_mean F phys = Some mu -> integral F (fun i => phys i - mu) = 0.
Proof.
  unfold field_mean, rdiv. destruct (Req_bool_spec (integral F (fun _ => 1)) 0) as [|Hv]; [discriminate|]. intros [= <-].
  transitivity (integral F (fun i => phys i + - (integral F phys / integral F (fun _ => 1)))); [apply integral_ext; intros; ring|].
  rewrite integral_add, integral_const. field; auto.
Qed.

Lemma driver_ok c : exists t B coef, driver_setup c = DriverOk t B coef /\
  t = orelse (if match dc_Bx c, dc_By c, dc_Bz c with None, None, None => true | _, _, _ => false end then 0%Z else 1%Z) (dc_type c) /\
  B = (orelse 0 (dc_Bx c), orelse 0 (dc_By c), orelse 0 (dc_Bz c)) /\ coef = orelse 1 (dc_rescale c).
Proof.
  unfold driver_setup. set (B := (_, _, _)).
  assert (G : forall t : Z, (Z.leb 0 t || Z.leb t 1)%bool = true).
  { intros t. destruct (Z.leb_spec 0 t); auto. destruct (Z.leb_spec t 1); auto. lia. }
  destruct (dc_type c) as [k|]; destruct (dc_Bx c), (dc_By c), (dc_Bz c); cbn [orelse]; rewrite ?G; cbn; eauto 10; rewrite ?G; eauto 10.
Qed.

Lemma charges_session c s : set_charges c = Some s ->
  (cc_density c < 0 -> ch_weight s = 1) /\ (0 <= cc_density c -> ch_density s = cc_density c) /\
  (forall q, cc_charge_density c = None -> cc_charge c = Some q -> ch_charge s = q) /\
  (cc_charge_density c = None -> cc_charge c = None -> ch_charge s = 1).
Proof.
  unfold set_charges. intros H. set (N := num_particles c) in *. clearbody N.
  destruct (if Rlt_bool (cc_density c) 0 then _ else _) as [[w d]|] eqn:E; [|discriminate].
  assert (Hw : (cc_density c < 0 -> w = 1) /\ (0 <= cc_density c -> d = cc_density c)).
  { destruct (Rlt_bool_spec (cc_density c) 0).
    - destruct (rdiv _ _); [|discriminate]. injection E as <- <-. split; [auto|lra].
    - destruct (rdiv _ _); [|discriminate]. injection E as <- <-. split; [lra|auto]. }
  destruct Hw as [W1 W2]. destruct (cc_charge_density c) as [rho|].
  - destruct (rdiv (rho * cc_volume c) (d * cc_volume c)) as [q|]; [|discriminate]. injection H as <-. cbn [ch_weight ch_density ch_charge]. split; [auto|]. split; [auto|]. split; intros; discriminate.
  - destruct (cc_charge c) as [q|]; injection H as <-; cbn [ch_weight ch_density ch_charge]; (split; [auto|]; split; [auto|]; split); try (intros; discriminate); auto. intros q' _ [= <-]. auto.
Qed.
Lemma energies_defined F phys phi grp : (field_energy F phys = None <-> integral F (fun _ => 1) = 0) /\ (potential_energy F phys phi grp = None <-> integral F (fun _ => 1) = 0).
Proof.
  unfold field_energy, potential_energy, field_mean, rdiv.
  destruct (Req_bool_spec (integral F (fun _ => 1)) 0) as [E|E]; split; split; auto; try discriminate; intros H; congruence.
Qed.
