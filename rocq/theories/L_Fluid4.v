From Verif Require Import S_Fluid L_Util L_Coord L_Fluid L_Fluid2 L_Fluid3.
From Coq Require Import FunctionalExtensionality Lra Lia.
From Coq Require Import List.
Open Scope R_scope.
Open Scope list_scope.

(** * Growth rates: an instance that meets the hypotheses, and one with d22 = 0 *)
Definition f4 (a : nat) : R := match (a mod 4)%nat with 0%nat => 1 | 2%nat => -1 | _ => 0 end.
Lemma f4_2 a : f4 (a + 2) = - f4 a.
Proof.
  unfold f4. pose proof (Nat.mod_upper_bound a 4 ltac:(lia)). rewrite <- (Nat.add_mod_idemp_l a 2 4) by lia.
  destruct (a mod 4)%nat as [|[|[|[|]]]]; try lia; cbn; lra.
Qed.
Lemma f4_mod a : f4 (a mod 4) = f4 a.
Proof. unfold f4. now rewrite Nat.mod_mod by lia. Qed.
Definition hneg : fld -> fld := fun g i => - g i.
Definition s_hw : fsess :=
  {| fs_vars := ["ne"; "w"; "phi"]%string; fs_mesh := 3; fs_space := 3; fs_part := false; fs_npts := 16 |}.
Lemma s_hw_ok : hw_sess s_hw.
Proof.
  split; [|cbn; repeat split; auto; discriminate]. split; [reflexivity|]. split; [reflexivity|].
  cbn. repeat constructor; cbn; intuition discriminate.
Qed.
Lemma g_adv0 h B phi f : advection (genv h) (drift (genv h) B phi) f = vzero.
Proof.
  unfold advection. cbn [genv oe_adv]. extensionality i. unfold drift. cbn [map nth]. unfold dX, dY, vzero. cbn [genv oe_deriv].
  unfold gD, Rdiv. ring.
Qed.
Lemma f4y_dd : forall a, (f4 (a + 1 + 1) - f4 (a + 1 + 3) - (f4 (a + 3 + 1) - f4 (a + 3 + 3))) = - 4 * f4 a.
Proof.
  intros a. replace (a + 1 + 1)%nat with (a + 2)%nat by lia. replace (a + 1 + 3)%nat with (a + 2 + 2)%nat by lia.
  replace (a + 3 + 1)%nat with (a + 2 + 2)%nat by lia. replace (a + 3 + 3)%nat with (a + 2 + 2 + 2)%nat by lia.
  rewrite !f4_2. ring.
Qed.
(** second derivatives of products f4 (a y + j) * g z *)
Lemma gdd_y (j : nat) (g : nat -> R) : (forall b, g (b mod 4)%nat = g b) ->
  gD 1 (gD 1 (fun i => f4 (g_y i + j) * g (g_z i))) = (fun i => - (f4 (g_y i + j) * g (g_z i))).
Proof.
  intros Hg. extensionality i. cbn [gD]. rewrite !g_ix_y, !g_ix_z.
  rewrite !Hg.
  assert (HH : forall x, f4 (x mod 4 + j) = f4 (x + j)) by (intros x; unfold f4; now rewrite Nat.add_mod_idemp_l by lia).
  assert (HH2 : forall x k, f4 (x mod 4 + k + j) = f4 (x + k + j))
    by (intros x k; rewrite <- !Nat.add_assoc; unfold f4; now rewrite Nat.add_mod_idemp_l by lia).
  rewrite !HH, !HH2. pose proof (f4y_dd (g_y i + j)) as H.
  replace (g_y i + 1 + 1 + j)%nat with (g_y i + j + 1 + 1)%nat by lia.
  replace (g_y i + 1 + 3 + j)%nat with (g_y i + j + 1 + 3)%nat by lia.
  replace (g_y i + 3 + 1 + j)%nat with (g_y i + j + 3 + 1)%nat by lia.
  replace (g_y i + 3 + 3 + j)%nat with (g_y i + j + 3 + 3)%nat by lia.
  replace (((f4 (g_y i + j + 1 + 1) * g (g_z i) - f4 (g_y i + j + 1 + 3) * g (g_z i)) / 2 -
     (f4 (g_y i + j + 3 + 1) * g (g_z i) - f4 (g_y i + j + 3 + 3) * g (g_z i)) / 2) / 2)
   with ((f4 (g_y i + j + 1 + 1) - f4 (g_y i + j + 1 + 3) - (f4 (g_y i + j + 3 + 1) - f4 (g_y i + j + 3 + 3))) * g (g_z i) / 4) by field.
  rewrite H. field.
Qed.
Lemma gdd_z (g : nat -> R) : (forall b, g (b mod 4)%nat = g b) ->
  gD 2 (gD 2 (fun i => g (g_y i) * f4 (g_z i))) = (fun i => - (g (g_y i) * f4 (g_z i))).
Proof.
  intros Hg. extensionality i. cbn [gD]. rewrite !g_ix_y, !g_ix_z.
  assert (HH2 : forall x k, f4 (x mod 4 + k) = f4 (x + k)) by (intros x k; unfold f4; now rewrite Nat.add_mod_idemp_l by lia).
  rewrite !Hg, !f4_mod, !HH2. pose proof (f4y_dd (g_z i)) as H.
  replace (((g (g_y i) * f4 (g_z i + 1 + 1) - g (g_y i) * f4 (g_z i + 1 + 3)) / 2 -
     (g (g_y i) * f4 (g_z i + 3 + 1) - g (g_y i) * f4 (g_z i + 3 + 3)) / 2) / 2)
   with ((f4 (g_z i + 1 + 1) - f4 (g_z i + 1 + 3) - (f4 (g_z i + 3 + 1) - f4 (g_z i + 3 + 3))) * g (g_y i) / 4) by field.
  rewrite H. field.
Qed.

Definition phi_y : fld := fun i => f4 (g_y i + 0) * 1.
Definition n_y : fld := fun i => f4 (g_y i + 3) * 1.
Definition phi_yz : fld := fun i => f4 (g_y i) * f4 (g_z i).
Definition p_hw (al ka d22 : R) : hwpar :=
  {| hw_B := Bz 1; hw_d := {| df_00 := 1; df_11 := 1; df_22 := d22 |}; hw_alpha := al; hw_kappa := ka |}.

Lemma growth_instance al ka :
  let e := genv hneg in let w := hneg phi_y in let phys := [n_y; w; vzero] in
  exists n' w' phi', hw2d_rhs e s_hw (p_hw al ka 1) phys [n_y; w] = FOk (phi_y, [n'; w']) /\
    lap e true phi' = w' /\ lap e true phi_y = w /\ (forall f g, gI (fun i => f i * advection e (drift e 1 phi_y) g i) = 0) /\
    rec_dW (growth_record e gI 2 (p_hw al ka 1) n_y w phi_y) = 8 * ka /\
    rec_dE (growth_record e gI 2 (p_hw al ka 1) n_y w phi_y) = 8 * ka - 16 * al.
Proof.
  intros e w phys.
  assert (Hphi : (fun i => - w i) = phi_y) by (extensionality i; unfold w, hneg; ring).
  assert (Hlap : forall (j : nat) c, lap e true (fun i => c * (f4 (g_y i + j) * 1)) = fun i => - c * (f4 (g_y i + j) * 1)).
  { intros j c. unfold lap, dX, dY, dZ. extensionality i. cbn [e genv oe_deriv].
    assert (H1 : gD 1 (gD 1 (fun i => c * (f4 (g_y i + j) * 1))) = fun i => c * - (f4 (g_y i + j) * 1)).
    { pose proof (ca_lin (genv hneg) gI (g_calculus hneg) 1 c (fun i => f4 (g_y i + j) * 1) 0 (fun i => f4 (g_y i + j) * 1)) as H.
      cbn [genv oe_deriv] in H.
      replace (fun i => c * (f4 (g_y i + j) * 1)) with (fun i => c * (f4 (g_y i + j) * 1) + 0 * (f4 (g_y i + j) * 1)) by (extensionality k; ring).
      rewrite H. pose proof (ca_lin (genv hneg) gI (g_calculus hneg) 1 c (gD 1 (fun i => f4 (g_y i + j) * 1)) 0 (gD 1 (fun i => f4 (g_y i + j) * 1))) as H2.
      cbn [genv oe_deriv] in H2. rewrite H2. pose proof (gdd_y j (fun _ => 1) (fun _ => eq_refl)) as H3. cbv beta in H3. rewrite H3.
      extensionality k. ring. }
    rewrite H1.
    assert (H2 : gD 2 (fun i => c * (f4 (g_y i + j) * 1)) = fun _ => 0).
    { extensionality k. cbn [gD]. rewrite !g_ix_y. field. }
    rewrite H2. cbn [gD]. field. }
  eexists _, _, (fun i => al * (f4 (g_y i + 3) * 1) + (- al) * (f4 (g_y i + 0) * 1)).
  split; [|split; [|split; [|split; [|split]]]].
  - pose proof (hw2d_ok e s_hw {| df_00 := 1; df_11 := 1; df_22 := 1 |} al ka 1 phys n_y w vzero n_y s_hw_ok ltac:(lra) (Nat.le_refl 3)
      eq_refl eq_refl eq_refl) as H.
    cbv zeta in H. change (oe_helm e (df_00 {| df_00 := 1; df_11 := 1; df_22 := 1 |}) (df_11 {| df_00 := 1; df_11 := 1; df_22 := 1 |})
      (Some (df_22 {| df_00 := 1; df_11 := 1; df_22 := 1 |})) w) with (fun i => - w i) in H. rewrite Hphi in H. exact H.
  - unfold hw_dw. unfold e. rewrite g_adv0. fold e.
    assert (E : forall j f a g b, oe_deriv e j (fun i => a * f i + b * g i) = (fun i => a * oe_deriv e j f i + b * oe_deriv e j g i))
      by (intros; apply (ca_lin e gI (g_calculus hneg))).
    unfold lap, dX, dY, dZ. rewrite !E.
    pose proof (Hlap 3%nat 1) as L3. pose proof (Hlap 0%nat 1) as L0.
    replace (fun i => 1 * (f4 (g_y i + 3) * 1)) with (fun i => f4 (g_y i + 3) * 1) in L3 by (extensionality k; ring).
    replace (fun i => 1 * (f4 (g_y i + 0) * 1)) with (fun i => f4 (g_y i + 0) * 1) in L0 by (extensionality k; ring).
    extensionality i. unfold lap, dX, dY, dZ in L3, L0.
    apply (f_equal (fun F : fld => F i)) in L3. apply (f_equal (fun F : fld => F i)) in L0. cbv beta in L3, L0.
    unfold coupling2, phi_y, n_y, vzero. nra.
  - pose proof (Hlap 0%nat 1) as L0.
    replace (fun i => 1 * (f4 (g_y i + 0) * 1)) with phi_y in L0 by (extensionality k; unfold phi_y; ring).
    rewrite L0. extensionality i. unfold w, hneg, phi_y. ring.
  - intros f g. unfold e. rewrite g_adv0. unfold gI, vzero. cbn. ring.
  - unfold growth_record, compute_Gamma_n, gI, vmul. cbn. unfold n_y, phi_y, f4. cbn. field.
  - unfold growth_record, compute_Gamma_n, compute_Gamma_a, gI, vmul, vsub. cbn. unfold n_y, phi_y, f4. cbn. field.
Qed.

(** d22 = 0 (the value of the 2Din3DHW examples): fields that vary in z. *)
Lemma growth_z_witness :
  let e := genv hneg in let w := hneg phi_yz in let phys := [vzero; w; vzero] in
  exists n' w' phi', hw2d_rhs e s_hw (p_hw 1 0 0) phys [vzero; w] = FOk (phi_yz, [n'; w']) /\
    lap e false phi' = w' /\ lap e false phi_yz = w /\ (forall f g, gI (fun i => f i * advection e (drift e 1 phi_yz) g i) = 0) /\
    derivable_pt_lim (fun t => recE (growth_record e gI 2 (p_hw 1 0 0) (along vzero n' t) (along w w' t) (along phi_yz phi' t))) 0 (-8) /\
    rec_dE (growth_record e gI 2 (p_hw 1 0 0) vzero w phi_yz) = -4.
Proof.
  intros e w phys.
  assert (Hphi : (fun i => - w i) = phi_yz) by (extensionality i; unfold w, hneg; ring).
  assert (Hyy : gD 1 (gD 1 phi_yz) = fun i => - phi_yz i).
  { unfold phi_yz. pose proof (gdd_y 0 f4 f4_mod) as H. replace (fun i => f4 (g_y i) * f4 (g_z i)) with (fun i => f4 (g_y i + 0) * f4 (g_z i))
      by (extensionality i; now rewrite Nat.add_0_r). rewrite H. extensionality i. now rewrite Nat.add_0_r. }
  assert (Hzz : gD 2 (gD 2 phi_yz) = fun i => - phi_yz i) by (apply (gdd_z f4 f4_mod)).
  assert (E : forall j f a g b, oe_deriv e j (fun i => a * f i + b * g i) = (fun i => a * oe_deriv e j f i + b * oe_deriv e j g i))
      by (intros; apply (ca_lin e gI (g_calculus hneg))).
  assert (Hneg : forall j f, gD j (fun i => - f i) = fun i => - gD j f i).
  { intros j f. pose proof (E j f (-1) f 0) as H. cbn [e genv oe_deriv] in H.
    replace (fun i => - f i) with (fun i => -1 * f i + 0 * f i) by (extensionality i; ring). rewrite H. extensionality i. ring. }
  assert (HL : lap e false phi_yz = w).
  { unfold lap, dX, dY, dZ. cbn [e genv oe_deriv]. rewrite Hyy. extensionality i. cbn [gD]. unfold w, hneg. ring. }
  eexists (hw_dn e 1 0 phi_yz vzero (coupling2 1 phi_yz vzero) vzero), (hw_dw e 1 phi_yz w (coupling2 1 phi_yz vzero)), (fun i => - phi_yz i).
  split; [|split; [|split; [|split; [|split]]]].
  - pose proof (hw2d_ok e s_hw {| df_00 := 1; df_11 := 1; df_22 := 0 |} 1 0 1 phys vzero w vzero vzero s_hw_ok ltac:(lra) (Nat.le_refl 3)
      eq_refl eq_refl eq_refl) as H.
    cbv zeta in H. change (oe_helm e (df_00 {| df_00 := 1; df_11 := 1; df_22 := 0 |}) (df_11 {| df_00 := 1; df_11 := 1; df_22 := 0 |})
      (Some (df_22 {| df_00 := 1; df_11 := 1; df_22 := 0 |})) w) with (fun i => - w i) in H. rewrite Hphi in H. exact H.
  - unfold hw_dw. unfold e. rewrite g_adv0. fold e. unfold lap, dX, dY, dZ. cbn [e genv oe_deriv].
    rewrite !Hneg, Hyy. extensionality i. cbn [gD]. unfold coupling2, vzero. field.
  - exact HL.
  - intros f g. unfold e. rewrite g_adv0. unfold gI, vzero. cbn. ring.
  - unfold growth_record. cbn [fst snd].
    destruct (energy_along e gI (g_calculus hneg) 2 vzero (hw_dn e 1 0 phi_yz vzero (coupling2 1 phi_yz vzero) vzero) phi_yz (fun i => - phi_yz i))
      as (a & c & H).
    cbn [Nat.eqb] in H.
    replace (gI (fun i => vzero i * hw_dn e 1 0 phi_yz vzero (coupling2 1 phi_yz vzero) vzero i)
       - gI (fun i => phi_yz i * lap e true (fun i => - phi_yz i) i)) with (-8) in H; [exact (deriv_quad _ _ _ _ H)|].
    replace (lap e true (fun i => - phi_yz i)) with (fun i => 2 * phi_yz i).
    2:{ unfold lap, dX, dY, dZ. cbn [e genv oe_deriv]. rewrite !Hneg, Hyy, Hzz. extensionality i. cbn [gD]. field. }
    unfold gI, vzero. cbn [fold_right seq]. unfold phi_yz, f4. cbn. ring.
  - unfold growth_record, compute_Gamma_n, compute_Gamma_a, gI, vmul, vsub. cbn. unfold vzero, phi_yz, f4. cbn. ring.
Qed.
