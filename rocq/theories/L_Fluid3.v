From Verif Require Import S_Fluid L_Util L_Coord L_Fluid L_Fluid2.
From Coq Require Import FunctionalExtensionality Lra Lia.
From Coq Require Import List.
Open Scope R_scope.
Open Scope list_scope.

Notation recE r := (fst (fst (fst r))).
Notation recW r := (snd (fst (fst r))).
Notation rec_dE r := (snd (fst r)).
Notation rec_dW r := (snd r).

Lemma hw2d_energy_growth e I s d al ka B phys n w phi n' w' phi' : calculus e I ->
  hw_sess s -> fs_part s = false -> B <> 0 -> (length (oe_normals e) <= 3)%nat -> length phys = length (fs_vars s) ->
  nth_error phys 0 = Some n ->
  let p := {| hw_B := Bz B; hw_d := d; hw_alpha := al; hw_kappa := ka |} in
  hw2d_rhs e s p phys [n; w] = FOk (phi, [n'; w']) ->
  lap e true phi' = w' ->
  I (fun i => n i * advection e (drift e B phi) n i) = 0 -> I (fun i => phi i * advection e (drift e B phi) w i) = 0 ->
  derivable_pt_lim (fun t => recE (growth_record e I 2 p (along n n' t) (along w w' t) (along phi phi' t))) 0
    (rec_dE (growth_record e I 2 p n w phi)).
Proof.
  intros C Hs Hp HB Hno Hlen Hn p Hr HL A1 A2.
  assert (Hsrc : hw_src s phys vzero) by (unfold hw_src; rewrite Hp; reflexivity).
  pose proof (hw2d_ok e s d al ka B phys n w vzero n Hs HB Hno Hlen Hn Hsrc) as Hr2. cbv zeta in Hr2. fold p in Hr2. rewrite Hr2 in Hr. clear Hr2.
  injection Hr as Hphi <- <-. rewrite Hphi in *. unfold growth_record. cbn [fst snd hw_kappa hw_alpha p].
  destruct (energy_along e I C 2 n (hw_dn e B ka phi n (coupling2 al phi n) vzero) phi phi') as (a & c & H).
  cbn [Nat.eqb] in H. rewrite (energy_rate e I C B ka phi phi' n w (coupling2 al phi n) true A1 A2 HL) in H.
  replace (compute_Gamma_n e I ka n phi - compute_Gamma_a e I 2 al n phi) with
    (I (fun i => (n i - phi i) * coupling2 al phi n i) - ka * I (fun i => n i * dY e phi i)).
  - exact (deriv_quad _ _ _ _ H).
  - unfold compute_Gamma_n, compute_Gamma_a, coupling2, vmul, vsub, dY. cbn [Nat.eqb].
    replace (fun i => (n i - phi i) * (al * (phi i - n i))) with (fun i => (- al) * ((n i - phi i) * (n i - phi i))) by (extensionality i; ring).
    rewrite (I_scal e I C). ring.
Qed.
Lemma hw2d_enstrophy_growth e I s d al ka B phys n w phi n' w' z : calculus e I ->
  hw_sess s -> fs_part s = false -> B <> 0 -> (length (oe_normals e) <= 3)%nat -> length phys = length (fs_vars s) ->
  nth_error phys 0 = Some n ->
  let p := {| hw_B := Bz B; hw_d := d; hw_alpha := al; hw_kappa := ka |} in
  hw2d_rhs e s p phys [n; w] = FOk (phi, [n'; w']) ->
  lap e z phi = w ->
  let v := drift e B phi in
  I (fun i => n i * advection e v n i) = 0 -> I (fun i => w i * advection e v w i) = 0 ->
  I (fun i => n i * advection e v w i) + I (fun i => w i * advection e v n i) = 0 ->
  forall phi', derivable_pt_lim (fun t => recW (growth_record e I 2 p (along n n' t) (along w w' t) (along phi phi' t))) 0
    (rec_dW (growth_record e I 2 p n w phi)).
Proof.
  intros C Hs Hp HB Hno Hlen Hn p Hr HL v A1 A3 A4 phi'.
  assert (Hsrc : hw_src s phys vzero) by (unfold hw_src; rewrite Hp; reflexivity).
  pose proof (hw2d_ok e s d al ka B phys n w vzero n Hs HB Hno Hlen Hn Hsrc) as Hr2. cbv zeta in Hr2. fold p in Hr2. rewrite Hr2 in Hr. clear Hr2.
  injection Hr as Hphi <- <-. rewrite Hphi in *. unfold growth_record. cbn [fst snd hw_kappa hw_alpha p].
  destruct (enstrophy_along e I C n (hw_dn e B ka phi n (coupling2 al phi n) vzero) w (hw_dw e B phi w (coupling2 al phi n))) as (a & c & H).
  rewrite (enstrophy_rate e I C B ka phi n w (coupling2 al phi n) z A1 A3 A4 HL) in H.
  exact (deriv_quad _ _ _ _ H).
Qed.

(** The diffusion object as the divergence of the flux of the gradient. *)
Definition diffuse_is_div (e : oenv) : Prop := forall F f, oe_diffuse e F f =
  (fun i => let q := F [dX e f; dY e f; dZ e f] in dX e (nth 0 q vzero) i + dY e (nth 1 q vzero) i + dZ e (nth 2 q vzero) i).
Lemma D_zero e I : calculus e I -> forall j f, oe_deriv e j (fun i => 0 * f i) = fun _ => 0.
Proof.
  intros C j f. pose proof (ca_lin e I C j 0 f 0 f) as H.
  replace (fun i => 0 * f i) with (fun i => 0 * f i + 0 * f i) by (extensionality i; ring).
  rewrite H. extensionality i. ring.
Qed.
Lemma par_dyn_is_dzz e I f : calculus e I -> diffuse_is_div e -> oe_diffuse e hw3d_flux_diff f = dZ e (dZ e f).
Proof.
  intros C H. rewrite H. extensionality i. unfold hw3d_flux_diff, hw3d_diff_coef. cbn [combine map nth fst snd]. unfold smul, dX, dY, dZ.
  rewrite !(D_zero e I C).
  replace (fun j => 1 * oe_deriv e 2 f j) with (oe_deriv e 2 f) by (extensionality j; ring). ring.
Qed.
Lemma hw3d_energy_growth e I s d al ka B phys n w phi n' w' phi' : calculus e I -> diffuse_is_div e ->
  hw_sess s -> fs_part s = false -> B <> 0 -> (length (oe_normals e) <= 3)%nat -> length phys = length (fs_vars s) ->
  let p := {| hw_B := Bz B; hw_d := d; hw_alpha := al; hw_kappa := ka |} in
  hw3d_rhs e s p phys [n; w] = FOk (phi, [n'; w']) ->
  lap e false phi' = w' ->
  I (fun i => n i * advection e (drift e B phi) n i) = 0 -> I (fun i => phi i * advection e (drift e B phi) w i) = 0 ->
  derivable_pt_lim (fun t => recE (growth_record e I 3 p (along n n' t) (along w w' t) (along phi phi' t))) 0
    (rec_dE (growth_record e I 3 p n w phi)).
Proof.
  intros C Hdiv Hs Hp HB Hno Hlen p Hr HL A1 A2.
  assert (Hsrc : hw_src s phys vzero) by (unfold hw_src; rewrite Hp; reflexivity).
  pose proof (hw3d_ok e s d al ka B phys n w vzero Hs HB Hno Hlen Hsrc) as Hr2. cbv zeta in Hr2. fold p in Hr2. rewrite Hr2 in Hr. clear Hr2.
  injection Hr as Hphi <- <-. rewrite Hphi in *. unfold growth_record. cbn [fst snd hw_kappa hw_alpha p].
  destruct (energy_along e I C 3 n (hw_dn e B ka phi n (coupling3 e al phi n) vzero) phi phi') as (a & c & H).
  cbn [Nat.eqb] in H. rewrite (energy_rate e I C B ka phi phi' n w (coupling3 e al phi n) false A1 A2 HL) in H.
  replace (compute_Gamma_n e I ka n phi - compute_Gamma_a e I 3 al n phi) with
    (I (fun i => (n i - phi i) * coupling3 e al phi n i) - ka * I (fun i => n i * dY e phi i)).
  - exact (deriv_quad _ _ _ _ H).
  - unfold compute_Gamma_n, compute_Gamma_a, coupling3, vmul, vsub, dY. cbn [Nat.eqb].
    rewrite (par_dyn_is_dzz e I _ C Hdiv). unfold dZ.
    replace (oe_deriv e 2 (fun j => phi j - n j)) with (fun i => -1 * oe_deriv e 2 (fun j => n j - phi j) i).
    2:{ pose proof (ca_lin e I C 2 (-1) (fun j => n j - phi j) 0 (fun j => n j - phi j)) as HH.
        replace (fun j => phi j - n j) with (fun i => -1 * (n i - phi i) + 0 * (n i - phi i)) by (extensionality j; ring).
        rewrite HH. extensionality i. ring. }
    set (q := fun j => n j - phi j).
    replace (oe_deriv e 2 (fun i => -1 * oe_deriv e 2 q i)) with (fun i => -1 * oe_deriv e 2 (oe_deriv e 2 q) i).
    2:{ pose proof (ca_lin e I C 2 (-1) (oe_deriv e 2 q) 0 (oe_deriv e 2 q)) as HH.
        replace (fun i => -1 * oe_deriv e 2 q i) with (fun i => -1 * oe_deriv e 2 q i + 0 * oe_deriv e 2 q i) by (extensionality j; ring).
        rewrite HH. extensionality i. ring. }
    replace (fun i => (n i - phi i) * - (al * (-1 * oe_deriv e 2 (oe_deriv e 2 q) i))) with
      (fun i => al * (q i * oe_deriv e 2 (oe_deriv e 2 q) i)) by (extensionality i; unfold q; ring).
    rewrite (I_scal e I C), (ca_parts e I C 2 q (oe_deriv e 2 q)). ring.
Qed.
Lemma hw3d_enstrophy_growth e I s d al ka B phys n w phi n' w' z : calculus e I ->
  hw_sess s -> fs_part s = false -> B <> 0 -> (length (oe_normals e) <= 3)%nat -> length phys = length (fs_vars s) ->
  let p := {| hw_B := Bz B; hw_d := d; hw_alpha := al; hw_kappa := ka |} in
  hw3d_rhs e s p phys [n; w] = FOk (phi, [n'; w']) ->
  lap e z phi = w ->
  let v := drift e B phi in
  I (fun i => n i * advection e v n i) = 0 -> I (fun i => w i * advection e v w i) = 0 ->
  I (fun i => n i * advection e v w i) + I (fun i => w i * advection e v n i) = 0 ->
  forall phi', derivable_pt_lim (fun t => recW (growth_record e I 3 p (along n n' t) (along w w' t) (along phi phi' t))) 0
    (rec_dW (growth_record e I 3 p n w phi)).
Proof.
  intros C Hs Hp HB Hno Hlen p Hr HL v A1 A3 A4 phi'.
  assert (Hsrc : hw_src s phys vzero) by (unfold hw_src; rewrite Hp; reflexivity).
  pose proof (hw3d_ok e s d al ka B phys n w vzero Hs HB Hno Hlen Hsrc) as Hr2. cbv zeta in Hr2. fold p in Hr2. rewrite Hr2 in Hr. clear Hr2.
  injection Hr as Hphi <- <-. rewrite Hphi in *. unfold growth_record. cbn [fst snd hw_kappa hw_alpha p].
  destruct (enstrophy_along e I C n (hw_dn e B ka phi n (coupling3 e al phi n) vzero) w (hw_dw e B phi w (coupling3 e al phi n))) as (a & c & H).
  rewrite (enstrophy_rate e I C B ka phi n w (coupling3 e al phi n) z A1 A3 A4 HL) in H.
  exact (deriv_quad _ _ _ _ H).
Qed.

(** * A concrete periodic calculus: a 4 x 4 grid in (y, z), central differences, nothing varies in x. *)
Definition g_y (i : nat) : nat := ((i / 4) mod 4)%nat.
Definition g_z (i : nat) : nat := (i mod 4)%nat.
Definition g_ix (a b : nat) : nat := (4 * (a mod 4) + b mod 4)%nat.
Definition gD (j : nat) (f : fld) : fld := fun i =>
  match j with
  | 1%nat => (f (g_ix (g_y i + 1) (g_z i)) - f (g_ix (g_y i + 3) (g_z i))) / 2
  | 2%nat => (f (g_ix (g_y i) (g_z i + 1)) - f (g_ix (g_y i) (g_z i + 3))) / 2
  | _ => 0
  end.
Definition gI (f : fld) : R := fold_right (fun i acc => f i + acc) 0 (seq 0 16).
Definition genv (helm : fld -> fld) : oenv :=
  {| oe_deriv := gD; oe_helm := fun _ _ _ => helm;
     oe_adv := fun fl _ _ _ => fun i => gD 0 (nth 0 fl vzero) i + gD 1 (nth 1 fl vzero) i + gD 2 (nth 2 fl vzero) i;
     oe_trace := fun f => f; oe_normals := [vzero; vzero; vzero];
     oe_diffuse := fun F f => fun i => let q := F [gD 0 f; gD 1 f; gD 2 f] in
        gD 0 (nth 0 q vzero) i + gD 1 (nth 1 q vzero) i + gD 2 (nth 2 q vzero) i;
     oe_src := vzero |}.
Lemma g_ix_y a b : g_y (g_ix a b) = (a mod 4)%nat.
Proof.
  unfold g_y, g_ix. pose proof (Nat.mod_upper_bound a 4 ltac:(lia)). pose proof (Nat.mod_upper_bound b 4 ltac:(lia)).
  replace ((4 * (a mod 4) + b mod 4) / 4)%nat with (a mod 4)%nat.
  - apply Nat.mod_small. assumption.
  - apply (Nat.div_unique _ 4 _ (b mod 4)); lia.
Qed.
Lemma g_ix_z a b : g_z (g_ix a b) = (b mod 4)%nat.
Proof.
  unfold g_z, g_ix. pose proof (Nat.mod_upper_bound b 4 ltac:(lia)).
  symmetry. apply (Nat.mod_unique _ 4 (a mod 4)); lia.
Qed.
Lemma g_ix_modl a b : g_ix (a mod 4) b = g_ix a b.
Proof. unfold g_ix. now rewrite Nat.mod_mod by lia. Qed.
Lemma g_ix_modr a b : g_ix a (b mod 4) = g_ix a b.
Proof. unfold g_ix. now rewrite Nat.mod_mod by lia. Qed.
Lemma g_ix_modl1 a b k : g_ix (a mod 4 + k) b = g_ix (a + k) b.
Proof. unfold g_ix. now rewrite Nat.add_mod_idemp_l by lia. Qed.
Lemma g_ix_modr1 a b k : g_ix a (b mod 4 + k) = g_ix a (b + k).
Proof. unfold g_ix. now rewrite Nat.add_mod_idemp_l by lia. Qed.
Lemma g_calculus h : calculus (genv h) gI.
Proof.
  split.
  - intros a f b g. unfold gI. cbn. ring.
  - intros j a f b g. cbn. extensionality i. unfold gD. destruct j as [|[|[|]]]; try field; ring.
  - intros j f g. unfold gI. cbn [fold_right seq oe_deriv genv]. unfold gD. destruct j as [|[|[|]]]; try ring.
    + cbn -[Rdiv Rplus Rmult Rminus]. field.
    + cbn -[Rdiv Rplus Rmult Rminus]. field.
  - intros j k f. cbn. extensionality i. unfold gD.
    destruct j as [|[|[|]]], k as [|[|[|]]]; try reflexivity; try (unfold Rminus, Rdiv; ring).
    + rewrite !g_ix_y, !g_ix_z, !g_ix_modr1, !g_ix_modl, !g_ix_modl1, !g_ix_modr. field.
    + rewrite !g_ix_y, !g_ix_z, !g_ix_modl1, !g_ix_modr, !g_ix_modr1, !g_ix_modl. field.
Qed.
