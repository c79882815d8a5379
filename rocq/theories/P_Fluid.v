(** Properties C72-C76: the drift-reduced fluid equation systems. *)
From Verif Require Import S_Fluid L_Util L_Coord L_Fluid L_Fluid2 L_Fluid3 L_Fluid4 L_Fluid5 L_Fluid6.
From Coq Require Import FunctionalExtensionality Lra Lia.
From Coq Require Import List.
Open Scope R_scope.
Open Scope list_scope.

(** * C72: the electric field and the E x B drift *)
(** On a 3D mesh with Bxy <> 0, the drift velocity is (E x B)/B^2 for E = - grad phi and B = (0, 0, Bxy). *)
Theorem C72_drift (e : oenv) (s : fsess) (Bxy : R) (phi : fld) : fs_mesh s = 3%nat -> fs_space s = 3%nat -> Bxy <> 0 ->
  exists B, load_B s Bxy = FOk B /\ bf_vec B = [0; 0; Bxy] /\ bf_mag B = Rabs Bxy /\ bf_unit B = [0; 0; Bxy / Rabs Bxy] /\
    calc_E e s phi = [(fun i => - dX e phi i); (fun i => - dY e phi i); (fun i => - dZ e phi i)] /\
    calc_ExB s B (calc_E e s phi) = FOk (drift e Bxy phi).
Proof.
  intros Hm Hs HB. exists (Bz Bxy). split; [exact (load_B_ok s Bxy Hs HB)|]. do 3 (split; [reflexivity|]). split.
  - unfold calc_E. rewrite Hm. reflexivity.
  - exact (calc_ExB_ok e s Bxy phi Hm HB).
Qed.
(** For any magnetic field: perpendicular to E and to B, the cross product over |B|^2, and |v| = |E|/|B| when E is
    perpendicular to B. *)
Theorem C72_cross_product s b0 b1 b2 mag u (E0 E1 E2 : fld) :
  fs_mesh s = 3%nat -> mag = sqrt (b0 * b0 + b1 * b1 + b2 * b2) -> 0 < mag ->
  exists v0 v1 v2, calc_ExB s {| bf_vec := [b0; b1; b2]; bf_mag := mag; bf_unit := u |} [E0; E1; E2] = FOk [v0; v1; v2] /\
  forall i, v0 i * b0 + v1 i * b1 + v2 i * b2 = 0 /\ v0 i * E0 i + v1 i * E1 i + v2 i * E2 i = 0 /\
    v0 i = (E1 i * b2 - E2 i * b1) / (mag * mag) /\ v1 i = (E2 i * b0 - E0 i * b2) / (mag * mag) /\
    v2 i = (E0 i * b1 - E1 i * b0) / (mag * mag) /\
    (v0 i * v0 i + v1 i * v1 i + v2 i * v2 i) * (mag * mag) * (mag * mag) =
    (E0 i * E0 i + E1 i * E1 i + E2 i * E2 i) * (mag * mag) - Rsqr (E0 i * b0 + E1 i * b1 + E2 i * b2).
Proof. exact (ExB_cross s b0 b1 b2 mag u E0 E1 E2). Qed.
(** Every 2D mesh (the 2DHW and 2DRogersRicci examples have SPACE="2"): load_params writes Bvec[2] of a vector of length 2. *)
Theorem C72_2d_refuted (s : fsess) (Bxy : R) : (fs_space s <= 2)%nat -> load_B s Bxy = FUB.
Proof. exact (load_B_UB s Bxy). Qed.
(** Bxy = 0 is accepted and the velocity is not finite. *)
Theorem C72_zero_B_refuted (e : oenv) (s : fsess) (phi : fld) : fs_space s = 3%nat ->
  exists B, load_B s 0 = FOk B /\ calc_ExB s B (calc_E e s phi) = FNan.
Proof.
  intros Hs. eexists. split.
  - unfold load_B. rewrite Hs. change (repeat 0 3) with [0; 0; 0]. ax. reflexivity.
  - replace (sqrt (0 * 0 + 0 * 0 + 0 * 0)) with 0.
    + rewrite Rlt_bool_false by lra. cbn [map]. apply calc_ExB_nan. reflexivity.
    + replace (0 * 0 + 0 * 0 + 0 * 0) with 0 by ring. symmetry. exact sqrt_0.
Qed.
Example C72_nonvacuous : let e := genv hneg in
  calc_ExB s_hw (Bz 2) (calc_E e s_hw phi_y) = FOk (drift e 2 phi_y) /\ map (fun v => v 4%nat) (drift e 2 phi_y) = [1 / 2; 0; 0].
Proof.
  split; [apply calc_ExB_ok; [reflexivity | lra]|]. unfold drift. cbn [map]. f_equal; [|f_equal].
  - unfold dY. cbn. unfold phi_y, f4. cbn. lra.
  - unfold dX. cbn. lra.
Qed.

(** * C73: the Hasegawa-Wakatani right hand sides *)
(** A session with the variables ne, w in the first two places: what the integrator passes is the density and the vorticity. *)
Theorem C73_inputs s phys inn : hw_sess s -> hw_start s phys inn ->
  exists n w, inn = [n; w] /\ field_named s phys "ne" n /\ field_named s phys "w" w.
Proof. exact (hw_start_ok s phys inn). Qed.
(** 2DHW: phi solves the Poisson problem with right hand side w; dn/dt = -adv(v, n) + alpha (phi - n) - kappa dphi/dy + source,
    dw/dt = -adv(v, w) + alpha (phi - n), with v the E x B drift, provided that m_fields holds the density passed by the
    integrator. *)
Theorem C73_hw2d e s d al ka B phys n w src : hw_sess s -> B <> 0 -> (length (oe_normals e) <= 3)%nat ->
  length phys = length (fs_vars s) -> nth_error phys 0 = Some n ->
  (if fs_part s then field_named s phys "ne_src" src else src = vzero) ->
  let p := {| hw_B := Bz B; hw_d := d; hw_alpha := al; hw_kappa := ka |} in
  let phi := oe_helm e (df_00 d) (df_11 d) (Some (df_22 d)) w in
  hw2d_rhs e s p phys [n; w] = FOk (phi, [hw_dn e B ka phi n (coupling2 al phi n) src; hw_dw e B phi w (coupling2 al phi n)]).
Proof. intros; now apply hw2d_ok. Qed.
(** 3DHW: the coupling is -alpha times the diffusion operator applied to phi - n, whatever m_fields holds. *)
Theorem C73_hw3d e s d al ka B phys n w src : hw_sess s -> B <> 0 -> (length (oe_normals e) <= 3)%nat ->
  length phys = length (fs_vars s) ->
  (if fs_part s then field_named s phys "ne_src" src else src = vzero) ->
  let p := {| hw_B := Bz B; hw_d := d; hw_alpha := al; hw_kappa := ka |} in
  let phi := oe_helm e (df_00 d) (df_11 d) (Some (df_22 d)) w in
  let c : fld := fun i => - (al * oe_diffuse e hw3d_flux_diff (fun j => phi j - n j) i) in
  hw3d_rhs e s p phys [n; w] = FOk (phi, [hw_dn e B ka phi n c src; hw_dw e B phi w c]).
Proof. intros; now apply hw3d_ok. Qed.
(** ... which is the second derivative in z. *)
Theorem C73_hw3d_parallel e I f : calculus e I -> diffuse_is_div e -> oe_diffuse e hw3d_flux_diff f = dZ e (dZ e f).
Proof. exact (par_dyn_is_dzz e I f). Qed.
(** The advection term is the Poisson bracket [phi, f]/B of the documentation when the operators satisfy the product rule. *)
Theorem C73_bracket e B phi f i : B <> 0 ->
  (forall fl vn v g, oe_adv e fl vn v g = fun i => dX e (nth 0 fl vzero) i + dY e (nth 1 fl vzero) i + dZ e (nth 2 fl vzero) i) ->
  dX e (fun j => f j * (- dY e phi j / B)) i = dX e f i * (- dY e phi i / B) + f i * (- dX e (dY e phi) i / B) ->
  dY e (fun j => f j * (dX e phi j / B)) i = dY e f i * (dX e phi i / B) + f i * (dY e (dX e phi) i / B) ->
  dZ e (fun j => f j * 0) i = 0 -> dX e (dY e phi) i = dY e (dX e phi) i ->
  advection e (drift e B phi) f i = (dX e phi i * dY e f i - dY e phi i * dX e f i) / B.
Proof. exact (bracket e B phi f i). Qed.
(** Sessions that miss a required field are rejected; with particles enabled, ne_src is required. *)
Theorem C73_required s req : (validate_fields s req = FOk tt <-> Forall (fun n => In n (fs_vars s)) req) /\
  (validate_fields s req = FOk tt \/ validate_fields s req = FThrow).
Proof. split; [exact (validate_ok s req)|]. rewrite validate_spec. destruct (forallb _ req); auto. Qed.
(** The order of the variables is not checked: with w before ne the potential is solved from the density. *)
Theorem C73_variable_order_refuted : exists e s p phys inn phi out w,
  hw_start s phys inn /\ field_named s phys "w" w /\ hw3d_rhs e s p phys inn = FOk (phi, out) /\
  phi <> oe_helm e (df_00 (hw_d p)) (df_11 (hw_d p)) (Some (df_22 (hw_d p))) w.
Proof.
  destruct (swapped_order (fun _ => 1) vzero vzero) as (H1 & out & H2).
  exists (genv (fun g => g)), s_swap, (p_hw 1 1 1). do 3 eexists. exists out, vzero. split; [exact H1|]. split.
  - exists 0%nat. split; reflexivity.
  - split; [exact H2|]. intros E. apply (f_equal (fun F : fld => F 0%nat)) in E. cbn in E. unfold vzero in E. lra.
Qed.
(** ... and with phi before w it is undefined behaviour. *)
Theorem C73_variable_order_ub_refuted : exists s phys inn, hw_start s phys inn /\
  forall e p, hw3d_rhs e s p phys inn = FUB /\ hw2d_rhs e s p phys inn = FUB.
Proof.
  exists s_mid, [vzero; vzero; vzero], [vzero; vzero]. split; [exact (proj1 (mid_order (genv hneg) (p_hw 1 1 1) vzero vzero vzero))|].
  intros e p. exact (proj2 (mid_order e p vzero vzero vzero)).
Qed.
(** 2DHW couples to the density held by m_fields: in the later stages of a time step, not the density of the stage. *)
Theorem C73_hw2d_stage_density_refuted : exists e s al ka B phys n w phi dn dw,
  hw_sess s /\ length phys = length (fs_vars s) /\
  hw2d_rhs e s {| hw_B := Bz B; hw_d := {| df_00 := 1; df_11 := 1; df_22 := 1 |}; hw_alpha := al; hw_kappa := ka |} phys [n; w]
    = FOk (phi, [dn; dw]) /\ dn <> hw_dn e B ka phi n (coupling2 al phi n) vzero.
Proof.
  destruct hw2d_stage as (dn & dw & H1 & H2 & H3).
  exists (genv (fun g => g)), s_hw, 1, 0, 1, [vzero; vzero; vzero], (fun _ => 1), vzero, vzero, dn, dw.
  split; [exact s_hw_ok|]. split; [reflexivity|]. split; [exact H1|]. intros E.
  apply (f_equal (fun F : fld => F 0%nat)) in E. rewrite H2 in E. rewrite H3 in E. lra.
Qed.
Definition s_hw_part : fsess :=
  {| fs_vars := ["ne"; "w"; "phi"; "ne_src"]%string; fs_mesh := 3; fs_space := 3; fs_part := true; fs_npts := 16 |}.
Example C73_nonvacuous : hw_sess s_hw_part /\ hw_start s_hw_part [n_y; phi_y; vzero; phi_yz] [n_y; phi_y] /\
  exists phi dn dw, hw3d_rhs (genv hneg) s_hw_part (p_hw 1 1 0) [n_y; phi_y; vzero; phi_yz] [n_y; phi_y] = FOk (phi, [dn; dw]) /\
    dn 4%nat = 0 - 1 + phi_yz 4%nat.
Proof.
  assert (Hs : hw_sess s_hw_part).
  { split; [|cbn; repeat split; auto]. split; [reflexivity|]. split; [reflexivity|]. cbn. repeat constructor; cbn; intuition discriminate. }
  split; [exact Hs|]. split.
  - split; [exact (proj1 Hs)|]. split; [reflexivity|]. split; [reflexivity|]. exists [0%Z; 1%Z]. split; reflexivity.
  - pose proof (hw3d_ok (genv hneg) s_hw_part {| df_00 := 1; df_11 := 1; df_22 := 0 |} 1 1 1 [n_y; phi_y; vzero; phi_yz] n_y phi_y phi_yz Hs
      ltac:(lra) (Nat.le_refl 3) eq_refl) as H.
    cbv zeta in H. do 3 eexists. split.
    + apply H. unfold hw_src. cbn. exists 3%nat. split; reflexivity.
    + unfold hw_dn. rewrite g_adv0. unfold coupling3.
      rewrite (par_dyn_is_dzz (genv hneg) gI _ (g_calculus hneg)) by (intros F f; reflexivity).
      unfold dY, dZ, vzero, hneg, phi_y, n_y, phi_yz, f4. cbn. lra.
Qed.
(** Second order differences on a 3 x 3 grid differentiate these polynomials exactly. *)
Definition d3 (f0 f1 f2 : R) (a : nat) : R :=
  match a with 0%nat => (- 3 * f0 + 4 * f1 - f2) / 2 | 1%nat => (f2 - f0) / 2 | _ => (f0 - 4 * f1 + 3 * f2) / 2 end.
Definition env3 : oenv := {|
  oe_deriv := fun j f i => let a := (i / 3)%nat in let b := (i mod 3)%nat in
    match j with 0%nat => d3 (f b) (f (3 + b)%nat) (f (6 + b)%nat) a
               | 1%nat => d3 (f (3 * a)%nat) (f (3 * a + 1)%nat) (f (3 * a + 2)%nat) b | _ => 0 end;
  oe_helm := fun _ _ _ g => g;
  oe_adv := fun fl _ _ _ => fun i => let D := fun j (f : fld) (i : nat) => let a := (i / 3)%nat in let b := (i mod 3)%nat in
    match j with 0%nat => d3 (f b) (f (3 + b)%nat) (f (6 + b)%nat) a
               | 1%nat => d3 (f (3 * a)%nat) (f (3 * a + 1)%nat) (f (3 * a + 2)%nat) b | _ => 0 end in
    D 0%nat (nth 0 fl vzero) i + D 1%nat (nth 1 fl vzero) i + D 2%nat (nth 2 fl vzero) i;
  oe_trace := fun f => f; oe_normals := []; oe_diffuse := fun _ f => f; oe_src := vzero |}.
Definition x3 (i : nat) : R := INR (i / 3) - 1.
Definition y3 (i : nat) : R := INR (i mod 3) - 1.
Example C73_bracket_nonvacuous : forall i, (i < 9)%nat ->
  advection env3 (drift env3 2 (fun i => x3 i * y3 i)) (fun i => x3 i + 2 * y3 i) i = (2 * y3 i - x3 i) / 2.
Proof.
  intros i Hi. rewrite (C73_bracket env3 2 (fun i => x3 i * y3 i) (fun i => x3 i + 2 * y3 i) i).
  1: unfold dX, dY. 2: lra. 2: reflexivity.
  all: unfold x3, y3; do 9 (destruct i as [|i]; [unfold dX, dY, dZ; cbn; lra|]); lia.
Qed.

(** * C74: the recorded growth rates *)
(** 2DHW: along the right hand side, the recorded energy changes at the recorded rate dEdt_exp, when the potential is the one
    of the full Laplacian (d22 = 1), the derivatives integrate by parts and the advection conserves the quadratic invariants. *)
Theorem C74_hw2d_energy e I s d al ka B phys n w phi n' w' phi' : calculus e I ->
  hw_sess s -> fs_part s = false -> B <> 0 -> (length (oe_normals e) <= 3)%nat -> length phys = length (fs_vars s) ->
  nth_error phys 0 = Some n ->
  let p := {| hw_B := Bz B; hw_d := d; hw_alpha := al; hw_kappa := ka |} in
  hw2d_rhs e s p phys [n; w] = FOk (phi, [n'; w']) -> lap e true phi' = w' ->
  I (fun i => n i * advection e (drift e B phi) n i) = 0 -> I (fun i => phi i * advection e (drift e B phi) w i) = 0 ->
  derivable_pt_lim (fun t => recE (growth_record e I 2 p (along n n' t) (along w w' t) (along phi phi' t))) 0
    (rec_dE (growth_record e I 2 p n w phi)).
Proof. exact (hw2d_energy_growth e I s d al ka B phys n w phi n' w' phi'). Qed.
Theorem C74_hw2d_enstrophy e I s d al ka B phys n w phi n' w' z : calculus e I ->
  hw_sess s -> fs_part s = false -> B <> 0 -> (length (oe_normals e) <= 3)%nat -> length phys = length (fs_vars s) ->
  nth_error phys 0 = Some n ->
  let p := {| hw_B := Bz B; hw_d := d; hw_alpha := al; hw_kappa := ka |} in
  hw2d_rhs e s p phys [n; w] = FOk (phi, [n'; w']) -> lap e z phi = w ->
  let v := drift e B phi in
  I (fun i => n i * advection e v n i) = 0 -> I (fun i => w i * advection e v w i) = 0 ->
  I (fun i => n i * advection e v w i) + I (fun i => w i * advection e v n i) = 0 ->
  forall phi', derivable_pt_lim (fun t => recW (growth_record e I 2 p (along n n' t) (along w w' t) (along phi phi' t))) 0
    (rec_dW (growth_record e I 2 p n w phi)).
Proof. exact (hw2d_enstrophy_growth e I s d al ka B phys n w phi n' w' z). Qed.
(** 3DHW: the same with the perpendicular Laplacian (d22 = 0). *)
Theorem C74_hw3d_energy e I s d al ka B phys n w phi n' w' phi' : calculus e I -> diffuse_is_div e ->
  hw_sess s -> fs_part s = false -> B <> 0 -> (length (oe_normals e) <= 3)%nat -> length phys = length (fs_vars s) ->
  let p := {| hw_B := Bz B; hw_d := d; hw_alpha := al; hw_kappa := ka |} in
  hw3d_rhs e s p phys [n; w] = FOk (phi, [n'; w']) -> lap e false phi' = w' ->
  I (fun i => n i * advection e (drift e B phi) n i) = 0 -> I (fun i => phi i * advection e (drift e B phi) w i) = 0 ->
  derivable_pt_lim (fun t => recE (growth_record e I 3 p (along n n' t) (along w w' t) (along phi phi' t))) 0
    (rec_dE (growth_record e I 3 p n w phi)).
Proof. exact (hw3d_energy_growth e I s d al ka B phys n w phi n' w' phi'). Qed.
Theorem C74_hw3d_enstrophy e I s d al ka B phys n w phi n' w' z : calculus e I ->
  hw_sess s -> fs_part s = false -> B <> 0 -> (length (oe_normals e) <= 3)%nat -> length phys = length (fs_vars s) ->
  let p := {| hw_B := Bz B; hw_d := d; hw_alpha := al; hw_kappa := ka |} in
  hw3d_rhs e s p phys [n; w] = FOk (phi, [n'; w']) -> lap e z phi = w ->
  let v := drift e B phi in
  I (fun i => n i * advection e v n i) = 0 -> I (fun i => w i * advection e v w i) = 0 ->
  I (fun i => n i * advection e v w i) + I (fun i => w i * advection e v n i) = 0 ->
  forall phi', derivable_pt_lim (fun t => recW (growth_record e I 3 p (along n n' t) (along w w' t) (along phi phi' t))) 0
    (rec_dW (growth_record e I 3 p n w phi)).
Proof. exact (hw3d_enstrophy_growth e I s d al ka B phys n w phi n' w' z). Qed.
(** 2DHW on a 3D mesh with d22 = 0 (the 2Din3DHW examples, whose initial conditions vary in z): the recorded energy includes
    (dphi/dz)^2 and its rate of change is not the recorded dEdt_exp. *)
Theorem C74_z_term_refuted : exists e I s B d al ka phys n w phi n' w' phi' r, calculus e I /\
  hw_sess s /\ fs_part s = false /\ B <> 0 /\ (length (oe_normals e) <= 3)%nat /\ length phys = length (fs_vars s) /\
  nth_error phys 0 = Some n /\ df_22 d = 0 /\
  let p := {| hw_B := Bz B; hw_d := d; hw_alpha := al; hw_kappa := ka |} in
  hw2d_rhs e s p phys [n; w] = FOk (phi, [n'; w']) /\ lap e false phi = w /\ lap e false phi' = w' /\
  (forall f g, I (fun i => f i * advection e (drift e B phi) g i) = 0) /\
  derivable_pt_lim (fun t => recE (growth_record e I 2 p (along n n' t) (along w w' t) (along phi phi' t))) 0 r /\
  r <> rec_dE (growth_record e I 2 p n w phi).
Proof.
  destruct growth_z_witness as (n' & w' & phi' & H1 & H2 & H3 & H4 & H5 & H6).
  exists (genv hneg), gI, s_hw, 1, {| df_00 := 1; df_11 := 1; df_22 := 0 |}, 1, 0, [vzero; hneg phi_yz; vzero], vzero, (hneg phi_yz), phi_yz,
    n', w', phi', (-8).
  split; [apply g_calculus|]. split; [exact s_hw_ok|]. split; [reflexivity|]. split; [lra|]. split; [exact (Nat.le_refl 3)|].
  split; [reflexivity|]. split; [reflexivity|]. split; [reflexivity|]. cbv zeta. change {| hw_B := Bz 1; hw_d := {| df_00 := 1; df_11 := 1; df_22 := 0 |}; hw_alpha := 1; hw_kappa := 0 |} with (p_hw 1 0 0).
  split; [exact H1|]. split; [exact H3|]. split; [exact H2|]. split; [exact H4|]. split; [exact H5|]. rewrite H6. lra.
Qed.
(** A periodic grid, with nonzero rates. *)
Example C74_nonvacuous al ka : let e := genv hneg in let w := hneg phi_y in let phys := [n_y; w; vzero] in
  calculus e gI /\ diffuse_is_div e /\ hw_sess s_hw /\
  exists n' w' phi', hw2d_rhs e s_hw (p_hw al ka 1) phys [n_y; w] = FOk (phi_y, [n'; w']) /\
    lap e true phi' = w' /\ lap e true phi_y = w /\ (forall f g, gI (fun i => f i * advection e (drift e 1 phi_y) g i) = 0) /\
    rec_dW (growth_record e gI 2 (p_hw al ka 1) n_y w phi_y) = 8 * ka /\
    rec_dE (growth_record e gI 2 (p_hw al ka 1) n_y w phi_y) = 8 * ka - 16 * al.
Proof. split; [apply g_calculus|]. split; [intros F f; reflexivity|]. split; [exact s_hw_ok|]. exact (growth_instance al ka). Qed.

(** * C75: LAPD *)
Theorem C75_rhs e s p B phys n ge gd w : lapd_sess s -> lapd_finite s p B n -> (length (oe_normals e) <= 3)%nat ->
  length phys = length (fs_vars s) -> (forall i, (i < fs_npts s)%nat -> 0 < lp_n_to_SI p * n i) ->
  let phi := oe_helm e (df_00 (lp_d p)) (df_11 (lp_d p)) (Some (df_22 (lp_d p))) (fun i => B * B / lp_nref p / lp_md p * w i) in
  exists ve vd nu, is_vpar s p n ge (lp_me p) ve /\ is_vpar s p n gd (lp_md p) vd /\ is_nu s p n nu /\
  lapd_rhs e s p phys [n; ge; gd; w] =
  let Ez := fun i => - dZ e phi i in
  let friction := fun i => lp_me p * nu i * (n i * (ve i - vd i)) in
  FOk (phi,
   [(fun i => - advection e (with_par e B phi ve) n i + oe_src e i) : fld;
    (fun i => - advection e (with_par e B phi ve) ge i - dZ e (fun j => lp_Te p * n j) i - lp_e p * (n i * Ez i) - friction i) : fld;
    (fun i => - advection e (with_par e B phi vd) gd i - dZ e (fun j => lp_Td p * n j) i + lp_e p * (n i * Ez i) + friction i) : fld;
    (fun i => - advection e (drift e B phi) w i
              - advection e [vzero; vzero; (fun j => ve j - vd j)] n i) : fld]).
Proof. exact (lapd_ok e s p B phys n ge gd w). Qed.
(** Electric force and friction are internal: they cancel in the total parallel momentum. *)
Theorem C75_momentum_exchange e s p B phys n ge gd w phi rn rge rgd rw : lapd_sess s -> lapd_finite s p B n ->
  (length (oe_normals e) <= 3)%nat -> length phys = length (fs_vars s) ->
  lapd_rhs e s p phys [n; ge; gd; w] = FOk (phi, [rn; rge; rgd; rw]) ->
  exists ve vd, is_vpar s p n ge (lp_me p) ve /\ is_vpar s p n gd (lp_md p) vd /\
  forall i, rge i + rgd i = - advection e (with_par e B phi ve) ge i - advection e (with_par e B phi vd) gd i
     - (dZ e (fun j => lp_Te p * n j) i + dZ e (fun j => lp_Td p * n j) i).
Proof. exact (lapd_momentum e s p B phys n ge gd w phi rn rge rgd rw). Qed.
(** The density floor protects the velocities but not the Coulomb logarithm: one point with density <= 0 and the right hand
    side is not finite. *)
Theorem C75_density_floor_refuted e s p B phys n ge gd w i : lapd_sess s -> lapd_finite s p B n -> (length (oe_normals e) <= 3)%nat ->
  length phys = length (fs_vars s) -> (i < fs_npts s)%nat -> lp_n_to_SI p * n i <= 0 ->
  lapd_rhs e s p phys [n; ge; gd; w] = FNan.
Proof. exact (lapd_nan e s p B phys n ge gd w i). Qed.
(** With particles enabled (ne_src is then required) the source they deposit never enters the equations. *)
Theorem C75_particle_source_refuted e s p phys phys' inn : length phys = length phys' ->
  lapd_rhs e s p phys inn = lapd_rhs e s p phys' inn.
Proof. exact (lapd_ignores_phys e s p phys phys' inn). Qed.
Definition s_lapd : fsess :=
  {| fs_vars := ["ne"; "Ge"; "Gd"; "w"; "phi"]%string; fs_mesh := 3; fs_space := 3; fs_part := false; fs_npts := 16 |}.
Definition p_lapd : lapdpar := {| lp_B := Bz 1; lp_d := {| df_00 := 1; df_11 := 1; df_22 := 0 |}; lp_n_to_SI := 1; lp_e := 1; lp_md := 2;
  lp_me := 1; lp_Te := 5; lp_Td := 1; lp_coulomb := 10; lp_nu := 1; lp_nref := 1; lp_floor := 1 / 10 |}.
Example C75_nonvacuous : lapd_sess s_lapd /\ lapd_finite s_lapd p_lapd 1 (fun i => 2 + phi_y i) /\
  (forall i, (i < fs_npts s_lapd)%nat -> 0 < lp_n_to_SI p_lapd * (2 + phi_y i)) /\
  lapd_finite s_lapd p_lapd 1 (fun i => phi_y i).
Proof.
  assert (Hf : forall i, -1 <= phi_y i <= 1).
  { intros i. unfold phi_y, f4. destruct ((g_y i + 0) mod 4)%nat as [|[|[|]]]; lra. }
  assert (Hl : forall n : fld, lapd_finite s_lapd p_lapd 1 n).
  { intros n. split; [reflexivity|]. cbn. repeat split; try lra. intros i _. pose proof (Rmax_r (n i) (1 * (1 / 10))). lra. }
  split; [|split; [apply Hl|split; [|apply Hl]]].
  - split; [|cbn; repeat split; auto 6]. split; [reflexivity|]. split; [reflexivity|]. cbn. repeat constructor; cbn; intuition discriminate.
  - intros i _. cbn. specialize (Hf i). lra.
Qed.

(** * C76: RogersRicci2D *)
Theorem C76_rhs e s p B (r n T w : fld) : fs_mesh s = 3%nat -> fs_space s = 3%nat -> rr_init s = FOk tt -> rr_B p = Bz B -> B <> 0 ->
  (length (oe_normals e) <= 3)%nat -> rr_Ls p <> 0 ->
  (forall i, (i < fs_npts s)%nat -> 0 < T i * T i + rr_T_eps p) ->
  let phi := oe_helm e (df_00 (rr_d p)) (df_11 (rr_d p)) (Some (df_22 (rr_d p))) w in
  exists dn dT dw, rr_rhs e s p r [n; T; w] = FOk (phi, [dn; dT; dw]) /\
  forall i, (i < fs_npts s)%nat ->
    let v := drift e B phi in
    let sheath := exp (rr_coulomb p - phi i / sqrt (T i * T i + rr_T_eps p)) in
    let src := 3 / 100 * (1 - tanh ((rr_rho p * r i - rr_rs p) / rr_Ls p)) in
    dn i = - 40 * advection e v n i - 1 / 24 * sheath * n i + src /\
    dT i = - 40 * advection e v T i - 1 / 36 * (171 / 100 * sheath - 71 / 100) * T i + src /\
    dw i = - 40 * advection e v w i + 1 / 24 * (1 - sheath).
Proof. exact (rr_ok e s p B r n T w). Qed.
(** Particles cannot be combined with this system. *)
Theorem C76_no_particles s : fs_part s = true -> rr_init s = FThrow.
Proof. exact (rr_particles s). Qed.
Example C76_nonvacuous :
  let s := {| fs_vars := rr_names; fs_mesh := 3; fs_space := 3; fs_part := false; fs_npts := 16 |} in
  let p := {| rr_B := Bz 1; rr_d := {| df_00 := 1; df_11 := 1; df_22 := 0 |}; rr_coulomb := 3; rr_T_eps := 1 / 10000; rr_rho := 12 / 1000;
     rr_Ls_boost := 2; rr_rs_norm := 20 |} in
  rr_init s = FOk tt /\ rr_Ls p <> 0 /\ forall i, (i < fs_npts s)%nat -> 0 < phi_y i * phi_y i + rr_T_eps p.
Proof.
  cbn. split; [reflexivity|]. split; [unfold rr_Ls; cbn; lra|]. intros i _. pose proof (Rle_0_sqr (phi_y i)). unfold Rsqr in *. lra.
Qed.

Print Assumptions C72_drift.
Print Assumptions C72_cross_product.
Print Assumptions C72_2d_refuted.
Print Assumptions C72_zero_B_refuted.
Print Assumptions C73_inputs.
Print Assumptions C73_hw2d.
Print Assumptions C73_hw3d.
Print Assumptions C73_hw3d_parallel.
Print Assumptions C73_bracket.
Print Assumptions C73_required.
Print Assumptions C73_variable_order_refuted.
Print Assumptions C73_variable_order_ub_refuted.
Print Assumptions C73_hw2d_stage_density_refuted.
Print Assumptions C74_hw2d_energy.
Print Assumptions C74_hw2d_enstrophy.
Print Assumptions C74_hw3d_energy.
Print Assumptions C74_hw3d_enstrophy.
Print Assumptions C74_z_term_refuted.
Print Assumptions C75_rhs.
Print Assumptions C75_momentum_exchange.
Print Assumptions C75_density_floor_refuted.
Print Assumptions C75_particle_source_refuted.
Print Assumptions C76_rhs.
Print Assumptions C76_no_particles.
