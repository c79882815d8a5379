(** Lemmas for C85: residual, step and the iteration. *)
From Verif Require Import M_Loop S_Loop L_Loop M_Bary S_Bary L_RealBase L_Bary L_Bary2 L_Bary3 S_Coord M_Coord L_Coord M_NewtonMap M_NewtonBind M_Generic3D S_Newton S_Generic3D L_Generic3D.
From Coq Require Import Lia Lra List.
Import ListNotations.
Open Scope R_scope.

Lemma lagrange_ext n z z' i x : (i < n)%nat -> (forall j, (j < n)%nat -> z j = z' j) -> lagrange n z i x = lagrange n z' i x.
Proof. intros Hi H. unfold lagrange. apply prodn_ext. intros j Hj. rewrite (H j Hj), (H i Hi). reflexivity. Qed.
(** one direction: never fails, writes the Lagrange values, nothing else *)
Lemma pre_lag n x z bw z' bw' base loc : (0 < n)%nat -> distinct n z -> barycentric n z bw ->
  (forall j, (j < n)%nat -> z' j = z j) -> (forall j, (j < n)%nat -> bw' j = bw j) ->
  exists l, preprocess_weights n x z' bw' base 1 loc = Some l /\ (forall i, (i < n)%nat -> l (base + i)%nat = lagrange n z i x) /\
    (forall k, (k < base \/ base + n <= k)%nat -> l k = loc k).
Proof.
  intros Hn Hd Hb Hz Hw.
  assert (Hd' : distinct n z') by (intros i j Hi Hj E; apply Hd; auto; rewrite <- !Hz; auto).
  assert (Hb' : barycentric n z' bw').
  { destruct Hb as (c & Hc & Hb). exists c. split; auto. intros i Hi. rewrite Hw, Hb by auto. f_equal. apply prodn_ext. intros j Hj. destruct (Nat.eqb j i); auto. rewrite !Hz; auto. }
  pose proof (preprocess_spec n x z' bw' base 1 loc ltac:(lia) Hd') as P. destruct (preprocess_weights _ _ _ _ _ _ _) as [l|].
  - exists l. destruct P as [P1 P2]. split; auto. split.
    + intros i Hi. pose proof (lag_weights _ _ _ _ _ Hd' Hb' P1 i Hi) as E. cbv beta in E. rewrite Nat.mul_1_r in E. rewrite E. apply lagrange_ext; auto.
    + intros k Hk. apply P2. intros i Hi. lia.
  - destruct P as [Hx H0]. destruct (bary_denominator n z' bw' x Hn Hd' Hb' Hx H0).
Qed.

(** the local memory holds the weights of xi *)
Definition has_weights (s : shape3) (x : xmap) (xi : pt3) (loc : buf) : Prop :=
  let e := collapsed s xi in
  (forall i, (i < npts x 0)%nat -> loc i = lagrange (npts x 0) (node x 0) i (comp e 0)) /\
  (forall i, (i < npts x 1)%nat -> loc (npts x 0 + i)%nat = lagrange (npts x 1) (node x 1) i (comp e 1)) /\
  (forall i, (i < npts x 2)%nat -> loc (npts x 0 + npts x 1 + i)%nat = lagrange (npts x 2) (node x 2) i (comp e 2)).
Lemma coll_eq s xi : to_collapsed3 s xi = Some (collapsed s xi).
Proof. unfold collapsed. destruct (to_collapsed3_total s xi) as [e E]. now rewrite E. Qed.

Lemma resid_ok s x d xi p loc : good_xmap s x -> written s x d ->
  exists l, g3_resid d xi p loc = Some (get_relative_error_3d (xm_scale x) (elem_X s x xi 0 - comp p 0) (elem_X s x xi 1 - comp p 1) (elem_X s x xi 2 - comp p 2),
      (elem_X s x xi 0 - comp p 0, elem_X s x xi 1 - comp p 1, elem_X s x xi 2 - comp p 2), l) /\
    has_weights s x xi l /\ forall k, (g_local d <= k)%nat -> l k = loc k.
Proof.
  intros (_ & _ & _ & Hg) W. unfold g3_resid. rewrite (wr_shape _ _ _ W). destruct (generic3 s xi) as [-> _]. rewrite coll_eq. cbn [bind].
  destruct (collapsed s xi) as [[e0 e1] e2] eqn:Ee.
  destruct (Hg 0%nat ltac:(lia)) as (A0 & _ & D0 & B0). destruct (Hg 1%nat ltac:(lia)) as (A1 & _ & D1 & B1). destruct (Hg 2%nat ltac:(lia)) as (A2 & _ & D2 & B2).
  rewrite (wr_n0 _ _ _ W), (wr_n1 _ _ _ W), (wr_n2 _ _ _ W).
  destruct (pre_lag (npts x 0) e0 _ _ (at_ (rd (g_mem d)) (g_z0 d)) (at_ (rd (g_mem d)) (g_bw0 d)) 0 loc A0 D0 B0) as (l0 & E0 & W0 & F0);
    [intros j Hj; apply (wr_z _ _ _ W j); auto|intros j Hj; apply (wr_b _ _ _ W j); auto|]. rewrite E0. cbn [bind].
  destruct (pre_lag (npts x 1) e1 _ _ (at_ (rd (g_mem d)) (g_z1 d)) (at_ (rd (g_mem d)) (g_bw1 d)) (0 + npts x 0) l0 A1 D1 B1) as (l1 & E1 & W1 & F1);
    [intros j Hj; apply (wr_z _ _ _ W j); auto|intros j Hj; apply (wr_b _ _ _ W j); auto|]. rewrite E1. cbn [bind].
  destruct (pre_lag (npts x 2) e2 _ _ (at_ (rd (g_mem d)) (g_z2 d)) (at_ (rd (g_mem d)) (g_bw2 d)) (0 + npts x 0 + npts x 1) l1 A2 D2 B2) as (l2 & E2 & W2 & F2);
    [intros j Hj; apply (wr_z _ _ _ W j); auto|intros j Hj; apply (wr_b _ _ _ W j); auto|]. rewrite E2. cbn [bind].
  match goal with |- context [compute_dir_210_interlaced_N ?N ?a ?b ?c ?ph ?u ?v ?w ?st ?o] => destruct (dir_210_interlaced_N N a b c ph u v w st o) as [X _] end. cbv zeta in X.
  assert (HW : has_weights s x xi l2).
  { unfold has_weights. rewrite Ee. cbn [comp]. split; [|split]; intros i Hi.
    - rewrite F2, F1 by lia. apply (W0 i Hi).
    - rewrite F2 by lia. apply (W1 i Hi).
    - apply (W2 i Hi). }
  exists l2. destruct p as [[p0 p1] p2]. rewrite !X by lia. rewrite (wr_scale _ _ _ W). cbn [comp].
  assert (EX : forall a, (a < 3)%nat -> tensor3 (npts x 0) (npts x 1) (npts x 2)
     (fun i0 i1 i2 => at_ (rd (g_mem d)) (g_phys d) ((i2 * (npts x 0 * npts x 1) + i1 * npts x 0 + i0) * 3 + a)%nat)
     (fun i => at_ l2 0 (i * 1)%nat) (fun i => at_ l2 (0 + npts x 0) (i * 1)%nat) (fun i => at_ l2 (0 + npts x 0 + npts x 1) (i * 1)%nat) = elem_X s x xi a).
  { intros a Ha. unfold elem_X, interp. rewrite Ee. cbn [comp]. destruct HW as (V0 & V1 & V2). rewrite Ee in V0, V1, V2. cbn [comp] in V0, V1, V2.
    apply tensor3_ext; unfold at_ at 1; intros.
    - apply (wr_p _ _ _ W); auto.
    - rewrite Nat.mul_1_r. apply V0; auto.
    - rewrite Nat.mul_1_r. apply V1; auto.
    - rewrite Nat.mul_1_r. apply V2; auto. }
  rewrite !EX by lia. split; [reflexivity|]. split; auto. intros k Hk. rewrite (wr_local _ _ _ W) in Hk. rewrite F2, F1, F0 by lia. reflexivity.
Qed.
Lemma step_ok s x d xi f loc : good_xmap s x -> written s x d -> has_weights s x xi loc ->
  g3_step d xi f loc = solve_update (elem_J s x xi) xi f.
Proof.
  intros Hg W HW. unfold g3_step. rewrite (wr_n0 _ _ _ W), (wr_n1 _ _ _ W), (wr_n2 _ _ _ W).
  match goal with |- context [compute_dir_210_interlaced_N ?N ?a ?b ?c ?ph ?u ?v ?w ?st ?o] => destruct (dir_210_interlaced_N N a b c ph u v w st o) as [X _]; set (J := compute_dir_210_interlaced_N N a b c ph u v w st o) in * end.
  cbv zeta in X. fold J in X.
  assert (EX : forall a b, (a < 3)%nat -> (b < 3)%nat -> J (3 * a + b)%nat = elem_J s x xi a b).
  { intros a b Ha Hb. rewrite X by lia. unfold elem_J, interp. destruct HW as (V0 & V1 & V2).
    apply tensor3_ext; unfold at_ at 1; intros.
    - apply (wr_d _ _ _ W); auto.
    - rewrite Nat.mul_1_r. apply V0; auto.
    - rewrite Nat.mul_1_r. apply V1; auto.
    - rewrite Nat.mul_1_r. apply V2; auto. }
  pose proof (EX 0 0 ltac:(lia) ltac:(lia))%nat as J00. pose proof (EX 0 1 ltac:(lia) ltac:(lia))%nat as J01. pose proof (EX 0 2 ltac:(lia) ltac:(lia))%nat as J02.
  pose proof (EX 1 0 ltac:(lia) ltac:(lia))%nat as J10. pose proof (EX 1 1 ltac:(lia) ltac:(lia))%nat as J11. pose proof (EX 1 2 ltac:(lia) ltac:(lia))%nat as J12.
  pose proof (EX 2 0 ltac:(lia) ltac:(lia))%nat as J20. pose proof (EX 2 1 ltac:(lia) ltac:(lia))%nat as J21. pose proof (EX 2 2 ltac:(lia) ltac:(lia))%nat as J22.
  cbn [Nat.mul Nat.add] in *. clearbody J. clear EX X. destruct xi as [[x0 x1] x2] eqn:Exi, f as [[f0 f1] f2]. rewrite <- Exi in *. unfold at_. cbn [Nat.add].
  rewrite J00, J01, J02, J10, J11, J12, J20, J21, J22.
  unfold solve_update. cbn [comp det Nat.eqb].
  rewrite Exi. cbn [comp]. rewrite <- Exi.
  set (j00 := elem_J s x xi 0 0). set (j01 := elem_J s x xi 0 1). set (j02 := elem_J s x xi 0 2).
  set (j10 := elem_J s x xi 1 0). set (j11 := elem_J s x xi 1 1). set (j12 := elem_J s x xi 1 2).
  set (j20 := elem_J s x xi 2 0). set (j21 := elem_J s x xi 2 1). set (j22 := elem_J s x xi 2 2).
  clearbody j00 j01 j02 j10 j11 j12 j20 j21 j22. clear.
  unfold rdiv. set (D := j00 * (j11 * j22 - j12 * j21) - j01 * (j10 * j22 - j12 * j20) + j02 * (j10 * j21 - j11 * j20)).
  destruct (Req_bool_spec D 0) as [E|E]; cbn [bind]; [reflexivity|]. f_equal. clearbody D. apply pair3; field; auto.
Qed.

Lemma rel3_max sc a b c : get_relative_error_3d sc a b c = Rmax (Rmax (Rabs a * comp sc 0) (Rabs b * comp sc 1)) (Rabs c * comp sc 2).
Proof. destruct sc as [[s0 s1] s2]. unfold get_relative_error_3d. cbn [comp]. now rewrite !fmax_Rmax. Qed.
Lemma resid_eq s x d xi p fin loc : good_xmap s x -> written s x d ->
  exists (r : R) (f : pt3) (l : buf), nt_resid (element_type s x) xi p fin = Some (r, f) /\ g3_resid d xi p loc = Some (r, f, l) /\
    has_weights s x xi l /\ forall k, (g_local d <= k)%nat -> l k = loc k.
Proof.
  intros Hg W. destruct (resid_ok s x d xi p loc Hg W) as (l & E & H). rewrite rel3_max in E. eexists _, _, l. split; [reflexivity|]. split; [exact E|]. exact H.
Qed.
Lemma loop_eq s x d p tol : good_xmap s x -> written s x d -> forall fuel xi r f dv loc, has_weights s x xi loc ->
  fst (g3_loop d p tol fuel xi r f dv loc) = inverse_loop (element_type s x) p tol fuel xi r f dv /\
  forall k, (g_local d <= k)%nat -> snd (g3_loop d p tol fuel xi r f dv loc) k = loc k.
Proof.
  intros Hg W. induction fuel as [|n IH]; intros xi r f dv loc HW; cbn [g3_loop inverse_loop]; [auto|].
  destruct (Rlt_bool tol r && negb dv); [|auto]. rewrite (step_ok s x d xi f loc Hg W HW). cbn [element_type nt_step].
  destruct (solve_update _ xi f) as [xin|]; [|auto].
  destruct (resid_eq s x d xin p f loc Hg W) as (r' & f' & l & E1 & E2 & HW' & Fr). rewrite E1, E2.
  destruct (IH xin r' f' (over15 xin) l HW') as [I1 I2]. split; auto. intros k Hk. rewrite I2, Fr; auto.
Qed.
Lemma inverse_eq s x d p xi_in mx tol ov loc : good_xmap s x -> written s x d ->
  fst (g3_x_inverse d p xi_in mx tol ov loc) = x_inverse_kernel (element_type s x) p xi_in mx tol ov /\
  forall k, (g_local d <= k)%nat -> snd (g3_x_inverse d p xi_in mx tol ov loc) k = loc k.
Proof.
  intros Hg W. unfold g3_x_inverse, x_inverse_kernel.
  assert (E : (if ov then Some xi_in else nt_init (element_type s x) p) = Some (if ov then xi_in else g3_init)).
  { destruct ov; auto. cbn [element_type nt_init]. unfold g3_init. f_equal. apply pair3; field. }
  rewrite E. set (xi := if ov then xi_in else g3_init). destruct (resid_eq s x d xi p (0, 0, 0) loc Hg W) as (r' & f' & l & E1 & E2 & HW' & Fr). rewrite E1, E2.
  destruct (loop_eq s x d p tol Hg W (Z.to_nat mx) xi r' f' false l HW') as [I1 I2]. split; auto. intros k Hk. rewrite I2, Fr; auto.
Qed.
Lemma try_eq s x d p xi_in mx tol ctol ov loc : good_xmap s x -> written s x d ->
  fst (g3_try_cell d p xi_in mx tol ctol ov loc) = try_cell (element_type s x) p xi_in mx tol ctol ov /\
  forall k, (g_local d <= k)%nat -> snd (g3_try_cell d p xi_in mx tol ctol ov loc) k = loc k.
Proof.
  intros Hg W. unfold g3_try_cell, try_cell. destruct (inverse_eq s x d p xi_in mx tol ov loc Hg W) as [E F]. rewrite <- E.
  destruct (g3_x_inverse d p xi_in mx tol ov loc) as [[o c] l1]. cbn [fst snd] in *. destruct o as [xi|]; cbn [bind]; [|auto].
  rewrite (wr_shape _ _ _ W). destruct (generic3 s xi) as [-> _]. cbn [element_type nt_coll nt_loc]. rewrite coll_eq. cbn [bind].
  destruct (generic3 s (clamp3 ctol (collapsed s xi))) as [_ ->]. set (xi' := to_loc3 s _).
  destruct (resid_eq s x d xi' p (clamp3 ctol (collapsed s xi)) l1 Hg W) as (r' & f' & l & E1 & E2 & HW' & Fr).
  cbn [element_type nt_resid] in E1. injection E1 as E1r E1f. rewrite E2. cbn [fst snd bind nt_resid element_type]. rewrite E1r.
  split; [reflexivity|]. intros k Hk. rewrite Fr, F; auto.
Qed.
Lemma find_eq s x d p mx tol ctol : good_xmap s x -> written s x d -> forall starts loc,
  fst (g3_find d p mx tol ctol starts loc) = find_first (fun st => try_cell (element_type s x) p st mx tol ctol true) starts /\
  forall k, (g_local d <= k)%nat -> snd (g3_find d p mx tol ctol starts loc) k = loc k.
Proof.
  intros Hg W. induction starts as [|st r IH]; intros loc; cbn [g3_find M_NewtonBind.find_first]; [auto|].
  destruct (try_eq s x d p st mx tol ctol true loc Hg W) as [E F]. rewrite <- E. destruct (g3_try_cell d p st mx tol ctol true loc) as [o l]. cbn [fst snd] in *.
  destruct o as [xi|]; [auto|]. destruct (IH l) as [I1 I2]. split; auto. intros k Hk. rewrite I2, F; auto.
Qed.
(** Newton's update *)
Lemma solve_spec J xi f : match solve_update J xi f with
  | Some xin => det 3 J <> 0 /\ newton_update 3 J xi f xin
  | None => det 3 J = 0
  end.
Proof.
  unfold solve_update. destruct (Req_bool_spec (det 3 J) 0) as [E|E]; auto. split; auto. intros a Ha.
  destruct xi as [[x0 x1] x2], f as [[f0 f1] f2]. cbn [det] in E. cbn [comp det seq fold_right Nat.eqb].
  assert (C : a = 0%nat \/ a = 1%nat \/ a = 2%nat) by lia. destruct C as [->|[->| ->]]; cbn [comp]; field; auto.
Qed.
(** uniqueness *)
Lemma update_unique J xi f a b : det 3 J <> 0 -> newton_update 3 J xi f a -> newton_update 3 J xi f b -> a = b.
Proof.
  intros D A B. pose proof (A 0%nat ltac:(lia)) as A0. pose proof (A 1%nat ltac:(lia)) as A1. pose proof (A 2%nat ltac:(lia)) as A2.
  pose proof (B 0%nat ltac:(lia)) as B0. pose proof (B 1%nat ltac:(lia)) as B1. pose proof (B 2%nat ltac:(lia)) as B2. clear A B.
  destruct a as [[a0 a1] a2], b as [[b0 b1] b2], xi as [[x0 x1] x2], f as [[f0 f1] f2].
  cbn [comp det seq fold_right] in *. set (u := a0 - b0). set (v := a1 - b1). set (w := a2 - b2).
  assert (C0 : J 0%nat 0%nat * u + J 0%nat 1%nat * v + J 0%nat 2%nat * w = 0) by (unfold u, v, w; lra).
  assert (C1 : J 1%nat 0%nat * u + J 1%nat 1%nat * v + J 1%nat 2%nat * w = 0) by (unfold u, v, w; lra).
  assert (C2 : J 2%nat 0%nat * u + J 2%nat 1%nat * v + J 2%nat 2%nat * w = 0) by (unfold u, v, w; lra).
  set (DD := J 0%nat 0%nat * (J 1%nat 1%nat * J 2%nat 2%nat - J 1%nat 2%nat * J 2%nat 1%nat) - J 0%nat 1%nat * (J 1%nat 0%nat * J 2%nat 2%nat - J 1%nat 2%nat * J 2%nat 0%nat) + J 0%nat 2%nat * (J 1%nat 0%nat * J 2%nat 1%nat - J 1%nat 1%nat * J 2%nat 0%nat)) in *.
  assert (U : DD * u = 0).
  { transitivity ((J 1%nat 1%nat * J 2%nat 2%nat - J 1%nat 2%nat * J 2%nat 1%nat) * (J 0%nat 0%nat * u + J 0%nat 1%nat * v + J 0%nat 2%nat * w) - (J 0%nat 1%nat * J 2%nat 2%nat - J 0%nat 2%nat * J 2%nat 1%nat) * (J 1%nat 0%nat * u + J 1%nat 1%nat * v + J 1%nat 2%nat * w) + (J 0%nat 1%nat * J 1%nat 2%nat - J 0%nat 2%nat * J 1%nat 1%nat) * (J 2%nat 0%nat * u + J 2%nat 1%nat * v + J 2%nat 2%nat * w)); [unfold DD; ring|]. rewrite C0, C1, C2. ring. }
  assert (V : DD * v = 0).
  { transitivity (- (J 1%nat 0%nat * J 2%nat 2%nat - J 1%nat 2%nat * J 2%nat 0%nat) * (J 0%nat 0%nat * u + J 0%nat 1%nat * v + J 0%nat 2%nat * w) + (J 0%nat 0%nat * J 2%nat 2%nat - J 0%nat 2%nat * J 2%nat 0%nat) * (J 1%nat 0%nat * u + J 1%nat 1%nat * v + J 1%nat 2%nat * w) - (J 0%nat 0%nat * J 1%nat 2%nat - J 0%nat 2%nat * J 1%nat 0%nat) * (J 2%nat 0%nat * u + J 2%nat 1%nat * v + J 2%nat 2%nat * w)); [unfold DD; ring|]. rewrite C0, C1, C2. ring. }
  assert (Wz : DD * w = 0).
  { transitivity ((J 1%nat 0%nat * J 2%nat 1%nat - J 1%nat 1%nat * J 2%nat 0%nat) * (J 0%nat 0%nat * u + J 0%nat 1%nat * v + J 0%nat 2%nat * w) - (J 0%nat 0%nat * J 2%nat 1%nat - J 0%nat 1%nat * J 2%nat 0%nat) * (J 1%nat 0%nat * u + J 1%nat 1%nat * v + J 1%nat 2%nat * w) + (J 0%nat 0%nat * J 1%nat 1%nat - J 0%nat 1%nat * J 1%nat 0%nat) * (J 2%nat 0%nat * u + J 2%nat 1%nat * v + J 2%nat 2%nat * w)); [unfold DD; ring|]. rewrite C0, C1, C2. ring. }
  destruct (Rmult_integral _ _ U), (Rmult_integral _ _ V), (Rmult_integral _ _ Wz); try contradiction. apply pair3; unfold u, v, w in *; lra.
Qed.
(** * maps represented exactly *)
Lemma lag_mono n z x j : (0 < n)%nat -> distinct n z -> (j < n)%nat -> sumn n (fun i => lagrange n z i x * z i ^ j) = x ^ j.
Proof.
  intros Hn Hd Hj. set (bw := fun i => 1 / prodn n (fun j => if Nat.eqb j i then 1 else z i - z j)).
  assert (Hb : barycentric n z bw) by (exists 1; split; [lra|reflexivity]).
  destruct (pre_lag n x z bw z bw 0 (fun _ => 0) Hn Hd Hb ltac:(auto) ltac:(auto)) as (l & E & L & _).
  pose proof (preprocess_spec n x z bw 0 1 (fun _ => 0) ltac:(lia) Hd) as P. rewrite E in P. destruct P as [P _].
  rewrite <- (weights_mono n z bw x _ j Hd Hb P Hj). apply sumn_ext. intros i Hi. rewrite Nat.mul_1_r. f_equal. symmetry. apply (L i Hi).
Qed.
Lemma interp_exact s x v g e : good_xmap s x -> tensor_poly x s g -> sampled x s v g -> interp x v e = g (to_loc3 s e).
Proof.
  intros (_ & _ & _ & Hg) (c & Hc) Hs. destruct e as [[e0 e1] e2]. unfold interp. cbn [comp]. rewrite Hc.
  destruct (Hg 0%nat ltac:(lia)) as (A0 & _ & D0 & _). destruct (Hg 1%nat ltac:(lia)) as (A1 & _ & D1 & _). destruct (Hg 2%nat ltac:(lia)) as (A2 & _ & D2 & _).
  rewrite <- (tensor3_poly (npts x 0) (npts x 1) (npts x 2) (node x 0) (node x 1) (node x 2) e0 e1 e2
     (fun i => lagrange (npts x 0) (node x 0) i e0) (fun i => lagrange (npts x 1) (node x 1) i e1) (fun i => lagrange (npts x 2) (node x 2) i e2) c).
  - apply tensor3_ext; auto. intros i j k Hi Hj Hk. rewrite Hs by auto. apply Hc.
  - intros; apply lag_mono; auto.
  - intros; apply lag_mono; auto.
  - intros; apply lag_mono; auto.
Qed.
Lemma exact_at s x G DG xi : good_xmap s x -> represents s x G DG -> away3 s kNekZeroTol xi ->
  (forall a, (a < 3)%nat -> elem_X s x xi a = G xi a) /\ (forall a b, (a < 3)%nat -> (b < 3)%nat -> elem_J s x xi a b = DG xi a b).
Proof.
  intros Hg Hr Ha. pose proof (roundtrip3 s xi Ha) as Rt. rewrite coll_eq in Rt. cbn [option_map] in Rt. injection Rt as Rt.
  split.
  - intros a La. destruct (Hr a La) as (P1 & P2 & _). unfold elem_X. rewrite (interp_exact s x _ _ _ Hg P1 P2). now rewrite Rt.
  - intros a b La Lb. destruct (Hr a La) as (_ & _ & P). destruct (P b Lb) as (P1 & P2). unfold elem_J. rewrite (interp_exact s x _ _ _ Hg P1 P2). now rewrite Rt.
Qed.
