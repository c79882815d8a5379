From Verif Require Import S_Fluid L_Util L_Coord L_Fluid.
From Coq Require Import FunctionalExtensionality Lra Lia.
From Coq Require Import List.
Open Scope R_scope.
Open Scope list_scope.

(** * The drift velocity for any magnetic field *)
Lemma ExB_cross s b0 b1 b2 mag u (E0 E1 E2 : fld) : fs_mesh s = 3%nat -> mag = sqrt (b0 * b0 + b1 * b1 + b2 * b2) -> 0 < mag ->
  exists v0 v1 v2, calc_ExB s {| bf_vec := [b0; b1; b2]; bf_mag := mag; bf_unit := u |} [E0; E1; E2] = FOk [v0; v1; v2] /\
  forall i, v0 i * b0 + v1 i * b1 + v2 i * b2 = 0 /\ v0 i * E0 i + v1 i * E1 i + v2 i * E2 i = 0 /\
    v0 i = (E1 i * b2 - E2 i * b1) / (mag * mag) /\ v1 i = (E2 i * b0 - E0 i * b2) / (mag * mag) /\
    v2 i = (E0 i * b1 - E1 i * b0) / (mag * mag) /\
    (v0 i * v0 i + v1 i * v1 i + v2 i * v2 i) * (mag * mag) * (mag * mag) =
    (E0 i * E0 i + E1 i * E1 i + E2 i * E2 i) * (mag * mag) - Rsqr (E0 i * b0 + E1 i * b1 + E2 i * b2).
Proof.
  intros Hm Hmag Hpos.
  assert (HB : forall b, bdiv2 b mag = FOk (b / mag / mag)) by (intros b; unfold bdiv2; rewrite rdiv_ok by lra; cbn [bind]; rewrite rdiv_ok by lra; reflexivity).
  assert (Hsq : mag * mag = b0 * b0 + b1 * b1 + b2 * b2).
  { rewrite Hmag. apply sqrt_sqrt. pose proof (Rle_0_sqr b0). pose proof (Rle_0_sqr b1). pose proof (Rle_0_sqr b2). unfold Rsqr in *. lra. }
  do 3 eexists. split.
  { unfold calc_ExB. cbn [bf_vec bf_mag]. rewrite Hm. cbn [Nat.eqb]. ax. rewrite !HB. cbn [fbind]. reflexivity. }
  intros i. unfold svtsvtp.
  assert (Hne : mag <> 0) by lra.
  repeat apply conj.
  1, 2, 3, 4, 5: field; exact Hne.
  transitivity (Rsqr (E1 i * b2 - E2 i * b1) + Rsqr (E2 i * b0 - E0 i * b2) + Rsqr (E0 i * b1 - E1 i * b0)).
  - unfold Rsqr. field. exact Hne.
  - rewrite Hsq. unfold Rsqr. ring.
Qed.

(** * The Poisson bracket *)
(** When the advection operator is the divergence of the flux and the derivatives satisfy the product rule for these fields,
    the advection by the drift is [phi, f]/B. *)
Lemma bracket e B phi f i : B <> 0 ->
  (forall fl vn v g, oe_adv e fl vn v g = fun i => dX e (nth 0 fl vzero) i + dY e (nth 1 fl vzero) i + dZ e (nth 2 fl vzero) i) ->
  dX e (fun j => f j * (- dY e phi j / B)) i = dX e f i * (- dY e phi i / B) + f i * (- dX e (dY e phi) i / B) ->
  dY e (fun j => f j * (dX e phi j / B)) i = dY e f i * (dX e phi i / B) + f i * (dY e (dX e phi) i / B) ->
  dZ e (fun j => f j * 0) i = 0 -> dX e (dY e phi) i = dY e (dX e phi) i ->
  advection e (drift e B phi) f i = (dX e phi i * dY e f i - dY e phi i * dX e f i) / B.
Proof.
  intros HB Ha H1 H2 H3 H4. unfold advection. rewrite Ha. unfold drift. cbn [map nth]. rewrite H1, H2, H3, H4. field. exact HB.
Qed.

(** * Growth rates *)
Lemma deriv_quad (a b c : R) (F : R -> R) : (forall t, F t = a + b * t + c * (t * t)) -> derivable_pt_lim F 0 b.
Proof.
  intros H. intros eps He. assert (Hd : 0 < eps / (Rabs c + 1)).
  { apply Rdiv_lt_0_compat; [exact He|]. pose proof (Rabs_pos c). lra. }
  exists (mkposreal _ Hd). intros h Hh Hlt. cbn in Hlt. rewrite !H.
  replace ((a + b * (0 + h) + c * ((0 + h) * (0 + h)) - (a + b * 0 + c * (0 * 0))) / h - b) with (c * h) by (field; exact Hh).
  rewrite Rabs_mult. pose proof (Rabs_pos c). pose proof (Rabs_pos h).
  apply Rle_lt_trans with ((Rabs c + 1) * Rabs h); [nra|].
  apply Rlt_le_trans with ((Rabs c + 1) * (eps / (Rabs c + 1))); [apply Rmult_lt_compat_l; lra | right; field; lra].
Qed.

Section Growth.
Variables (e : oenv) (I : fld -> R).
Hypothesis C : calculus e I.
Lemma I_add f g : I (fun i => f i + g i) = I f + I g.
Proof. replace (fun i => f i + g i) with (fun i => 1 * f i + 1 * g i) by (extensionality i; ring). rewrite (ca_int e I C). ring. Qed.
Lemma I_scal a f : I (fun i => a * f i) = a * I f.
Proof. replace (fun i => a * f i) with (fun i => a * f i + 0 * f i) by (extensionality i; ring). rewrite (ca_int e I C). ring. Qed.
Lemma I_opp f : I (fun i => - f i) = - I f.
Proof. replace (fun i => - f i) with (fun i => -1 * f i) by (extensionality i; ring). rewrite I_scal. ring. Qed.
Lemma D_along j f f' t : oe_deriv e j (along f f' t) = along (oe_deriv e j f) (oe_deriv e j f') t.
Proof.
  unfold along. replace (fun i => f i + t * f' i) with (fun i => 1 * f i + t * f' i) by (extensionality i; ring).
  rewrite (ca_lin e I C). extensionality i. ring.
Qed.
(** the square of a field along a direction *)
Lemma I_sq f f' t : I (fun i => along f f' t i * along f f' t i) =
  I (fun i => f i * f i) + 2 * I (fun i => f i * f' i) * t + I (fun i => f' i * f' i) * (t * t).
Proof.
  unfold along. replace (fun i => (f i + t * f' i) * (f i + t * f' i)) with
    (fun i => 1 * (1 * (f i * f i) + (2 * t) * (f i * f' i)) + (t * t) * (f' i * f' i)) by (extensionality i; ring).
  rewrite (ca_int e I C 1 (fun i => 1 * (f i * f i) + (2 * t) * (f i * f' i)) (t * t) (fun i => f' i * f' i)).
  rewrite (ca_int e I C 1 (fun i => f i * f i) (2 * t) (fun i => f i * f' i)). ring.
Qed.
Lemma parts2 j f g : I (fun i => oe_deriv e j f i * oe_deriv e j g i) = - I (fun i => f i * oe_deriv e j (oe_deriv e j g) i).
Proof. rewrite (ca_parts e I C j f (oe_deriv e j g)). ring. Qed.

(** the first variation of the energy: I(n n') - I(phi lap(phi')) *)
Lemma energy_along pd n n' phi phi' : exists a c, forall t,
  compute_energy e I pd (along n n' t) (along phi phi' t) =
  a + (I (fun i => n i * n' i) - I (fun i => phi i * lap e (Nat.eqb pd 2) phi' i)) * t + c * (t * t).
Proof.
  unfold compute_energy, lap, dX, dY, dZ. destruct (Nat.eqb pd 2).
  - do 2 eexists. intros t. rewrite !D_along.
    rewrite (I_add (fun i => along n n' t i * along n n' t i + along (oe_deriv e 0 phi) (oe_deriv e 0 phi') t i * along (oe_deriv e 0 phi) (oe_deriv e 0 phi') t i + along (oe_deriv e 1 phi) (oe_deriv e 1 phi') t i * along (oe_deriv e 1 phi) (oe_deriv e 1 phi') t i)).
    rewrite (I_add (fun i => along n n' t i * along n n' t i + along (oe_deriv e 0 phi) (oe_deriv e 0 phi') t i * along (oe_deriv e 0 phi) (oe_deriv e 0 phi') t i)).
    rewrite (I_add (fun i => along n n' t i * along n n' t i)).
    rewrite !I_sq, !(parts2 _ phi phi').
    replace (fun i => phi i * (oe_deriv e 0 (oe_deriv e 0 phi') i + oe_deriv e 1 (oe_deriv e 1 phi') i + oe_deriv e 2 (oe_deriv e 2 phi') i))
      with (fun i => phi i * oe_deriv e 0 (oe_deriv e 0 phi') i + phi i * oe_deriv e 1 (oe_deriv e 1 phi') i + phi i * oe_deriv e 2 (oe_deriv e 2 phi') i)
      by (extensionality i; ring).
    rewrite (I_add (fun i => phi i * oe_deriv e 0 (oe_deriv e 0 phi') i + phi i * oe_deriv e 1 (oe_deriv e 1 phi') i)).
    rewrite (I_add (fun i => phi i * oe_deriv e 0 (oe_deriv e 0 phi') i)).
    instantiate (1 := 5 / 10 * (I (fun i => n' i * n' i) + I (fun i => oe_deriv e 0 phi' i * oe_deriv e 0 phi' i) + I (fun i => oe_deriv e 1 phi' i * oe_deriv e 1 phi' i) + I (fun i => oe_deriv e 2 phi' i * oe_deriv e 2 phi' i))).
    instantiate (1 := 5 / 10 * (I (fun i => n i * n i) + I (fun i => oe_deriv e 0 phi i * oe_deriv e 0 phi i) + I (fun i => oe_deriv e 1 phi i * oe_deriv e 1 phi i) + I (fun i => oe_deriv e 2 phi i * oe_deriv e 2 phi i))).
    field.
  - do 2 eexists. intros t. rewrite !D_along.
    match goal with |- 5 / 10 * I ?f = _ => replace f with (fun i => along n n' t i * along n n' t i + along (oe_deriv e 0 phi) (oe_deriv e 0 phi') t i * along (oe_deriv e 0 phi) (oe_deriv e 0 phi') t i + along (oe_deriv e 1 phi) (oe_deriv e 1 phi') t i * along (oe_deriv e 1 phi) (oe_deriv e 1 phi') t i) by (extensionality i; ring) end.
    rewrite (I_add (fun i => along n n' t i * along n n' t i + along (oe_deriv e 0 phi) (oe_deriv e 0 phi') t i * along (oe_deriv e 0 phi) (oe_deriv e 0 phi') t i)).
    rewrite (I_add (fun i => along n n' t i * along n n' t i)).
    rewrite !I_sq, !(parts2 _ phi phi').
    replace (fun i => phi i * (oe_deriv e 0 (oe_deriv e 0 phi') i + oe_deriv e 1 (oe_deriv e 1 phi') i + 0))
      with (fun i => phi i * oe_deriv e 0 (oe_deriv e 0 phi') i + phi i * oe_deriv e 1 (oe_deriv e 1 phi') i)
      by (extensionality i; ring).
    rewrite (I_add (fun i => phi i * oe_deriv e 0 (oe_deriv e 0 phi') i)).
    instantiate (1 := 5 / 10 * (I (fun i => n' i * n' i) + I (fun i => oe_deriv e 0 phi' i * oe_deriv e 0 phi' i) + I (fun i => oe_deriv e 1 phi' i * oe_deriv e 1 phi' i))).
    instantiate (1 := 5 / 10 * (I (fun i => n i * n i) + I (fun i => oe_deriv e 0 phi i * oe_deriv e 0 phi i) + I (fun i => oe_deriv e 1 phi i * oe_deriv e 1 phi i))).
    field.
Qed.
Lemma enstrophy_along n n' w w' : exists a c, forall t,
  compute_enstrophy I (along n n' t) (along w w' t) =
  a + I (fun i => (n i - w i) * (n' i - w' i)) * t + c * (t * t).
Proof.
  unfold compute_enstrophy, vmul, vsub. do 2 eexists. intros t.
  pose proof (I_sq (fun i => n i - w i) (fun i => n' i - w' i) t) as H.
  match goal with |- 5 / 10 * I ?f = _ =>
    replace f with (fun i => along (fun i => n i - w i) (fun i => n' i - w' i) t i * along (fun i => n i - w i) (fun i => n' i - w' i) t i)
    by (extensionality i; unfold along; ring) end.
  rewrite H.
  instantiate (1 := 5 / 10 * I (fun i => (n' i - w' i) * (n' i - w' i))).
  instantiate (1 := 5 / 10 * I (fun i => (n i - w i) * (n i - w i))). field.
Qed.

(** I(lap(phi) dphi/dy) = 0 *)
Lemma skew_self j f : I (fun i => f i * oe_deriv e j f i) = 0.
Proof.
  pose proof (ca_parts e I C j f f) as H.
  replace (fun i => oe_deriv e j f i * f i) with (fun i => f i * oe_deriv e j f i) in H by (extensionality i; ring). lra.
Qed.
Lemma second_first j k f : I (fun i => oe_deriv e j (oe_deriv e j f) i * oe_deriv e k f i) = 0.
Proof.
  pose proof (ca_parts e I C j (oe_deriv e k f) (oe_deriv e j f)) as H.
  replace (fun i => oe_deriv e k f i * oe_deriv e j (oe_deriv e j f) i) with
    (fun i => oe_deriv e j (oe_deriv e j f) i * oe_deriv e k f i) in H by (extensionality i; ring).
  rewrite H, (ca_comm e I C j k f).
  pose proof (skew_self k (oe_deriv e j f)) as H2.
  replace (fun i => oe_deriv e k (oe_deriv e j f) i * oe_deriv e j f i) with
    (fun i => oe_deriv e j f i * oe_deriv e k (oe_deriv e j f) i) by (extensionality i; ring). lra.
Qed.
Lemma lap_dy z f : I (fun i => lap e z f i * dY e f i) = 0.
Proof.
  unfold lap, dX, dY, dZ.
  replace (fun i => (oe_deriv e 0 (oe_deriv e 0 f) i + oe_deriv e 1 (oe_deriv e 1 f) i + (if z then oe_deriv e 2 (oe_deriv e 2 f) i else 0)) * oe_deriv e 1 f i)
    with (fun i => 1 * (oe_deriv e 0 (oe_deriv e 0 f) i * oe_deriv e 1 f i + oe_deriv e 1 (oe_deriv e 1 f) i * oe_deriv e 1 f i)
       + (if z then 1 else 0) * (oe_deriv e 2 (oe_deriv e 2 f) i * oe_deriv e 1 f i)) by (extensionality i; destruct z; ring).
  rewrite (ca_int e I C), I_add, !second_first. ring.
Qed.
End Growth.

(** The rates of change [n'], [w'] of a right hand side with coupling [c], whose advection conserves the quadratic invariants,
    against the recorded values. *)
Section Balance.
Variables (e : oenv) (I : fld -> R).
Hypothesis C : calculus e I.
Variables (B ka : R) (phi phi' n w c : fld) (z : bool).
Let n' := hw_dn e B ka phi n c vzero.
Let w' := hw_dw e B phi w c.
Let v := drift e B phi.
Hypothesis A1 : I (fun i => n i * advection e v n i) = 0.
Hypothesis A2 : I (fun i => phi i * advection e v w i) = 0.
Lemma energy_rate : lap e z phi' = w' ->
  I (fun i => n i * n' i) - I (fun i => phi i * lap e z phi' i) =
  I (fun i => (n i - phi i) * c i) - ka * I (fun i => n i * dY e phi i).
Proof.
  intros HL. rewrite HL. unfold n', w', hw_dn, hw_dw, vzero. fold v.
  replace (fun i => n i * (- advection e v n i + c i - ka * dY e phi i + 0)) with
    (fun i => (-1 * (n i * advection e v n i) + 1 * (n i * c i)) + (- ka) * (n i * dY e phi i)) by (extensionality i; ring).
  rewrite (I_add e I C), (ca_int e I C), (I_scal e I C), A1.
  replace (fun i => phi i * (- advection e v w i + c i)) with
    (fun i => -1 * (phi i * advection e v w i) + 1 * (phi i * c i)) by (extensionality i; ring).
  rewrite (ca_int e I C), A2.
  replace (fun i => (n i - phi i) * c i) with (fun i => 1 * (n i * c i) + -1 * (phi i * c i)) by (extensionality i; ring).
  rewrite (ca_int e I C). ring.
Qed.
Hypothesis A3 : I (fun i => w i * advection e v w i) = 0.
Hypothesis A4 : I (fun i => n i * advection e v w i) + I (fun i => w i * advection e v n i) = 0.
Lemma enstrophy_rate : lap e z phi = w ->
  I (fun i => (n i - w i) * (n' i - w' i)) = - ka * I (fun i => n i * dY e phi i).
Proof.
  intros HL. unfold n', w', hw_dn, hw_dw, vzero. fold v.
  match goal with |- I ?f = _ => replace f with
    (fun i => ((-1 * (n i * advection e v n i) + -1 * (w i * advection e v w i)) +
     (1 * (n i * advection e v w i) + 1 * (w i * advection e v n i))) + ((- ka) * (n i * dY e phi i) + ka * (w i * dY e phi i)))
    by (extensionality i; ring) end.
  rewrite (I_add e I C), (I_add e I C), !(ca_int e I C), A1, A3.
  replace (I (fun i => w i * dY e phi i)) with 0; [lra|].
  rewrite <- HL. symmetry. apply (lap_dy e I C).
Qed.
End Balance.
