From Verif Require Import S_Fluid L_Util L_Coord L_Fluid L_Fluid2.
From Coq Require Import FunctionalExtensionality Lra Lia.
From Coq Require Import List.
Open Scope R_scope.
Open Scope list_scope.

(** * Loops over the points *)
Lemma fpts_ok n f g : (forall i, (i < n)%nat -> f i = Some (g i)) -> exists h, fpts n f = Some h /\ forall i, (i < n)%nat -> h i = g i.
Proof.
  induction n as [|n IH]; intros H; [exists vzero; split; [reflexivity | intros; lia]|].
  destruct IH as (h & Hh & Hg); [intros; apply H; lia|]. cbn [fpts]. rewrite Hh. cbn [bind]. rewrite (H n) by lia. cbn [bind].
  eexists. split; [reflexivity|]. intros i Hi. cbn. destruct (Nat.eqb_spec i n) as [->|Hne]; [reflexivity|]. apply Hg. lia.
Qed.
Lemma fpts_none n f i : (i < n)%nat -> f i = None -> fpts n f = None.
Proof.
  induction n as [|n IH]; intros Hi Hf; [lia|]. cbn [fpts]. destruct (Nat.eq_dec i n) as [->|Hne].
  - rewrite Hf. destruct (fpts n f); reflexivity.
  - rewrite IH by (auto; lia). reflexivity.
Qed.

(** * LAPD *)
Definition lapd_sess (s : fsess) : Prop := session3 s /\
  nth_error (fs_vars s) 0 = Some "ne"%string /\ nth_error (fs_vars s) 1 = Some "Ge"%string /\
  nth_error (fs_vars s) 2 = Some "Gd"%string /\ nth_error (fs_vars s) 3 = Some "w"%string /\ In "phi"%string (fs_vars s).
(** Parameters with which nothing is divided by zero at the points. *)
Definition lapd_finite (s : fsess) (p : lapdpar) (B : R) (n : fld) : Prop :=
  lp_B p = Bz B /\ B <> 0 /\ lp_nref p <> 0 /\ lp_md p <> 0 /\ lp_me p <> 0 /\
  forall i, (i < fs_npts s)%nat -> Rmax (n i) (lp_nref p * lp_floor p) <> 0.

Lemma lapd_vpar_ok s p n G mass : mass <> 0 -> (forall i, (i < fs_npts s)%nat -> Rmax (n i) (lp_nref p * lp_floor p) <> 0) ->
  exists v, lapd_vpar s p n G mass = FOk v /\ is_vpar s p n G mass v.
Proof.
  intros Hm H. unfold lapd_vpar.
  destruct (fpts_ok (fs_npts s) (fun i => rdiv (G i) (Rmax (n i) (lp_nref p * lp_floor p)))
     (fun i => G i / Rmax (n i) (lp_nref p * lp_floor p))) as (h & Hh & Hg).
  { intros i Hi. apply rdiv_ok. now apply H. }
  rewrite Hh. cbn [fnan fbind]. rewrite rdiv_ok by exact Hm. cbn [fnan fbind]. eexists. split; [reflexivity|].
  intros i Hi. unfold smul. rewrite Hg by exact Hi. field. split; [now apply H | exact Hm].
Qed.
Lemma lapd_nu_ok s p n : (forall i, (i < fs_npts s)%nat -> 0 < lp_n_to_SI p * n i) -> exists nu, lapd_nu s p n = FOk nu /\ is_nu s p n nu.
Proof.
  intros H. unfold lapd_nu.
  destruct (fpts_ok (fs_npts s) (fun i => do l <- lapd_log p (n i); Some (lp_nu p * n i * l))
     (fun i => lp_nu p * n i * (lp_coulomb p - 5 / 10 * ln (lp_n_to_SI p * n i)))) as (h & Hh & Hg).
  { intros i Hi. unfold lapd_log, dlog. rewrite Rle_bool_false by (apply H; exact Hi). reflexivity. }
  rewrite Hh. exists h. split; [reflexivity|]. exact Hg.
Qed.
Lemma lapd_nu_nan s p n i : (i < fs_npts s)%nat -> lp_n_to_SI p * n i <= 0 -> lapd_nu s p n = FNan.
Proof.
  intros Hi Hn. unfold lapd_nu. rewrite (fpts_none _ _ i Hi); [reflexivity|].
  unfold lapd_log, dlog. rewrite Rle_bool_true by exact Hn. reflexivity.
Qed.

Lemma with_par_ok e B phi v : B <> 0 ->
  par_plus_ExB [0; 0; B / Rabs B] v (drift e B phi) [vzero; vzero; vzero] = FOk (with_par e B phi v).
Proof.
  intros HB. cbn. unfold with_par, svtvp. f_equal.
  apply f_equal2; [|apply f_equal2; [|apply f_equal2; [|reflexivity]]]; extensionality i; ring.
Qed.

Lemma lapd_ok_gen e s p B phys n ge gd w : lapd_sess s -> lapd_finite s p B n -> (length (oe_normals e) <= 3)%nat ->
  length phys = length (fs_vars s) ->
  let phi := oe_helm e (df_00 (lp_d p)) (df_11 (lp_d p)) (Some (df_22 (lp_d p))) (fun i => B * B / lp_nref p / lp_md p * w i) in
  exists ve vd, is_vpar s p n ge (lp_me p) ve /\ is_vpar s p n gd (lp_md p) vd /\
  lapd_rhs e s p phys [n; ge; gd; w] =
  let! nu := lapd_nu s p n in
  let Ez := fun i => - dZ e phi i in
  let friction := fun i => lp_me p * nu i * (n i * (ve i - vd i)) in
  FOk (phi,
   [(fun i => - advection e (with_par e B phi ve) n i + oe_src e i) : fld;
    (fun i => - advection e (with_par e B phi ve) ge i - dZ e (fun j => lp_Te p * n j) i - lp_e p * (n i * Ez i) - friction i) : fld;
    (fun i => - advection e (with_par e B phi vd) gd i - dZ e (fun j => lp_Td p * n j) i + lp_e p * (n i * Ez i) + friction i) : fld;
    (fun i => - advection e (drift e B phi) w i
              - advection e [vzero; vzero; (fun j => ve j - vd j)] n i) : fld]).
Proof.
  intros ((Hm & Hs & Hnd) & H0 & H1 & H2 & H3 & Hphi) (HBp & HB & Hnr & Hmd & Hme & Hmax) Hno Hlen phi.
  destruct (lapd_vpar_ok s p n ge (lp_me p) Hme Hmax) as (ve & Eve & Sve).
  destruct (lapd_vpar_ok s p n gd (lp_md p) Hmd Hmax) as (vd & Evd & Svd).
  exists ve, vd. split; [exact Sve|]. split; [exact Svd|].
  apply In_nth_error in Hphi as (k & Hk).
  pose proof (fidx_ok s "ne" 0 Hnd H0 : fidx s "ne" = FOk 0%Z) as I0.
  pose proof (fidx_ok s "Ge" 1 Hnd H1 : fidx s "Ge" = FOk 1%Z) as I1.
  pose proof (fidx_ok s "Gd" 2 Hnd H2 : fidx s "Gd" = FOk 2%Z) as I2.
  pose proof (fidx_ok s "w" 3 Hnd H3 : fidx s "w" = FOk 3%Z) as I3.
  unfold lapd_rhs. rewrite (fidx_ok s "phi" k Hnd Hk). cbn [fbind]. rewrite aget_of_nat.
  destruct (nth_error phys k) eqn:Ek.
  2:{ apply nth_error_None in Ek. assert (k < length (fs_vars s))%nat by (apply nth_error_Some; congruence). lia. }
  cbn [fbind map]. rewrite I3. ax. rewrite HBp. cbn [bf_mag Bz].
  rewrite rdiv_ok by exact Hnr. cbn [bind]. rewrite rdiv_ok by exact Hmd. cbn [fnan fbind].
  unfold solve_phi. rewrite Hm. cbn [Nat.eqb].
  replace (Rabs B * Rabs B) with (B * B) by (rewrite <- Rabs_mult; symmetry; apply Rabs_pos_eq; pose proof (Rle_0_sqr B); unfold Rsqr in *; lra).
  unfold smul at 1. fold phi. change {| bf_vec := [0; 0; B]; bf_mag := Rabs B; bf_unit := [0; 0; B / Rabs B] |} with (Bz B).
  pose proof (calc_ExB_ok e s B phi Hm HB) as Hexb. rewrite Hexb. cbn [fbind]. rewrite I0, I2, I1. ax.
  rewrite Evd, Eve. cbn [fbind]. rewrite Hs. change (repeat vzero 3) with [vzero; vzero; vzero]. ax.
  cbn [bf_unit Bz]. rewrite !(with_par_ok e B phi _ HB). cbn [fbind].
  assert (HA : forall v f, length v = 3%nat -> advect1 e s {| ao_flux := v; ao_norm := v |} v f = FOk (advection e v f))
    by (intros v f Hv; apply advect1_ok; rewrite Hv; assumption).
  unfold add_adv_terms. cbn [adv_collect adv_subtract]. rewrite !I0, !I1. ax. rewrite !HA by reflexivity. ax.
  cbn [adv_collect adv_subtract]. rewrite ?I1, ?I2, ?I3. ax. rewrite ?HA by reflexivity. ax.
  unfold calc_E. rewrite Hm. cbn [Nat.eqb]. ax.
  unfold lapd_grad_P, lapd_E_par, lapd_collision, upd, add_density_source. rewrite ?I0, ?I1, ?I2, ?I3. ax.
  destruct (lapd_nu s p n) as [nu| | |]; cbn [fbind]; try reflexivity. ax.
  f_equal. f_equal.
  unfold vsub, vadd, vzero, vmul, smul, vneg, dZ.
  apply f_equal2; [|apply f_equal2; [|apply f_equal2; [|apply f_equal2; [|reflexivity]]]]; extensionality i; fold phi; ring.
Qed.

Lemma lapd_ok e s p B phys n ge gd w : lapd_sess s -> lapd_finite s p B n -> (length (oe_normals e) <= 3)%nat ->
  length phys = length (fs_vars s) -> (forall i, (i < fs_npts s)%nat -> 0 < lp_n_to_SI p * n i) ->
  let phi := oe_helm e (df_00 (lp_d p)) (df_11 (lp_d p)) (Some (df_22 (lp_d p))) (fun i => B * B / lp_nref p / lp_md p * w i) in
  exists ve vd nu, is_vpar s p n ge (lp_me p) ve /\ is_vpar s p n gd (lp_md p) vd /\ is_nu s p n nu /\
  lapd_rhs e s p phys [n; ge; gd; w] =
  let Ez := fun i => - dZ e phi i in
  let friction := fun i => lp_me p * nu i * (n i * (ve i - vd i)) in
  FOk (phi,
   [(fun i => - advection e (with_par e B phi ve) n i + oe_src e i) : fld;
    (fun i => - advection e (with_par e B phi ve) ge i - dZ e (fun j => lp_Te p * n j) i - lp_e p * (n i * Ez i) - friction i) : fld;
    (fun i => - advection e (with_par e B phi vd) gd i - dZ e (fun j => lp_Td p * n j) i + lp_e p * (n i * Ez i) + friction i) : fld;
    (fun i => - advection e (drift e B phi) w i
              - advection e [vzero; vzero; (fun j => ve j - vd j)] n i) : fld]).
Proof.
  intros Hs Hf Hno Hlen Hlog phi. destruct (lapd_ok_gen e s p B phys n ge gd w Hs Hf Hno Hlen) as (ve & vd & H1 & H2 & H).
  destruct (lapd_nu_ok s p n Hlog) as (nu & E & H3). exists ve, vd, nu. cbv zeta in H. rewrite E in H. cbn [fbind] in H. fold phi in H.
  repeat apply conj; [exact H1 | exact H2 | exact H3 | exact H].
Qed.
(** The parallel electric force and the friction cancel in the sum of the momenta. *)
Lemma lapd_momentum e s p B phys n ge gd w phi rn rge rgd rw : lapd_sess s -> lapd_finite s p B n -> (length (oe_normals e) <= 3)%nat ->
  length phys = length (fs_vars s) -> lapd_rhs e s p phys [n; ge; gd; w] = FOk (phi, [rn; rge; rgd; rw]) ->
  exists ve vd, is_vpar s p n ge (lp_me p) ve /\ is_vpar s p n gd (lp_md p) vd /\
  forall i, rge i + rgd i = - advection e (with_par e B phi ve) ge i - advection e (with_par e B phi vd) gd i
     - (dZ e (fun j => lp_Te p * n j) i + dZ e (fun j => lp_Td p * n j) i).
Proof.
  intros Hs Hf Hno Hlen H. destruct (lapd_ok_gen e s p B phys n ge gd w Hs Hf Hno Hlen) as (ve & vd & H1 & H2 & H3).
  exists ve, vd. split; [exact H1|]. split; [exact H2|]. cbv zeta in H3. rewrite H3 in H.
  destruct (lapd_nu s p n) as [nu| | |]; try discriminate. cbn [fbind] in H. injection H as <- <- <- <- <-. intros i. ring.
Qed.
Lemma lapd_nan e s p B phys n ge gd w i : lapd_sess s -> lapd_finite s p B n -> (length (oe_normals e) <= 3)%nat ->
  length phys = length (fs_vars s) -> (i < fs_npts s)%nat -> lp_n_to_SI p * n i <= 0 ->
  lapd_rhs e s p phys [n; ge; gd; w] = FNan.
Proof.
  intros Hs Hf Hno Hlen Hi Hn. destruct (lapd_ok_gen e s p B phys n ge gd w Hs Hf Hno Hlen) as (ve & vd & _ & _ & H3).
  cbv zeta in H3. rewrite H3, (lapd_nu_nan s p n i Hi Hn). reflexivity.
Qed.
(** The right hand side does not read m_fields: a particle source never enters it. *)
Lemma lapd_ignores_phys e s p phys phys' inn : length phys = length phys' -> lapd_rhs e s p phys inn = lapd_rhs e s p phys' inn.
Proof.
  intros H. unfold lapd_rhs. destruct (fidx s "phi") as [ix| | |]; try reflexivity. cbn [fbind].
  assert (E : forall (P Q : fres (fld * list fld)), P = Q ->
    fbind (aget phys ix) (fun _ => P) = fbind (aget phys' ix) (fun _ => Q)).
  { intros P Q <-. unfold aget. destruct (ix <? 0)%Z; [reflexivity|].
    destruct (nth_error phys (Z.to_nat ix)) eqn:E1; destruct (nth_error phys' (Z.to_nat ix)) eqn:E2; try reflexivity.
    - apply nth_error_None in E2. assert (Z.to_nat ix < length phys)%nat by (apply nth_error_Some; congruence). lia.
    - apply nth_error_None in E1. assert (Z.to_nat ix < length phys')%nat by (apply nth_error_Some; congruence). lia. }
  apply E. reflexivity.
Qed.

(** * RogersRicci2D *)
Definition rr_dn (e : oenv) (B : R) (phi n ex sr : fld) : fld :=
  fun i => - 40 * advection e (drift e B phi) n i - 1 / 24 * ex i * n i + sr i.
Lemma rr_ok e s p B (r n T w : fld) : fs_mesh s = 3%nat -> fs_space s = 3%nat -> rr_init s = FOk tt -> rr_B p = Bz B -> B <> 0 ->
  (length (oe_normals e) <= 3)%nat -> rr_Ls p <> 0 ->
  (forall i, (i < fs_npts s)%nat -> 0 < T i * T i + rr_T_eps p) ->
  let phi := oe_helm e (df_00 (rr_d p)) (df_11 (rr_d p)) (Some (df_22 (rr_d p))) w in
  exists dn dT dw, rr_rhs e s p r [n; T; w] = FOk (phi, [dn; dT; dw]) /\
  forall i, (i < fs_npts s)%nat ->
    let v := drift e B phi in
    let sheath := exp (rr_coulomb p - phi i / sqrt (T i * T i + rr_T_eps p)) in
    let src := 3 / 100 * (1 - tanh ((rr_rho p * r i - rr_rs p) / rr_Ls p)) in
    dn i = - 40 * advection e v n i - 1 / 24 * sheath * n i + src /\
    dT i = - 40 * advection e v T i - 1 / 36 * (171 / 100 * sheath - 71 / 100) * T i + src /\
    dw i = - 40 * advection e v w i + 1 / 24 * (1 - sheath).
Proof.
  intros Hm Hs Hinit HBp HB Hno HLs HT phi.
  assert (Hvars : fs_vars s = rr_names).
  { unfold rr_init in Hinit. destruct (validate_fields s _) as [u| | |]; try discriminate. cbn [fbind] in Hinit.
    destruct (Nat.eqb_spec (length (fs_vars s)) 4) as [Hl|]; [|discriminate]. cbn [fassert fbind] in Hinit.
    unfold check_var in Hinit. destruct (fs_vars s) as [|a [|b [|c [|d [|]]]]]; try discriminate. cbn [nth_error] in Hinit.
    destruct (String.eqb_spec a "n"); [|discriminate]. cbn [fassert fbind] in Hinit.
    destruct (String.eqb_spec b "T_e"); [|discriminate]. cbn [fassert fbind] in Hinit.
    destruct (String.eqb_spec c "w"); [|discriminate]. cbn [fassert fbind] in Hinit.
    destruct (String.eqb_spec d "phi"); [|discriminate]. subst. reflexivity. }
  unfold rr_rhs. assert (I : fidx s "w" = FOk 2%Z) by (unfold fidx; rewrite Hvars; reflexivity). rewrite I. ax.
  unfold solve_phi. rewrite Hm. cbn [Nat.eqb].
  replace (smul 1 w) with w by (extensionality i; unfold smul; ring). fold phi. rewrite HBp, (calc_ExB_ok e s B phi Hm HB). ax.
  assert (HA : forall v f, length v = 3%nat -> advect1 e s {| ao_flux := v; ao_norm := v |} v f = FOk (advection e v f))
    by (intros v f Hv; apply advect1_ok; [rewrite Hv; assumption | congruence]).
  rewrite !HA by reflexivity. cbn [fbind].
  destruct (fpts_ok (fs_npts s) (fun i => rr_exp p (phi i) (T i)) (fun i => exp (rr_coulomb p - phi i / sqrt (T i * T i + rr_T_eps p)))) as (ex & E1 & G1).
  { intros i Hi. specialize (HT i Hi). unfold rr_exp, dsqrt. rewrite Rlt_bool_false by lra. cbn [bind].
    rewrite rdiv_ok; [reflexivity|]. apply Rgt_not_eq. apply sqrt_lt_R0. exact HT. }
  destruct (fpts_ok (fs_npts s) (fun i => rr_src p (r i)) (fun i => 3 / 100 * (1 - tanh ((rr_rho p * r i - rr_rs p) / rr_Ls p)))) as (sr & E2 & G2).
  { intros i Hi. unfold rr_src. rewrite rdiv_ok by exact HLs. reflexivity. }
  rewrite E1, E2. cbn [fnan fbind]. do 3 eexists. split; [reflexivity|]. intros i Hi. cbv zeta beta.
  rewrite (G1 i Hi), (G2 i Hi). repeat split; reflexivity.
Qed.
(** Particles can never be enabled: the four variables exclude "ne_src". *)
Lemma rr_particles s : fs_part s = true -> rr_init s = FThrow.
Proof.
  intros H. unfold rr_init. rewrite H. cbn [validate_fields].
  destruct (0 <=? fget_idx s "ne_src")%Z eqn:E; cbn [fassert fbind]; [|reflexivity].
  destruct (Nat.eqb_spec (length (fs_vars s)) 4) as [Hl|]; cbn [fassert fbind]; [|reflexivity].
  unfold check_var. destruct (fs_vars s) as [|a [|b [|c [|d [|]]]]] eqn:Ev; try discriminate. cbn [nth_error].
  destruct (String.eqb_spec a "n") as [->|]; cbn [fassert fbind]; [|reflexivity].
  destruct (String.eqb_spec b "T_e") as [->|]; cbn [fassert fbind]; [|reflexivity].
  destruct (String.eqb_spec c "w") as [->|]; cbn [fassert fbind]; [|reflexivity].
  destruct (String.eqb_spec d "phi") as [->|]; cbn [fassert fbind]; [|reflexivity].
  unfold fget_idx in E. rewrite Ev in E. discriminate.
Qed.
