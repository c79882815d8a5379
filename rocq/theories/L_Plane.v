From Verif Require Import M_RealBase M_Util M_Grid M_Fluid M_Plane S_Plane L_RealBase L_Coord L_Fluid L_Fluid6.
From Flocq Require Import Core.Raux.
From Coq Require Import Reals Lra Lia ZArith String FunctionalExtensionality List.
Import ListNotations.
Open Scope R_scope.
Open Scope string_scope.
Open Scope list_scope.

Lemma rdiv_q a b : b <> 0 -> rdiv a b = Some (a / b).
Proof. exact (rdiv_ok a b). Qed.
Lemma rdiv_zero a b : b = 0 -> rdiv a b = None.
Proof. intros ->. unfold rdiv. rewrite Req_bool_true by reflexivity. reflexivity. Qed.
Lemma upflux_up v a b : v * upval v a b = upflux v a b.
Proof.
  unfold upval, upflux. destruct (Rle_bool_spec 0 v).
  - rewrite Rabs_right by lra. field.
  - rewrite Rabs_left by lra. field.
Qed.

Section Blob.
Variables (e : penv) (s : fsess) (p : ppar) (a b : fld) (phys : list fld) (n w nx ny : fld).
Hypothesis Hs : blob_sess s.
Hypothesis Hp : blob_pars p.
Hypothesis Hl : length phys = length (fs_vars s).
Hypothesis Hn : pe_normals e = [nx; ny].

Lemma blob_idx : fidx s "ne" = FOk 0%Z /\ fidx s "w" = FOk 1%Z /\ fidx s "phi" = FOk 2%Z.
Proof.
  destruct Hs as (_ & Hnd & r & Hr).
  split; [|split]; [apply (fidx_ok s "ne" 0 Hnd)|apply (fidx_ok s "w" 1 Hnd)|apply (fidx_ok s "phi" 2 Hnd)]; rewrite Hr; reflexivity.
Qed.
Lemma blob_phi : exists rhs, plane_rhs_phi e s p phys w = FOk rhs /\ is_phi e s p phys w (pe_poisson e rhs).
Proof.
  unfold plane_rhs_phi, is_phi. destruct (in_dec String.string_dec "ph" (fs_vars s)) as [I|I].
  - destruct (in_index _ _ I) as [k Hk].
    assert (F : fget_idx s "ph" = Z.of_nat k).
    { pose proof (fidx_ok s "ph" k (proj1 (proj2 Hs)) Hk) as F. unfold fidx, fim_at in F. unfold fget_idx, fim_get_idx.
      destruct (smfind _ _); congruence. }
    rewrite F. destruct (Z.eqb_spec (Z.of_nat k) (-1)); [lia|]. rewrite aget_of_nat.
    destruct (nth_error phys k) as [ph0|] eqn:Ek.
    2:{ apply nth_error_None in Ek. assert (k < length (fs_vars s))%nat by (apply nth_error_Some; congruence). lia. }
    cbn [fbind]. eexists. split; [reflexivity|]. split; [contradiction|].
    intros k' ph' Hk' Hp'. assert (k' = k).
    { apply (proj1 (NoDup_nth_error (fs_vars s)) (proj1 (proj2 Hs))); [apply nth_error_Some; congruence|congruence]. }
    subst. assert (ph' = ph0) by congruence. subst. f_equal.
  - assert (F : fget_idx s "ph" = (-1)%Z).
    { pose proof (fidx_none s "ph" I) as F. unfold fidx, fim_at in F. unfold fget_idx, fim_get_idx. destruct (smfind _ _); congruence. }
    rewrite F. cbn [Z.eqb Pos.eqb]. eexists. split; [reflexivity|]. split; [reflexivity|].
    intros k ph Hk. exfalso. apply I. eapply nth_error_In; eauto.
Qed.

Definition num_n (phi : fld) : fld := fun i => upflux (vnormal e nx ny phi i) (pe_fwd e 0 n i) (pe_bwd e 0 n i).
Definition num_w (phi : fld) : fld := fun i => upflux (vnormal e nx ny phi i) (pe_fwd e 1 w i) (pe_bwd e 1 w i)
    + eps_of p * ny i * upval (vnormal e nx ny phi i) (pe_fwd e 0 n i) (pe_bwd e 0 n i).
Lemma advect_ok phi : plane_advect e s p [vx e phi; vy e phi] [n; w] =
  FOk [pe_wdg e 0 [(fun i => n i * vx e phi i); (fun i => n i * vy e phi i)] (num_n phi);
       pe_wdg e 1 [(fun i => w i * vx e phi i); (fun i => w i * vy e phi i + eps_of p * n i)] (num_w phi)].
Proof.
  destruct blob_idx as (I0 & I1 & I2). destruct Hp as (HB & HL & HR & He).
  assert (HRR : pp_Rxy p * pp_Rxy p <> 0) by (intro; apply HR; nra).
  unfold plane_advect, plane_flux, epsilon. rewrite I0, I1. cbn [fbind]. rewrite (rdiv_q _ _ HRR). cbn [fnan map]. ax.
  rewrite Hn. cbn [plane_vn]. ax. rewrite (rdiv_q _ _ HRR). cbn [fnan]. ax. unfold drift_upwind. cbn [imap combine map fst snd]. ax.
  unfold upd. ax. cbn [combine imap fst snd]. f_equal.
  assert (V : forall i, ny i * pe_trace e (vy e phi) i + (nx i * pe_trace e (vx e phi) i + vzero i) = vnormal e nx ny phi i).
  { intros i. unfold vnormal, vzero. ring. }
  apply f_equal2; [|apply f_equal2; [|reflexivity]].
  - f_equal. extensionality i. unfold num_n. rewrite <- upflux_up, V. reflexivity.
  - f_equal. extensionality i. unfold num_w. rewrite <- upflux_up, V. unfold upval, eps_of. field. auto.
Qed.

Lemma blob_ok : exists phi dn dw, blob_rhs e s p [a; b] phys [n; w] = FOk (phi, [dn; dw]) /\ is_phi e s p phys w phi /\
  (forall i, dn i = - pe_wdg e 0 [(fun i => n i * vx e phi i); (fun i => n i * vy e phi i)] (num_n phi) i / pp_B p
     + n i * phi i / (pp_e p * pp_Lpar p)) /\
  (forall i, dw i = - pe_wdg e 1 [(fun i => w i * vx e phi i); (fun i => w i * vy e phi i + eps_of p * n i)] (num_w phi) i / pp_B p
     + n i * phi i / pp_Lpar p).
Proof.
  destruct blob_idx as (I0 & I1 & I2). destruct Hp as (HB & HL & HR & He). destruct blob_phi as (rhs & R1 & R2).
  unfold blob_rhs. rewrite I0, I1, I2. ax. rewrite R1.
  assert (L3 : (2 < length phys)%nat). { rewrite Hl. destruct Hs as (_ & _ & r & ->). cbn. lia. }
  change 2%Z with (Z.of_nat 2). rewrite aget_of_nat. destruct (nth_error phys 2) eqn:E2; [|apply nth_error_None in E2; lia].
  cbn [fbind]. set (phi := pe_poisson e rhs) in *.
  unfold calc_drift_velocity, upd. ax. unfold calc_div_sheath. rewrite (rdiv_q _ _ HL). cbn [fnan fbind].
  pose proof (advect_ok phi) as A. unfold vx at 1, vy at 1 in A. change (vneg (pe_deriv e 0 phi)) with (vy e phi).
  change (pe_deriv e 1 phi) with (vx e phi). fold (vy e phi) in A. change (pY e phi) with (vx e phi) in A.
  change (fun i => - pX e phi i) with (vy e phi) in A. rewrite A. cbn [fbind].
  rewrite (rdiv_q _ _ HB), (rdiv_q _ _ He). cbn [fnan fbind map]. ax.
  exists phi. do 2 eexists. split; [reflexivity|]. split; [exact R2|]. unfold svtvp, vadd, smul, vmul.
  split; intros i; field; auto.
Qed.
End Blob.

Lemma plane_init_ok s : plane_init s = FOk tt <-> exists r, fs_vars s = ("ne" :: "w" :: "phi" :: r)%string.
Proof.
  unfold plane_init. split.
  - intros H. destruct (validate_fields s _); try discriminate. cbn [fbind] in H. unfold check_var_idx in H.
    destruct (fs_vars s) as [|v0 [|v1 [|v2 r]]]; cbn [nth_error] in H; unfold fassert in H;
      repeat match type of H with context [String.eqb ?x ?y] => destruct (String.eqb_spec x y); cbn [fbind] in H end; try discriminate; try congruence.
    subst. eauto.
  - intros [r Hr]. assert (V : validate_fields s ["ne"; "w"; "phi"]%string = FOk tt).
    { apply validate_ok. rewrite Hr. repeat (apply Forall_cons; [cbn [In]; tauto|]); constructor. }
    rewrite V. unfold check_var_idx. rewrite Hr. reflexivity.
Qed.

Section Cont.
Variables (e : penv) (p : ppar) (nx ny phi n w : fld).
Hypothesis Hc : continuous e nx ny phi n w.
Lemma upflux_same v x : upflux v x x = v * x. Proof. unfold upflux. field. Qed.
Lemma upval_same v x : upval v x x = x. Proof. unfold upval. destruct (Rle_bool _ _); reflexivity. Qed.
Lemma cont_n i : pe_wdg e 0 [(fun i => n i * vx e phi i); (fun i => n i * vy e phi i)] (num_n e n nx ny phi) i =
  pX e (fun j => n j * vx e phi j) i + pY e (fun j => n j * vy e phi j) i.
Proof.
  destruct Hc as [(S1 & S2 & S3 & S4) T M W].
  assert (N : num_n e n nx ny phi = (fun i => nx i * pe_trace e (fun i => n i * vx e phi i) i + ny i * pe_trace e (fun i => n i * vy e phi i) i)).
  { extensionality j. unfold num_n. rewrite S1, S2, upflux_same, !M. unfold vnormal. ring. }
  rewrite N, W. reflexivity.
Qed.
Lemma cont_w i : pe_wdg e 1 [(fun i => w i * vx e phi i); (fun i => w i * vy e phi i + eps_of p * n i)] (num_w e p n w nx ny phi) i =
  pX e (fun j => w j * vx e phi j) i + pY e (fun j => w j * vy e phi j + eps_of p * n j) i.
Proof.
  destruct Hc as [(S1 & S2 & S3 & S4) T M W].
  assert (N : num_w e p n w nx ny phi = (fun i => nx i * pe_trace e (fun i => w i * vx e phi i) i + ny i * pe_trace e (fun i => w i * vy e phi i + eps_of p * n i) i)).
  { extensionality j. unfold num_w. rewrite S1, S2, S3, S4, upflux_same, upval_same.
    replace (fun i => w i * vy e phi i + eps_of p * n i) with (fun i => 1 * (w i * vy e phi i) + eps_of p * n i) by (extensionality k; ring).
    rewrite (T (fun i => w i * vy e phi i) n). rewrite !M. unfold vnormal. ring. }
  rewrite N, W. reflexivity.
Qed.
End Cont.
