From Verif Require Import S_Fluid L_Util L_Coord L_Fluid L_Fluid2 L_Fluid3 L_Fluid4.
From Coq Require Import FunctionalExtensionality Lra Lia.
From Coq Require Import List.
Open Scope R_scope.
Open Scope list_scope.

(** The set-up a run goes through before the first right hand side: required fields present, integrated variables gathered. *)
Definition hw_start (s : fsess) (phys inn : list fld) : Prop :=
  session3 s /\ length phys = length (fs_vars s) /\ validate_fields s (hw_required s) = FOk tt /\
  exists ix, int_variables s hw_int_names = FOk ix /\ gather phys ix = FOk inn.

(** With the expected order the arrays are the density and the vorticity. *)
Lemma hw_start_ok s phys inn : hw_sess s -> hw_start s phys inn ->
  exists n w, inn = [n; w] /\ field_named s phys "ne" n /\ field_named s phys "w" w.
Proof.
  intros ((Hm & Hs & Hnd) & H0 & H1 & _) (_ & Hlen & _ & ix & Hi & Hg).
  assert (I0 : fget_idx s "ne" = 0%Z).
  { pose proof (fidx_ok s "ne" 0 Hnd H0) as H. unfold fidx, fim_at in H. unfold fget_idx, fim_get_idx. destruct (smfind _ _); [now injection H|discriminate]. }
  assert (I1 : fget_idx s "w" = 1%Z).
  { pose proof (fidx_ok s "w" 1 Hnd H1) as H. unfold fidx, fim_at in H. unfold fget_idx, fim_get_idx. destruct (smfind _ _); [now injection H|discriminate]. }
  cbn [int_variables hw_int_names] in Hi. rewrite I0, I1 in Hi. cbn in Hi. injection Hi as <-.
  cbn [gather] in Hg. unfold aget in Hg. cbn [Z.ltb Z.compare] in Hg.
  change (Z.to_nat 0) with 0%nat in Hg. change (Z.to_nat 1) with 1%nat in Hg.
  destruct (nth_error phys 0) as [n|] eqn:E0; [|discriminate]. destruct (nth_error phys 1) as [w|] eqn:E1; [|discriminate].
  cbn [fbind] in Hg. injection Hg as <-. exists n, w. split; [reflexivity|]. split; [exists 0%nat | exists 1%nat]; auto.
Qed.

(** A session that lists the vorticity before the density passes the checks, and the potential is solved from the density. *)
Definition s_swap : fsess :=
  {| fs_vars := ["w"; "ne"; "phi"]%string; fs_mesh := 3; fs_space := 3; fs_part := false; fs_npts := 16 |}.
Lemma swapped_order (nf wf pf : fld) :
  let e := genv (fun g => g) in
  hw_start s_swap [wf; nf; pf] [nf; wf] /\
  exists out, hw3d_rhs e s_swap (p_hw 1 1 1) [wf; nf; pf] [nf; wf] = FOk (nf, out).
Proof.
  intros e. split.
  - split; [split; [reflexivity|]; split; [reflexivity|]; repeat constructor; cbn; intuition discriminate|].
    split; [reflexivity|]. split; [reflexivity|]. exists [1%Z; 0%Z]. split; reflexivity.
  - unfold hw3d_rhs, hw_common.
    assert (I0 : fidx s_swap "ne" = FOk 1%Z) by reflexivity. assert (I1 : fidx s_swap "w" = FOk 0%Z) by reflexivity.
    assert (I2 : fidx s_swap "phi" = FOk 2%Z) by reflexivity. rewrite I0, I1, I2. ax.
    unfold solve_phi. change (oe_helm e (df_00 (hw_d (p_hw 1 1 1))) (df_11 (hw_d (p_hw 1 1 1)))
       (if (fs_mesh s_swap =? 3)%nat then Some (df_22 (hw_d (p_hw 1 1 1))) else None) nf) with nf.
    change (hw_B (p_hw 1 1 1)) with (Bz 1). rewrite (calc_ExB_ok e s_swap 1 nf eq_refl ltac:(lra)). cbn [fbind].
    unfold drift at 1. rewrite elec_is_drift by reflexivity. fold (drift e 1 nf). cbn [fbind map].
    assert (HA : forall f, advect1 e s_swap {| ao_flux := drift e 1 nf; ao_norm := drift e 1 nf |} (drift e 1 nf) f
      = FOk (advection e (drift e 1 nf) f)) by (intros f; apply advect1_ok; cbn; auto).
    unfold add_adv_terms. cbn [adv_collect adv_subtract]. rewrite !I0, !I1. ax. rewrite !HA. ax. unfold upd. ax. cbn [fst snd]. ax.
    unfold hw_tail, upd. rewrite I0. ax. change (fs_part s_swap) with false. cbv iota. cbn [fbind]. eexists. reflexivity.
Qed.
(** A session that lists the potential before the vorticity passes the checks, and the right hand side reads out of bounds. *)
Definition s_mid : fsess :=
  {| fs_vars := ["ne"; "phi"; "w"]%string; fs_mesh := 3; fs_space := 3; fs_part := false; fs_npts := 16 |}.
Lemma mid_order e p (nf wf pf : fld) : hw_start s_mid [nf; pf; wf] [nf; wf] /\
  hw3d_rhs e s_mid p [nf; pf; wf] [nf; wf] = FUB /\ hw2d_rhs e s_mid p [nf; pf; wf] [nf; wf] = FUB.
Proof.
  split.
  - split; [split; [reflexivity|]; split; [reflexivity|]; repeat constructor; cbn; intuition discriminate|].
    split; [reflexivity|]. split; [reflexivity|]. exists [0%Z; 2%Z]. split; reflexivity.
  - split; reflexivity.
Qed.

(** HW2D: the coupling uses the density held by m_fields, not the one passed by the integrator. *)
Lemma hw2d_stage : let e := genv (fun g => g) in let one : fld := fun _ => 1 in
  exists dn dw, hw2d_rhs e s_hw (p_hw 1 0 1) [vzero; vzero; vzero] [one; vzero] = FOk (vzero, [dn; dw]) /\
  dn 0%nat = 0 /\ hw_dn e 1 0 vzero one (coupling2 1 vzero one) vzero 0%nat = -1.
Proof.
  intros e one.
  pose proof (hw2d_ok e s_hw {| df_00 := 1; df_11 := 1; df_22 := 1 |} 1 0 1 [vzero; vzero; vzero] one vzero vzero vzero s_hw_ok ltac:(lra)
    (Nat.le_refl 3) eq_refl eq_refl eq_refl) as H.
  cbv zeta in H. do 2 eexists. split; [exact H|]. unfold hw_dn. unfold e.
  change (oe_helm (genv (fun g : fld => g)) (df_00 {| df_00 := 1; df_11 := 1; df_22 := 1 |}) (df_11 {| df_00 := 1; df_11 := 1; df_22 := 1 |})
    (Some (df_22 {| df_00 := 1; df_11 := 1; df_22 := 1 |})) vzero) with vzero.
  rewrite !g_adv0. unfold coupling2, dY, vzero, one. cbn. split; lra.
Qed.

(** validate_fields: every required name is a variable. *)
Lemma fget_idx_nonneg s n : (0 <=? fget_idx s n)%Z = true <-> In n (fs_vars s).
Proof.
  destruct (fim_spec (fs_vars s) n) as (Hin & Hout). unfold fget_idx. split; intros H.
  - destruct (in_dec String.string_dec n (fs_vars s)) as [|Hn]; [assumption|]. destruct (Hout Hn) as (E & _). rewrite E in H. discriminate.
  - destruct (Hin H) as (k & _ & _ & E & _). rewrite E. apply Z.leb_le. lia.
Qed.
Lemma validate_spec s req : validate_fields s req = (if forallb (fun n => if in_dec String.string_dec n (fs_vars s) then true else false) req then FOk tt else FThrow).
Proof.
  induction req as [|n r IH]; [reflexivity|]. cbn [validate_fields forallb].
  destruct (in_dec String.string_dec n (fs_vars s)) as [Hi|Hn].
  - apply fget_idx_nonneg in Hi. rewrite Hi. cbn [fassert fbind]. exact IH.
  - destruct (0 <=? fget_idx s n)%Z eqn:E; [apply fget_idx_nonneg in E; tauto | reflexivity].
Qed.
Lemma validate_ok s req : validate_fields s req = FOk tt <-> Forall (fun n => In n (fs_vars s)) req.
Proof.
  rewrite validate_spec. split.
  - destruct (forallb _ req) eqn:E; [|discriminate]. intros _. apply Forall_forall. intros n Hn. rewrite forallb_forall in E.
    specialize (E n Hn). destruct (in_dec String.string_dec n (fs_vars s)); [assumption|discriminate].
  - intros H. rewrite Forall_forall in H. replace (forallb _ req) with true; [reflexivity|]. symmetry. apply forallb_forall.
    intros n Hn. destruct (in_dec String.string_dec n (fs_vars s)); [reflexivity|]. exfalso. auto.
Qed.
