(** Orders of vanishing at 0+. *)
From Coq Require Import Reals Lra Lia.
Open Scope R_scope.

Definition bO (n : nat) (f : R -> R) : Prop := exists C, 0 <= C /\ forall y, 0 < y <= 1 -> Rabs (f y) <= C * y ^ n.
Lemma O_ext n f g : (forall y, 0 < y <= 1 -> f y = g y) -> bO n f -> bO n g.
Proof. intros E (C & HC & H). exists C. split; [exact HC|]. intros y Hy. rewrite <- E by exact Hy. apply H, Hy. Qed.
Lemma O_add n f g : bO n f -> bO n g -> bO n (fun y => f y + g y).
Proof.
  intros (C & HC & H) (D & HD & K). exists (C + D). split; [lra|]. intros y Hy. eapply Rle_trans; [apply Rabs_triang|]. specialize (H y Hy). specialize (K y Hy). lra.
Qed.
Lemma O_scal n c f : bO n f -> bO n (fun y => c * f y).
Proof.
  intros (C & HC & H). exists (Rabs c * C). split; [apply Rmult_le_pos; [apply Rabs_pos|exact HC]|]. intros y Hy. rewrite Rabs_mult, Rmult_assoc. apply Rmult_le_compat_l; [apply Rabs_pos|apply H, Hy].
Qed.
Lemma O_sub n f g : bO n f -> bO n g -> bO n (fun y => f y - g y).
Proof. intros H K. apply (O_ext n (fun y => f y + -1 * g y)); [intros; ring|]. apply O_add; [exact H|]. apply (O_scal n (-1) g K). Qed.
Lemma O_mul n m f g : bO n f -> bO m g -> bO (n + m) (fun y => f y * g y).
Proof.
  intros (C & HC & H) (D & HD & K). exists (C * D). split; [apply Rmult_le_pos; assumption|]. intros y Hy. rewrite Rabs_mult, pow_add. specialize (H y Hy). specialize (K y Hy).
  replace (C * D * (y ^ n * y ^ m)) with ((C * y ^ n) * (D * y ^ m)) by ring. apply Rmult_le_compat; try apply Rabs_pos; assumption.
Qed.
Lemma O_weak n m f : (n <= m)%nat -> bO m f -> bO n f.
Proof.
  intros L (C & HC & H). exists C. split; [exact HC|]. intros y Hy. eapply Rle_trans; [apply H, Hy|]. apply Rmult_le_compat_l; [exact HC|]. replace m with (n + (m - n))%nat by lia. rewrite pow_add.
  assert (0 <= y ^ n) by (apply pow_le; lra). assert (y ^ (m - n) <= 1) by (rewrite <- (pow1 (m - n)); apply pow_incr; lra). nra.
Qed.
Lemma O_pow n : bO n (fun y => y ^ n).
Proof. exists 1. split; [lra|]. intros y Hy. rewrite Rabs_pos_eq by (apply pow_le; lra). lra. Qed.
Lemma O_const c : bO 0 (fun _ => c).
Proof. exists (Rabs c). split; [apply Rabs_pos|]. intros. simpl. lra. Qed.
Lemma O_id : bO 1 (fun y => y).
Proof. apply (O_ext 1 (fun y => y ^ 1)); [intros; ring|apply O_pow]. Qed.
Lemma O_bound n f C : 0 <= C -> (forall y, 0 < y <= 1 -> Rabs (f y) <= C * y ^ n) -> bO n f.
Proof. intros H K. exists C. auto. Qed.
Lemma O_dom n f g : (forall y, 0 < y <= 1 -> Rabs (f y) <= Rabs (g y)) -> bO n g -> bO n f.
Proof. intros E (C & HC & H). exists C. split; [exact HC|]. intros y Hy. eapply Rle_trans; [apply E, Hy|apply H, Hy]. Qed.

(** ln(1+u) to fourth order, for u >= 0 *)
Lemma monotone_pos (f f' : R -> R) : (forall x, 0 <= x -> derivable_pt_lim f x (f' x)) -> (forall x, 0 <= x -> 0 <= f' x) -> f 0 = 0 -> forall u, 0 <= u -> 0 <= f u.
Proof.
  intros D P Z u Hu. destruct (Req_dec u 0) as [->|Hn]; [lra|]. assert (Hlt : 0 < u) by lra. destruct (MVT_cor2 f f' 0 u Hlt) as (c & E & Hc); [intros; apply D; lra|]. rewrite Z in E. assert (0 <= f' c) by (apply P; lra). nra.
Qed.
Lemma dlim_ln1 x : 0 <= x -> derivable_pt_lim (fun u => ln (1 + u)) x (/ (1 + x)).
Proof.
  intros H. replace (/ (1 + x)) with (/ (1 + x) * 1) by ring. apply (derivable_pt_lim_comp (fun u => 1 + u) ln).
  - pose proof (derivable_pt_lim_plus (fct_cte 1) id x 0 1 (derivable_pt_lim_const 1 x) (derivable_pt_lim_id x)) as K. rewrite Rplus_0_l in K. exact K.
  - apply derivable_pt_lim_ln. lra.
Qed.
Lemma ln_taylor u : 0 <= u -> Rabs (ln (1 + u) - (u - u ^ 2 / 2 + u ^ 3 / 3)) <= u ^ 4.
Proof.
  intros Hu.
  assert (D' : forall a x, derivable_pt_lim (fun u => u - u ^ 2 / 2 + u ^ 3 / 3 + a * u ^ 4) x (1 - x + x ^ 2 + 4 * a * x ^ 3)).
  { intros a x. assert (E : 1 - x + x ^ 2 + 4 * a * x ^ 3 = 1 - / 2 * (INR 2 * x ^ 1) + / 3 * (INR 3 * x ^ 2) + a * (INR 4 * x ^ 3)) by (simpl INR; simpl pow; field). rewrite E.
    assert (K2 := derivable_pt_lim_scal _ (/ 2) x _ (derivable_pt_lim_pow x 2)). assert (K3 := derivable_pt_lim_scal _ (/ 3) x _ (derivable_pt_lim_pow x 3)). assert (K4 := derivable_pt_lim_scal _ a x _ (derivable_pt_lim_pow x 4)).
    pose proof (derivable_pt_lim_plus _ _ _ _ _ (derivable_pt_lim_plus _ _ _ _ _ (derivable_pt_lim_minus _ _ _ _ _ (derivable_pt_lim_id x) K2) K3) K4) as K. simpl Nat.pred in K.
    intros eps He. destruct (K eps He) as [d Hd]. exists d. intros h Hh Hl. specialize (Hd h Hh Hl). unfold plus_fct, minus_fct, mult_real_fct, id in Hd. match goal with |- Rabs ?A < _ => match type of Hd with Rabs ?B < _ => replace A with B; [exact Hd|] end end. field. exact Hh. }
  assert (L : 0 <= ln (1 + u) - (u - u ^ 2 / 2 + u ^ 3 / 3 + - 1 / 4 * u ^ 4)).
  { apply (monotone_pos (fun u => ln (1 + u) - (u - u ^ 2 / 2 + u ^ 3 / 3 + - 1 / 4 * u ^ 4)) (fun x => / (1 + x) - (1 - x + x ^ 2 + 4 * (- 1 / 4) * x ^ 3))); [| | |exact Hu].
    - intros x Hx. apply derivable_pt_lim_minus; [apply dlim_ln1, Hx|apply D'].
    - intros x Hx. replace (/ (1 + x) - (1 - x + x ^ 2 + 4 * (-1 / 4) * x ^ 3)) with (x ^ 4 / (1 + x)) by (field; lra). apply Rmult_le_pos; [apply pow_le, Hx|apply Rlt_le, Rinv_0_lt_compat; lra].
    - rewrite Rplus_0_r, ln_1. simpl. lra. }
  assert (U : 0 <= (u - u ^ 2 / 2 + u ^ 3 / 3 + 0 * u ^ 4) - ln (1 + u)).
  { apply (monotone_pos (fun u => (u - u ^ 2 / 2 + u ^ 3 / 3 + 0 * u ^ 4) - ln (1 + u)) (fun x => (1 - x + x ^ 2 + 4 * 0 * x ^ 3) - / (1 + x))); [| | |exact Hu].
    - intros x Hx. apply derivable_pt_lim_minus; [apply D'|apply dlim_ln1, Hx].
    - intros x Hx. replace (1 - x + x ^ 2 + 4 * 0 * x ^ 3 - / (1 + x)) with (x ^ 3 / (1 + x)) by (field; lra). apply Rmult_le_pos; [apply pow_le, Hx|apply Rlt_le, Rinv_0_lt_compat; lra].
    - rewrite Rplus_0_r, ln_1. simpl. lra. }
  assert (0 <= u ^ 4) by (apply pow_le, Hu). apply Rabs_le. lra.
Qed.
