(** Lemmas for C111. *)
From Coq Require Import Permutation.
From Flocq Require Import Core.
From Verif Require Import M_RealBase L_RealBase M_Grid M_Double S_Double L_Double L_Double2 M_BorisD S_BorisD L_BorisD M_Pic M_SumD S_SumD.
From Coq Require Import Reals Lra Lia List.
Import ListNotations.
Open Scope R_scope.

Definition g (k : nat) : R := (1 + u) ^ k.
Lemma g_ge1 k : 1 <= g k.
Proof. unfold g. pose proof u_pos. apply pow_R1_Rle. lra. Qed.
Lemma g_S k : g (S k) = (1 + u) * g k. Proof. reflexivity. Qed.
Lemma g_add a b : g (a + b) = g a * g b. Proof. apply pow_add. Qed.
Lemma g_mono a b : (a <= b)%nat -> g a <= g b.
Proof. intros. unfold g. pose proof u_pos. apply Rle_pow; [lra|auto]. Qed.
Definition off (k : nat) (x y m : R) : Prop := Rabs y <= m /\ Rabs (x - y) <= (g k - 1) * m.
Lemma off_abs k x y m : off k x y m -> Rabs x <= g k * m.
Proof. intros [A B]. replace x with (y + (x - y)) by ring. eapply Rle_trans; [apply Rabs_triang|]. lra. Qed.
Lemma off_pos k x y m : off k x y m -> 0 <= m. Proof. intros [A _]. pose proof (Rabs_pos y). lra. Qed.
Lemma off_refl x : off 0 x x (Rabs x).
Proof. split; [lra|]. unfold g. rewrite Rminus_diag_eq, Rabs_R0 by reflexivity. cbn. lra. Qed.
Lemma off_le a b x y m : (a <= b)%nat -> off a x y m -> off b x y m.
Proof. intros H H1. pose proof (off_pos _ _ _ _ H1). destruct H1 as [A B]. split; auto. pose proof (g_mono _ _ H). eapply Rle_trans; [exact B|]. apply Rmult_le_compat_r; lra. Qed.
Lemma off_add k x y m x' y' m' : off k x y m -> off k x' y' m' -> off k (x + x') (y + y') (m + m').
Proof.
  intros [A B] [A' B']. split; [eapply Rle_trans; [apply Rabs_triang|lra]|]. replace (x + x' - (y + y')) with ((x - y) + (x' - y')) by ring.
  eapply Rle_trans; [apply Rabs_triang|lra].
Qed.
Lemma off_mul a b x y m x' y' m' : off a x y m -> off b x' y' m' -> off (a + b) (x * x') (y * y') (m * m').
Proof.
  intros H H'. pose proof (off_pos _ _ _ _ H). pose proof (off_pos _ _ _ _ H'). pose proof (off_abs _ _ _ _ H). destruct H as [A B], H' as [A' B'].
  pose proof (g_ge1 a). pose proof (g_ge1 b). split; [rewrite Rabs_mult; apply Rmult_le_compat; auto; apply Rabs_pos|]. rewrite g_add.
  replace (x * x' - y * y') with ((x - y) * y' + x * (x' - y')) by ring. eapply Rle_trans; [apply Rabs_triang|]. rewrite !Rabs_mult.
  assert (Rabs (x - y) * Rabs y' <= ((g a - 1) * m) * m') by (apply Rmult_le_compat; auto; apply Rabs_pos).
  assert (Rabs x * Rabs (x' - y') <= (g a * m) * ((g b - 1) * m')) by (apply Rmult_le_compat; auto; apply Rabs_pos).
  replace ((g a * g b - 1) * (m * m')) with ((g a - 1) * m * m' + g a * m * ((g b - 1) * m')) by ring. lra.
Qed.
Lemma off_rnd k x y m r : (exists d, Rabs d <= u /\ r = x * (1 + d)) -> off k x y m -> off (S k) r y m.
Proof.
  intros (d & D & ->) H. pose proof (off_pos _ _ _ _ H). pose proof (off_abs _ _ _ _ H). destruct H as [A B]. split; auto. rewrite g_S.
  replace (x * (1 + d) - y) with ((x - y) + d * x) by ring. eapply Rle_trans; [apply Rabs_triang|]. rewrite Rabs_mult.
  assert (Rabs d * Rabs x <= u * (g k * m)) by (apply Rmult_le_compat; auto; apply Rabs_pos).
  replace (((1 + u) * g k - 1) * m) with ((g k - 1) * m + u * (g k * m)) by ring. lra.
Qed.
Lemma fmt_d x : is_double x -> fmt x. Proof. intros H. apply is_double_fmt in H. tauto. Qed.
Lemma dbl_0 : is_double 0. Proof. apply is_double_fmt. split; [apply fmt_0|]. rewrite Rabs_R0. apply bpow_gt_0. Qed.
(** a rounded sum *)
Lemma sum_off k x y m x' y' m' : is_double x -> is_double x' -> off k x y m -> off k x' y' m' -> g k * (m + m') <= bpow radix2 1023 ->
  exists r, fl (x + x') = Some r /\ is_double r /\ off (S k) r (y + y') (m + m').
Proof.
  intros D D' H H' B. pose proof (off_add _ _ _ _ _ _ _ H H') as O. exists (rnd (x + x')).
  assert (E : fl (x + x') = Some (rnd (x + x'))). { apply (fl_bpow _ 1023); [lia|]. eapply Rle_trans; [apply (off_abs _ _ _ _ O)|exact B]. }
  split; [exact E|]. split; [eapply fl_double; eauto|]. apply (off_rnd k (x + x')); [|exact O]. apply rnd_plus; apply fmt_d; auto.
Qed.
(** a rounded value that is zero or not too small *)
Definition low (k : Z) (x : R) : Prop := x = 0 \/ bpow radix2 (- k) <= Rabs x.
Lemma low_off j k x y m : (0 <= j <= 1022)%Z -> low j x -> off k x y m -> g k * m <= bpow radix2 1023 ->
  exists r, fl x = Some r /\ is_double r /\ off (S k) r y m /\ low j r.
Proof.
  intros Hj L O B. exists (rnd x). assert (E : fl x = Some (rnd x)). { apply (fl_bpow _ 1023); [lia|]. eapply Rle_trans; [apply (off_abs _ _ _ _ O)|exact B]. }
  split; [exact E|]. split; [eapply fl_double; eauto|]. destruct L as [->|L].
  - rewrite rnd_0. split; [|left; auto]. apply (off_rnd k 0); auto. exists 0. split; [rewrite Rabs_R0; left; apply u_pos|ring].
  - split; [|right; rewrite rabs_rnd; apply rnd_ge; [apply fmt_bpow; lia|auto]]. apply (off_rnd k x); auto. apply rnd_normal. eapply Rle_trans; [|exact L]. apply bpow_le. lia.
Qed.

(** ** Trees of additions *)
Lemma total_app l l' : total (l ++ l') = total l + total l'.
Proof. unfold total. induction l; cbn; [ring|]. rewrite IHl. ring. Qed.
Lemma total_perm l l' : Permutation l l' -> total l = total l'.
Proof. unfold total. intros H. induction H; cbn; [lra|now rewrite IHPermutation|lra|congruence]. Qed.
Lemma total_pos l : Forall (fun x => 0 <= x) l -> 0 <= total l.
Proof. unfold total. intros H. induction H; cbn; lra. Qed.
Lemma total_nonneg {A} (m : A -> R) l : (forall a, In a l -> 0 <= m a) -> 0 <= total (map m l).
Proof. intros H. apply total_pos. apply Forall_forall. intros x Hx. apply in_map_iff in Hx. destruct Hx as (a & <- & Ha). auto. Qed.
Lemma tree_off {A} (f : A -> option R) (e m : A -> R) k (t : addtree A) :
  (forall a, In a (leaves t) -> exists x, f a = Some x /\ is_double x /\ off k x (e a) (m a)) ->
  g (k + height t) * total (map m (leaves t)) <= bpow radix2 1023 ->
  exists r, add_up f t = Some r /\ is_double r /\ off (k + height t) r (total (map e (leaves t))) (total (map m (leaves t))).
Proof.
  induction t as [|a|l IHl r IHr]; cbn [leaves height add_up]; intros H B.
  - exists 0. split; [auto|]. split; [apply dbl_0|]. cbn. split; rewrite ?Rminus_0_r, Rabs_R0; lra.
  - destruct (H a) as (x & E & D & O); [left; auto|]. exists x. split; [auto|]. split; [auto|]. rewrite Nat.add_0_r. cbn. rewrite !Rplus_0_r. auto.
  - rewrite !map_app, !total_app in *.
    assert (Pl : 0 <= total (map m (leaves l))). { apply total_nonneg. intros a Ha. destruct (H a) as (x & _ & _ & O); [apply in_or_app; auto|]. apply (off_pos _ _ _ _ O). }
    assert (Pr : 0 <= total (map m (leaves r))). { apply total_nonneg. intros a Ha. destruct (H a) as (x & _ & _ & O); [apply in_or_app; auto|]. apply (off_pos _ _ _ _ O). }
    set (ml := total (map m (leaves l))) in *. set (mr := total (map m (leaves r))) in *. set (h := Nat.max (height l) (height r)) in *.
    assert (Bh : g (k + h) * (ml + mr) <= bpow radix2 1023). { eapply Rle_trans; [|exact B]. apply Rmult_le_compat_r; [lra|]. apply g_mono. lia. }
    pose proof (g_ge1 (k + height l)). pose proof (g_ge1 (k + height r)). assert (Gl : g (k + height l) <= g (k + h)) by (apply g_mono; lia). assert (Gr : g (k + height r) <= g (k + h)) by (apply g_mono; lia).
    destruct IHl as (x & E1 & D1 & O1). { intros a Ha. apply H. apply in_or_app. auto. } { eapply Rle_trans; [|exact Bh]. apply Rmult_le_compat; lra. }
    destruct IHr as (y & E2 & D2 & O2). { intros a Ha. apply H. apply in_or_app. auto. } { eapply Rle_trans; [|exact Bh]. apply Rmult_le_compat; lra. }
    rewrite E1, E2. cbn [bind]. rewrite Nat.add_succ_r. apply (sum_off (k + h)); auto.
    + apply (off_le (k + height l)); [lia|auto].
    + apply (off_le (k + height r)); [lia|auto].
Qed.
Lemma height_one {A} (l : list A) : forall t : addtree A, height (fold_left (fun t a => APlus t (AVal a)) l t) = (height t + length l)%nat.
Proof. induction l as [|a l IH]; intros t; cbn [fold_left length]; [lia|]. rewrite IH. cbn [height]. lia. Qed.
Lemma leaves_one {A} (l : list A) : forall t : addtree A, leaves (fold_left (fun t a => APlus t (AVal a)) l t) = leaves t ++ l.
Proof. induction l as [|a l IH]; intros t; cbn [fold_left]; [now rewrite app_nil_r|]. rewrite IH. cbn [leaves]. rewrite <- app_assoc. reflexivity. Qed.
Lemma leaves_ranks {A} (ls : list (list A)) : forall t : addtree A, leaves (fold_left (fun t l => APlus t (one_by_one l)) ls t) = leaves t ++ concat ls.
Proof.
  induction ls as [|l ls IH]; intros t; cbn [fold_left concat]; [now rewrite app_nil_r|]. rewrite IH. cbn [leaves]. unfold one_by_one. rewrite leaves_one. cbn [leaves app]. now rewrite app_assoc.
Qed.
(** ** (1+u)^k *)
Lemma g_lin k : INR k * u <= 1 / 2 -> g k <= 1 + 2 * INR k * u.
Proof.
  intros H. pose proof u_pos. pose proof u_small. pose proof (pos_INR k).
  assert (G : forall n, INR n * u <= 1 / 2 -> g n * (1 - INR n * u) <= 1).
  { intros n. induction n as [|n IH]; intros Hn; [cbn; lra|]. rewrite S_INR in *. pose proof (pos_INR n). pose proof (g_ge1 n). rewrite g_S. specialize (IH ltac:(lra)).
    assert (HK : 0 <= INR n * u) by (apply Rmult_le_pos; lra).
    replace ((1 + u) * g n * (1 - (INR n + 1) * u)) with (g n * ((1 + u) * (1 - (INR n + 1) * u))) by ring.
    apply Rle_trans with (g n * (1 - INR n * u)); [|exact IH]. apply Rmult_le_compat_l; [lra|]. nra. }
  specialize (G k H). pose proof (g_ge1 k). assert (HK : 0 <= INR k * u) by (apply Rmult_le_pos; lra).
  apply Rmult_le_reg_r with (1 - INR k * u); [lra|]. eapply Rle_trans; [exact G|]. nra.
Qed.
