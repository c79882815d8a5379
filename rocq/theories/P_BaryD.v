(** C113: interpolation on the nodes of an element in double precision. *)
From Flocq Require Import Core.
From Verif Require Import M_RealBase L_RealBase M_Grid M_Double S_Double L_Double L_Double2 M_BorisD S_Loop L_Loop S_Bary P_Bary L_SumD M_BaryD S_BaryD L_BaryD P_Double.
From Coq Require Import Reals Lra Lia ZArith List Bool.
Import ListNotations.
Open Scope R_scope.

Lemma L_ge1 n x z bw w L : direction_ok n x z bw w L -> 1 <= L.
Proof.
  intros (_ & Hd & Hw & HL). destruct (C43_sum_and_nodes n z bw x w Hd Hw) as [H _]. eapply Rle_trans; [|exact HL]. rewrite <- H. eapply Rle_trans; [apply Rle_abs|apply sumn_abs].
Qed.
Lemma tau_eq n L : weight_error n L = tau n L.
Proof. unfold weight_error, tau. rewrite u_eq. reflexivity. Qed.
Lemma dir_w n x z bw w L : direction_ok n x z bw w L -> weight_error n L <= 1 / 2 -> exists G, fac G (tau n L) /\ weight_ok G (preprocess_weights_d n x z bw) n w.
Proof. intros H E. pose proof (L_ge1 _ _ _ _ _ _ H) as L1. rewrite tau_eq in E. destruct H as (H1 & H2 & H3 & H4). apply weights_d; auto. Qed.
Lemma near_out G x y m s : near G x y m -> fac G s -> s <= 1 / 2 -> Rabs (x - y) <= 2 * s * m.
Proof. intros N F H. pose proof (near_pos _ _ _ _ N). destruct N as (_ & _ & N). eapply Rle_trans; [exact N|]. apply Rmult_le_compat_r; auto. apply fac_bound; auto. Qed.
Lemma tau0 n L : 1 <= L -> 0 <= tau n L.
Proof. intros. unfold tau. pose proof u_pos. pose proof (pos_INR n). apply Rmult_le_pos; [apply Rmult_le_pos; lra|lra]. Qed.

(** Every weight is computed, with a small relative error; on a node exactly. *)
Theorem C113_weights n x z bw w L : direction_ok n x z bw w L -> weight_error n L <= 1 / 2 -> forall i, (i < n)%nat ->
  exists r, preprocess_weights_d n x z bw i = Some r /\ is_double r /\ Rabs (r - w i) <= 2 * weight_error n L * Rabs (w i) /\ ((exists k, (k < n)%nat /\ z k = x) -> r = w i).
Proof.
  intros H E i Hi. destruct (dir_w _ _ _ _ _ _ H E) as (G & F & W). destruct (W i Hi) as (r & Er & Dr & Nr & _). exists r. split; [auto|]. split; [auto|]. split.
  - rewrite tau_eq in *. apply (near_out G); auto.
  - intros (k & Hk & Ek). destruct H as (HD & Hdis & [(k' & Hk' & Ek' & W1 & W0)|(Hx & _)] & _); [|exfalso; apply (Hx k); auto]. revert Er. unfold preprocess_weights_d.
    assert (k = k') by (apply Hdis; auto; congruence). subst k'. destruct HD as (_ & Dx & Bx & Hd & _).
    destruct (find (on_node_d z x) (seq 0 n)) as [j|] eqn:FF.
    + apply find_some in FF as [Fi Ft]. apply in_seq in Fi. destruct (Hd j ltac:(lia)) as (Dz & Bz & _). destruct (on_node_iff z x j Dz Dx Bz Bx) as (_ & _ & _ & O & _).
      apply O in Ft. assert (j = k) by (apply Hdis; [lia|auto|congruence]). subst j. destruct (Nat.eqb_spec i k) as [->|Ne]; intros T; injection T as <-; [auto|symmetry; auto].
    + exfalso. pose proof (List.find_none _ _ FF k) as FN. destruct (Hd k Hk) as (Dz & Bz & _). destruct (on_node_iff z x k Dz Dx Bz Bx) as (_ & _ & _ & O & _).
      rewrite (proj2 O Ek) in FN. discriminate FN. apply in_seq. lia.
Qed.
Print Assumptions C113_weights.
(** The lanes of the blocked version compute the same weights. *)
Theorem C113_lane n x z bw : (forall i, (i < n)%nat -> is_double (z i) /\ Rabs (z i) <= 1) -> is_double x -> Rabs x <= 2 -> distinct n z ->
  forall i, (i < n)%nat -> preprocess_lane_d n x z bw i = preprocess_weights_d n x z bw i.
Proof.
  intros Hd Dx Bx Hdis i Hi. unfold preprocess_lane_d, preprocess_weights_d.
  assert (O : forall j, (j < n)%nat -> on_node_d z x j = true <-> z j = x). { intros j Hj. destruct (Hd j Hj) as (Dz & Bz). destruct (on_node_iff z x j Dz Dx Bz Bx) as (_ & _ & _ & O & _). auto. }
  destruct (find (on_node_d z x) (seq 0 n)) as [k|] eqn:F.
  - apply find_some in F as [Fi Ft]. assert (EX : existsb (on_node_d z x) (seq 0 n) = true) by (apply existsb_exists; eauto). rewrite EX. apply in_seq in Fi. apply O in Ft; [|lia].
    destruct (Nat.eqb_spec i k) as [->|Ne].
    + rewrite (proj2 (O k ltac:(lia)) Ft). rewrite Rmult_1_r. apply (fl_is 1 0); [cbn; lra|lia|lia].
    + destruct (on_node_d z x i) eqn:Oi; [apply O in Oi; [|auto]; exfalso; apply Ne; apply Hdis; [auto|lia|congruence]|]. rewrite Rmult_0_l. apply (fl_is 0 0); [cbn; lra|lia|lia].
  - assert (EX : existsb (on_node_d z x) (seq 0 n) = false).
    { apply not_true_is_false. intros T. apply existsb_exists in T as (k & Hk & Tk). rewrite (List.find_none _ _ F k Hk) in Tk. discriminate. }
    rewrite EX. reflexivity.
Qed.
Print Assumptions C113_lane.

Section EVAL.
Lemma nodal_range v : nodal v -> is_double v /\ (v = 0 \/ / 2 ^ 200 <= Rabs v) /\ Rabs v <= 2 ^ 200.
Proof. intros [D [->|[A B]]]; (split; [auto|]); [rewrite Rabs_R0; split; [auto|apply pow_le; lra]|auto]. Qed.
Lemma small_prod a b ka kb : (a = 0 \/ / 2 ^ ka <= a) -> (b = 0 \/ / 2 ^ kb <= b) -> a * b = 0 \/ / 2 ^ (ka + kb) <= a * b.
Proof.
  intros [->|A] [->|B]; [left; ring|left; ring|left; ring|right]. rewrite pow_add, Rinv_mult. apply Rmult_le_compat; auto; left; apply Rinv_0_lt_compat; apply pow_lt; lra.
Qed.
Lemma small_weak k a : (k <= 900)%nat -> (a = 0 \/ / 2 ^ k <= a) -> small_or a.
Proof. intros K [->|H]; [left; auto|right]. eapply Rle_trans; [|exact H]. apply pw. auto. Qed.
Lemma abs_or a k : (a = 0 \/ / 2 ^ k <= Rabs a) -> (Rabs a = 0 \/ / 2 ^ k <= Rabs a).
Proof. intros [->|H]; [left; apply Rabs_R0|auto]. Qed.
Lemma prod_le a b ka kb : 0 <= a -> 0 <= b -> a <= 2 ^ ka -> b <= 2 ^ kb -> a * b <= 2 ^ (ka + kb).
Proof. intros. rewrite pow_add. apply Rmult_le_compat; auto. Qed.
Lemma le_1000 G a k : G <= 2 -> 0 <= a -> a <= 2 ^ k -> (k <= 900)%nat -> G * a <= 2 ^ 1000.
Proof.
  intros HG A H K. apply Rle_trans with (2 * a); [apply Rmult_le_compat_r; auto|]. apply pow_900. eapply Rle_trans; [exact H|]. apply Rle_pow; [lra|auto].
Qed.
(** the rounded product *)
Lemma prod_d G0 G1 a b ea eb ka kb ha hb : near G0 a ea (Rabs ea) -> near G1 b eb (Rabs eb) -> G0 * G1 <= 2 -> (ea = 0 \/ / 2 ^ ka <= Rabs ea) -> (eb = 0 \/ / 2 ^ kb <= Rabs eb) ->
  Rabs ea <= 2 ^ ha -> Rabs eb <= 2 ^ hb -> (ka + kb <= 900)%nat -> (ha + hb <= 900)%nat ->
  exists p, fl (a * b) = Some p /\ is_double p /\ near (G0 * G1 * g 2) p (ea * eb) (Rabs (ea * eb)) /\ (ea * eb = 0 \/ / 2 ^ (ka + kb) <= Rabs (ea * eb)) /\ Rabs (ea * eb) <= 2 ^ (ha + hb).
Proof.
  intros N N' HG S S' B B' K H. pose proof (near_mul _ _ _ _ _ _ _ _ N N') as NM. rewrite <- Rabs_mult in NM.
  assert (SS : ea * eb = 0 \/ / 2 ^ (ka + kb) <= Rabs (ea * eb)).
  { destruct S as [->|S]; [left; ring|]. destruct S' as [->|S']; [left; ring|]. right. rewrite Rabs_mult, pow_add, Rinv_mult. apply Rmult_le_compat; auto; left; apply Rinv_0_lt_compat; apply pow_lt; lra. }
  assert (BB : Rabs (ea * eb) <= 2 ^ (ha + hb)) by (rewrite Rabs_mult; apply prod_le; auto; apply Rabs_pos).
  destruct (near_rnd _ _ _ _ NM) as (p & E & D & P).
  - apply (small_weak (ka + kb)); auto. apply abs_or. auto.
  - apply (le_1000 _ _ (ha + hb)); auto. apply Rabs_pos.
  - exists p. auto.
Qed.
Lemma size_bound n m B : (forall i, (i < n)%nat -> 0 <= m i <= B) -> INR n <= 2 ^ 20 -> 0 <= B -> 0 <= sumn n m <= 2 ^ 20 * B.
Proof.
  intros H Hn HB. split; [apply sumn_nonneg; intros; apply H; auto|]. eapply Rle_trans; [apply sumn_le; intros; apply H; auto|]. apply Rmult_le_compat_r; auto.
Qed.
End EVAL.
Lemma facI (k : nat) : INR k * u <= 1 -> fac (g k) (INR k * u). Proof. apply fac_g. Qed.
Lemma fac2u : fac (g 2) (2 * u). Proof. pose proof (fac_g 2) as X. replace (INR 2) with 2 in X by (cbn; lra). apply X. pose proof u_small. lra. Qed.
Lemma fac_le2 P s : fac P s -> s <= 1 / 2 -> P <= 2.
Proof. intros F H. pose proof (fac_bound P s F H). lra. Qed.
(** One direction: value = sum of weight * nodal value, the products contracted or not. *)
Theorem C113_evaluate_1d f n x z bw w L phys : direction_ok n x z bw w L -> (forall i, (i < n)%nat -> nodal (phys i)) -> error1 n L <= 1 / 2 ->
  exists v, dir_0_d f n phys (preprocess_weights_d n x z bw) = Some v /\ is_double v /\
    Rabs (v - sumn n (fun i => w i * phys i)) <= 2 * error1 n L * sumn n (fun i => Rabs (w i) * Rabs (phys i)).
Proof.
  intros H HP HE. pose proof (L_ge1 _ _ _ _ _ _ H) as L1. pose proof (tau0 n L L1) as T0. pose proof u_pos as u0. pose proof (pos_INR n) as pn.
  assert (NU : 0 <= INR n * u) by (apply Rmult_le_pos; lra). unfold error1 in *. rewrite tau_eq, u_eq in *. destruct (dir_w _ _ _ _ _ _ H) as (G & F & W); [rewrite tau_eq; lra|].
  destruct H as ((Hn & _) & _).
  assert (FT : fac (G * g 2 * g (2 * n)) (tau n L + (2 * INR n + 2) * u)).
  { pose proof (fac_g (2 * n)) as FG. replace (INR (2 * n)) with (2 * INR n) in FG by (rewrite mult_INR; cbn; lra).
    apply (fac_le _ (tau n L + 2 * u + 2 * INR n * u)); [lra|]. apply fac_mul; [apply fac_mul; [auto|apply fac2u|lra]|apply FG; lra|lra]. }
  assert (G1 : 1 <= G * g 2) by (apply ge1_mul; [apply F|apply g_ge1]).
  assert (MB : 0 <= sumn n (fun i => Rabs (w i) * Rabs (phys i)) <= 2 ^ 20 * 2 ^ (50 + 200)).
  { apply size_bound; auto; [|apply pow_le; lra]. intros i Hi. destruct (W i Hi) as (_ & _ & _ & _ & _ & WB). destruct (nodal_range _ (HP i Hi)) as (_ & _ & PB).
    split; [apply Rmult_le_pos; apply Rabs_pos|]. apply prod_le; auto; apply Rabs_pos. }
  destruct (run (G * g 2) (2 * n) G1 2 n (fun ix s => do w <- preprocess_weights_d n x z bw ix; mul_add (f ix) w (phys ix) s) (fun i => w i * phys i) (fun i => Rabs (w i) * Rabs (phys i))) as (v & E & D & N & _).
  - intros i Hi. split; [apply Rmult_le_pos; apply Rabs_pos|]. destruct (W i Hi) as (r & Er & Dr & Nr & Sr & Br). destruct (nodal_range _ (HP i Hi)) as (DP & SP & PB). rewrite Er. cbn [bind].
    apply (step_add (G * g 2) (2 * n) G1 (fac_le2 _ _ FT HE) G).
    + replace G with (G * 1) by ring. apply near_mul; [auto|apply near_refl; lra].
    + apply (small_weak (222 + 200)); [lia|]. apply small_prod; apply abs_or; auto.
    + lra.
  - lia.
  - eapply Rle_trans; [apply MB|]. rewrite <- pow_add. apply Rle_pow; [lra|lia].
  - exists v. split; [exact E|]. split; [auto|]. apply (near_out _ _ _ _ _ N FT HE).
Qed.
Print Assumptions C113_evaluate_1d.
Lemma fac4u : fac (g 4) (4 * u). Proof. pose proof (fac_g 4) as X. replace (INR 4) with 4 in X by (cbn; lra). apply X. pose proof u_small. lra. Qed.
Lemma fac6u : fac (g 6) (6 * u). Proof. pose proof (fac_g 6) as X. replace (INR 6) with 6 in X by (cbn; lra). apply X. pose proof u_small. lra. Qed.
(** Two directions: the scalar evaluation and each function of the interlaced one. *)
Theorem C113_evaluate_2d (interlaced : bool) f n0 n1 x0 x1 z0 z1 bw0 bw1 w0 w1 L0 L1 phys : direction_ok n0 x0 z0 bw0 w0 L0 -> direction_ok n1 x1 z1 bw1 w1 L1 ->
  (forall i j, (i < n0)%nat -> (j < n1)%nat -> nodal (phys i j)) -> error2 n0 n1 L0 L1 <= 1 / 2 ->
  exists v, (if interlaced then dir_10_interlaced_d else dir_10_d) f n0 n1 phys (preprocess_weights_d n0 x0 z0 bw0) (preprocess_weights_d n1 x1 z1 bw1) = Some v /\ is_double v /\
    Rabs (v - tensor2 n0 n1 phys w0 w1) <= 2 * error2 n0 n1 L0 L1 * size2 n0 n1 phys w0 w1.
Proof.
  intros HA HB HP HE. pose proof (L_ge1 _ _ _ _ _ _ HA) as LA. pose proof (L_ge1 _ _ _ _ _ _ HB) as LB. pose proof (tau0 n0 L0 LA) as TA. pose proof (tau0 n1 L1 LB) as TB.
  pose proof u_pos as u0. pose proof (pos_INR n0) as pa. pose proof (pos_INR n1) as pb.
  assert (PU : 0 <= INR n0 * INR n1 * u) by (apply Rmult_le_pos; [apply Rmult_le_pos; auto|lra]). unfold error2 in *. rewrite !tau_eq, u_eq in *.
  destruct (dir_w _ _ _ _ _ _ HA) as (GA & FA & WA); [rewrite tau_eq; lra|]. destruct (dir_w _ _ _ _ _ _ HB) as (GB & FB & WB); [rewrite tau_eq; lra|].
  destruct HA as ((Hn0 & _) & _). destruct HB as ((Hn1 & _) & _). set (GG := GA * GB * g 4).
  set (S := tau n0 L0 + tau n1 L1 + (2 * INR n0 * INR n1 + 4) * u) in *.
  assert (FG : fac GG (tau n0 L0 + tau n1 L1 + 4 * u)) by (unfold GG, S in *; apply fac_mul; [apply fac_mul; [auto|auto|lra]|apply fac4u|lra]).
  assert (FT : fac (GG * g (2 * n0 * n1)) S).
  { pose proof (fac_g (2 * n0 * n1)) as FN. replace (INR (2 * n0 * n1)) with (2 * INR n0 * INR n1) in FN by (rewrite !mult_INR; cbn; lra). unfold S in *.
    apply (fac_le _ (tau n0 L0 + tau n1 L1 + 4 * u + 2 * INR n0 * INR n1 * u)); [lra|]. apply fac_mul; [auto|apply FN; lra|lra]. }
  assert (G1 : 1 <= GG) by apply FG. pose proof (fac_le2 _ _ FT HE) as HK.
  assert (gA : 1 <= GA) by apply FA. assert (gB : 1 <= GB) by apply FB. pose proof (g_ge1 2) as g2. pose proof (g_ge1 4) as g4.
  assert (E4 : g 2 * g 2 = g 4) by (symmetry; apply (g_add 2 2)).
  assert (GG2 : GG <= 2) by (apply (fac_le2 _ _ FG); unfold S in *; lra).
  assert (GAB : GA * GB <= 2). { eapply Rle_trans; [|exact GG2]. unfold GG. rewrite <- (Rmult_1_r (GA * GB)) at 1. apply Rmult_le_compat_l; [apply Rmult_le_pos; lra|auto]. }
  assert (GA2 : GA <= 2). { eapply Rle_trans; [|exact GAB]. rewrite <- (Rmult_1_r GA) at 1. apply Rmult_le_compat_l; lra. }
  set (mm := fun i1 i0 : nat => Rabs (phys i0 i1) * Rabs (w0 i0) * Rabs (w1 i1)).
  assert (MI : forall i1 i0, (i1 < n1)%nat -> (i0 < n0)%nat -> 0 <= mm i1 i0 <= 2 ^ (200 + 50 + 50)).
  { intros i1 i0 H1 H0. destruct (WA i0 H0) as (_ & _ & _ & _ & _ & BA). destruct (WB i1 H1) as (_ & _ & _ & _ & _ & BB). destruct (nodal_range _ (HP i0 i1 H0 H1)) as (_ & _ & PB). unfold mm.
    split; [repeat apply Rmult_le_pos; apply Rabs_pos|]. apply prod_le; auto; [repeat apply Rmult_le_pos; apply Rabs_pos|apply Rabs_pos|]. apply prod_le; auto; apply Rabs_pos. }
  assert (MR : forall i1, (i1 < n1)%nat -> 0 <= sumn n0 (mm i1) <= 2 ^ 20 * 2 ^ (200 + 50 + 50)) by (intros i1 H1; apply size_bound; auto; apply pow_le; lra).
  assert (MT : 0 <= sumn n1 (fun i1 => sumn n0 (mm i1)) <= 2 ^ 20 * (2 ^ 20 * 2 ^ (200 + 50 + 50))) by (apply size_bound; auto; apply Rmult_le_pos; apply pow_le; lra).
  assert (ST : forall i1 i0 c1, (i1 < n1)%nat -> (i0 < n0)%nat -> preprocess_weights_d n1 x1 z1 bw1 i1 = Some c1 ->
    step_ok GG (2 * n0 * n1) 2 (fun s => if interlaced then do w <- preprocess_weights_d n0 x0 z0 bw0 i0; do c <- fl (w * c1); mul_add (f i0 i1) (phys i0 i1) c s
      else do w <- preprocess_weights_d n0 x0 z0 bw0 i0; do p <- fl (phys i0 i1 * w); mul_add (f i0 i1) p c1 s) (phys i0 i1 * w0 i0 * w1 i1) (mm i1 i0)).
  { intros i1 i0 c1 H1 H0 Ec. destruct (WA i0 H0) as (wa & Ea & Da & Na & Sa & Ba). destruct (WB i1 H1) as (wb & Eb & Db & Nb & Sb & Bb). rewrite Ec in Eb. injection Eb as <-.
    destruct (nodal_range _ (HP i0 i1 H0 H1)) as (DP & SP & PB). rewrite Ea. cbn [bind].
    assert (SM : small_or (mm i1 i0)). { apply (small_weak (200 + 222 + 222)); [lia|]. unfold mm. apply small_prod; [apply small_prod; apply abs_or; auto|apply abs_or; auto]. }
    destruct interlaced.
    - destruct (prod_d GA GB wa c1 (w0 i0) (w1 i1) 222 222 50 50 Na Nb GAB Sa Sb Ba Bb) as (c & Ecc & Dc & Nc & Sc & Bc); [lia|lia|]. rewrite Ecc. cbn [bind].
      apply (step_add GG (2 * n0 * n1) G1 HK (GA * GB * g 2)); auto.
      + replace (GA * GB * g 2) with (1 * (GA * GB * g 2)) by ring. replace (phys i0 i1 * w0 i0 * w1 i1) with (phys i0 i1 * (w0 i0 * w1 i1)) by ring.
        replace (mm i1 i0) with (Rabs (phys i0 i1) * Rabs (w0 i0 * w1 i1)) by (unfold mm; rewrite Rabs_mult; ring). apply near_mul; [apply near_refl; lra|auto].
      + unfold GG. rewrite <- E4. lra.
    - destruct (prod_d 1 GA (phys i0 i1) wa (phys i0 i1) (w0 i0) 200 222 200 50 (near_refl 1 _ (Rle_refl 1)) Na) as (p & Ep & Dp & Np & Sp & Bp); [lra|auto|auto|auto|auto|lia|lia|]. rewrite Ep. cbn [bind].
      apply (step_add GG (2 * n0 * n1) G1 HK (1 * GA * g 2 * GB)); auto.
      + replace (mm i1 i0) with (Rabs (phys i0 i1 * w0 i0) * Rabs (w1 i1)) by (unfold mm; rewrite Rabs_mult; ring). apply near_mul; auto.
      + unfold GG. rewrite <- E4. lra. }
  destruct (run GG (2 * n0 * n1) G1 (2 * n0) n1 (fun i1 s => do c1 <- preprocess_weights_d n1 x1 z1 bw1 i1; for_d n0 (fun i0 s => if interlaced
      then do w <- preprocess_weights_d n0 x0 z0 bw0 i0; do c <- fl (w * c1); mul_add (f i0 i1) (phys i0 i1) c s
      else do w <- preprocess_weights_d n0 x0 z0 bw0 i0; do p <- fl (phys i0 i1 * w); mul_add (f i0 i1) p c1 s) s)
    (fun i1 => sumn n0 (fun i0 => phys i0 i1 * w0 i0 * w1 i1)) (fun i1 => sumn n0 (mm i1))) as (v & E & D & N & _).
  - intros i1 H1. split; [apply MR; auto|]. destruct (WB i1 H1) as (c1 & Ec & _). rewrite Ec. cbn [bind]. apply (loop_ok GG (2 * n0 * n1) 2 n0). intros i0 H0. split; [apply MI; auto|]. apply ST; auto.
  - lia.
  - eapply Rle_trans; [apply MT|]. rewrite <- !pow_add. apply Rle_pow; [lra|lia].
  - exists v. split; [destruct interlaced; exact E|]. split; [auto|]. apply (near_out _ _ _ _ _ N FT HE).
Qed.
Print Assumptions C113_evaluate_2d.

(** Three directions: the scalar evaluation, each function of the interlaced one and each lane of the blocked one. *)
Theorem C113_evaluate_3d (interlaced : bool) f n0 n1 n2 x0 x1 x2 z0 z1 z2 bw0 bw1 bw2 w0 w1 w2 L0 L1 L2 phys :
  direction_ok n0 x0 z0 bw0 w0 L0 -> direction_ok n1 x1 z1 bw1 w1 L1 -> direction_ok n2 x2 z2 bw2 w2 L2 ->
  (forall i j k, (i < n0)%nat -> (j < n1)%nat -> (k < n2)%nat -> nodal (phys i j k)) -> error3 n0 n1 n2 L0 L1 L2 <= 1 / 2 ->
  exists v, (if interlaced then dir_210_interlaced_d else dir_210_d) f n0 n1 n2 phys
      (preprocess_weights_d n0 x0 z0 bw0) (preprocess_weights_d n1 x1 z1 bw1) (preprocess_weights_d n2 x2 z2 bw2) = Some v /\ is_double v /\
    Rabs (v - tensor3 n0 n1 n2 phys w0 w1 w2) <= 2 * error3 n0 n1 n2 L0 L1 L2 * size3 n0 n1 n2 phys w0 w1 w2.
Proof.
  intros HA HB HC HP HE. pose proof (L_ge1 _ _ _ _ _ _ HA) as LA. pose proof (L_ge1 _ _ _ _ _ _ HB) as LB. pose proof (L_ge1 _ _ _ _ _ _ HC) as LC.
  pose proof (tau0 n0 L0 LA) as TA. pose proof (tau0 n1 L1 LB) as TB. pose proof (tau0 n2 L2 LC) as TC.
  pose proof u_pos as u0. pose proof (pos_INR n0) as pa. pose proof (pos_INR n1) as pb. pose proof (pos_INR n2) as pc.
  assert (PU : 0 <= INR n0 * INR n1 * INR n2 * u) by (repeat apply Rmult_le_pos; lra). unfold error3 in *. rewrite !tau_eq, u_eq in *.
  destruct (dir_w _ _ _ _ _ _ HA) as (GA & FA & WA); [rewrite tau_eq; lra|]. destruct (dir_w _ _ _ _ _ _ HB) as (GB & FB & WB); [rewrite tau_eq; lra|].
  destruct (dir_w _ _ _ _ _ _ HC) as (GC & FC & WC); [rewrite tau_eq; lra|].
  destruct HA as ((Hn0 & _) & _). destruct HB as ((Hn1 & _) & _). destruct HC as ((Hn2 & _) & _). set (GG := GA * (GB * GC) * g 6).
  set (S := tau n0 L0 + tau n1 L1 + tau n2 L2 + (2 * INR n0 * INR n1 * INR n2 + 6) * u) in *.
  assert (FG : fac GG (tau n0 L0 + (tau n1 L1 + tau n2 L2) + 6 * u)) by (unfold GG, S in *; apply fac_mul; [apply fac_mul; [auto|apply fac_mul; [auto|auto|lra]|lra]|apply fac6u|lra]).
  assert (FT : fac (GG * g (2 * n0 * n1 * n2)) S).
  { pose proof (fac_g (2 * n0 * n1 * n2)) as FN. replace (INR (2 * n0 * n1 * n2)) with (2 * INR n0 * INR n1 * INR n2) in FN by (rewrite !mult_INR; cbn; lra). unfold S in *.
    apply (fac_le _ (tau n0 L0 + (tau n1 L1 + tau n2 L2) + 6 * u + 2 * INR n0 * INR n1 * INR n2 * u)); [lra|]. apply fac_mul; [auto|apply FN; lra|lra]. }
  assert (G1 : 1 <= GG) by apply FG. pose proof (fac_le2 _ _ FT HE) as HK.
  assert (gA : 1 <= GA) by apply FA. assert (gB : 1 <= GB) by apply FB. assert (gC : 1 <= GC) by apply FC. pose proof (g_ge1 2) as g2. pose proof (g_ge1 4) as g4. pose proof (g_ge1 6) as g6.
  assert (E4 : g 2 * g 2 = g 4) by (symmetry; apply (g_add 2 2)). assert (E6 : g 2 * g 2 * g 2 = g 6) by (rewrite E4; symmetry; apply (g_add 4 2)).
  assert (GG2 : GG <= 2) by (apply (fac_le2 _ _ FG); unfold S in *; lra).
  assert (gBC : 1 <= GB * GC) by (apply ge1_mul; auto). assert (gABC : 1 <= GA * (GB * GC)) by (apply ge1_mul; auto).
  assert (M1 : forall a b, 1 <= a -> 1 <= b -> a <= a * b) by (intros a b A B; rewrite <- (Rmult_1_r a) at 1; apply Rmult_le_compat_l; lra).
  assert (GB_le : GB * GC <= 2). { eapply Rle_trans; [|exact GG2]. apply Rle_trans with (GA * (GB * GC)); [rewrite (Rmult_comm GA); apply M1; auto|apply M1; auto]. }
  assert (GA2 : GA <= 2). { eapply Rle_trans; [|exact GG2]. apply Rle_trans with (GA * (GB * GC)); apply M1; auto. }
  assert (GABC2 : GA * (GC * GB * g 2) <= 2).
  { eapply Rle_trans; [|exact GG2]. unfold GG. replace (GA * (GC * GB * g 2)) with (GA * (GB * GC) * g 2) by ring. apply Rmult_le_compat_l; [lra|]. apply g_mono. lia. }
  set (mm := fun i2 i1 i0 : nat => Rabs (phys i0 i1 i2) * Rabs (w0 i0) * Rabs (w1 i1) * Rabs (w2 i2)).
  assert (MI : forall i2 i1 i0, (i2 < n2)%nat -> (i1 < n1)%nat -> (i0 < n0)%nat -> 0 <= mm i2 i1 i0 <= 2 ^ (200 + 50 + 50 + 50)).
  { intros i2 i1 i0 H2 H1 H0. destruct (WA i0 H0) as (_ & _ & _ & _ & _ & BA). destruct (WB i1 H1) as (_ & _ & _ & _ & _ & BB). destruct (WC i2 H2) as (_ & _ & _ & _ & _ & BC).
    destruct (nodal_range _ (HP i0 i1 i2 H0 H1 H2)) as (_ & _ & PB). unfold mm.
    split; [repeat apply Rmult_le_pos; apply Rabs_pos|]. apply prod_le; auto; [repeat apply Rmult_le_pos; apply Rabs_pos|apply Rabs_pos|].
    apply prod_le; auto; [repeat apply Rmult_le_pos; apply Rabs_pos|apply Rabs_pos|]. apply prod_le; auto; apply Rabs_pos. }
  assert (MQ : forall i2 i1, (i2 < n2)%nat -> (i1 < n1)%nat -> 0 <= sumn n0 (mm i2 i1) <= 2 ^ 20 * 2 ^ (200 + 50 + 50 + 50)) by (intros i2 i1 H2 H1; apply size_bound; auto; apply pow_le; lra).
  assert (MR : forall i2, (i2 < n2)%nat -> 0 <= sumn n1 (fun i1 => sumn n0 (mm i2 i1)) <= 2 ^ 20 * (2 ^ 20 * 2 ^ (200 + 50 + 50 + 50)))
    by (intros i2 H2; apply size_bound; auto; apply Rmult_le_pos; apply pow_le; lra).
  assert (MT : 0 <= sumn n2 (fun i2 => sumn n1 (fun i1 => sumn n0 (mm i2 i1))) <= 2 ^ 20 * (2 ^ 20 * (2 ^ 20 * 2 ^ (200 + 50 + 50 + 50))))
    by (apply size_bound; auto; apply Rmult_le_pos; [apply pow_le; lra|apply Rmult_le_pos; apply pow_le; lra]).
  assert (ST : forall i2 i1 i0 c2 w1' c1, (i2 < n2)%nat -> (i1 < n1)%nat -> (i0 < n0)%nat -> preprocess_weights_d n2 x2 z2 bw2 i2 = Some c2 -> preprocess_weights_d n1 x1 z1 bw1 i1 = Some w1' ->
    fl (c2 * w1') = Some c1 ->
    step_ok GG (2 * n0 * n1 * n2) 2 (fun s => if interlaced then do w <- preprocess_weights_d n0 x0 z0 bw0 i0; do c <- fl (w * c1); mul_add (f i0 i1 i2) (phys i0 i1 i2) c s
      else do w <- preprocess_weights_d n0 x0 z0 bw0 i0; do p <- fl (phys i0 i1 i2 * w); mul_add (f i0 i1 i2) p c1 s) (phys i0 i1 i2 * w0 i0 * w1 i1 * w2 i2) (mm i2 i1 i0)).
  { intros i2 i1 i0 c2 w1' c1 H2 H1 H0 Ec Ew Ecw. destruct (WA i0 H0) as (wa & Ea & Da & Na & Sa & Ba). destruct (WB i1 H1) as (wb & Eb & Db & Nb & Sb & Bb). rewrite Ew in Eb. injection Eb as <-.
    destruct (WC i2 H2) as (wc & Ewc & Dwc & Nwc & Swc & Bwc). rewrite Ec in Ewc. injection Ewc as <-.
    destruct (prod_d GC GB c2 w1' (w2 i2) (w1 i1) 222 222 50 50 Nwc Nb) as (c1' & Ec1 & Dc1 & Nc1 & Sc1 & Bc1); [lra|auto|auto|auto|auto|lia|lia|]. rewrite Ecw in Ec1. injection Ec1 as <-.
    destruct (nodal_range _ (HP i0 i1 i2 H0 H1 H2)) as (DP & SP & PB). rewrite Ea. cbn [bind].
    assert (SM : small_or (mm i2 i1 i0)). { apply (small_weak (200 + 222 + 222 + 222)); [lia|]. unfold mm. apply small_prod; [apply small_prod; [apply small_prod; apply abs_or; auto|apply abs_or; auto]|apply abs_or; auto]. }
    assert (GE : GA * (GC * GB * g 2) * g 2 * g 2 = GG) by (unfold GG; rewrite <- E6; ring).
    destruct interlaced.
    - destruct (prod_d GA (GC * GB * g 2) wa c1 (w0 i0) (w2 i2 * w1 i1) 222 (222 + 222) 50 (50 + 50) Na Nc1 GABC2 Sa Sc1 Ba Bc1) as (c & Ecc & Dc & Nc & Sc & Bc); [lia|lia|]. rewrite Ecc. cbn [bind].
      apply (step_add GG (2 * n0 * n1 * n2) G1 HK (GA * (GC * GB * g 2) * g 2)); auto.
      + replace (GA * (GC * GB * g 2) * g 2) with (1 * (GA * (GC * GB * g 2) * g 2)) by ring.
        replace (phys i0 i1 i2 * w0 i0 * w1 i1 * w2 i2) with (phys i0 i1 i2 * (w0 i0 * (w2 i2 * w1 i1))) by ring.
        replace (mm i2 i1 i0) with (Rabs (phys i0 i1 i2) * Rabs (w0 i0 * (w2 i2 * w1 i1))) by (unfold mm; rewrite !Rabs_mult; ring). apply near_mul; [apply near_refl; lra|auto].
      + rewrite GE. lra.
    - destruct (prod_d 1 GA (phys i0 i1 i2) wa (phys i0 i1 i2) (w0 i0) 200 222 200 50 (near_refl 1 _ (Rle_refl 1)) Na) as (p & Ep & Dp & Np & Sp & Bp); [lra|auto|auto|auto|auto|lia|lia|]. rewrite Ep. cbn [bind].
      apply (step_add GG (2 * n0 * n1 * n2) G1 HK (1 * GA * g 2 * (GC * GB * g 2))); auto.
      + replace (phys i0 i1 i2 * w0 i0 * w1 i1 * w2 i2) with (phys i0 i1 i2 * w0 i0 * (w2 i2 * w1 i1)) by ring.
        replace (mm i2 i1 i0) with (Rabs (phys i0 i1 i2 * w0 i0) * Rabs (w2 i2 * w1 i1)) by (unfold mm; rewrite !Rabs_mult; ring). apply near_mul; auto.
      + replace (1 * GA * g 2 * (GC * GB * g 2) * g 2) with (GA * (GC * GB * g 2) * g 2 * g 2) by ring. rewrite GE. lra. }
  destruct (run GG (2 * n0 * n1 * n2) G1 (2 * n0 * n1) n2 (fun i2 s => do c2 <- preprocess_weights_d n2 x2 z2 bw2 i2;
    for_d n1 (fun i1 s => do w1 <- preprocess_weights_d n1 x1 z1 bw1 i1; do c1 <- fl (c2 * w1); for_d n0 (fun i0 s => if interlaced
      then do w <- preprocess_weights_d n0 x0 z0 bw0 i0; do c <- fl (w * c1); mul_add (f i0 i1 i2) (phys i0 i1 i2) c s
      else do w <- preprocess_weights_d n0 x0 z0 bw0 i0; do p <- fl (phys i0 i1 i2 * w); mul_add (f i0 i1 i2) p c1 s) s) s)
    (fun i2 => sumn n1 (fun i1 => sumn n0 (fun i0 => phys i0 i1 i2 * w0 i0 * w1 i1 * w2 i2))) (fun i2 => sumn n1 (fun i1 => sumn n0 (mm i2 i1)))) as (v & E & D & N & _).
  - intros i2 H2. split; [apply MR; auto|]. destruct (WC i2 H2) as (c2 & Ec & Dc & Nc & Sc & Bc). rewrite Ec. cbn [bind]. apply (loop_ok GG (2 * n0 * n1 * n2) (2 * n0) n1). intros i1 H1. split; [apply MQ; auto|].
    destruct (WB i1 H1) as (wb & Eb & Db & Nb & Sb & Bb). rewrite Eb. cbn [bind].
    destruct (prod_d GC GB c2 wb (w2 i2) (w1 i1) 222 222 50 50 Nc Nb) as (c1 & Ec1 & _); [lra|auto|auto|auto|auto|lia|lia|]. rewrite Ec1. cbn [bind].
    apply (loop_ok GG (2 * n0 * n1 * n2) 2 n0). intros i0 H0. split; [apply MI; auto|]. apply (ST i2 i1 i0 c2 wb c1); auto.
  - lia.
  - eapply Rle_trans; [apply MT|]. rewrite <- !pow_add. apply Rle_pow; [lra|lia].
  - exists v. split; [destruct interlaced; exact E|]. split; [auto|]. apply (near_out _ _ _ _ _ N FT HE).
Qed.
Print Assumptions C113_evaluate_3d.
(** The entry points evaluate_2d and evaluate_3d. *)
Theorem C113_points f2 f3 n0 n1 n2 x0 x1 x2 z0 z1 z2 bw0 bw1 bw2 w0 w1 w2 L0 L1 L2 phys2 phys3 :
  direction_ok n0 x0 z0 bw0 w0 L0 -> direction_ok n1 x1 z1 bw1 w1 L1 -> direction_ok n2 x2 z2 bw2 w2 L2 ->
  (forall i j, (i < n0)%nat -> (j < n1)%nat -> nodal (phys2 i j)) -> (forall i j k, (i < n0)%nat -> (j < n1)%nat -> (k < n2)%nat -> nodal (phys3 i j k)) ->
  (error2 n0 n1 L0 L1 <= 1 / 2 -> exists v, evaluate_2d_d f2 x0 x1 n0 n1 phys2 z0 z1 bw0 bw1 = Some v /\ is_double v /\
    Rabs (v - tensor2 n0 n1 phys2 w0 w1) <= 2 * error2 n0 n1 L0 L1 * size2 n0 n1 phys2 w0 w1) /\
  (error3 n0 n1 n2 L0 L1 L2 <= 1 / 2 -> exists v, evaluate_3d_d f3 x0 x1 x2 n0 n1 n2 phys3 z0 z1 z2 bw0 bw1 bw2 = Some v /\ is_double v /\
    Rabs (v - tensor3 n0 n1 n2 phys3 w0 w1 w2) <= 2 * error3 n0 n1 n2 L0 L1 L2 * size3 n0 n1 n2 phys3 w0 w1 w2).
Proof.
  intros HA HB HC H2 H3. split; intros HE.
  - exact (C113_evaluate_2d false f2 n0 n1 x0 x1 z0 z1 bw0 bw1 w0 w1 L0 L1 phys2 HA HB H2 HE).
  - exact (C113_evaluate_3d false f3 n0 n1 n2 x0 x1 x2 z0 z1 z2 bw0 bw1 bw2 w0 w1 w2 L0 L1 L2 phys3 HA HB HC H3 HE).
Qed.
Print Assumptions C113_points.
Lemma sumn_mono n f g : (forall i, (i < n)%nat -> f i <= g i) -> sumn n f <= sumn n g.
Proof. induction n as [|n IH]; intros H; cbn [sumn]; [lra|]. pose proof (H n (Nat.lt_succ_diag_r n)). assert (sumn n f <= sumn n g) by (apply IH; intros; apply H; lia). lra. Qed.
Lemma sum_w n x z bw w L : direction_ok n x z bw w L -> sumn n w = 1.
Proof. intros (_ & Hd & Hw & _). apply (C43_sum_and_nodes n z bw x w Hd Hw). Qed.
(** The computed weights of a direction add up to one. *)
Theorem C113_sum n x z bw w L r : direction_ok n x z bw w L -> weight_error n L <= 1 / 2 -> (forall i, (i < n)%nat -> preprocess_weights_d n x z bw i = Some (r i)) ->
  Rabs (sumn n r - 1) <= 2 * weight_error n L * L.
Proof.
  intros H E HR. assert (W : forall i, (i < n)%nat -> Rabs (r i - w i) <= 2 * weight_error n L * Rabs (w i)).
  { intros i Hi. destruct (C113_weights n x z bw w L H E i Hi) as (r' & Er & _ & B & _). rewrite HR in Er by auto. injection Er as <-. auto. }
  pose proof (L_ge1 _ _ _ _ _ _ H) as L1. pose proof (tau0 n L L1) as T0. rewrite <- tau_eq in T0. rewrite <- (sum_w _ _ _ _ _ _ H). destruct H as (_ & _ & _ & HL).
  replace (sumn n r - sumn n w) with (sumn n (fun i => r i - w i)).
  2:{ replace (sumn n w) with (- (-1 * sumn n w)) by ring. rewrite <- sumn_scal. unfold Rminus. rewrite Ropp_involutive, <- sumn_plus. apply sumn_ext. intros. ring. }
  eapply Rle_trans; [apply sumn_abs|]. apply Rle_trans with (2 * weight_error n L * lebesgue n w); [|apply Rmult_le_compat_l; [lra|auto]]. unfold lebesgue. rewrite <- sumn_scal. apply sumn_mono. auto.
Qed.
Print Assumptions C113_sum.
(** A constant field is reproduced, whatever the errors of the stored nodes and weights. *)
Theorem C113_constant_2d (interlaced : bool) f n0 n1 x0 x1 z0 z1 bw0 bw1 w0 w1 L0 L1 c : direction_ok n0 x0 z0 bw0 w0 L0 -> direction_ok n1 x1 z1 bw1 w1 L1 -> nodal c ->
  error2 n0 n1 L0 L1 <= 1 / 2 ->
  exists v, (if interlaced then dir_10_interlaced_d else dir_10_d) f n0 n1 (fun _ _ => c) (preprocess_weights_d n0 x0 z0 bw0) (preprocess_weights_d n1 x1 z1 bw1) = Some v /\ is_double v /\
    Rabs (v - c) <= 2 * error2 n0 n1 L0 L1 * (L0 * L1 * Rabs c).
Proof.
  intros HA HB Hc HE. destruct (C113_evaluate_2d interlaced f n0 n1 x0 x1 z0 z1 bw0 bw1 w0 w1 L0 L1 (fun _ _ => c) HA HB) as (v & E & D & B); auto.
  assert (E0 : 0 <= error2 n0 n1 L0 L1).
  { unfold error2. rewrite !tau_eq, u_eq. pose proof (tau0 n0 L0 (L_ge1 _ _ _ _ _ _ HA)). pose proof (tau0 n1 L1 (L_ge1 _ _ _ _ _ _ HB)). pose proof u_pos.
    assert (0 <= INR n0 * INR n1 * u) by (apply Rmult_le_pos; [apply Rmult_le_pos; apply pos_INR|lra]). lra. }
  exists v. split; [auto|]. split; [auto|].
  assert (T : tensor2 n0 n1 (fun _ _ => c) w0 w1 = c).
  { unfold tensor2. transitivity (sumn n1 (fun i1 => c * w1 i1)); [apply sumn_ext; intros i1 H1; rewrite sumn_scal_r, sumn_scal, (sum_w _ _ _ _ _ _ HA); ring|]. rewrite sumn_scal, (sum_w _ _ _ _ _ _ HB). ring. }
  rewrite T in B. eapply Rle_trans; [exact B|]. apply Rmult_le_compat_l; [lra|]. unfold size2, tensor2.
  replace (sumn n1 _) with (Rabs c * lebesgue n0 w0 * lebesgue n1 w1).
  2:{ unfold lebesgue. transitivity (sumn n1 (fun i1 => Rabs c * lebesgue n0 w0 * Rabs (w1 i1))); [rewrite sumn_scal; reflexivity|]. apply sumn_ext. intros i1 H1. unfold lebesgue. rewrite sumn_scal_r, sumn_scal. reflexivity. }
  destruct HA as (_ & _ & _ & LA). destruct HB as (_ & _ & _ & LB). assert (P0 : 0 <= lebesgue n0 w0) by (apply sumn_nonneg; intros; apply Rabs_pos). assert (P1 : 0 <= lebesgue n1 w1) by (apply sumn_nonneg; intros; apply Rabs_pos).
  replace (L0 * L1 * Rabs c) with (Rabs c * L0 * L1) by ring. pose proof (Rabs_pos c). apply Rmult_le_compat; auto; [apply Rmult_le_pos; auto|apply Rmult_le_compat_l; auto].
Qed.
Print Assumptions C113_constant_2d.
Theorem C113_constant_3d (interlaced : bool) f n0 n1 n2 x0 x1 x2 z0 z1 z2 bw0 bw1 bw2 w0 w1 w2 L0 L1 L2 c :
  direction_ok n0 x0 z0 bw0 w0 L0 -> direction_ok n1 x1 z1 bw1 w1 L1 -> direction_ok n2 x2 z2 bw2 w2 L2 -> nodal c -> error3 n0 n1 n2 L0 L1 L2 <= 1 / 2 ->
  exists v, (if interlaced then dir_210_interlaced_d else dir_210_d) f n0 n1 n2 (fun _ _ _ => c)
      (preprocess_weights_d n0 x0 z0 bw0) (preprocess_weights_d n1 x1 z1 bw1) (preprocess_weights_d n2 x2 z2 bw2) = Some v /\ is_double v /\
    Rabs (v - c) <= 2 * error3 n0 n1 n2 L0 L1 L2 * (L0 * L1 * L2 * Rabs c).
Proof.
  intros HA HB HC Hc HE. destruct (C113_evaluate_3d interlaced f n0 n1 n2 x0 x1 x2 z0 z1 z2 bw0 bw1 bw2 w0 w1 w2 L0 L1 L2 (fun _ _ _ => c) HA HB HC) as (v & E & D & B); auto.
  assert (E0 : 0 <= error3 n0 n1 n2 L0 L1 L2).
  { unfold error3. rewrite !tau_eq, u_eq. pose proof (tau0 n0 L0 (L_ge1 _ _ _ _ _ _ HA)). pose proof (tau0 n1 L1 (L_ge1 _ _ _ _ _ _ HB)). pose proof (tau0 n2 L2 (L_ge1 _ _ _ _ _ _ HC)). pose proof u_pos.
    assert (0 <= INR n0 * INR n1 * INR n2 * u) by (apply Rmult_le_pos; [apply Rmult_le_pos; [apply Rmult_le_pos; apply pos_INR|apply pos_INR]|lra]). lra. }
  exists v. split; [auto|]. split; [auto|].
  assert (T : tensor3 n0 n1 n2 (fun _ _ _ => c) w0 w1 w2 = c).
  { unfold tensor3. transitivity (sumn n2 (fun i2 => c * w2 i2)); [|rewrite sumn_scal, (sum_w _ _ _ _ _ _ HC); ring]. apply sumn_ext. intros i2 H2.
    transitivity (sumn n1 (fun i1 => c * w2 i2 * w1 i1)); [|rewrite sumn_scal, (sum_w _ _ _ _ _ _ HB); ring]. apply sumn_ext. intros i1 H1. rewrite !sumn_scal_r, sumn_scal, (sum_w _ _ _ _ _ _ HA). ring. }
  rewrite T in B. eapply Rle_trans; [exact B|]. apply Rmult_le_compat_l; [lra|]. unfold size3, tensor3.
  replace (sumn n2 _) with (Rabs c * lebesgue n0 w0 * lebesgue n1 w1 * lebesgue n2 w2).
  2:{ transitivity (sumn n2 (fun i2 => Rabs c * lebesgue n0 w0 * lebesgue n1 w1 * Rabs (w2 i2))); [rewrite sumn_scal; reflexivity|]. apply sumn_ext. intros i2 H2.
      transitivity (sumn n1 (fun i1 => Rabs c * lebesgue n0 w0 * Rabs (w2 i2) * Rabs (w1 i1))); [rewrite sumn_scal; unfold lebesgue at 2; ring|]. apply sumn_ext. intros i1 H1.
      rewrite !sumn_scal_r, sumn_scal. unfold lebesgue. ring. }
  destruct HA as (_ & _ & _ & LA). destruct HB as (_ & _ & _ & LB). destruct HC as (_ & _ & _ & LC).
  assert (P0 : 0 <= lebesgue n0 w0) by (apply sumn_nonneg; intros; apply Rabs_pos). assert (P1 : 0 <= lebesgue n1 w1) by (apply sumn_nonneg; intros; apply Rabs_pos).
  assert (P2 : 0 <= lebesgue n2 w2) by (apply sumn_nonneg; intros; apply Rabs_pos).
  replace (L0 * L1 * L2 * Rabs c) with (Rabs c * L0 * L1 * L2) by ring. pose proof (Rabs_pos c). apply Rmult_le_compat; auto; [repeat apply Rmult_le_pos; auto|].
  apply Rmult_le_compat; auto; [apply Rmult_le_pos; auto|apply Rmult_le_compat_l; auto].
Qed.
Print Assumptions C113_constant_3d.
Lemma for_skip n body s : (forall i, (i < n)%nat -> body i s = Some s) -> for_d n body s = Some s.
Proof. induction n as [|n IH]; intros H; cbn [for_d]; [auto|]. rewrite IH by (intros; apply H; lia). cbn [bind]. apply H. lia. Qed.
Lemma for_one n body k v : (k < n)%nat -> (forall i s, (i < n)%nat -> i <> k -> s = 0 \/ s = v -> body i s = Some s) -> body k 0 = Some v -> for_d n body 0 = Some v.
Proof.
  induction n as [|n IH]; intros Hk H HB; [lia|]. cbn [for_d]. destruct (Nat.eq_dec k n) as [->|Ne].
  - rewrite for_skip by (intros i Hi; apply H; [lia|lia|auto]). cbn [bind]. auto.
  - rewrite IH; [|lia|intros; apply H; auto; lia|auto]. cbn [bind]. apply H; [lia|lia|auto].
Qed.
Lemma fl_0' : fl 0 = Some 0. Proof. apply fl_exact, dbl_0. Qed.
Lemma ma0 f a b s : a * b = 0 -> is_double s -> mul_add f a b s = Some s.
Proof. intros H D. unfold mul_add. rewrite H. destruct f; [|rewrite fl_0'; cbn [bind]]; rewrite Rplus_0_l; apply fl_exact; auto. Qed.
Lemma ma1 f a b : is_double (a * b) -> mul_add f a b 0 = Some (a * b).
Proof. intros D. unfold mul_add. destruct f; [rewrite Rplus_0_r; apply fl_exact; auto|]. rewrite (fl_exact _ D). cbn [bind]. rewrite Rplus_0_r. apply fl_exact; auto. Qed.
Definition on_node (n : nat) (x : R) (z : nat -> R) (k : nat) : Prop :=
  (k < n)%nat /\ z k = x /\ distinct n z /\ is_double x /\ Rabs x <= 2 /\ (forall i, (i < n)%nat -> is_double (z i) /\ Rabs (z i) <= 1).
Lemma node_div n x z bw k : on_node n x z k -> preprocess_weights_d n x z bw = fun ix => Some (if Nat.eqb ix k then 1 else 0).
Proof.
  intros (Hk & Ek & Hdis & Dx & Bx & Hd). unfold preprocess_weights_d. destruct (find (on_node_d z x) (seq 0 n)) as [j|] eqn:FF.
  - apply find_some in FF as [Fi Ft]. apply in_seq in Fi. destruct (Hd j ltac:(lia)) as (Dz & Bz). destruct (on_node_iff z x j Dz Dx Bz Bx) as (_ & _ & _ & O & _).
    apply O in Ft. assert (j = k) by (apply Hdis; [lia|auto|congruence]). subst j. reflexivity.
  - exfalso. pose proof (List.find_none _ _ FF k) as FN. destruct (Hd k Hk) as (Dz & Bz). destruct (on_node_iff z x k Dz Dx Bz Bx) as (_ & _ & _ & O & _).
    rewrite (proj2 O Ek) in FN. discriminate FN. apply in_seq. lia.
Qed.
Lemma eqb_no i k : i <> k -> Nat.eqb i k = false. Proof. intros. apply Nat.eqb_neq. auto. Qed.
(** At a node the evaluation returns exactly the nodal value, of any size. *)
Theorem C113_nodes_2d (interlaced : bool) f n0 n1 x0 x1 z0 z1 bw0 bw1 k0 k1 phys : on_node n0 x0 z0 k0 -> on_node n1 x1 z1 k1 -> (forall i j, is_double (phys i j)) ->
  (if interlaced then dir_10_interlaced_d else dir_10_d) f n0 n1 phys (preprocess_weights_d n0 x0 z0 bw0) (preprocess_weights_d n1 x1 z1 bw1) = Some (phys k0 k1).
Proof.
  intros HA HB HP. rewrite (node_div _ _ _ bw0 _ HA), (node_div _ _ _ bw1 _ HB). destruct HA as (H0 & _). destruct HB as (H1 & _).
  assert (SD : forall s, s = 0 \/ s = phys k0 k1 -> is_double s) by (intros s [-> | ->]; [apply dbl_0|auto]).
  destruct interlaced; [unfold dir_10_interlaced_d|unfold dir_10_d]; (apply (for_one n1 _ k1); [auto| |]).
  - intros i1 s Hi Ne Hs. rewrite (eqb_no _ _ Ne). cbn [bind]. apply for_skip. intros i0 Hi0. rewrite Rmult_0_r, fl_0'. cbn [bind]. apply ma0; [ring|auto].
  - rewrite Nat.eqb_refl. cbn [bind]. apply (for_one n0 _ k0); [auto| |].
    + intros i0 s Hi Ne Hs. rewrite (eqb_no _ _ Ne). rewrite Rmult_0_l, fl_0'. cbn [bind]. apply ma0; [ring|auto].
    + rewrite Nat.eqb_refl. rewrite Rmult_1_r. rewrite (fl_exact 1) by (apply is_double_fmt; split; [apply (fmt_Z 1); lia|rewrite Rabs_R1; apply (bpow_lt radix2 0); lia]). cbn [bind].
      rewrite ma1; rewrite Rmult_1_r; auto.
  - intros i1 s Hi Ne Hs. rewrite (eqb_no _ _ Ne). cbn [bind]. apply for_skip. intros i0 Hi0. destruct (Nat.eqb i0 k0); [rewrite Rmult_1_r, (fl_exact _ (HP _ _))|rewrite Rmult_0_r, fl_0']; cbn [bind]; apply ma0; auto; ring.
  - rewrite Nat.eqb_refl. cbn [bind]. apply (for_one n0 _ k0); [auto| |].
    + intros i0 s Hi Ne Hs. rewrite (eqb_no _ _ Ne). rewrite Rmult_0_r, fl_0'. cbn [bind]. apply ma0; [ring|auto].
    + rewrite Nat.eqb_refl. rewrite Rmult_1_r, (fl_exact _ (HP _ _)). cbn [bind]. rewrite ma1; rewrite Rmult_1_r; auto.
Qed.
Print Assumptions C113_nodes_2d.
Theorem C113_nodes_3d (interlaced : bool) f n0 n1 n2 x0 x1 x2 z0 z1 z2 bw0 bw1 bw2 k0 k1 k2 phys : on_node n0 x0 z0 k0 -> on_node n1 x1 z1 k1 -> on_node n2 x2 z2 k2 ->
  (forall i j k, is_double (phys i j k)) ->
  (if interlaced then dir_210_interlaced_d else dir_210_d) f n0 n1 n2 phys
    (preprocess_weights_d n0 x0 z0 bw0) (preprocess_weights_d n1 x1 z1 bw1) (preprocess_weights_d n2 x2 z2 bw2) = Some (phys k0 k1 k2).
Proof.
  intros HA HB HC HP. rewrite (node_div _ _ _ bw0 _ HA), (node_div _ _ _ bw1 _ HB), (node_div _ _ _ bw2 _ HC). destruct HA as (H0 & _). destruct HB as (H1 & _). destruct HC as (H2 & _).
  assert (SD : forall s, s = 0 \/ s = phys k0 k1 k2 -> is_double s) by (intros s [-> | ->]; [apply dbl_0|auto]).
  assert (F1 : fl 1 = Some 1) by (apply fl_exact, is_double_fmt; split; [apply (fmt_Z 1); lia|rewrite Rabs_R1; apply (bpow_lt radix2 0); lia]).
  assert (Z : forall i2 i1 s, is_double s -> for_d n0 (fun i0 s => if interlaced
       then do c <- fl ((if Nat.eqb i0 k0 then 1 else 0) * 0); mul_add (f i0 i1 i2) (phys i0 i1 i2) c s
       else do p <- fl (phys i0 i1 i2 * (if Nat.eqb i0 k0 then 1 else 0)); mul_add (f i0 i1 i2) p 0 s) s = Some s).
  { intros i2 i1 s Ds. apply for_skip. intros i0 _. destruct interlaced; [rewrite Rmult_0_r, fl_0'; cbn [bind]; apply ma0; [ring|auto]|].
    destruct (Nat.eqb i0 k0); [rewrite Rmult_1_r, (fl_exact _ (HP _ _ _))|rewrite Rmult_0_r, fl_0']; cbn [bind]; apply ma0; auto; ring. }
  destruct interlaced; [unfold dir_210_interlaced_d|unfold dir_210_d]; (apply (for_one n2 _ k2); [auto| |]).
  - intros i2 s Hi Ne Hs. rewrite (eqb_no _ _ Ne). cbn [bind]. apply for_skip. intros i1 Hi1. rewrite Rmult_0_l, fl_0'. cbn [bind]. apply Z. auto.
  - rewrite Nat.eqb_refl. cbn [bind]. apply (for_one n1 _ k1); [auto| |].
    + intros i1 s Hi Ne Hs. rewrite (eqb_no _ _ Ne). rewrite Rmult_0_r, fl_0'. cbn [bind]. apply Z. auto.
    + rewrite Nat.eqb_refl. rewrite Rmult_1_r, F1. cbn [bind]. apply (for_one n0 _ k0); [auto| |].
      * intros i0 s Hi Ne Hs. rewrite (eqb_no _ _ Ne). rewrite Rmult_0_l, fl_0'. cbn [bind]. apply ma0; [ring|auto].
      * rewrite Nat.eqb_refl. rewrite Rmult_1_r, F1. cbn [bind]. rewrite ma1; rewrite Rmult_1_r; auto.
  - intros i2 s Hi Ne Hs. rewrite (eqb_no _ _ Ne). cbn [bind]. apply for_skip. intros i1 Hi1. rewrite Rmult_0_l, fl_0'. cbn [bind]. apply Z. auto.
  - rewrite Nat.eqb_refl. cbn [bind]. apply (for_one n1 _ k1); [auto| |].
    + intros i1 s Hi Ne Hs. rewrite (eqb_no _ _ Ne). rewrite Rmult_0_r, fl_0'. cbn [bind]. apply Z. auto.
    + rewrite Nat.eqb_refl. rewrite Rmult_1_r, F1. cbn [bind]. apply (for_one n0 _ k0); [auto| |].
      * intros i0 s Hi Ne Hs. rewrite (eqb_no _ _ Ne). rewrite Rmult_0_r, fl_0'. cbn [bind]. apply ma0; [ring|auto].
      * rewrite Nat.eqb_refl. rewrite Rmult_1_r, (fl_exact _ (HP _ _ _)). cbn [bind]. rewrite ma1; rewrite Rmult_1_r; auto.
Qed.
Print Assumptions C113_nodes_3d.
(** Next to a node that is zero the evaluation fails: the three nodes -1, 0, 1 and a point 2^-1030 from the middle one. *)
Definition ex_z (i : nat) : R := match i with O => -1 | S O => 0 | _ => 1 end.
Definition ex_bw (i : nat) : R := match i with O => 1 / 2 | S O => -1 | _ => 1 / 2 end.
Theorem C113_near_node_refuted : exists x w, is_double x /\ Rabs x <= 1 /\ distinct 3 ex_z /\ barycentric 3 ex_z ex_bw /\ node_weights 3 ex_z ex_bw x w /\ lebesgue 3 w <= 2 /\
  forall i, preprocess_weights_d 3 x ex_z ex_bw i = None.
Proof.
  set (x := bpow radix2 (-1030)). assert (x0 : 0 < x) by apply bpow_gt_0. assert (x1 : x <= / 1048576) by (apply Rle_trans with (bpow radix2 (-20)); [apply bpow_le; lia|cbn; lra]).
  assert (Dis : distinct 3 ex_z). { intros i j Hi Hj H. destruct i as [ | [ | [ | ? ] ] ], j as [ | [ | [ | ? ] ] ]; cbn in H; try lia; lra. }
  assert (W : forall i, (i < 3)%nat -> ex_z i - x <> 0) by (intros i Hi; destruct i as [ | [ | [ | ? ] ] ]; cbn; try lia; lra).
  set (w := fun i : nat => match i with O => (x * x - x) / 2 | S O => 1 - x * x | _ => (x * x + x) / 2 end).
  assert (X2 : 0 < x * x <= x). { split; [apply Rmult_lt_0_compat; auto|]. rewrite <- (Rmult_1_l x) at 3. apply Rmult_le_compat_r; lra. }
  assert (SD : 1 / 2 / (-1 - x) + -1 / (0 - x) + 1 / 2 / (1 - x) = 1 / (x * (1 - x) * (1 + x))) by (field; lra).
  assert (XP : 0 < x * (1 - x) * (1 + x)) by (repeat apply Rmult_lt_0_compat; lra).
  exists x, w. split; [apply is_double_fmt; split; [apply fmt_bpow; lia|rewrite Rabs_pos_eq by lra; apply bpow_lt; lia]|]. split; [rewrite Rabs_pos_eq; lra|]. split; [auto|]. split.
  { exists 1. split; [lra|]. intros i Hi. destruct i as [ | [ | [ | ? ] ] ]; cbn; try lia; field. }
  split.
  { right. split; [intros i Hi E; apply (W i Hi); rewrite E; ring|]. cbn [sumn ex_z ex_bw]. rewrite Rplus_0_l, SD. split; [apply Rgt_not_eq; apply Rmult_lt_0_compat; [lra|apply Rinv_0_lt_compat; auto]|].
    intros i Hi. destruct i as [ | [ | [ | ? ] ] ]; cbn [w ex_z ex_bw]; try lia; field; repeat split; lra. }
  split. { unfold lebesgue. cbn [sumn w]. rewrite (Rabs_left1 ((x * x - x) / 2)) by lra. rewrite !Rabs_pos_eq by lra. lra. }
  assert (E0 : fl (-1 - x) = Some (-1)).
  { transitivity (Some (rnd (-1 - x))); [apply (fl_bpow _ 4); [lia|apply Rabs_le; cbn; lra]|]. f_equal. replace (-1 - x) with (- (1 + x)) by ring. rewrite rnd_opp. f_equal.
    rewrite (rnd_val (1 + x) (-52) 4503599627370496); [cbn; lra|cbn; lra|lia|apply Znearest_imp; apply Rabs_def1; cbn; lra]. }
  assert (E1 : fl (0 - x) = Some (- x)). { rewrite Rminus_0_l. apply fl_exact. apply is_double_fmt. split; [apply fmt_opp, fmt_bpow; lia|rewrite Rabs_Ropp, Rabs_pos_eq by lra; apply bpow_lt; lia]. }
  assert (D1 : div_d (-1) (- x) = None).
  { unfold div_d. rewrite Req_bool_false by lra. replace (-1 / - x) with (bpow radix2 1030).
    2:{ replace (bpow radix2 1030) with (/ x) by (unfold x; change (-1030)%Z with (- (1030))%Z; rewrite bpow_opp, Rinv_inv; reflexivity). field. lra. }
    unfold fl. rewrite (rnd_id (bpow radix2 1030)) by (apply fmt_bpow; lia). rewrite Rlt_bool_false; [auto|]. rewrite Rabs_pos_eq by apply bpow_ge_0. apply bpow_le. lia. }
  intros i. unfold preprocess_weights_d. rewrite find_nothing.
  2:{ intros j Hj. apply in_seq in Hj. unfold on_node_d. destruct j as [ | [ | [ | ? ] ] ]; cbn [ex_z]; try lia.
      - rewrite E0. apply Req_bool_false. lra.
      - rewrite E1. apply Req_bool_false. lra.
      - rewrite (fl_bpow (1 - x) 4); [|lia|apply Rabs_le; cbn; lra]. apply Req_bool_false. assert (/ 2 <= rnd (1 - x)); [|lra]. apply rnd_ge; [|lra]. replace (/ 2) with (bpow radix2 (-1)) by (cbn; lra). apply fmt_bpow. lia. }
  cbn [for_d]. unfold bw_over_diff_d at 1 2 3. cbn [ex_z ex_bw]. rewrite E0, E1. cbn [bind]. rewrite D1. cbn [bind].
  destruct (div_d (1 / 2) (-1)) as [t|]; cbn [bind]; [|reflexivity]. destruct (fl (0 + t)); reflexivity.
Qed.
Print Assumptions C113_near_node_refuted.
Lemma multiple x : fmt x -> bpow radix2 (-42) <= Rabs x -> exists m, x = IZR m * bpow radix2 (-95).
Proof.
  intros F B. assert (X0 : x <> 0). { intros ->. rewrite Rabs_R0 in B. pose proof (bpow_gt_0 radix2 (-42)). lra. }
  assert (M : (-41 <= mag radix2 x)%Z) by (apply (mag_ge_bpow radix2 x (-41)); exact B).
  assert (C : (-95 <= cexp radix2 dexp x)%Z) by (unfold cexp, dexp, FLT_exp; lia). red in F. set (m0 := Ztrunc (scaled_mantissa radix2 dexp x)) in *.
  exists (m0 * 2 ^ (cexp radix2 dexp x + 95))%Z. rewrite F at 1. unfold F2R. cbn [Fnum Fexp]. rewrite mult_IZR. change (2 ^ (cexp radix2 dexp x + 95))%Z with (Zpower radix2 (cexp radix2 dexp x + 95)).
  rewrite IZR_Zpower by lia. rewrite Rmult_assoc, <- bpow_plus. f_equal. f_equal. ring.
Qed.
(** The distance required of the evaluation point holds for every pair of doubles of which one is not tiny. *)
Theorem C113_gap x z : is_double x -> is_double z -> x <> z -> / 2 ^ 40 <= Rabs x \/ / 2 ^ 40 <= Rabs z -> / 2 ^ 100 <= Rabs (z - x).
Proof.
  intros Dx Dz Ne H. assert (P40 : / 2 ^ 40 = 4 * bpow radix2 (-42)) by (cbn; lra).
  assert (P100 : / 2 ^ 100 <= bpow radix2 (-95)) by (rewrite <- (bpow_neg 100); apply bpow_le; lia). assert (P42 : bpow radix2 (-95) <= bpow radix2 (-42)) by (apply bpow_le; lia).
  pose proof (bpow_gt_0 radix2 (-42)) as p0. rewrite P40 in H.
  destruct (Rle_lt_dec (bpow radix2 (-42)) (Rabs x)) as [Bx|Bx]; [destruct (Rle_lt_dec (bpow radix2 (-42)) (Rabs z)) as [Bz|Bz]|].
  - destruct (multiple x (fmt_d _ Dx) Bx) as (m & Em). destruct (multiple z (fmt_d _ Dz) Bz) as (k & Ek). eapply Rle_trans; [exact P100|]. pose proof (bpow_gt_0 radix2 (-95)) as p1.
    rewrite Em, Ek in *. replace (IZR k * bpow radix2 (-95) - IZR m * bpow radix2 (-95)) with (IZR (k - m) * bpow radix2 (-95)) by (rewrite minus_IZR; ring).
    rewrite Rabs_mult, (Rabs_pos_eq (bpow radix2 (-95))) by lra. rewrite <- (Rmult_1_l (bpow radix2 (-95))) at 1. apply Rmult_le_compat_r; [lra|]. rewrite <- abs_IZR. apply IZR_le.
    assert (k <> m) by (intros ->; apply Ne; reflexivity). lia.
  - assert (Rabs x <= Rabs z + Rabs (z - x)); [|lra]. replace x with (z + - (z - x)) at 1 by ring. eapply Rle_trans; [apply Rabs_triang|]. rewrite Rabs_Ropp. lra.
  - assert (Rabs z <= Rabs x + Rabs (z - x)); [|lra]. replace z with (x + (z - x)) at 1 by ring. apply Rabs_triang.
Qed.
Print Assumptions C113_gap.
Definition ex_w (i : nat) : R := match i with O => - 1 / 8 | S O => 3 / 4 | _ => 3 / 8 end.
Example C113_applied : direction_ok 3 (1 / 2) ex_z ex_bw ex_w (5 / 4) /\ nodal 3 /\ error3 3 3 3 (5 / 4) (5 / 4) (5 / 4) <= 1 / 2 /\ on_node 3 0 ex_z 1.
Proof.
  assert (Dis : distinct 3 ex_z). { intros i j Hi Hj H. destruct i as [ | [ | [ | ? ] ] ], j as [ | [ | [ | ? ] ] ]; cbn in H; try lia; lra. }
  assert (D1 : is_double 1) by (dbl 1%Z 0%Z). assert (Dm1 : is_double (-1)) by (dbl (-1)%Z 0%Z). assert (Dh : is_double (1 / 2)) by (dbl 1%Z (-1)%Z).
  split; [|split; [|split]].
  - split; [|split; [auto|split]].
    + split; [cbn; lra|]. split; [auto|]. split; [rewrite Rabs_pos_eq; lra|]. split.
      * intros i Hi. destruct i as [ | [ | [ | ? ] ] ]; cbn [ex_z ex_bw]; try lia.
        -- split; [auto|]. split; [rewrite Rabs_left1; lra|]. split; [auto|]. rewrite Rabs_pos_eq by lra. cbn; lra.
        -- split; [apply dbl_0|]. split; [rewrite Rabs_R0; lra|]. split; [auto|]. rewrite Rabs_left1 by lra. cbn; lra.
        -- split; [auto|]. split; [rewrite Rabs_pos_eq; lra|]. split; [auto|]. rewrite Rabs_pos_eq by lra. cbn; lra.
      * right. assert (P : / 2 ^ 100 <= / 2 ^ 1) by (apply pw; lia). replace (2 ^ 1) with 2 in P by (cbn; lra). intros i Hi. destruct i as [ | [ | [ | ? ] ] ]; cbn [ex_z]; try lia; [rewrite Rabs_left1 by lra|rewrite Rabs_left1 by lra|rewrite Rabs_pos_eq by lra]; lra.
    + right. split; [intros i Hi; destruct i as [ | [ | [ | ? ] ] ]; cbn; try lia; lra|]. cbn [sumn ex_z ex_bw]. split; [lra|]. intros i Hi. destruct i as [ | [ | [ | ? ] ] ]; cbn [ex_w ex_z ex_bw]; try lia; lra.
    + unfold lebesgue. cbn [sumn ex_w]. rewrite (Rabs_left1 (- 1 / 8)) by lra. rewrite !Rabs_pos_eq by lra. lra.
  - split; [dbl 3%Z 0%Z|right]. rewrite Rabs_pos_eq by lra. assert (P : / 2 ^ 200 <= / 2 ^ 0) by (apply pw; lia). assert (2 ^ 2 <= 2 ^ 200) by (apply Rle_pow; [lra|lia]). replace (2 ^ 0) with 1 in P by (cbn; lra). replace (2 ^ 2) with 4 in H by (cbn; lra). lra.
  - unfold error3, weight_error. rewrite u_eq. pose proof u_pos. pose proof u_small. cbn [INR]. lra.
  - split; [lia|]. split; [reflexivity|]. split; [auto|]. split; [apply dbl_0|]. split; [rewrite Rabs_R0; lra|]. intros i Hi. destruct i as [ | [ | [ | ? ] ] ]; cbn [ex_z]; try lia.
    + split; [auto|rewrite Rabs_left1; lra]. + split; [apply dbl_0|rewrite Rabs_R0; lra]. + split; [auto|rewrite Rabs_pos_eq; lra].
Qed.
