(** C111: energy and mass diagnostics in double precision. *)
From Coq Require Import Permutation.
From Flocq Require Import Core.
From Verif Require Import M_RealBase L_RealBase M_Grid M_Double S_Double L_Double L_Double2 M_BorisD S_BorisD L_BorisD M_Pic M_SumD S_SumD L_SumD P_Double L_DoubleGrid.
From Coq Require Import Reals Lra Lia List ZArith.
Import ListNotations.
Open Scope R_scope.

Lemma within_off k x y m : off k x y m -> within k x y m.
Proof. intros [_ H]. unfold within. rewrite u_eq. exact H. Qed.
Lemma u_50 k : INR k <= 2 ^ 50 -> INR k * u <= / 8.
Proof.
  intros H. apply Rle_trans with (2 ^ 50 * u); [apply Rmult_le_compat_r; [left; apply u_pos|auto]|]. rewrite <- u_eq. unfold unit_roundoff.
  change 53%nat with (50 + 3)%nat. rewrite pow_add. replace (2 ^ 3) with 8 by (cbn; ring). assert (0 < 2 ^ 50) by (apply pow_lt; lra). right; field; lra.
Qed.
Lemma g_50 h k : INR h <= 2 ^ 50 -> (k <= 100)%nat -> g (h + k) <= 4 / 3.
Proof.
  intros H Hk. pose proof (u_50 _ H). pose proof u_small. pose proof u_pos. pose proof (pos_INR h).
  assert (INR k <= 100) by (replace 100 with (INR 100) by (cbn; lra); apply le_INR; auto). pose proof (pos_INR k).
  assert (INR k * u <= 100 * u) by (apply Rmult_le_compat_r; lra).
  eapply Rle_trans; [apply g_lin|]; rewrite plus_INR; lra.
Qed.
Lemma g_room h k m : INR h <= 2 ^ 50 -> (k <= 100)%nat -> 0 <= m <= 2 ^ 1000 -> g (h + k) * m <= bpow radix2 1023.
Proof.
  intros H Hk [M0 M1]. pose proof (g_50 h k H Hk). pose proof (g_ge1 (h + k)). rewrite <- (bpow_nat 1000) in M1. change 1023%Z with (23 + 1000)%Z. rewrite bpow_plus. change (Z.of_nat 1000) with 1000%Z in M1.
  apply Rmult_le_compat; try lra. cbn. lra.
Qed.
(** ** Any sum *)
Theorem C111_sum (ranks : list (list R)) (t : addtree R) : Forall is_double (concat ranks) -> schedules t ranks -> INR (height t) <= 2 ^ 50 -> magnitude (concat ranks) <= 2 ^ 1000 ->
  exists s, add_up (fun x => Some x) t = Some s /\ is_double s /\ within (height t) s (total (concat ranks)) (magnitude (concat ranks)).
Proof.
  intros HD HP HH HM. unfold schedules in HP. assert (P : Permutation (map Rabs (leaves t)) (map Rabs (concat ranks))) by (apply Permutation_map; auto).
  assert (M0 : 0 <= magnitude (concat ranks)) by (apply total_nonneg; intros; apply Rabs_pos).
  destruct (tree_off (fun x => Some x) (fun x => x) Rabs 0 t) as (s & E & D & O).
  - intros a Ha. exists a. split; [auto|]. split; [|apply off_refl]. rewrite Forall_forall in HD. apply HD. eapply Permutation_in; eauto.
  - rewrite (total_perm _ _ P). replace (0 + height t)%nat with (height t + 0)%nat by lia. apply g_room; [auto|lia|unfold magnitude in *; lra].
  - exists s. split; [auto|]. split; [auto|]. apply within_off. rewrite map_id, (total_perm _ _ P), (total_perm _ _ HP) in O. exact O.
Qed.
Print Assumptions C111_sum.
(** the order of the code: one after the other on each rank, rank after rank *)
Lemma height_ranks {A} n (ls : list (list A)) : (forall l, In l ls -> (length l <= n)%nat) -> forall t : addtree A, (height (fold_left (fun t l => APlus t (one_by_one l)) ls t) <= Nat.max (height t) n + length ls)%nat.
Proof.
  induction ls as [|l ls IH]; intros H t; cbn [fold_left length]; [lia|]. specialize (IH (fun l' Hl => H l' (or_intror Hl)) (APlus t (one_by_one l))). cbn [height] in IH.
  assert (E : height (one_by_one l) = length l) by (unfold one_by_one; rewrite height_one; reflexivity). specialize (H l (or_introl eq_refl)). lia.
Qed.
Theorem C111_code_order {A} (ranks orders : list (list A)) (n : nat) : Forall2 (@Permutation A) orders ranks -> (forall l, In l ranks -> (length l <= n)%nat) ->
  schedules (rank_by_rank orders) ranks /\ (height (rank_by_rank orders) <= n + length ranks)%nat.
Proof.
  intros H Hn. split.
  - unfold schedules, rank_by_rank. rewrite leaves_ranks. cbn [leaves app]. clear Hn. induction H; cbn [concat]; [constructor|]. apply Permutation_app; auto.
  - unfold rank_by_rank. assert (L : length orders = length ranks) by (clear Hn; induction H; cbn; congruence).
    rewrite <- L. change n with (Nat.max (@height A AZero) n). apply height_ranks. clear L. intros l Hl. 
    assert (exists l', In l' ranks /\ Permutation l l') as (l' & I & P).
    { clear Hn. induction H as [|x y lx ly P F IH]; [contradiction|]. destruct Hl as [->|Hl]; [exists y; split; [left|]; auto|]. destruct (IH Hl) as (l' & I & Q). exists l'. split; [right|]; auto. }
    rewrite (Permutation_length P). auto.
Qed.
Print Assumptions C111_code_order.
(** two schedules of the same contributions differ by rounding only *)
Theorem C111_schedules (ranks : list (list R)) (t t' : addtree R) s s' : Forall is_double (concat ranks) -> schedules t ranks -> schedules t' ranks -> INR (height t) <= 2 ^ 50 -> INR (height t') <= 2 ^ 50 ->
  magnitude (concat ranks) <= 2 ^ 1000 -> add_up (fun x => Some x) t = Some s -> add_up (fun x => Some x) t' = Some s' ->
  Rabs (s - s') <= 2 * INR (height t + height t') * unit_roundoff * magnitude (concat ranks).
Proof.
  intros HD H1 H2 B1 B2 HM E1 E2. destruct (C111_sum ranks t) as (r & F1 & _ & W1); auto. destruct (C111_sum ranks t') as (r' & F2 & _ & W2); auto.
  rewrite F1 in E1. rewrite F2 in E2. injection E1 as <-. injection E2 as <-. unfold within in *. rewrite u_eq in *. rewrite plus_INR.
  pose proof (u_50 _ B1). pose proof (u_50 _ B2). pose proof (g_lin (height t)) as G1. pose proof (g_lin (height t')) as G2. unfold g in *. specialize (G1 ltac:(lra)). specialize (G2 ltac:(lra)).
  assert (M0 : 0 <= magnitude (concat ranks)) by (apply total_nonneg; intros; apply Rabs_pos). set (M := magnitude (concat ranks)) in *.
  replace (r - r') with ((r - total (concat ranks)) - (r' - total (concat ranks))) by ring. eapply Rle_trans; [apply Rabs_triang|]. rewrite Rabs_Ropp.
  assert (((1 + u) ^ height t - 1) * M <= (2 * INR (height t) * u) * M) by (apply Rmult_le_compat_r; lra).
  assert (((1 + u) ^ height t' - 1) * M <= (2 * INR (height t') * u) * M) by (apply Rmult_le_compat_r; lra). lra.
Qed.
Print Assumptions C111_schedules.

(** ** Kinetic energy *)
Lemma ord_low x : ordinary x -> low 200 x /\ Rabs x <= bpow radix2 200.
Proof. intros H. destruct (ordinary_mag x H) as [->|[A B]]; [split; [left; auto|rewrite Rabs_R0; apply bpow_ge_0]|split; [right|]; auto]. Qed.
Lemma low_mul a b x y : low a x -> low b y -> low (a + b) (x * y).
Proof.
  intros [->|A] [->|B]; try (left; ring). right. rewrite Rabs_mult. replace (- (a + b))%Z with (- a + - b)%Z by lia. rewrite bpow_plus.
  apply Rmult_le_compat; auto; apply bpow_ge_0.
Qed.
Lemma low_plus k x y : 0 <= x -> 0 <= y -> low k x -> low k y -> low k (x + y).
Proof.
  intros Hx Hy [->|A] [->|B]; [left; ring| | |]; right; rewrite ?Rplus_0_l, ?Rplus_0_r; auto. rewrite Rabs_pos_eq in * by lra. lra.
Qed.
Lemma off_nonneg k x y : g k <= 2 -> 0 <= y -> off k x y y -> 0 <= x.
Proof. intros G Hy [_ H]. apply Rabs_le_inv in H. assert ((g k - 1) * y <= 1 * y) by (apply Rmult_le_compat_r; lra). lra. Qed.
Lemma g_small k : (k <= 100)%nat -> g k <= 4 / 3.
Proof. intros. replace k with (0 + k)%nat by lia. apply g_50; auto. cbn. assert (0 < 2 ^ 50) by (apply pow_lt; lra). cbn in *. lra. Qed.
Lemma sq_add (f : bool) v s y k : ordinary v -> is_double s -> 0 <= y -> low 400 s -> y <= bpow radix2 900 -> (1 <= k <= 50)%nat -> off k s y y ->
  exists r, mul_add f v v s = Some r /\ is_double r /\ low 400 r /\ off (S k) r (v * v + y) (v * v + y).
Proof.
  intros Hv Ds Hy Ls By Hk O. destruct (ord_low v Hv) as [Lv Bv]. assert (VV : 0 <= v * v) by nra.
  assert (Bvv : v * v <= bpow radix2 400). { rewrite <- (Rabs_pos_eq (v * v)) by auto. rewrite Rabs_mult. change 400%Z with (200 + 200)%Z. rewrite bpow_plus. apply Rmult_le_compat; auto; apply Rabs_pos. }
  assert (Lvv : low 400 (v * v)) by (apply (low_mul 200 200); auto).
  assert (Ovv : off 0 (v * v) (v * v) (v * v)). { pose proof (off_refl (v * v)) as Q. rewrite (Rabs_pos_eq (v * v)) in Q by auto. exact Q. }
  assert (S0 : 0 <= s). { apply (off_nonneg k s y); auto. pose proof (g_small k). lia || (assert (g k <= 4 / 3) by (apply g_small; lia); lra). }
  assert (B2 : v * v + y <= bpow radix2 901). { change 901%Z with (1 + 900)%Z. rewrite bpow_plus. change (bpow radix2 1) with 2. assert (bpow radix2 400 <= bpow radix2 900) by (apply bpow_le; lia). lra. }
  assert (B3 : forall j m, (j <= 100)%nat -> 0 <= m <= bpow radix2 901 -> g j * m <= bpow radix2 1023).
  { intros j m Hj [M0 M1]. assert (g j <= 4 / 3) by (apply g_small; auto). pose proof (g_ge1 j). change 1023%Z with (122 + 901)%Z. rewrite bpow_plus. apply Rmult_le_compat; try lra. apply Rle_trans with (bpow radix2 1); [cbn; lra|apply bpow_le; lia]. }
  unfold mul_add. destruct f.
  - destruct (low_off 400 k (v * v + s) (v * v + y) (v * v + y)) as (r & E & D & Or & Lr); [lia|apply low_plus; auto| |apply B3; [lia|lra]|exists r; auto].
    apply off_add; auto. apply (off_le 0); [lia|auto].
  - destruct (low_off 400 0 (v * v) (v * v) (v * v)) as (p & E & D & Op & Lp); [lia|auto|auto|apply B3; [lia|]|].
    { split; [auto|]. eapply Rle_trans; [exact Bvv|apply bpow_le; lia]. }
    rewrite E. cbn [bind]. assert (P0 : 0 <= p). { apply (off_nonneg 1 p (v * v)); auto. assert (g 1 <= 4 / 3) by (apply g_small; lia). lra. }
    destruct (low_off 400 k (p + s) (v * v + y) (v * v + y)) as (r & E' & D' & Or & Lr); [lia|apply low_plus; auto| |apply B3; [lia|lra]|exists r; auto].
    apply off_add; auto. apply (off_le 1); [lia|auto].
Qed.
Lemma kin_term m fl3 p : ordinary m -> 0 <= m -> all3 ordinary (cp_V p) ->
  exists x, kinetic_term_d m (fl3, p) = Some x /\ is_double x /\ off 6 x (half_mv2 m p) (half_mv2 m p).
Proof.
  intros Hm M0 HV. unfold kinetic_term_d, half_mv2. destruct fl3 as [[f0 f1] f2]. destruct (cp_V p) as [[a b] c]. destruct HV as (Ha & Hb & Hc).
  destruct (ord_low m Hm) as [Lm Bm]. rewrite Rabs_pos_eq in Bm by auto.
  assert (Sq : forall x, ordinary x -> 0 <= x * x <= bpow radix2 400).
  { intros x Hx. destruct (ord_low x Hx) as [_ Bx]. split; [nra|]. rewrite <- (Rabs_pos_eq (x * x)) by nra. rewrite Rabs_mult. change 400%Z with (200 + 200)%Z. rewrite bpow_plus. apply Rmult_le_compat; auto; apply Rabs_pos. }
  pose proof (Sq a Ha). pose proof (Sq b Hb). pose proof (Sq c Hc). assert (U : 4 * bpow radix2 400 <= bpow radix2 500). { replace 4 with (bpow radix2 2) by (cbn; lra). rewrite <- bpow_plus. apply bpow_le. lia. }
  assert (U2 : bpow radix2 500 <= bpow radix2 900) by (apply bpow_le; lia). pose proof (bpow_gt_0 radix2 400).
  assert (Lh : low 201 (1 / 2 * m)). { replace 201%Z with (1 + 200)%Z by lia. apply low_mul; auto. right. rewrite Rabs_pos_eq by lra. cbn. lra. }
  assert (Oh : off 0 (1 / 2 * m) (1 / 2 * m) (1 / 2 * m)). { pose proof (off_refl (1 / 2 * m)) as Q. rewrite (Rabs_pos_eq (1 / 2 * m)) in Q by lra. exact Q. }
  assert (G6 : forall j, (j <= 100)%nat -> 1 <= g j <= 4 / 3) by (intros; split; [apply g_ge1|apply g_small; auto]).
  destruct (low_off 201 0 (1 / 2 * m) (1 / 2 * m) (1 / 2 * m)) as (h & Eh & Dh & Oh1 & Lh1); [lia|auto|auto| |].
  { pose proof (G6 0%nat ltac:(lia)). apply Rle_trans with (2 * bpow radix2 200); [apply Rmult_le_compat; lra|]. change 2 with (bpow radix2 1). rewrite <- bpow_plus. apply bpow_le. lia. }
  rewrite Eh. cbn [bind].
  destruct (sq_add f0 a 0 0 1) as (s0 & E0 & D0 & L0 & O0); [auto|apply dbl_0|lra|left; auto|apply bpow_ge_0|lia| |].
  { split; rewrite ?Rminus_0_r, Rabs_R0; lra. }
  rewrite Rplus_0_r in O0. rewrite E0. cbn [bind].
  destruct (sq_add f1 b s0 (a * a) 2) as (s1 & E1 & D1 & L1 & O1); [auto|auto|lra|auto|lra|lia|auto|]. rewrite E1. cbn [bind].
  destruct (sq_add f2 c s1 (b * b + a * a) 3) as (s2 & E2 & D2 & L2 & O2); [auto|auto|lra|auto|lra|lia|auto|]. rewrite E2. cbn [bind].
  pose proof (off_mul _ _ _ _ _ _ _ _ O2 Oh1) as OO. replace (4 + 1)%nat with 5%nat in OO by lia.
  destruct (low_off 601 5 (s2 * h) ((c * c + (b * b + a * a)) * (1 / 2 * m)) ((c * c + (b * b + a * a)) * (1 / 2 * m))) as (r & E & D & O & _).
  - lia. - apply (low_mul 400 201); auto. - exact OO.
  - pose proof (G6 5%nat ltac:(lia)). apply Rle_trans with (2 * (bpow radix2 500 * bpow radix2 200)).
    + assert (0 <= (c * c + (b * b + a * a)) * (1 / 2 * m) <= bpow radix2 500 * bpow radix2 200). { split; [apply Rmult_le_pos; lra|apply Rmult_le_compat; lra]. } apply Rmult_le_compat; lra.
    + change 2 with (bpow radix2 1). rewrite <- !bpow_plus. apply bpow_le. lia.
  - exists r. split; [auto|]. split; [auto|]. replace (m * (a * a + b * b + c * c) / 2) with ((c * c + (b * b + a * a)) * (1 / 2 * m)) by field. exact O.
Qed.
Lemma half_pos m p : 0 <= m -> 0 <= half_mv2 m p.
Proof. intros H. unfold half_mv2. destruct (cp_V p) as [[a b] c]. assert (0 <= m * (a * a + b * b + c * c)) by (apply Rmult_le_pos; [auto|nra]). lra. Qed.
Theorem C111_kinetic (m : R) (ranks : list (list cpart)) (t : addtree ((bool * bool * bool) * cpart)) :
  ordinary m -> 0 <= m -> Forall (fun p => all3 ordinary (cp_V p)) (concat ranks) -> Permutation (map snd (leaves t)) (concat ranks) -> INR (height t) <= 2 ^ 50 ->
  let exact := total (map (half_mv2 m) (concat ranks)) in exact <= 2 ^ 1000 ->
  exists E, kinetic_energy_d m t = Some E /\ is_double E /\ 0 <= E /\ within (height t + 6) E exact exact /\ (E = 0 <-> exact = 0).
Proof.
  intros Hm M0 HV HP HH exact HE. unfold kinetic_energy_d.
  assert (P : Permutation (map (fun c => half_mv2 m (snd c)) (leaves t)) (map (half_mv2 m) (concat ranks))). { rewrite <- (map_map snd (half_mv2 m)). apply Permutation_map. auto. }
  assert (X0 : 0 <= exact) by (apply total_nonneg; intros; apply half_pos; auto).
  destruct (tree_off (kinetic_term_d m) (fun c => half_mv2 m (snd c)) (fun c => half_mv2 m (snd c)) 6 t) as (s & E & D & O).
  - intros [f p] Hp. destruct (kin_term m f p) as (x & Ex & Dx & Ox); auto.
    { rewrite Forall_forall in HV. apply HV. eapply Permutation_in; [exact HP|]. apply in_map_iff. exists (f, p). auto. }
    exists x. auto.
  - rewrite (total_perm _ _ P). rewrite Nat.add_comm. apply g_room; [auto|lia|]. fold exact. lra.
  - rewrite (total_perm _ _ P) in O. fold exact in O. rewrite Nat.add_comm in O. assert (G : g (height t + 6) <= 4 / 3) by (apply g_50; [auto|lia]).
    exists s. split; [auto|]. split; [auto|]. split; [apply (off_nonneg _ _ _ (ltac:(lra) : g (height t + 6) <= 2) X0 O)|]. split; [apply within_off; auto|].
    destruct O as [_ O]. apply Rabs_le_inv in O. assert ((g (height t + 6) - 1) * exact <= 1 / 2 * exact) by (apply Rmult_le_compat_r; lra). lra.
Qed.
Print Assumptions C111_kinetic.

(** ** Potential energy *)
Lemma ord_mult x : ordinary x -> exists m : Z, x = IZR m * bpow radix2 (-252).
Proof.
  intros H. destruct H as [D [->|[L _]]]; [exists 0%Z; lra|]. apply fmt_d in D. unfold fmt, generic_format in D.
  rewrite inv_pow in L. change (- Z.of_nat 200)%Z with (-200)%Z in L.
  assert (X0 : x <> 0). { intros ->. rewrite Rabs_R0 in L. pose proof (bpow_gt_0 radix2 (-200)). lra. }
  assert (M : (-200 < mag radix2 x)%Z) by (apply mag_gt_bpow; auto).
  assert (C : (-252 <= cexp radix2 dexp x)%Z) by (unfold cexp, dexp, FLT_exp; lia).
  set (e := cexp radix2 dexp x) in *. set (n := Ztrunc (scaled_mantissa radix2 dexp x)) in *. exists (n * 2 ^ (e + 252))%Z. rewrite D at 1. unfold F2R. cbn [Fnum Fexp].
  rewrite mult_IZR. change 2%Z with (radix_val radix2). rewrite IZR_Zpower by lia. rewrite Rmult_assoc, <- bpow_plus. f_equal. f_equal. lia.
Qed.
Lemma ord_diff x y : ordinary x -> ordinary y -> low 252 (x + - y).
Proof.
  intros Hx Hy. destruct (ord_mult x Hx) as (m & ->). destruct (ord_mult y Hy) as (n & ->). replace (IZR m * bpow radix2 (-252) + - (IZR n * bpow radix2 (-252))) with (IZR (m - n) * bpow radix2 (-252)) by (rewrite minus_IZR; ring).
  destruct (Z.eq_dec (m - n) 0) as [->|N]; [left; ring|right]. rewrite Rabs_mult, (Rabs_pos_eq (bpow radix2 (-252))) by apply bpow_ge_0.
  rewrite <- (Rmult_1_l (bpow radix2 (- (252)))). apply Rmult_le_compat_r; [apply bpow_ge_0|]. rewrite <- abs_IZR. apply IZR_le. lia.
Qed.
Lemma pot_term mu phi p : ordinary mu -> ordinary (phi p) -> ordinary (cp_Q p) ->
  exists x, potential_term_d mu phi p = Some x /\ is_double x /\ off 2 x (2 * half_qphi mu phi p) (2 * Rabs (half_qphi mu phi p)) /\ low 452 x.
Proof.
  intros Hm Hp Hq. unfold potential_term_d. destruct (ord_low _ Hm) as [Lm Bm]. destruct (ord_low _ Hp) as [Lp Bp]. destruct (ord_low _ Hq) as [Lq Bq].
  assert (B1 : Rabs (phi p + - mu) <= bpow radix2 201). { change 201%Z with (1 + 200)%Z. rewrite bpow_plus. change (bpow radix2 1) with 2. eapply Rle_trans; [apply Rabs_triang|]. rewrite Rabs_Ropp. lra. }
  assert (G : forall j, (j <= 100)%nat -> 1 <= g j <= 4 / 3) by (intros; split; [apply g_ge1|apply g_small; auto]).
  assert (two : forall k, 2 * bpow radix2 k = bpow radix2 (1 + k)) by (intros; rewrite bpow_plus; reflexivity).
  destruct (low_off 252 0 (phi p + - mu) (phi p + - mu) (Rabs (phi p + - mu))) as (s & E & D & O & L); [lia|apply ord_diff; auto|apply off_refl| |].
  { pose proof (G 0%nat ltac:(lia)). apply Rle_trans with (2 * bpow radix2 201); [apply Rmult_le_compat; try lra; apply Rabs_pos|]. rewrite two. apply bpow_le. lia. }
  rewrite E. cbn [bind]. pose proof (off_mul _ _ _ _ _ _ _ _ (off_refl (cp_Q p)) O) as OO. cbn [Nat.add] in OO.
  destruct (low_off 452 1 (cp_Q p * s) (cp_Q p * (phi p + - mu)) (Rabs (cp_Q p) * Rabs (phi p + - mu))) as (r & E2 & D2 & O2 & L2); [lia|apply (low_mul 200 252); auto|exact OO| |].
  { pose proof (G 1%nat ltac:(lia)). apply Rle_trans with (2 * (bpow radix2 200 * bpow radix2 201)).
    - assert (0 <= Rabs (cp_Q p) * Rabs (phi p + - mu) <= bpow radix2 200 * bpow radix2 201). { split; [apply Rmult_le_pos; apply Rabs_pos|apply Rmult_le_compat; auto; apply Rabs_pos]. } apply Rmult_le_compat; lra.
    - rewrite <- bpow_plus, two. apply bpow_le. lia. }
  exists r. split; [auto|]. split; [auto|]. split; [|auto]. unfold half_qphi.
  replace (2 * (cp_Q p * (phi p - mu) / 2)) with (cp_Q p * (phi p + - mu)) by field. replace (2 * Rabs (cp_Q p * (phi p - mu) / 2)) with (Rabs (cp_Q p) * Rabs (phi p + - mu)); [auto|].
  unfold Rdiv. rewrite !Rabs_mult. rewrite (Rabs_pos_eq (/ 2)) by lra. unfold Rminus. field.
Qed.
Lemma total_scale {A} c (f : A -> R) l : total (map (fun a => c * f a) l) = c * total (map f l).
Proof. unfold total. induction l; cbn; [ring|]. rewrite IHl. ring. Qed.
Theorem C111_potential (mu : R) (phi : cpart -> R) (ranks : list (list cpart)) (t : addtree cpart) :
  ordinary mu -> Forall (fun p => ordinary (phi p) /\ ordinary (cp_Q p)) (concat ranks) -> schedules t ranks -> INR (height t) <= 2 ^ 50 ->
  let exact := total (map (half_qphi mu phi) (concat ranks)) in let size := magnitude (map (half_qphi mu phi) (concat ranks)) in size <= 2 ^ 900 ->
  exists E, potential_energy_d mu phi t = Some E /\ is_double E /\ Rabs (E - exact) <= ((1 + unit_roundoff) ^ (height t + 3) - 1) * size + / 2 ^ 1074.
Proof.
  intros Hm HF HP HH exact size HS. unfold potential_energy_d.
  assert (P1 : Permutation (map (half_qphi mu phi) (leaves t)) (map (half_qphi mu phi) (concat ranks))) by (apply Permutation_map; auto).
  assert (T1 : total (map (fun p => 2 * half_qphi mu phi p) (leaves t)) = 2 * exact). { rewrite total_scale. rewrite (total_perm _ _ P1). reflexivity. }
  assert (T2 : total (map (fun p => 2 * Rabs (half_qphi mu phi p)) (leaves t)) = 2 * size).
  { rewrite (total_scale 2 (fun p => Rabs (half_qphi mu phi p))). rewrite <- (map_map (half_qphi mu phi) Rabs). rewrite (total_perm _ _ (Permutation_map Rabs P1)). reflexivity. }
  assert (S0 : 0 <= size) by (apply total_nonneg; intros; apply Rabs_pos).
  assert (S1 : 2 * size <= 2 ^ 901) by (change 901%nat with (S 900); rewrite <- tech_pow_Rmult; lra).
  assert (S2 : 2 ^ 901 <= 2 ^ 1000) by (apply Rle_pow; [lra|lia]).
  destruct (tree_off (potential_term_d mu phi) (fun p => 2 * half_qphi mu phi p) (fun p => 2 * Rabs (half_qphi mu phi p)) 2 t) as (s & E & D & O).
  - intros p Hp. rewrite Forall_forall in HF. destruct (HF p) as [H1 H2]; [eapply Permutation_in; eauto|]. destruct (pot_term mu phi p) as (x & Ex & Dx & Ox & _); auto. exists x. auto.
  - rewrite T2, Nat.add_comm. apply g_room; [auto|lia|lra].
  - rewrite T1, T2, Nat.add_comm in O. rewrite E. cbn [bind]. pose proof (off_abs _ _ _ _ O) as A. pose proof (g_50 (height t) 2 HH ltac:(lia)) as G. pose proof (g_ge1 (height t + 2)) as G1.
    assert (F : fl (s * (1 / 2)) = Some (rnd (s * (1 / 2)))).
    { apply (fl_bpow _ 1000); [lia|]. rewrite Rabs_mult, (Rabs_pos_eq (1 / 2)) by lra. change 1000%Z with (Z.of_nat 1000). rewrite bpow_nat.
      assert (g (height t + 2) * (2 * size) <= 4 / 3 * (2 * size)) by (apply Rmult_le_compat_r; lra). lra. }
    exists (rnd (s * (1 / 2))). split; [auto|]. split; [eapply fl_double; eauto|].
    destruct (rnd_any (s * (1 / 2))) as (d & n & Hd & Hn & ->). destruct O as [O1 O2].
    replace (s * (1 / 2) * (1 + d) + n - exact) with ((s - 2 * exact) * (1 / 2) + (d * s * (1 / 2) + n)) by field. rewrite u_eq. change ((1 + u) ^ (height t + 3)) with (g (height t + 3)).
    replace (height t + 3)%nat with (S (height t + 2)) by lia. rewrite g_S.
    eapply Rle_trans; [apply Rabs_triang|]. rewrite Rabs_mult, (Rabs_pos_eq (1 / 2)) by lra.
    assert (N : bpow radix2 (-1075) <= / 2 ^ 1074). { rewrite inv_pow. apply bpow_le. lia. }
    assert (Rabs (d * s * (1 / 2) + n) <= u * (g (height t + 2) * size) + / 2 ^ 1074).
    { eapply Rle_trans; [apply Rabs_triang|]. rewrite !Rabs_mult, (Rabs_pos_eq (1 / 2)) by lra.
      assert (Rabs d * Rabs s <= u * (g (height t + 2) * (2 * size))) by (apply Rmult_le_compat; auto; apply Rabs_pos). lra. }
    lra.
Qed.
Print Assumptions C111_potential.

(** ** The mass balance *)
Lemma prod_add (f : bool) a b s p y k j : is_double s -> 0 <= s -> 0 <= a * b -> (0 <= j <= 1000)%Z -> low j (a * b) -> off k (a * b) p p -> off k s y y ->
  0 <= p -> 0 <= y -> p + y <= bpow radix2 900 -> g (S k) <= 4 / 3 -> exists r, mul_add f a b s = Some r /\ is_double r /\ off (S (S k)) r (p + y) (p + y).
Proof.
  intros Ds S0 AB Hj L O Os P0 Y0 B G. unfold mul_add. assert (Gk : g k <= g (S k)) by (apply g_mono; lia). pose proof (g_ge1 k).
  assert (B3 : forall q m, 1 <= q <= 4 / 3 -> 0 <= m <= bpow radix2 900 -> q * m <= bpow radix2 1023).
  { intros q m Hq [M0 M1]. change 1023%Z with (123 + 900)%Z. rewrite bpow_plus. apply Rmult_le_compat; try lra. apply Rle_trans with (bpow radix2 1); [cbn; lra|apply bpow_le; lia]. }
  destruct f.
  - destruct L as [Z|L].
    + rewrite Z in *. rewrite Rplus_0_l. exists s. split; [apply fl_exact; auto|]. split; [auto|].
      assert (OO : off k (0 + s) (p + y) (p + y)) by (apply off_add; auto). rewrite Rplus_0_l in OO. apply (off_le k); [lia|auto].
    + destruct (low_off j k (a * b + s) (p + y) (p + y)) as (r & E & D & Or & _); [lia| |apply off_add; auto|apply B3; lra|].
      { right. rewrite Rabs_pos_eq in * by lra. lra. }
      exists r. split; [auto|]. split; [auto|]. apply (off_le (S k)); [lia|auto].
  - destruct (low_off j k (a * b) p p) as (x & E & D & Ox & _); [lia|auto|auto|apply B3; lra|]. rewrite E. cbn [bind].
    destruct (sum_off (S k) x p p s y y) as (r & E' & D' & Or); auto; [apply (off_le k); [lia|auto]|apply B3; [pose proof (g_ge1 (S k)); lra|lra]|].
    exists r. auto.
Qed.
Record mass_ok (n_to_SI weight fluid0 fluid : R) (added : Z) (weights : list R) : Prop := {
  mo_inputs : Forall (fun x => ordinary x /\ 0 <= x) [n_to_SI; weight; fluid0; fluid];
  mo_added : (0 <= added < 2 ^ 64)%Z;
  mo_weights : Forall (fun w => is_double w /\ 0 <= w) weights /\ total weights <= 2 ^ 400;
  mo_some : 0 < mass_expected n_to_SI weight fluid0 added
}.
Lemma magnitude_pos l : Forall (fun w => is_double w /\ 0 <= w) l -> magnitude l = total l.
Proof. intros H. unfold magnitude, total. induction H as [|w l [_ W] _ IH]; cbn; [auto|]. rewrite IH, Rabs_pos_eq; auto. Qed.
Lemma ord_prod x y : ordinary x -> 0 <= x -> ordinary y -> 0 <= y -> 0 <= x * y <= bpow radix2 400 /\ low 400 (x * y) /\ off 0 (x * y) (x * y) (x * y).
Proof.
  intros Hx X Hy Y. destruct (ord_low x Hx) as [Lx Bx]. destruct (ord_low y Hy) as [Ly By]. rewrite Rabs_pos_eq in Bx, By by auto. assert (P : 0 <= x * y) by (apply Rmult_le_pos; auto). split; [|split].
  - split; [auto|]. change 400%Z with (200 + 200)%Z. rewrite bpow_plus. apply Rmult_le_compat; auto.
  - apply (low_mul 200 200); auto.
  - pose proof (off_refl (x * y)) as Q. rewrite (Rabs_pos_eq (x * y)) in Q by auto. exact Q.
Qed.
Theorem C111_mass (c1 c2 : bool) (n_to_SI weight fluid0 fluid : R) (added : Z) (ranks : list (list R)) (t : addtree R) :
  mass_ok n_to_SI weight fluid0 fluid added (concat ranks) -> schedules t ranks -> INR (height t) <= 2 ^ 50 ->
  let now := mass_now n_to_SI fluid (concat ranks) in let expected := mass_expected n_to_SI weight fluid0 added in
  exists e, mass_error_d c1 c2 n_to_SI weight fluid0 fluid added t = Some e /\ 0 <= e /\
    Rabs (e - Rabs (expected - now) / expected) <= 8 * (INR (height t) + 4) * unit_roundoff * (1 + now / expected).
Proof.
  intros [HI HA [HW HT] HC] HP HH now expected. fold expected in HC. unfold mass_error_d.
  inversion HI as [|? ? [Hn N0] HI1]; subst. inversion HI1 as [|? ? [Hw W0] HI2]; subst. inversion HI2 as [|? ? [Hf0 F00] HI3]; subst. inversion HI3 as [|? ? [Hf F0] _]; subst. clear HI HI1 HI2 HI3.
  destruct (ord_prod fluid0 n_to_SI) as ([I1 I2] & IL & IO); auto. destruct (ord_prod fluid n_to_SI) as ([J1 J2] & JL & JO); auto.
  assert (G : forall j, (j <= 100)%nat -> 1 <= g j <= 4 / 3) by (intros; split; [apply g_ge1|apply g_small; auto]).
  assert (U4 : bpow radix2 400 <= bpow radix2 899) by (apply bpow_le; lia). assert (U9 : bpow radix2 900 = 2 * bpow radix2 899) by (change 900%Z with (1 + 899)%Z; rewrite bpow_plus; reflexivity).
  assert (U10 : bpow radix2 1023 = bpow radix2 123 * bpow radix2 900) by (rewrite <- bpow_plus; reflexivity). assert (U11 : 2 <= bpow radix2 123) by (change 2 with (bpow radix2 1); apply bpow_le; lia).
  assert (B3 : forall q m, 1 <= q <= 4 / 3 -> 0 <= m <= bpow radix2 900 -> q * m <= bpow radix2 1023). { intros q m Hq Hm. rewrite U10. apply Rmult_le_compat; lra. }
  (* the initial mass *)
  destruct (low_off 400 0 (fluid0 * n_to_SI) (fluid0 * n_to_SI) (fluid0 * n_to_SI)) as (im & E1 & D1 & O1 & _); [lia|auto|auto|apply B3; [apply G; lia|lra]|]. rewrite E1. cbn [bind].
  (* the particles *)
  assert (M : magnitude (concat ranks) = total (concat ranks)) by (apply magnitude_pos; auto).
  assert (TP : 0 <= total (concat ranks)). { apply total_pos. eapply Forall_impl; [|exact HW]. cbn. intros; tauto. }
  destruct (C111_sum ranks t) as (mp & E2 & D2 & W2); [eapply Forall_impl; [|exact HW]; cbn; intros; tauto|auto|auto| |].
  { rewrite M. eapply Rle_trans; [exact HT|]. apply Rle_pow; [lra|lia]. }
  rewrite E2. cbn [bind]. rewrite M in W2. unfold within in W2. rewrite u_eq in W2. change ((1 + u) ^ height t) with (g (height t)) in W2.
  assert (O2 : off (height t) mp (total (concat ranks)) (total (concat ranks))) by (split; [rewrite Rabs_pos_eq; lra|exact W2]).
  assert (Gh : forall j, (j <= 100)%nat -> 1 <= g (height t + j) <= 4 / 3) by (intros; split; [apply g_ge1|apply g_50; auto]).
  assert (T4 : total (concat ranks) <= bpow radix2 400). { change 400%Z with (Z.of_nat 400). rewrite bpow_nat. auto. }
  assert (mp0 : 0 <= mp). { apply (off_nonneg (height t) mp (total (concat ranks))); auto. pose proof (Gh 0%nat ltac:(lia)) as Q. rewrite Nat.add_0_r in Q. lra. }
  destruct (prod_add c1 fluid n_to_SI mp (fluid * n_to_SI) (total (concat ranks)) (height t) 400) as (T' & E3 & D3 & O3); auto; try lia; try lra.
  { apply (off_le 0); [lia|auto]. } { pose proof (Gh 1%nat ltac:(lia)) as Q. rewrite Nat.add_1_r in Q. lra. }
  rewrite E3. cbn [bind]. change (fluid * n_to_SI + total (concat ranks)) with now in O3.
  (* the number of particles *)
  assert (A0 : 0 <= IZR added) by (apply IZR_le; lia). assert (A1 : IZR added <= bpow radix2 64). { rewrite <- (IZR_Zpower radix2 64) by lia. apply IZR_le. change (radix2 ^ 64)%Z with (2 ^ 64)%Z. lia. }
  assert (AL : low 0 (IZR added)). { destruct (Z.eq_dec added 0) as [->|Z]; [left; auto|right]. rewrite Rabs_pos_eq by auto. cbn. apply IZR_le. lia. }
  assert (AO : off 0 (IZR added) (IZR added) (IZR added)). { pose proof (off_refl (IZR added)) as Q. rewrite (Rabs_pos_eq (IZR added)) in Q by auto. exact Q. }
  assert (U64 : bpow radix2 64 <= bpow radix2 899) by (apply bpow_le; lia).
  destruct (low_off 0 0 (IZR added) (IZR added) (IZR added)) as (nd & E4 & D4 & O4 & L4); [lia|auto|auto|apply B3; [apply G; lia|lra]|]. rewrite E4. cbn [bind].
  assert (nd0 : 0 <= nd). { apply (off_nonneg 1 nd (IZR added)); auto. pose proof (G 1%nat ltac:(lia)). lra. }
  assert (im0 : 0 <= im). { apply (off_nonneg 1 im (fluid0 * n_to_SI)); auto. pose proof (G 1%nat ltac:(lia)). lra. }
  destruct (ord_low weight Hw) as [Lw Bw]. rewrite Rabs_pos_eq in Bw by auto.
  assert (OW : off 1 (nd * weight) (IZR added * weight) (IZR added * weight)).
  { pose proof (off_mul _ _ _ _ _ _ _ _ O4 (off_refl weight)) as Q. rewrite (Rabs_pos_eq weight) in Q by auto. exact Q. }
  assert (AW : 0 <= IZR added * weight <= bpow radix2 400).
  { split; [apply Rmult_le_pos; auto|]. apply Rle_trans with (bpow radix2 64 * bpow radix2 200); [apply Rmult_le_compat; auto|]. rewrite <- bpow_plus. apply bpow_le. lia. }
  destruct (prod_add c2 nd weight im (IZR added * weight) (fluid0 * n_to_SI) 1 200) as (C' & E5 & D5 & O5); auto; try lia; try lra.
  { apply Rmult_le_pos; auto. } { apply (low_mul 0 200); auto. } { pose proof (G 2%nat ltac:(lia)). lra. }
  rewrite E5. cbn [bind]. change (IZR added * weight + fluid0 * n_to_SI) with expected in O5.
  (* everything as errors relative to now and expected *)
  set (K := (height t + 3)%nat). assert (GK : g K <= 4 / 3) by (apply Gh; lia). pose proof (g_ge1 K) as GK1.
  apply (off_le _ K) in O3; [|unfold K; lia]. destruct O3 as [_ OT]. apply (off_le _ K) in O5; [|unfold K; lia]. destruct O5 as [_ OC]. set (eps := g K - 1) in *.
  assert (HK : eps <= 2 * INR K * u). { unfold eps. pose proof (u_50 _ HH). pose proof u_small. assert (INR K * u <= 1 / 2) by (unfold K; rewrite plus_INR; replace (INR 3) with 3 by (cbn; ring); lra). pose proof (g_lin K ltac:(auto)). lra. }
  assert (now0 : 0 <= now) by (unfold now, mass_now; lra). assert (nowB : now <= 2 * bpow radix2 400) by (unfold now, mass_now; lra).
  assert (expB : bpow radix2 (-400) <= expected <= 2 * bpow radix2 400).
  { split; [|unfold expected, mass_expected; lra]. assert (L : low 400 expected); [|destruct L as [L|L]; [lra|rewrite Rabs_pos_eq in L by lra; auto]].
    unfold expected, mass_expected. apply low_plus; try lra; auto. assert (Q : low (0 + 200) (IZR added * weight)) by (apply low_mul; auto). destruct Q as [Q|Q]; [left; auto|right]. eapply Rle_trans; [|exact Q]. apply bpow_le. lia. }
  pose proof u_pos as u0. pose proof u_small as us. apply Rabs_le_inv in OT. apply Rabs_le_inv in OC.
  assert (ec : eps * expected <= 1 / 3 * expected) by (apply Rmult_le_compat_r; unfold eps; lra). assert (et : eps * now <= 1 / 3 * now) by (apply Rmult_le_compat_r; unfold eps; lra).
  assert (F6 : fl (C' - T') = Some (rnd (C' - T'))).
  { apply (fl_bpow _ 900); [lia|]. apply Rabs_le. assert (8 * bpow radix2 400 <= bpow radix2 900). { replace 8 with (bpow radix2 3) by (cbn; lra). rewrite <- bpow_plus. apply bpow_le. lia. } lra. }
  rewrite F6. cbn [bind]. unfold div_d. assert (C'0 : 0 < C') by lra. rewrite (Rabs_pos_eq C') by lra. rewrite Req_bool_false by lra.
  destruct (rnd_plus C' (- T')) as (d & Hd & Ed); [apply fmt_d; auto|apply fmt_opp, fmt_d; auto|]. change (C' + - T') with (C' - T') in Ed. set (D := rnd (C' - T')) in *.
  set (delta := Rabs (expected - now) / expected). set (eta := eps + 2 * u).
  assert (HD : Rabs (D - (expected - now)) <= eta * (expected + now)).
  { rewrite Ed. replace ((C' - T') * (1 + d) - (expected - now)) with ((C' - expected) - (T' - now) + d * (C' - T')) by ring.
    assert (Rabs (d * (C' - T')) <= u * (4 / 3 * (expected + now))). { rewrite Rabs_mult. apply Rmult_le_compat; try apply Rabs_pos; auto. apply Rabs_le. lra. }
    assert (Rabs (C' - expected - (T' - now)) <= eps * (expected + now)) by (apply Rabs_le; lra).
    eapply Rle_trans; [apply Rabs_triang|]. unfold eta. assert (0 <= u * (expected + now)) by (apply Rmult_le_pos; lra). lra. }
  assert (HD' : Rabs (Rabs D - Rabs (expected - now)) <= eta * (expected + now)). { eapply Rle_trans; [apply Rabs_triang_inv2|exact HD]. }
  assert (tau : now / expected = now / expected) by auto. set (ta := 1 + now / expected) in *.
  assert (ta1 : 1 <= ta). { unfold ta. assert (0 <= now / expected) by (apply Rmult_le_pos; [lra|left; apply Rinv_0_lt_compat; lra]). lra. }
  assert (tae : expected + now = ta * expected) by (unfold ta; field; lra).
  assert (del1 : Rabs (expected - now) <= ta * expected). { rewrite <- tae. apply Rabs_le. lra. }
  assert (eps0 : 0 <= eps) by (unfold eps; lra). assert (eta0 : 0 <= eta) by (unfold eta; lra). assert (eta1 : eta <= 1 / 2) by (unfold eta, eps; lra).
  assert (Q1 : Rabs (Rabs D / C' - delta) <= 3 * eta * ta).
  { replace (Rabs D / C' - delta) with (((Rabs D - Rabs (expected - now)) * expected + Rabs (expected - now) * (expected - C')) / (C' * expected)) by (unfold delta; field; lra).
    assert (CC : 2 / 3 * expected <= C') by lra.
    unfold Rdiv. rewrite Rabs_mult. rewrite (Rabs_pos_eq (/ (C' * expected))) by (left; apply Rinv_0_lt_compat; apply Rmult_lt_0_compat; lra).
    apply Rmult_le_reg_r with (C' * expected); [apply Rmult_lt_0_compat; lra|]. rewrite Rmult_assoc, Rinv_l, Rmult_1_r by (apply Rgt_not_eq, Rmult_lt_0_compat; lra).
    eapply Rle_trans; [apply Rabs_triang|]. rewrite !Rabs_mult, (Rabs_pos_eq expected), Rabs_Rabsolu by lra.
    assert (Rabs (Rabs D - Rabs (expected - now)) * expected <= eta * (ta * expected) * expected). { apply Rmult_le_compat_r; [lra|]. rewrite <- tae. exact HD'. }
    assert (Rabs (expected - now) * Rabs (expected - C') <= (ta * expected) * (eta * expected)).
    { apply Rmult_le_compat; try apply Rabs_pos; auto. apply Rle_trans with (eps * expected); [apply Rabs_le; lra|]. apply Rmult_le_compat_r; unfold eta; lra. }
    assert (Z : 0 <= eta * ta * expected) by (apply Rmult_le_pos; [apply Rmult_le_pos|]; lra).
    assert (3 * eta * ta * (2 / 3 * expected * expected) <= 3 * eta * ta * (C' * expected)).
    { apply Rmult_le_compat_l; [replace (3 * eta * ta) with (3 * (eta * ta)) by ring; apply Rmult_le_pos; [lra|apply Rmult_le_pos; lra]|]. apply Rmult_le_compat_r; lra. }
    replace (3 * eta * ta * (2 / 3 * expected * expected)) with (eta * (ta * expected) * expected + ta * expected * (eta * expected)) in * by field. lra. }
  assert (del2 : 0 <= delta <= ta). { unfold delta. split; [apply Rmult_le_pos; [apply Rabs_pos|left; apply Rinv_0_lt_compat; lra]|]. apply Rmult_le_reg_r with expected; [lra|]. unfold Rdiv. rewrite Rmult_assoc, Rinv_l by lra. lra. }
  assert (q0 : 0 <= Rabs D / C') by (apply Rmult_le_pos; [apply Rabs_pos|left; apply Rinv_0_lt_compat; lra]).
  assert (eta * ta <= 1 / 2 * ta) by (apply Rmult_le_compat_r; lra). assert (q1 : Rabs D / C' <= 3 * ta). { apply Rabs_le_inv in Q1. lra. }
  assert (taB : 3 * ta <= bpow radix2 1000).
  { assert (now / expected <= 2 * bpow radix2 400 * bpow radix2 400). { unfold Rdiv. apply Rmult_le_compat; try lra; [left; apply Rinv_0_lt_compat; lra|]. replace (bpow radix2 400) with (/ bpow radix2 (-400)) by (rewrite <- bpow_opp; reflexivity). apply Rinv_le_contravar; [apply bpow_gt_0|lra]. }
    rewrite Rmult_assoc, <- bpow_plus in H0. change (400 + 400)%Z with 800%Z in H0. assert (8 * bpow radix2 800 <= bpow radix2 1000). { replace 8 with (bpow radix2 3) by (cbn; lra). rewrite <- bpow_plus. apply bpow_le. lia. }
    assert (3 <= bpow radix2 800). { apply Rle_trans with (bpow radix2 2); [cbn; lra|apply bpow_le; lia]. } unfold ta. lra. }
  assert (F7 : fl (Rabs D / C') = Some (rnd (Rabs D / C'))). { apply (fl_bpow _ 1000); [lia|]. rewrite Rabs_pos_eq by auto. lra. }
  exists (rnd (Rabs D / C')). split; [exact F7|]. split; [apply rnd_abs; auto|].
  destruct (rnd_any (Rabs D / C')) as (d' & n & Hd' & Hnn & ->). rewrite u_eq.
  assert (Hn' : bpow radix2 (-1075) <= u). { rewrite <- u_eq. unfold unit_roundoff. rewrite inv_pow. apply bpow_le. lia. }
  replace (Rabs D / C' * (1 + d') + n - delta) with ((Rabs D / C' - delta) + (d' * (Rabs D / C') + n)) by ring. eapply Rle_trans; [apply Rabs_triang|].
  assert (Rabs (d' * (Rabs D / C') + n) <= 4 * u * ta).
  { eapply Rle_trans; [apply Rabs_triang|]. rewrite Rabs_mult, (Rabs_pos_eq (Rabs D / C')) by auto.
    assert (Rabs d' * (Rabs D / C') <= u * (3 * ta)) by (apply Rmult_le_compat; auto; apply Rabs_pos). assert (u * 1 <= u * ta) by (apply Rmult_le_compat_l; lra). lra. }
  assert (EK : INR K = INR (height t) + 3) by (unfold K; rewrite plus_INR; cbn; ring). rewrite EK in HK. pose proof (pos_INR (height t)) as hh0.
  assert (Z1 : eta * ta <= (2 * (INR (height t) + 3) * u + 2 * u) * ta) by (apply Rmult_le_compat_r; unfold eta; lra).
  assert (Z2 : 0 <= INR (height t) * u * ta) by (apply Rmult_le_pos; [apply Rmult_le_pos|]; lra). assert (Z3 : 0 <= u * ta) by (apply Rmult_le_pos; lra). lra.
Qed.
Print Assumptions C111_mass.
(** an exactly balanced run is reported as balanced up to rounding *)
Theorem C111_balanced (c1 c2 : bool) (n_to_SI weight fluid0 fluid : R) (added : Z) (ranks : list (list R)) (t : addtree R) :
  mass_ok n_to_SI weight fluid0 fluid added (concat ranks) -> schedules t ranks -> INR (height t) <= 2 ^ 50 ->
  mass_now n_to_SI fluid (concat ranks) = mass_expected n_to_SI weight fluid0 added ->
  exists e, mass_error_d c1 c2 n_to_SI weight fluid0 fluid added t = Some e /\ 0 <= e <= 16 * (INR (height t) + 4) * unit_roundoff.
Proof.
  intros H HP HH E. destruct (C111_mass c1 c2 n_to_SI weight fluid0 fluid added ranks t H HP HH) as (e & E1 & E0 & B). destruct H as [_ _ _ HC]. exists e. split; [auto|]. split; [auto|].
  rewrite E in B. set (x := mass_expected n_to_SI weight fluid0 added) in *. replace (Rabs (x - x) / x) with 0 in B by (rewrite Rminus_diag_eq, Rabs_R0 by reflexivity; field; lra).
  replace (x / x) with 1 in B by (field; lra). rewrite Rminus_0_r, Rabs_pos_eq in B by auto. lra.
Qed.
Print Assumptions C111_balanced.

(** The result depends on the order. *)
Ltac fl_to n e z := match goal with |- context [fl ?x] => replace (fl x) with (Some z) by (symmetry; transitivity (Some (rnd x)); [apply (fl_bpow _ 10); [lia|rewrite Rabs_pos_eq; cbn; lra]|f_equal; rewrite (rnd_val x e n); [cbn; lra|cbn; lra|lia|apply Znearest_imp; apply Rabs_def1; cbn; lra]]) end; cbn [bind].
Ltac fl_ex m k z := match goal with |- context [fl ?x] => replace (fl x) with (Some z) by (symmetry; replace x with z by lra; apply (fl_is m k); [cbn; lra|lia|lia]) end; cbn [bind].
Theorem C111_order_refuted : exists ranks t t' s s', Forall is_double (concat ranks) /\ schedules t ranks /\ schedules t' ranks /\
  add_up (fun x => Some x) t = Some s /\ add_up (fun x => Some x) t' = Some s' /\ s < s'.
Proof.
  set (a := 3 / 36028797018963968). exists [[1; a; a]], (one_by_one [1; a; a]), (APlus (APlus (AVal a) (AVal a)) (AVal 1)), 1, (1 + / 4503599627370496).
  split; [cbn; constructor; [dbl 1%Z 0%Z|constructor; [unfold a; dbl 3%Z (-55)%Z|constructor; [unfold a; dbl 3%Z (-55)%Z|constructor]]]|].
  split; [cbn; apply Permutation_refl|]. split; [cbn; apply (Permutation_trans (l' := [a; 1; a])); [apply perm_skip, perm_swap|apply perm_swap]|].
  unfold one_by_one. cbn [fold_left add_up bind]. unfold a. split; [|split; [|lra]].
  - fl_ex 1%Z 0%Z 1. fl_to 4503599627370496%Z (-52)%Z 1. fl_to 4503599627370496%Z (-52)%Z 1. reflexivity.
  - fl_ex 6%Z (-55)%Z (6 / 36028797018963968). fl_to 4503599627370497%Z (-52)%Z (1 + / 4503599627370496). reflexivity.
Qed.
Print Assumptions C111_order_refuted.
(** Seven particles added, nothing ionised yet: the balance is exact, what is printed is not zero. *)
Definition seven : R := 3 / 2 + 3 / 4503599627370496.
Lemma ord_seven : ordinary seven /\ ordinary 0 /\ ordinary 1.
Proof.
  assert (P : / 2 ^ 200 <= 1 /\ 2 <= 2 ^ 200). { split; [rewrite <- Rinv_1; apply Rinv_le_contravar; [lra|apply pow_R1_Rle; lra]|]. apply Rle_trans with (2 ^ 1); [lra|apply Rle_pow; [lra|lia]]. }
  split; [|split].
  - split; [unfold seven; dbl 6755399441055747%Z (-52)%Z|]. right. unfold seven. rewrite Rabs_pos_eq by lra. lra.
  - split; [apply dbl_0|left; auto].
  - split; [dbl 1%Z 0%Z|]. right. rewrite Rabs_pos_eq by lra. lra.
Qed.
Lemma seven_ok : mass_ok 1 seven 0 0 7 (concat [repeat seven 7]).
Proof.
  destruct ord_seven as (S7 & O0 & O1). assert (1 <= seven <= 2) by (unfold seven; lra).
  constructor.
  - constructor; [split; [auto|lra]|]. constructor; [split; [auto|lra]|]. constructor; [split; [auto|lra]|]. constructor; [split; [auto|lra]|]. constructor.
  - lia.
  - split.
    + cbn [concat app repeat]. assert (Q : is_double seven /\ 0 <= seven) by (split; [apply S7|lra]). apply Forall_forall. intros x Hx. cbn in Hx. assert (x = seven) by (repeat destruct Hx as [Hx|Hx]; auto; contradiction). subst. exact Q.
    + cbn [concat app repeat total fold_right]. apply Rle_trans with (2 ^ 4); [cbn; lra|apply Rle_pow; [lra|lia]].
  - unfold mass_expected. lra.
Qed.
Theorem C111_exact_balance_refuted : exists ranks t, mass_ok 1 seven 0 0 7 (concat ranks) /\ schedules t ranks /\
  mass_now 1 0 (concat ranks) = mass_expected 1 seven 0 7 /\ forall c1 c2, exists e, mass_error_d c1 c2 1 seven 0 0 7 t = Some e /\ 0 < e.
Proof.
  exists [repeat seven 7], (one_by_one (repeat seven 7)). split; [apply seven_ok|]. split; [unfold schedules; cbn; apply Permutation_refl|].
  split; [unfold mass_now, mass_expected; cbn; ring|]. intros c1 c2. unfold mass_error_d.
  fl_ex 0%Z 0%Z 0. unfold one_by_one. cbn [repeat fold_left add_up bind].
  assert (A : (do mass_particles <- (do x <- (do x <- (do x <- (do x <- (do x <- (do x <- fl (0 + seven); fl (x + seven)); fl (x + seven)); fl (x + seven)); fl (x + seven)); fl (x + seven)); fl (x + seven)); Some mass_particles) = Some (21 / 2 + 16 / 4503599627370496)).
  { unfold seven. fl_ex 6755399441055747%Z (-52)%Z (3 / 2 + 3 / 4503599627370496). fl_ex 6755399441055747%Z (-51)%Z (3 + 6 / 4503599627370496).
    fl_to 5066549580791810%Z (-50)%Z (9 / 2 + 8 / 4503599627370496). fl_to 6755399441055747%Z (-50)%Z (6 + 12 / 4503599627370496).
    fl_to 8444249301319684%Z (-50)%Z (15 / 2 + 16 / 4503599627370496). fl_to 5066549580791810%Z (-49)%Z (9 + 16 / 4503599627370496).
    fl_to 5910974510923778%Z (-49)%Z (21 / 2 + 16 / 4503599627370496). reflexivity. }
  match type of A with ?l = _ => match l with bind ?m _ => replace m with (Some (21 / 2 + 16 / 4503599627370496)) by (rewrite <- A; destruct m; reflexivity) end end. cbn [bind]. clear A.
  assert (A1 : mul_add c1 0 1 (21 / 2 + 16 / 4503599627370496) = Some (21 / 2 + 16 / 4503599627370496)).
  { unfold mul_add. destruct c1; [|fl_ex 0%Z 0%Z 0]; fl_ex 5910974510923778%Z (-49)%Z (21 / 2 + 16 / 4503599627370496); reflexivity. }
  rewrite A1. cbn [bind]. fl_ex 7%Z 0%Z 7.
  assert (A2 : mul_add c2 7 seven 0 = Some (21 / 2 + 24 / 4503599627370496)).
  { unfold mul_add, seven. destruct c2; fl_to 5910974510923779%Z (-49)%Z (21 / 2 + 24 / 4503599627370496); [reflexivity|]. fl_ex 5910974510923779%Z (-49)%Z (21 / 2 + 24 / 4503599627370496). reflexivity. }
  rewrite A2. cbn [bind]. fl_ex 1%Z (-49)%Z (8 / 4503599627370496). unfold div_d. rewrite !Rabs_pos_eq by lra. rewrite Req_bool_false by lra.
  set (q := 8 / 4503599627370496 / (21 / 2 + 24 / 4503599627370496)).
  assert (Q : / 9007199254740992 <= q <= 1). { unfold q. split; apply Rmult_le_reg_r with (21 / 2 + 24 / 4503599627370496); try lra; unfold Rdiv; rewrite ?(Rmult_assoc (8 * / 4503599627370496)), ?Rinv_l by lra; lra. }
  exists (rnd q). split; [apply (fl_bpow _ 0); [lia|rewrite Rabs_pos_eq; cbn; lra]|].
  apply Rlt_le_trans with (/ 9007199254740992); [lra|]. apply rnd_ge; [|lra]. replace (/ 9007199254740992) with (bpow radix2 (-53)) by (cbn; lra). apply fmt_bpow. lia.
Qed.
Print Assumptions C111_exact_balance_refuted.
(** Two ranks, three particles: velocities (1,2,0), (0,0,3), (1/2,0,0), mass 2: energy 14 + 1/4. *)
Example C111_applied : exists (ranks : list (list cpart)) t, ordinary 2 /\ Forall (fun p => all3 ordinary (cp_V p)) (concat ranks) /\
  Permutation (map snd (leaves t)) (concat ranks) /\ height t = 2%nat /\ total (map (half_mv2 2) (concat ranks)) = 57 / 4 /\ kinetic_energy_d 2 t = Some (57 / 4).
Proof.
  set (p1 := {| cp_P := (0, 0); cp_V := (1, 2, 0); cp_E := (0, 0); cp_Q := 1; cp_M := 1 |}). set (p2 := {| cp_P := (0, 0); cp_V := (0, 0, 3); cp_E := (0, 0); cp_Q := 1; cp_M := 1 |}).
  set (p3 := {| cp_P := (0, 0); cp_V := (1 / 2, 0, 0); cp_E := (0, 0); cp_Q := 1; cp_M := 1 |}). set (f := (true, false, true)).
  exists [[p1; p2]; [p3]], (APlus (APlus (AVal (f, p2)) (AVal (f, p1))) (AVal (f, p3))).
  assert (Q : forall m k x, x = IZR m * bpow radix2 k -> (Z.abs m <= 2 ^ 53)%Z -> (-1074 <= k <= 900)%Z -> 1 / 2 <= x <= 4 -> ordinary x).
  { intros m k x E H1 H2 H3. split; [apply (fl_double x); apply (fl_is m k); auto|right]. rewrite Rabs_pos_eq by lra.
    split; [apply Rle_trans with (/ 2 ^ 1); [apply Rinv_le_contravar; [cbn; lra|apply Rle_pow; [lra|lia]]|cbn; lra]|apply Rle_trans with (2 ^ 2); [cbn; lra|apply Rle_pow; [lra|lia]]]. }
  assert (O0 : ordinary 0) by (split; [apply dbl_0|left; auto]). assert (O1 : ordinary 1) by (apply (Q 1%Z 0%Z); [cbn; lra|lia|lia|lra]). assert (O2 : ordinary 2) by (apply (Q 2%Z 0%Z); [cbn; lra|lia|lia|lra]).
  assert (O3 : ordinary 3) by (apply (Q 3%Z 0%Z); [cbn; lra|lia|lia|lra]). assert (Oh : ordinary (1 / 2)) by (apply (Q 1%Z (-1)%Z); [cbn; lra|lia|lia|lra]).
  split; [auto|]. split.
  { cbn [concat app]. constructor; [cbn; auto|]. constructor; [cbn; auto|]. constructor; [cbn; auto|constructor]. }
  split; [cbn [leaves app map snd concat]; apply perm_swap|]. split; [reflexivity|]. split; [cbn [concat app map total fold_right half_mv2 cp_V p1 p2 p3]; lra|].
  assert (S : forall b a s z m k m' k', a * a = IZR m * bpow radix2 k -> a * a + s = IZR m' * bpow radix2 k' -> (Z.abs m <= 2 ^ 53)%Z -> (Z.abs m' <= 2 ^ 53)%Z -> (-1074 <= k <= 900)%Z -> (-1074 <= k' <= 900)%Z -> z = a * a + s -> mul_add b a a s = Some z).
  { intros b a s z m k m' k' E1 E2 B1 B2 B3 B4 ->. unfold mul_add. destruct b; [apply (fl_is m' k'); auto|]. rewrite (fl_is m k) by auto. cbn [bind]. apply (fl_is m' k'); auto. }
  unfold kinetic_energy_d. cbn [add_up kinetic_term_d f p1 p2 p3 cp_V].
  rewrite (S _ 0 0 0 0%Z 0%Z 0%Z 0%Z) by (try lia; cbn; lra). rewrite (S _ 1 0 1 1%Z 0%Z 1%Z 0%Z) by (try lia; cbn; lra). rewrite (S _ (1 / 2) 0 (1 / 4) 1%Z (-2)%Z 1%Z (-2)%Z) by (try lia; cbn; lra).
  fl_ex 1%Z 0%Z 1. rewrite (S _ 0 0 0 0%Z 0%Z 0%Z 0%Z) by (try lia; cbn; lra). cbn [bind]. rewrite (S _ 3 0 9 9%Z 0%Z 9%Z 0%Z) by (try lia; cbn; lra). cbn [bind]. fl_ex 9%Z 0%Z 9.
  repeat (first [rewrite (S _ 2 1 5 4%Z 0%Z 5%Z 0%Z) by (try lia; cbn; lra)|rewrite (S _ 0 5 5 0%Z 0%Z 5%Z 0%Z) by (try lia; cbn; lra)|rewrite (S _ 0 (1 / 4) (1 / 4) 0%Z 0%Z 1%Z (-2)%Z) by (try lia; cbn; lra)]; cbn [bind]).
  fl_ex 5%Z 0%Z 5. fl_ex 14%Z 0%Z 14. fl_ex 1%Z (-2)%Z (1 / 4). fl_ex 57%Z (-2)%Z (57 / 4). reflexivity.
Qed.

