(** C104: atomic deposits in double precision. *)
From Flocq Require Import Core.
From Verif Require Import M_RealBase L_RealBase M_Grid M_Double S_Double L_Double L_Double2 L_Double3 P_Double.
From Verif Require M_Basis L_Basis5.
From Coq Require Import Permutation List.
Import ListNotations.
Open Scope R_scope.

Lemma atomic_cons c v l r : atomic_adds c (v :: l) = Some r -> exists s, fl (c + v) = Some s /\ atomic_adds s l = Some r.
Proof.
  unfold atomic_adds. cbn [fold_left bind]. destruct (fl (c + v)) as [s|] eqn:E; [eauto|]. rewrite atomic_none. discriminate.
Qed.
Lemma contributions_cons i k v l : contributions i ((k, v) :: l) = if Nat.eqb k i then v :: contributions i l else contributions i l.
Proof. unfold contributions. cbn [filter fst]. destruct (Nat.eqb k i); reflexivity. Qed.
Lemma contributions_perm i a b : Permutation a b -> Permutation (contributions i a) (contributions i b).
Proof.
  intros H. unfold contributions. apply Permutation_map.
  induction H; cbn [filter]; auto.
  - destruct (Nat.eqb (fst x) i); auto.
  - destruct (Nat.eqb (fst x) i), (Nat.eqb (fst y) i); auto. apply perm_swap.
  - eapply perm_trans; eauto.
Qed.
Lemma nth_patch (g : list R) k s i : (k < length g)%nat -> nth i (firstn k g ++ [s] ++ skipn (S k) g) 0 = if Nat.eqb k i then s else nth i g 0.
Proof.
  intros H. assert (L : length (firstn k g) = k) by (rewrite firstn_length; lia).
  destruct (Nat.eqb_spec k i) as [<-|N].
  - rewrite app_nth2 by lia. rewrite L, Nat.sub_diag. reflexivity.
  - destruct (Nat.lt_ge_cases i k) as [A|A].
    + rewrite app_nth1 by lia. rewrite <- (firstn_skipn k g) at 2. rewrite app_nth1 by lia. reflexivity.
    + rewrite app_nth2 by lia. rewrite L. destruct (i - k)%nat as [|j] eqn:E; [lia|]. cbn [app nth].
      rewrite <- (firstn_skipn (S k) g) at 2. rewrite app_nth2 by (rewrite firstn_length; lia).
      rewrite firstn_length. f_equal. lia.
Qed.
Lemma run_d order : forall g, (forall kv, In kv order -> (fst kv < length g)%nat) ->
  (forall i, (i < length g)%nat -> exists r, atomic_adds (nth i g 0) (contributions i order) = Some r) ->
  exists g', fold_left (fun g kv => do g <- g; add_at_d g (fst kv) (snd kv)) order (Some g) = Some g' /\
    length g' = length g /\ forall i, (i < length g)%nat -> atomic_adds (nth i g 0) (contributions i order) = Some (nth i g' 0).
Proof.
  induction order as [|[k v] order IH]; intros g Hk Hr.
  - exists g. cbn. auto.
  - cbn [fold_left bind fst snd]. pose proof (Hk (k, v) (or_introl eq_refl)) as K. cbn [fst] in K.
    destruct (Hr k K) as [r Er]. rewrite contributions_cons, Nat.eqb_refl in Er.
    apply atomic_cons in Er as (s & Es & Er).
    unfold add_at_d at 2. rewrite (nth_error_nth' g 0 K). cbn [bind]. rewrite Es. cbn [bind].
    set (g1 := firstn k g ++ [s] ++ skipn (S k) g).
    assert (L1 : length g1 = length g).
    { unfold g1. rewrite !app_length, firstn_length, skipn_length. cbn [length]. lia. }
    assert (N1 : forall i, nth i g1 0 = if Nat.eqb k i then s else nth i g 0) by (intros; apply nth_patch; auto).
    assert (ST : forall i, (i < length g)%nat -> atomic_adds (nth i g1 0) (contributions i order) = atomic_adds (nth i g 0) (contributions i ((k, v) :: order))).
    { intros i Hi. rewrite N1, contributions_cons. destruct (Nat.eqb_spec k i) as [<-|N]; [|auto].
      unfold atomic_adds. cbn [fold_left bind]. rewrite Es. reflexivity. }
    destruct (IH g1) as (g' & E & L & A).
    + intros kv H. rewrite L1. apply Hk. right. auto.
    + intros i Hi. rewrite L1 in Hi. rewrite ST by auto. auto.
    + exists g'. split; [exact E|]. split; [congruence|]. intros i Hi. rewrite <- ST by auto. apply A. lia.
Qed.
Lemma total_rsum l : total l = rsum l. Proof. reflexivity. Qed.
Lemma magnitude_asum l : magnitude l = asum l. Proof. reflexivity. Qed.
Lemma contributions_in i v l : In v (contributions i l) -> In (i, v) l.
Proof.
  unfold contributions. intros H. apply in_map_iff in H as ([k w] & E & H). apply filter_In in H as [H Q].
  cbn [fst snd] in *. apply Nat.eqb_eq in Q. subst. auto.
Qed.
Lemma csum_total i adds : L_Basis5.csum i adds = total (contributions i adds).
Proof.
  induction adds as [|[k v] l IH]; [reflexivity|]. unfold L_Basis5.csum in *. cbn [fold_right fst snd].
  rewrite contributions_cons. rewrite IH. destruct (Nat.eqb k i); cbn [total fold_right]; fold (total (contributions i l)); lra.
Qed.
Lemma nth_repeat0 i n : nth i (repeat 0 n) 0 = 0.
Proof. revert i. induction n; intros [|i]; cbn; auto. Qed.

Definition room (n : nat) (adds : list (nat * R)) : Prop :=
  forall i, (i < n)%nat -> (1 + unit_roundoff) ^ length (contributions i adds) * magnitude (contributions i adds) <= 2 ^ 1023.

(** C104: whatever the order of the atomic additions, every coefficient is within the accumulated
    rounding of the exact deposit of the same contributions. *)
Theorem C104_deposit (n : nat) (adds order : list (nat * R)) :
  Permutation order adds -> (forall i v, In (i, v) adds -> (i < n)%nat /\ is_double v) -> room n adds ->
  exists c e, project_run_d n order = Some c /\ length c = n /\ Forall is_double c /\
    M_Basis.project_run n (map (fun kv => (fst kv, Some (snd kv))) adds) = Some (map Some e) /\ length e = n /\
    forall i, (i < n)%nat -> nth i e 0 = total (contributions i adds) /\
      Rabs (nth i c 0 - nth i e 0) <= sum_tolerance (contributions i adds).
Proof.
  intros HP Ha Hroom.
  assert (Fi : forall i, Forall fmt (contributions i order)).
  { intros i. apply Forall_forall. intros v H. apply contributions_in in H.
    apply (Permutation_in _ HP) in H. apply Ha in H as [_ H]. apply is_double_fmt in H. tauto. }
  assert (Sm : forall i, (i < n)%nat -> exists r, atomic_adds 0 (contributions i order) = Some r).
  { intros i Hi. apply adds_some; [apply fmt_0|apply Fi|].
    pose proof (contributions_perm i _ _ HP) as Q. rewrite (Permutation_length Q), (asum_perm _ _ Q).
    rewrite Rabs_R0, Rplus_0_l. specialize (Hroom i Hi). rewrite u_eq in Hroom. rewrite <- (bpow_nat 1023) in Hroom. exact Hroom. }
  destruct (run_d order (repeat 0 n)) as (c & E & L & A).
  - intros [k v] H. rewrite repeat_length. apply (Permutation_in _ HP) in H. apply Ha in H. tauto.
  - intros i Hi. rewrite repeat_length in Hi. rewrite nth_repeat0. auto.
  - rewrite repeat_length in *.
    exists c, (map (fun i => L_Basis5.csum i adds) (seq 0 n)).
    assert (FR : forall i, (i < n)%nat -> atomic_adds 0 (contributions i order) = Some (nth i c 0)).
    { intros i Hi. rewrite <- (A i Hi), nth_repeat0. reflexivity. }
    split; [exact E|]. split; [exact L|]. split; [|split; [|split]].
    + apply Forall_forall. intros x Hx. apply (In_nth _ _ 0) in Hx as (i & Hi & <-).
      rewrite L in Hi. specialize (FR i Hi).
      destruct (contributions i order) as [|v l] eqn:El using rev_ind.
      * injection FR as <-. apply is_double_fmt. split; [apply fmt_0|]. rewrite Rabs_R0. apply bpow_gt_0.
      * unfold atomic_adds in FR. rewrite fold_left_app in FR. cbn [fold_left] in FR.
        destruct (fold_left _ l (Some 0)); [|discriminate]. cbn [bind] in FR. eapply fl_double; eauto.
    + apply L_Basis5.project_run_ok; [apply Permutation_refl|]. intros [k v] H. apply Ha in H. tauto.
    + rewrite map_length, seq_length. reflexivity.
    + intros i Hi.
      assert (Ne : nth i (map (fun i => L_Basis5.csum i adds) (seq 0 n)) 0 = total (contributions i adds)).
      { rewrite (nth_indep _ 0 (L_Basis5.csum 0 adds)) by (rewrite map_length, seq_length; auto).
        rewrite (map_nth (fun i => L_Basis5.csum i adds)). rewrite seq_nth by auto. apply csum_total. }
      split; [exact Ne|]. rewrite Ne.
      destruct (adds_err _ _ _ fmt_0 (Fi i) (FR i Hi)) as [D _].
      pose proof (contributions_perm i _ _ HP) as Q.
      rewrite (Permutation_length Q), (asum_perm _ _ Q), (rsum_perm _ _ Q) in D.
      rewrite Rabs_R0, !Rplus_0_l in D. unfold sum_tolerance. rewrite u_eq. exact D.
Qed.
(** two runs of the same deposit *)
Theorem C104_two_runs (n : nat) (adds order order' : list (nat * R)) c c' :
  Permutation order adds -> Permutation order' adds -> (forall i v, In (i, v) adds -> (i < n)%nat /\ is_double v) -> room n adds ->
  project_run_d n order = Some c -> project_run_d n order' = Some c' ->
  forall i, (i < n)%nat -> Rabs (nth i c 0 - nth i c' 0) <= 2 * sum_tolerance (contributions i adds).
Proof.
  intros P P' Ha Hr E E' i Hi.
  destruct (C104_deposit n adds order P Ha Hr) as (c1 & e1 & E1 & _ & _ & X1 & _ & D1).
  destruct (C104_deposit n adds order' P' Ha Hr) as (c2 & e2 & E2 & _ & _ & X2 & _ & D2).
  rewrite E in E1. injection E1 as <-. rewrite E' in E2. injection E2 as <-.
  destruct (D1 i Hi) as [N1 B1]. destruct (D2 i Hi) as [N2 B2]. rewrite N1 in B1. rewrite N2 in B2.
  apply Rabs_le_inv in B1, B2. apply Rabs_le. lra.
Qed.
(** the accumulated rounding is proportional to the number of additions *)
Theorem C104_tolerance (l : list R) : INR (length l) * unit_roundoff <= / 2 ->
  sum_tolerance l <= 2 * INR (length l) * unit_roundoff * magnitude l.
Proof.
  unfold sum_tolerance. rewrite u_eq, magnitude_asum. pose proof u_pos. pose proof (asum_pos l). intros H1.
  apply Rmult_le_compat_r; [auto|].
  assert (G : forall k, INR k * u <= / 2 -> (1 + u) ^ k <= 1 + 2 * INR k * u).
  { induction k; intros Hk; [cbn; lra|]. rewrite S_INR in *. cbn [pow].
    assert (0 <= INR k) by apply pos_INR. specialize (IHk ltac:(nra)).
    apply Rle_trans with ((1 + u) * (1 + 2 * INR k * u)); [apply Rmult_le_compat_l; lra|]. nra. }
  specialize (G _ H1). lra.
Qed.

(** Contributions that are whole multiples of a common power of two (for instance counts, or equal
    weights) whose magnitudes add up to at most 2^53 of it are summed exactly, in every order. *)
Definition multiples (k : Z) (ms : list Z) (l : list R) : Prop := l = map (fun m => IZR m * bpow radix2 k) ms.
Definition zmag (ms : list Z) : Z := fold_right (fun m s => (Z.abs m + s)%Z) 0%Z ms.
Lemma adds_exact k ms : (-1074 <= k <= 900)%Z -> forall m0, (Z.abs m0 + zmag ms <= 2 ^ 53)%Z ->
  atomic_adds (IZR m0 * bpow radix2 k) (map (fun m => IZR m * bpow radix2 k) ms) =
  Some (IZR m0 * bpow radix2 k + rsum (map (fun m => IZR m * bpow radix2 k) ms)).
Proof.
  intros Hk. induction ms as [|m ms IH]; intros m0 H.
  - cbn [map rsum fold_right]. rewrite Rplus_0_r. reflexivity.
  - unfold atomic_adds. cbn [map fold_left bind].
    cbn [zmag fold_right] in H. fold (zmag ms) in H.
    assert (Z0 : (0 <= zmag ms)%Z) by (clear; induction ms; cbn [zmag fold_right]; [lia|fold (zmag ms); lia]).
    assert (S : IZR m0 * bpow radix2 k + IZR m * bpow radix2 k = IZR (m0 + m) * bpow radix2 k) by (rewrite plus_IZR; ring).
    rewrite S. rewrite (fl_is (m0 + m) k) by (auto; lia).
    change (atomic_adds (IZR (m0 + m) * bpow radix2 k) (map (fun m => IZR m * bpow radix2 k) ms) =
            Some (IZR m0 * bpow radix2 k + rsum (IZR m * bpow radix2 k :: map (fun m => IZR m * bpow radix2 k) ms))).
    rewrite IH by lia. cbn [rsum fold_right]. fold (rsum (map (fun m => IZR m * bpow radix2 k) ms)). f_equal. rewrite plus_IZR. ring.
Qed.
Lemma zmag_perm a b : Permutation a b -> zmag a = zmag b.
Proof. induction 1; cbn [zmag fold_right]; try fold (zmag l); try fold (zmag l'); try lia. Qed.
Theorem C104_exact (n : nat) (adds order : list (nat * R)) :
  Permutation order adds -> (forall i v, In (i, v) adds -> (i < n)%nat) ->
  (forall i, (i < n)%nat -> exists k ms, (-1074 <= k <= 900)%Z /\ (zmag ms <= 2 ^ 53)%Z /\ multiples k ms (contributions i adds)) ->
  project_run_d n order = Some (map (fun i => total (contributions i adds)) (seq 0 n)).
Proof.
  intros HP Ha Hm.
  assert (X : forall i, (i < n)%nat -> atomic_adds 0 (contributions i order) = Some (total (contributions i adds))).
  { intros i Hi. destruct (Hm i Hi) as (k & ms & Hk & Hz & E). unfold multiples in E.
    pose proof (contributions_perm i _ _ HP) as Q. rewrite E in Q.
    apply Permutation_map_inv in Q as (ms' & E' & Q'). rewrite E'.
    pose proof (adds_exact k ms' Hk 0) as A. rewrite Rmult_0_l in A. rewrite A.
    - rewrite Rplus_0_l. rewrite E. f_equal. apply rsum_perm, Permutation_map, Permutation_sym, Q'.
    - cbn [Z.abs]. rewrite <- (zmag_perm _ _ Q'). lia. }
  destruct (run_d order (repeat 0 n)) as (c & E & L & A).
  - intros [k v] H. rewrite repeat_length. apply (Permutation_in _ HP) in H. eapply Ha; eauto.
  - intros i Hi. rewrite repeat_length in Hi. rewrite nth_repeat0. eauto.
  - rewrite repeat_length in *. unfold project_run_d. rewrite E. f_equal.
    apply nth_ext with 0 (total (contributions 0 adds)).
    + rewrite map_length, seq_length. auto.
    + intros i Hi. rewrite L in Hi. rewrite (map_nth (fun i => total (contributions i adds))), seq_nth by auto.
      specialize (A i Hi). rewrite nth_repeat0, (X i Hi) in A. injection A as A. auto.
Qed.

(** The result does depend on the order. *)
Theorem C104_order_refuted :
  exists adds order, Permutation order adds /\ (forall i v, In (i, v) adds -> (i < 1)%nat /\ is_double v) /\
    exists c c', project_run_d 1 adds = Some c /\ project_run_d 1 order = Some c' /\ c <> c'.
Proof.
  set (h := bpow radix2 (-53)). assert (Hh : 0 < h < / 2) by (unfold h; cbn; lra).
  exists [(0%nat, 1); (0%nat, h); (0%nat, h)], [(0%nat, h); (0%nat, h); (0%nat, 1)].
  split; [|split].
  - apply Permutation_sym. apply perm_trans with [(0%nat, h); (0%nat, 1); (0%nat, h)]; [apply perm_swap|]. apply perm_skip, perm_swap.
  - assert (D1 : is_double 1) by (dbl 1%Z 0%Z).
    assert (Dh : is_double h). { apply is_double_fmt. split; [apply fmt_bpow; lia|]. rewrite Rabs_pos_eq by lra. apply bpow_lt. lia. }
    intros i v [H|[H|[H|[]]]]; injection H as <- <-; split; auto.
  - exists [1], [1 + 2 * h].
    assert (F1 : fl (0 + 1) = Some 1) by (rewrite Rplus_0_l; apply (fl_is 1 0); [cbn; lra|lia|lia]).
    assert (F2 : fl (1 + h) = Some 1).
    { rewrite (fl_bpow _ 10); [|lia|rewrite Rabs_pos_eq; cbn; lra]. f_equal.
      assert (E : (1 + h) * bpow radix2 52 = IZR 4503599627370496 + / 2) by (unfold h; cbn; lra).
      rewrite (rnd_val _ (-52) 4503599627370496); [cbn; lra|cbn; lra|lia|].
      change (- -52)%Z with 52%Z. rewrite E.
      unfold Znearest. rewrite (Zfloor_imp 4503599627370496) by (rewrite plus_IZR; lra).
      replace (IZR 4503599627370496 + / 2 - IZR 4503599627370496) with (/ 2) by ring. rewrite Rcompare_Eq by reflexivity. reflexivity. }
    assert (F3 : fl (0 + h) = Some h) by (rewrite Rplus_0_l; apply (fl_is 1 (-53)); [unfold h; ring|lia|lia]).
    assert (F4 : fl (h + h) = Some (2 * h)).
    { replace (h + h) with (2 * h) by ring. apply (fl_is 2 (-53)); [reflexivity|lia|lia]. }
    assert (F5 : fl (2 * h + 1) = Some (1 + 2 * h)).
    { replace (2 * h + 1) with (1 + 2 * h) by ring. apply (fl_is 4503599627370497 (-52)); [unfold h; cbn; lra|lia|lia]. }
    unfold project_run_d, add_at_d. cbn [fold_left repeat bind fst snd nth_error].
    rewrite F1. cbn [bind firstn skipn app nth_error]. rewrite F2. cbn [bind firstn skipn app nth_error]. rewrite F2.
    split; [reflexivity|]. rewrite F3. cbn [bind firstn skipn app nth_error]. rewrite F4. cbn [bind firstn skipn app nth_error].
    rewrite F5. split; [reflexivity|]. intros H. injection H as H. lra.
Qed.

(** Five contributions to two coefficients, in two orders. *)
Definition ex_adds : list (nat * R) := [(0%nat, 3 / 4); (1%nat, - (5 / 8)); (0%nat, / 2); (1%nat, 1); (0%nat, 7)].
Example C104_applied : exists c, project_run_d 2 (rev ex_adds) = Some c /\ c = [33 / 4; 3 / 8] /\ project_run_d 2 ex_adds = Some c.
Proof.
  exists (map (fun i => total (contributions i ex_adds)) (seq 0 2)).
  assert (K : forall i, (i < 2)%nat -> exists k ms, (-1074 <= k <= 900)%Z /\ (zmag ms <= 2 ^ 53)%Z /\ multiples k ms (contributions i ex_adds)).
  { intros [|[|i]] H; [exists (-2)%Z, [3; 2; 28]%Z|exists (-3)%Z, [-5; 8]%Z|lia]; (split; [lia|split; [cbn; lia|]]);
      unfold multiples, contributions, ex_adds; cbn [filter fst snd Nat.eqb map]; repeat (apply f_equal2; [cbn; lra|]); reflexivity. }
  assert (B : forall i v, In (i, v) ex_adds -> (i < 2)%nat).
  { intros i v [H|[H|[H|[H|[H|[]]]]]]; injection H as <- <-; lia. }
  split; [|split].
  - apply C104_exact; auto. apply Permutation_sym, Permutation_rev.
  - cbn [seq map]. unfold contributions, ex_adds. cbn [filter fst snd Nat.eqb map total fold_right].
    apply f_equal2; [lra|]. apply f_equal2; [lra|reflexivity].
  - apply C104_exact; auto.
Qed.
Example C104_deposit_applied : exists c e, project_run_d 2 (rev ex_adds) = Some c /\ length c = 2%nat /\ Forall is_double c /\
    M_Basis.project_run 2 (map (fun kv => (fst kv, Some (snd kv))) ex_adds) = Some (map Some e) /\ length e = 2%nat /\
    forall i, (i < 2)%nat -> nth i e 0 = total (contributions i ex_adds) /\
      Rabs (nth i c 0 - nth i e 0) <= sum_tolerance (contributions i ex_adds).
Proof.
  apply C104_deposit.
  - apply Permutation_sym, Permutation_rev.
  - intros i v [H|[H|[H|[H|[H|[]]]]]]; injection H as <- <-; (split; [lia|]); [dbl 3%Z (-2)%Z|dbl (-5)%Z (-3)%Z|dbl 1%Z (-1)%Z|dbl 1%Z 0%Z|dbl 7%Z 0%Z].
  - intros i Hi. rewrite u_eq. pose proof u_pos. pose proof u_small.
    assert (W : 16 <= 2 ^ 1023) by (apply Rle_trans with (2 ^ 4); [lra|apply Rle_pow; [lra|lia]]).
    eapply Rle_trans; [|exact W].
    destruct i as [|[|i]]; [| |lia]; unfold contributions, magnitude, ex_adds; cbn [filter fst snd Nat.eqb map total fold_right length pow];
      rewrite ?(Rabs_pos_eq 7), ?(Rabs_pos_eq 1), ?(Rabs_pos_eq (3 / 4)), ?(Rabs_pos_eq (/ 2)), ?(Rabs_left (- (5 / 8))) by lra; nra.
Qed.
