From Coq Require Import Permutation.
From Verif Require Import M_Sample S_Sample L_RealBase L_Grid L_Coarse.

(** * C25 *)
Lemma owning_loop_found id0 ref0 cs : o_found (owning_loop id0 ref0 cs) = true <-> last_contains cs.
Proof.
  unfold owning_loop, last_contains. induction cs as [|c cs IH] using rev_ind.
  - cbn. split; [discriminate|]. intros (b & c & E & _). destruct b; discriminate.
  - rewrite fold_left_app. cbn. unfold owning_step at 1. split.
    + intros H. exists cs, c. split; auto. destruct (cand_contains c); auto.
    + intros (b & c' & E & H). apply app_inj_tail in E. destruct E as [_ <-]. rewrite H. reflexivity.
Qed.
Lemma owning_loop_id id0 ref0 cs : last_contains cs ->
  exists c, In c cs /\ cand_contains c = true /\ o_id (owning_loop id0 ref0 cs) = cand_id c /\
            o_ref (owning_loop id0 ref0 cs) = cand_ref c.
Proof.
  intros (b & c & -> & H). exists c. split; [apply in_or_app; right; left; auto|]. split; auto.
  unfold owning_loop. rewrite fold_left_app. cbn. unfold owning_step. rewrite H. auto.
Qed.
Lemma owning_loop_num id0 ref0 cs :
  o_num (owning_loop id0 ref0 cs) = Z.of_nat (length (filter cand_contains cs)).
Proof.
  unfold owning_loop. induction cs as [|c cs IH] using rev_ind; [reflexivity|].
  rewrite fold_left_app, filter_app, app_length. cbn. unfold owning_step at 1.
  destruct (cand_contains c); cbn [o_num]; rewrite IH; cbn [length]; lia.
Qed.

Lemma fold_min_spec (l : list Z) (m0 : Z) :
  let m := fold_left Z.min l m0 in (m <= m0)%Z /\ (forall x, In x l -> m <= x)%Z /\ (m = m0 \/ In m l).
Proof.
  revert m0. induction l as [|a l IH]; intros m0; cbn.
  - repeat split; auto; lia.
  - destruct (IH (Z.min m0 a)) as (A & B & C). repeat split.
    + lia.
    + intros x [<-|H]; [lia|auto].
    + destruct C as [C|C]; auto. rewrite C.
      destruct (Z.min_spec m0 a) as [[_ ->]|[_ ->]]; auto.
Qed.
Lemma fold_add_spec (l : list Z) (a : Z) : fold_left Z.add l a = (a + sumZ l)%Z.
Proof. revert a. induction l as [|x l IH]; intros a; cbn; [lia|]. rewrite IH. unfold sumZ. lia. Qed.

Lemma in_combine_seq {A} (l : list A) k x s : In (k, x) (combine (seq s (length l)) l) <-> (s <= k)%nat /\ nth_error l (k - s) = Some x.
Proof.
  revert s. induction l as [|a l IH]; intros s; cbn.
  - split; [contradiction|]. intros [_ H]. destruct (k - s)%nat; discriminate.
  - rewrite IH. split.
    + intros [E|[H1 H2]].
      * injection E as <- <-. rewrite Nat.sub_diag. auto.
      * split; [lia|]. replace (k - s)%nat with (Datatypes.S (k - Datatypes.S s)) by lia. auto.
    + intros [H1 H2]. destruct (Nat.eq_dec k s) as [->|N].
      * rewrite Nat.sub_diag in H2. cbn in H2. injection H2 as <-. auto.
      * right. split; [lia|]. replace (k - s)%nat with (Datatypes.S (k - Datatypes.S s)) in H2 by lia. auto.
Qed.

Lemma find_owning_spec (inputs : list (Z * list R * list candidate)) (rank : nat) (res : oresult) :
  nth_error (find_owning_geom inputs) rank = Some res ->
  (r_found res = true ->
     exists k id0 ref0 cs c, r_rank res = Z.of_nat k /\ nth_error inputs k = Some (id0, ref0, cs) /\
       last_contains cs /\ In c cs /\ cand_contains c = true /\ r_id res = cand_id c /\ r_ref res = cand_ref c /\
       (forall k' i' r' cs', (k' < k)%nat -> nth_error inputs k' = Some (i', r', cs') -> ~ last_contains cs')) /\
  (r_found res = false -> r_rank res = (-1)%Z /\
     forall k id0 ref0 cs, nth_error inputs k = Some (id0, ref0, cs) -> ~ last_contains cs) /\
  r_num res = sumZ (map (fun '(_, _, cs) => Z.of_nat (length (filter cand_contains cs))) inputs).
Proof.
  unfold find_owning_geom. set (size := Z.of_nat (length inputs)).
  set (sts := map (fun '(id0, ref0, cs) => owning_loop id0 ref0 cs) inputs).
  set (sends := map _ (combine (seq 0 (length sts)) sts)).
  set (recv := fold_left Z.min sends size). set (total := fold_left Z.add (map o_num sts) 0%Z).
  destruct (fold_min_spec sends size) as (M1 & M2 & M3). fold recv in M1, M2, M3.
  assert (Lst : length sts = length inputs) by apply map_length.
  assert (Sends : forall x, In x sends <-> exists k st, nth_error sts k = Some st /\
            x = if o_found st then Z.of_nat k else size).
  { intros x. unfold sends. rewrite in_map_iff. split.
    - intros ([k st] & E & I). apply in_combine_seq in I. rewrite Nat.sub_0_r in I. exists k, st. intuition.
    - intros (k & st & N & E). exists (k, st). split; auto. apply in_combine_seq. rewrite Nat.sub_0_r. split; [lia|auto]. }
  assert (Tot : total = sumZ (map (fun '(_, _, cs) => Z.of_nat (length (filter cand_contains cs))) inputs)).
  { unfold total. rewrite fold_add_spec. unfold sts. rewrite map_map. rewrite Z.add_0_l. f_equal. apply map_ext.
    intros [[i r] cs]. apply owning_loop_num. }
  assert (Nst : forall k st, nth_error sts k = Some st -> exists i r cs, nth_error inputs k = Some (i, r, cs) /\ st = owning_loop i r cs).
  { intros k st H. unfold sts in H. rewrite nth_error_map in H. destruct (nth_error inputs k) as [[[i r] cs]|]; [|discriminate].
    cbn in H. injection H as <-. eauto 6. }
  assert (Nst' : forall k i r cs, nth_error inputs k = Some (i, r, cs) -> nth_error sts k = Some (owning_loop i r cs)).
  { intros k i r cs H. unfold sts. rewrite nth_error_map, H. reflexivity. }
  rewrite nth_error_map. destruct (nth_error sts rank) as [st|]; [|discriminate]. cbn. intros E. injection E as <-.
  assert (None_found : recv = size -> forall k id0 ref0 cs, nth_error inputs k = Some (id0, ref0, cs) -> ~ last_contains cs).
  { intros Er k i r cs H HL. pose proof (Nst' _ _ _ _ H) as HS.
    assert (I : In (Z.of_nat k) sends).
    { apply Sends. exists k, (owning_loop i r cs). split; auto. rewrite (proj2 (owning_loop_found i r cs)); auto. }
    apply M2 in I. assert (k < length inputs)%nat by (apply nth_error_Some; congruence). unfold size in *. lia. }
  case Z.eqb_spec; intros Er.
  - cbn. split; [discriminate|]. split; [|auto]. split; [auto|]. apply None_found; auto.
  - destruct M3 as [M3|M3]; [contradiction|]. apply Sends in M3. destruct M3 as (k & w & Nk & Ek).
    destruct (o_found w) eqn:F; [|contradiction].
    assert (Rk : recv = Z.of_nat k) by auto.
    rewrite Rk, Nat2Z.id, Nk. cbn. split; [|split; [discriminate|auto]].
    intros _. destruct (Nst _ _ Nk) as (i & r & cs & Hin & ->).
    apply owning_loop_found in F as HL. destruct (owning_loop_id i r cs HL) as (c & I1 & I2 & I3 & I4).
    exists k, i, r, cs, c. repeat split; auto.
    intros k' i' r' cs' Lk Hk' HL'. pose proof (Nst' _ _ _ _ Hk') as HS'.
    assert (I : In (Z.of_nat k') sends).
    { apply Sends. exists k', (owning_loop i' r' cs'). split; auto. rewrite (proj2 (owning_loop_found i' r' cs')); auto. }
    apply M2 in I. lia.
Qed.

(** * C26 *)
Section Uniform.
  Context {S : Type} (draw : R -> R -> S -> R * S).
  Hypothesis draw_range : forall lo hi s, lo < hi -> lo <= fst (draw lo hi s) < hi.

  Lemma sample_new_range bb s : Forall (fun b => fst b < snd b) bb -> in_half_open bb (fst (sample_new draw bb s)).
  Proof.
    revert s. induction bb as [|[lo hi] bb IH]; intros s H; cbn; [constructor|].
    inversion H; subst. cbn in *. pose proof (draw_range lo hi s ltac:(assumption)) as D.
    destruct (draw lo hi s) as [x s1]. pose proof (IH s1 ltac:(assumption)) as I.
    destruct (sample_new draw bb s1) as [xs s2]. constructor; auto.
  Qed.
  Lemma contains_accepts tol e x : contains_point tol e x = true <-> accepts tol e x.
  Proof.
    unfold contains_point, accepts. rewrite andb_true_iff, forallb_forall, Forall_forall. split.
    - intros [A B]. split; auto. intros l I. specialize (A l I). apply andb_true_iff in A. destruct A as [A1 A2].
      revert A1 A2. case Rlt_bool_spec; try discriminate. case Rlt_bool_spec; try discriminate. auto.
    - intros [A B]. split; auto. intros l I. specialize (B l I). rewrite !Rlt_bool_true; tauto.
  Qed.
  Lemma sample_loop_ok tol e fuel coord s c s' :
    Forall (fun b => fst b < snd b) (el_bb e) -> in_half_open (el_bb e) coord ->
    sample_loop draw tol e fuel coord s = Some (c, s') -> accepts tol e c /\ in_half_open (el_bb e) c.
  Proof.
    intros P. revert coord s. induction fuel as [|f IH]; intros coord s B; cbn;
      destruct (contains_point tol e coord) eqn:C.
    - intros E. injection E as <- <-. apply contains_accepts in C. auto.
    - destruct (sample_new draw (el_bb e) s). discriminate.
    - intros E. injection E as <- <-. apply contains_accepts in C. auto.
    - pose proof (sample_new_range (el_bb e) s P) as I.
      destruct (sample_new draw (el_bb e) s) as [c1 s1]. cbn in I. intros E. eapply IH; eauto.
  Qed.
  Lemma sample_ok mt tol e s c s' : Forall (fun b => fst b < snd b) (el_bb e) ->
    sample draw mt tol e s = Some (c, s') -> accepts tol e c /\ in_half_open (el_bb e) c.
  Proof.
    intros P. unfold sample. pose proof (sample_new_range (el_bb e) s P) as I.
    destruct (sample_new draw (el_bb e) s) as [c1 s1]. apply sample_loop_ok; auto.
  Qed.
  Definition good (tol : R) (e : element) (ex : Z) (p : list R * Z) : Prop :=
    snd p = ex /\ accepts tol e (fst p) /\ in_half_open (el_bb e) (fst p).
  Lemma sample_n_ok mt tol e ex n s l s' : Forall (fun b => fst b < snd b) (el_bb e) ->
    sample_n draw mt tol e ex n s = Some (l, s') -> length l = n /\ Forall (good tol e ex) l.
  Proof.
    intros P. revert s l. induction n as [|n IH]; intros s l; cbn.
    - intros E. injection E as <- <-. auto.
    - destruct (sample draw mt tol e s) as [[c s1]|] eqn:E1; [|discriminate]. cbn.
      destruct (sample_n draw mt tol e ex n s1) as [[l1 s2]|] eqn:E2; [|discriminate]. cbn.
      intros E. injection E as <- <-. destruct (IH _ _ E2) as [A B]. cbn. split; [lia|].
      constructor; auto. unfold good. cbn. split; auto. eapply sample_ok; eauto.
  Qed.
  Lemma dispatch_ok mt tol npart ex els s out s' :
    Forall (fun e => Forall (fun b => fst b < snd b) (el_bb e)) els ->
    dispatch draw mt tol npart ex els s = Some (out, s') ->
    length out = (length els * npart)%nat /\
    forall k c cell, nth_error out k = Some (c, cell) ->
      exists e, nth_error els (k / npart) = Some e /\ cell = (ex + Z.of_nat (k / npart))%Z /\
                accepts tol e c /\ in_half_open (el_bb e) c.
  Proof.
    intros P. revert ex s out. induction els as [|e els IH]; intros ex s out; cbn.
    - intros E. injection E as <- <-. split; auto. intros k c cell H. destruct k; discriminate.
    - inversion P; subst. destruct (sample_n draw mt tol e ex npart s) as [[l1 s1]|] eqn:E1; [|discriminate]. cbn.
      destruct (dispatch draw mt tol npart (ex + 1) els s1) as [[l2 s2]|] eqn:E2; [|discriminate]. cbn.
      intros E. injection E as <- <-. destruct (sample_n_ok _ _ _ _ _ _ _ _ ltac:(eassumption) E1) as [L1 G1].
      destruct (IH ltac:(assumption) _ _ _ E2) as [L2 G2]. split; [rewrite app_length; lia|].
      intros k c cell H. destruct (Nat.lt_ge_cases k npart) as [Lt|Ge].
      + rewrite nth_error_app1 in H by lia. apply nth_error_In in H. rewrite Forall_forall in G1.
        destruct (G1 _ H) as (Q1 & Q2 & Q3). cbn in *. exists e. rewrite Nat.div_small by auto. cbn.
        split; [auto|]. split; [lia|auto].
      + rewrite nth_error_app2 in H by lia. rewrite L1 in H. destruct (G2 _ _ _ H) as (e' & Q1 & Q2 & Q3 & Q4).
        assert (Np : npart <> O).
        { intros ->. rewrite Nat.mul_0_r in L2. destruct l2; [|discriminate]. destruct (k - 0)%nat; discriminate. }
        assert (D : (k / npart = Datatypes.S ((k - npart) / npart))%nat).
        { transitivity ((((k - npart) + 1 * npart) / npart)%nat); [f_equal; lia|]. rewrite Nat.div_add by auto. lia. }
        rewrite D. cbn. exists e'. split; [auto|]. split; [lia|auto].
  Qed.
  Lemma sample_loop_live tol e j fuel coord s :
    (j <= fuel)%nat ->
    (accepts tol e coord \/ exists i, (i < j)%nat /\ accepts tol e (proposal draw (el_bb e) i s)) ->
    exists r, sample_loop draw tol e fuel coord s = Some r.
  Proof.
    revert j coord s. induction fuel as [|f IH]; intros j coord s L H; cbn;
      destruct (contains_point tol e coord) eqn:C; eauto.
    - destruct H as [H|(i & Li & _)]; [|lia]. apply contains_accepts in H. congruence.
    - destruct H as [H|(i & Li & H)]; [apply contains_accepts in H; congruence|].
      destruct i as [|i]; cbn in H; destruct (sample_new draw (el_bb e) s) as [c1 s1].
      + apply (IH O); auto; lia.
      + apply (IH (Datatypes.S i)); [lia|]. right. exists i. split; [lia|auto].
  Qed.
  Lemma sample_live mt tol e s : (0 < mt)%nat ->
    (exists i, (i < mt)%nat /\ accepts tol e (proposal draw (el_bb e) i s)) ->
    exists r, sample draw mt tol e s = Some r.
  Proof.
    intros M (i & Li & H). unfold sample. destruct i as [|i]; cbn in H; destruct (sample_new draw (el_bb e) s) as [c1 s1].
    - apply (sample_loop_live tol e O); auto; lia.
    - apply (sample_loop_live tol e (Datatypes.S i)); [lia|]. right. exists i. split; [lia|auto].
  Qed.
  Lemma sample_n_live mt tol e ex n s : (0 < mt)%nat ->
    (forall s, exists i, (i < mt)%nat /\ accepts tol e (proposal draw (el_bb e) i s)) ->
    exists r, sample_n draw mt tol e ex n s = Some r.
  Proof.
    intros M H. revert s. induction n as [|n IH]; intros s; cbn; eauto.
    destruct (sample_live mt tol e s M (H s)) as [[c s1] ->]. cbn.
    destruct (IH s1) as [[l s2] ->]. cbn. eauto.
  Qed.
  Lemma dispatch_live mt tol npart els : (0 < mt)%nat ->
    (forall e, In e els -> forall s, exists i, (i < mt)%nat /\ accepts tol e (proposal draw (el_bb e) i s)) ->
    forall ex s, exists r, dispatch draw mt tol npart ex els s = Some r.
  Proof.
    intros M H. induction els as [|e els IH]; intros ex s; cbn; eauto.
    destruct (sample_n_live mt tol e ex npart s M) as [[l s1] ->]; [apply H; left; auto|]. cbn.
    destruct (IH ltac:(intros; apply H; right; auto) (ex + 1)%Z s1) as [[l2 s2] ->]. cbn. eauto.
  Qed.
End Uniform.

(** * C27 *)
Lemma Forall2_nth_error {A B} (P : A -> B -> Prop) l l' : Forall2 P l l' ->
  forall i a b, nth_error l i = Some a -> nth_error l' i = Some b -> P a b.
Proof.
  induction 1; intros i a b; destruct i; cbn; try discriminate; [|eauto].
  intros E1 E2. injection E1 as <-. injection E2 as <-. auto.
Qed.
Lemma ratios_pos i g : nth_error INVERSE_GOLDEN_RATIOS i = Some g -> 0 < g < 1.
Proof.
  intros H. apply nth_error_In in H. unfold INVERSE_GOLDEN_RATIOS in H. apply in_map_iff in H.
  destruct H as (n & <- & I). assert (0 < n < 10 ^ 16)%Z by (cbn in I; intuition lia).
  assert (P : 0 < 10 ^ 16) by (apply pow_lt; lra).
  assert (E : 10 ^ 16 = IZR (10 ^ 16)) by (rewrite pow_IZR; f_equal).
  destruct H as [H1 H2]. apply IZR_lt in H1, H2. rewrite <- E in H2. split.
  - apply Rdiv_lt_0_compat; lra.
  - apply Rmult_lt_reg_r with (10 ^ 16); auto. unfold Rdiv. rewrite Rmult_assoc, Rinv_l; lra.
Qed.
Lemma rsequence_spec i g seed : (0 <= i)%Z -> 0 <= g -> 0 <= seed ->
  0 <= rsequence i g seed < 1 /\ exists n : Z, IZR i * g + seed = rsequence i g seed + IZR n.
Proof.
  intros Hi Hg Hs. unfold rsequence. apply IZR_le in Hi.
  destruct (fmod_spec (IZR i * g + seed) 1) as [A (n & _ & B)]; [|lra|].
  - assert (0 <= IZR i * g) by (apply Rmult_le_pos; lra). lra.
  - split; auto. exists n. lra.
Qed.
Lemma rsequence_extents N ndim extents seed :
  0 <= seed -> (ndim <= 10)%nat -> (ndim <= length extents)%nat -> Forall (fun e => 0 < e) extents ->
  exists out, rsequence_within_extents N ndim extents seed = Some out /\ length out = ndim /\
    forall d row, nth_error out d = Some row -> length row = N /\
      forall ex, nth_error extents d = Some ex ->
      forall p v, nth_error row p = Some v -> 0 <= v < ex /\
        exists (g : R) (n : Z), nth_error INVERSE_GOLDEN_RATIOS d = Some g /\
          v = (INR p * g + seed - IZR n) * ex.
Proof.
  intros Hs Hn Hl He. unfold rsequence_within_extents.
  destruct (mapM_all (fun dimx =>
    do igr <- nth_error INVERSE_GOLDEN_RATIOS dimx;
    do ex <- nth_error extents dimx;
    Some (map (fun px => rsequence (Z.of_nat px) igr seed * ex) (seq 0 N))) (seq 0 ndim)) as [out E].
  { apply Forall_forall. intros d I. apply in_seq in I. destruct (nth_error INVERSE_GOLDEN_RATIOS d) eqn:E1.
    2:{ apply nth_error_None in E1. change (length INVERSE_GOLDEN_RATIOS) with 10%nat in E1. lia. }
    destruct (nth_error extents d) eqn:E2; [|apply nth_error_None in E2; lia]. cbn. eauto. }
  exists out. split; auto. pose proof (proj1 (mapM_Forall2 _ _ _) E) as F. apply Forall2_length in F as L.
  rewrite seq_length in L. split; auto. intros d row Hrow.
  assert (Ld : (d < ndim)%nat) by (rewrite L; apply nth_error_Some; congruence).
  assert (Hd : nth_error (seq 0 ndim) d = Some d) by (rewrite (nth_error_nth' _ O); [rewrite seq_nth; auto|rewrite seq_length; auto]).
  assert (Frow : (do igr <- nth_error INVERSE_GOLDEN_RATIOS d; do ex <- nth_error extents d;
     Some (map (fun px => rsequence (Z.of_nat px) igr seed * ex) (seq 0 N))) = Some row).
  { exact (Forall2_nth_error _ _ _ F d d row Hd Hrow). }
  destruct (nth_error INVERSE_GOLDEN_RATIOS d) as [g|] eqn:E1; [|discriminate]. cbn in Frow.
  destruct (nth_error extents d) as [ex|] eqn:E2; [|discriminate]. cbn in Frow. injection Frow as <-.
  split; [rewrite map_length, seq_length; auto|]. intros ex' H. injection H as <-. intros p v Hv.
  rewrite nth_error_map in Hv. destruct (nth_error (seq 0 N) p) as [p'|] eqn:Ep; [|discriminate].
  assert (p' = p).
  { assert ((p < N)%nat) by (rewrite <- (seq_length N 0); apply nth_error_Some; congruence).
    rewrite (nth_error_nth' _ O) in Ep by (rewrite seq_length; auto). rewrite seq_nth in Ep by auto. injection Ep as <-. lia. }
  subst p'. cbn in Hv. injection Hv as <-.
  assert (0 < ex). { rewrite Forall_forall in He. apply He. eapply nth_error_In; eauto. }
  pose proof (ratios_pos _ _ E1) as [G _].
  destruct (rsequence_spec (Z.of_nat p) g seed) as [A (n & B)]; try lra; try lia.
  split; [nra|]. exists g, n. split; auto. rewrite INR_IZR_INZ. rewrite B. ring_simplify. ring.
Qed.

(** * C28 *)
Lemma line_points_spec N a b rs re : (0 < N)%Z ->
  line_points N a b rs re = map (fun k => spaced N a b (rs + Z.of_nat k)) (seq 0 (Z.to_nat (re - rs))).
Proof.
  intros HN. unfold line_points. apply map_ext. intros px. unfold spaced.
  assert (IZR N <> 0) by (apply not_0_IZR; lia).
  revert b. induction a as [|x a IH]; intros [|y b]; cbn; auto. f_equal; [field; auto|apply IH].
Qed.
Lemma seq_shift_map m n : seq m n = map (Nat.add m) (seq 0 n).
Proof.
  revert m. induction n as [|n IH]; intros m; cbn; auto. f_equal; [lia|].
  rewrite IH, <- seq_shift, !map_map. apply map_ext. intros; lia.
Qed.
Lemma zmap_split {A} (f : Z -> A) (b c : Z) : (0 <= b)%Z -> (b <= c)%Z ->
  map (fun k => f (Z.of_nat k)) (seq 0 (Z.to_nat c)) =
  map (fun k => f (Z.of_nat k)) (seq 0 (Z.to_nat b)) ++
  map (fun k => f (b + Z.of_nat k)%Z) (seq 0 (Z.to_nat (c - b))).
Proof.
  intros. replace (Z.to_nat c) with (Z.to_nat b + Z.to_nat (c - b))%nat by lia.
  rewrite seq_app, map_app. f_equal. cbn. rewrite seq_shift_map, map_map. apply map_ext. intros k. f_equal. lia.
Qed.
Lemma line_partition N a c (b : nat -> Z) ranks : (0 < N)%Z -> b O = 0%Z ->
  (forall r, (b r <= b (r + 1)%nat)%Z) ->
  concat (map (fun r => line_points N a c (b r) (b (r + 1)%nat)) (seq 0 ranks))
  = map (fun k => spaced N a c (Z.of_nat k)) (seq 0 (Z.to_nat (b ranks))).
Proof.
  intros HN H0 Hm. induction ranks as [|n IH].
  - rewrite H0. reflexivity.
  - rewrite seq_S, map_app, concat_app, IH. cbn. rewrite app_nil_r, line_points_spec by auto.
    assert (M : forall r, (0 <= b r)%Z).
    { induction r as [|r IHr]; [lia|]. specialize (Hm r). replace (r + 1)%nat with (Datatypes.S r) in Hm by lia. lia. }
    specialize (M n). specialize (Hm n). replace (n + 1)%nat with (Datatypes.S n) in * by lia.
    rewrite (zmap_split (spaced N a c) (b n) (b (Datatypes.S n))); auto.
Qed.
Lemma collect_spec n cells :
  n = length (concat cells) ->
  exists pts, collect_points n cells = Some pts /\
    map (fun '(_, p, r) => (p, r)) pts = concat cells /\
    (forall c p r, In (c, p, r) pts -> exists rows, (0 <= c)%Z /\ nth_error cells (Z.to_nat c) = Some rows /\ In (p, r) rows).
Proof.
  intros ->. unfold collect_points.
  set (pts := concat _).
  assert (G : forall s, map (fun '(_, p, r) => (p, r)) (concat (map (fun '(cellx, rows) => map (fun '(p, r) => (Z.of_nat cellx, p, r)) rows)
                         (combine (seq s (length cells)) cells))) = concat cells).
  { clear. induction cells as [|rows cells IH]; intros s; cbn; auto. rewrite map_app, IH. f_equal.
    rewrite map_map. rewrite <- (map_id rows) at 2. apply map_ext. intros [p r]. auto. }
  assert (L : length pts = length (concat cells)).
  { rewrite <- (G O). rewrite map_length. reflexivity. }
  rewrite L, Nat.eqb_refl. cbn. exists pts. split; auto. split; [apply G|].
  intros c p r I. unfold pts in I. apply in_concat in I. destruct I as (l & I1 & I2). apply in_map_iff in I1.
  destruct I1 as ([k rows] & <- & I3). apply in_map_iff in I2. destruct I2 as ([p' r'] & E & I2). injection E as <- <- <-.
  apply in_combine_seq in I3. rewrite Nat.sub_0_r in I3. exists rows. rewrite Nat2Z.id. split; [lia|]. tauto.
Qed.

Lemma scan_spec counts r : (r < length counts)%nat -> scan counts r = (first_index counts r + nth r counts 0)%Z.
Proof.
  intros H. unfold scan, first_index. rewrite fold_add_spec. cbn.
  revert r H. induction counts as [|c counts IH]; intros r H; cbn in *; [lia|].
  destruct r as [|r]; cbn; [lia|]. specialize (IH r ltac:(lia)). unfold sumZ in *. lia.
Qed.
Lemma sumZ_cons c l : sumZ (c :: l) = (c + sumZ l)%Z.
Proof. reflexivity. Qed.
Lemma sumZ_nil : sumZ [] = 0%Z.
Proof. reflexivity. Qed.
Ltac sz := cbn [firstn nth length] in *; rewrite ?sumZ_cons, ?sumZ_nil in *.
Lemma owner_exists counts v : Forall (fun c => 0 <= c)%Z counts -> (0 <= v < sumZ counts)%Z ->
  exists! r, (r < length counts)%nat /\ owns counts r v.
Proof.
  intros P H.
  assert (E : exists r, (r < length counts)%nat /\ owns counts r v).
  { revert v H. induction counts as [|c counts IH]; intros v H; sz; [lia|]. inversion P; subst.
    destruct (Z.lt_ge_cases v c) as [L|G].
    - exists O. split; [lia|]. unfold owns, first_index. sz. lia.
    - destruct (IH ltac:(assumption) (v - c)%Z ltac:(lia)) as (r & L & O). exists (Datatypes.S r). split; [lia|].
      unfold owns, first_index in *. sz. lia. }
  destruct E as (r & L & O). exists r. split; auto. intros r' [L' O'].
  assert (Mono : forall i j, (i <= j)%nat -> (j <= length counts)%nat -> (first_index counts i <= first_index counts j)%Z).
  { clear -P. intros i j. revert i j. induction counts as [|c counts IH]; intros i j H1 H2; cbn [length] in *.
    - replace i with O by lia. replace j with O by lia. lia.
    - inversion P; subst. destruct i, j; unfold first_index in *; sz; try lia.
      + specialize (IH ltac:(assumption) O j ltac:(lia) ltac:(lia)). sz; lia.
      + specialize (IH ltac:(assumption) i j ltac:(lia) ltac:(lia)). sz; lia. }
  assert (Step : forall i, (i < length counts)%nat -> (first_index counts (Datatypes.S i) = first_index counts i + nth i counts 0)%Z).
  { clear. induction counts as [|c counts IH]; intros i H; cbn [length] in *; [lia|]. destruct i; unfold first_index in *; sz; [lia|].
    specialize (IH i ltac:(lia)). sz; lia. }
  unfold owns in *. destruct (Nat.lt_trichotomy r r') as [T|[T|T]]; auto; exfalso.
  - pose proof (Mono (Datatypes.S r) r' ltac:(lia) ltac:(lia)). rewrite Step in * by auto. lia.
  - pose proof (Mono (Datatypes.S r') r ltac:(lia) ltac:(lia)). rewrite Step in * by auto. lia.
Qed.
Lemma owner_none counts v r : Forall (fun c => 0 <= c)%Z counts -> ~ (0 <= v < sumZ counts)%Z ->
  (r < length counts)%nat -> ~ owns counts r v.
Proof.
  intros P H L O. apply H. clear H. unfold owns, first_index in O.
  revert r v L O. induction counts as [|c counts IH]; intros r v L O; sz; [lia|]. inversion P; subst.
  assert (S0 : (0 <= sumZ counts)%Z). { clear -H2. induction H2; sz; lia. }
  destruct r as [|r]; sz; [lia|]. specialize (IH ltac:(assumption) r (v - c)%Z ltac:(lia)). sz; lia.
Qed.

Lemma calls_spec stream counts r nums (pos : nat) : (r < length counts)%nat -> Forall (fun c => 0 <= c)%Z counts ->
  forall j, (j < length nums)%nat ->
  let s := sampler_init counts r in
  nth j (get_samples_calls stream nums (mkSampler (s_npoints s) (s_start s) (s_end s) pos)) [] =
  map (fun v => (v - first_index counts r)%Z)
      (filter (ownsb counts r) (map stream (seq (pos + sumN (firstn j nums)) (nth j nums 0%nat)))).
Proof.
  intros Lr P. revert pos. induction nums as [|n nums IH]; intros pos j Lj; cbn in Lj; [lia|]. cbn zeta.
  pose proof (scan_spec counts r Lr) as Sc.
  assert (Nn : (0 <= nth r counts 0)%Z). { rewrite Forall_forall in P. apply P, nth_In; auto. }
  cbn [get_samples_calls]. unfold get_samples at 1. cbn [s_npoints s_start s_end s_pos sampler_init].
  case Z.ltb_spec; intros Hn.
  - destruct j as [|j].
    + cbn. rewrite Nat.add_0_r. rewrite (seq_shift_map pos n), map_map, Sc.
      replace (first_index counts r + nth r counts 0%Z - nth r counts 0%Z)%Z with (first_index counts r) by lia.
      generalize (seq 0 n) as l. induction l as [|k l IHl]; cbn; auto.
      rewrite IHl. unfold ownsb at 2.
      replace (Z.leb (stream (pos + k)%nat) (first_index counts r + nth r counts 0%Z - 1))
        with (Z.ltb (stream (pos + k)%nat) (first_index counts r + nth r counts 0%Z)).
      2:{ case Z.ltb_spec; case Z.leb_spec; auto; lia. }
      destruct (_ && _); reflexivity.
    + cbn. specialize (IH (pos + n)%nat j ltac:(lia)). cbn in IH. rewrite IH.
      replace (pos + n + sumN (firstn j nums))%nat with (pos + (n + sumN (firstn j nums)))%nat by lia. auto.
  - assert (Z0 : nth r counts 0%Z = 0%Z) by lia.
    assert (F : forall l, filter (ownsb counts r) l = []).
    { induction l as [|v l IHl]; cbn; auto. unfold ownsb at 1. rewrite Z0.
      case Z.leb_spec; case Z.ltb_spec; cbn; auto; lia. }
    rewrite F. cbn. destruct j as [|j]; auto. specialize (IH pos j ltac:(lia)). cbn in IH. rewrite IH, F. auto.
Qed.
Lemma ownsb_iff counts r v : ownsb counts r v = true <-> owns counts r v.
Proof. unfold ownsb, owns. rewrite andb_true_iff, Z.leb_le, Z.ltb_lt. tauto. Qed.

Lemma sumN_cons a l : sumN (a :: l) = (a + sumN l)%nat.
Proof. reflexivity. Qed.
Lemma sum_filter (l : list Z) (n : nat) (p : nat -> Z -> bool) :
  (forall v, In v l -> exists! r, (r < n)%nat /\ p r v = true) ->
  sumN (map (fun r => length (filter (p r) l)) (seq 0 n)) = length l.
Proof.
  induction l as [|v l IH]; intros H; cbn.
  - induction (seq 0 n); cbn; auto.
  - rewrite <- IH by (intros; apply H; right; auto).
    destruct (H v ltac:(left; auto)) as (r & [Lr Pr] & U).
    assert (G : forall m s, (forall k, (s <= k < s + m)%nat -> (p k v = true <-> k = r)) ->
       sumN (map (fun k => length (if p k v then v :: filter (p k) l else filter (p k) l)) (seq s m)) =
       (Nat.b2n (Nat.leb s r && Nat.ltb r (s + m)) + sumN (map (fun k => length (filter (p k) l)) (seq s m)))%nat).
    { induction m as [|m IHm]; intros s Hk.
      - destruct (Nat.leb_spec s r), (Nat.ltb_spec r (s + 0)); cbn; auto; lia.
      - cbn [seq map]. rewrite !sumN_cons.
        rewrite IHm by (intros; apply Hk; lia). specialize (Hk s ltac:(lia)).
        destruct (p s v) eqn:E.
        + assert (s = r) by tauto. subst.
          destruct (Nat.leb_spec (Datatypes.S r) r), (Nat.ltb_spec r (Datatypes.S r + m)), (Nat.leb_spec r r), (Nat.ltb_spec r (r + Datatypes.S m));
            try lia; cbn; lia.
        + assert (s <> r) by (intros ->; destruct Hk as [_ Hk]; specialize (Hk eq_refl); congruence).
          destruct (Nat.leb_spec (Datatypes.S s) r), (Nat.ltb_spec r (Datatypes.S s + m)), (Nat.leb_spec s r), (Nat.ltb_spec r (s + Datatypes.S m));
            try lia; cbn; lia. }
    rewrite (G n O).
    + destruct (Nat.leb_spec 0 r), (Nat.ltb_spec r (0 + n)); cbn; lia.
    + intros k Hk. split; [|intros ->; auto]. intros E. symmetry. apply U. split; [lia|auto].
Qed.

Lemma sampler_spec stream counts nums j :
  Forall (fun c => 0 <= c)%Z counts -> (j < length nums)%nat ->
  (forall r, (r < length counts)%nat ->
     nth j (get_samples_calls stream nums (sampler_init counts r)) [] =
     map (fun v => (v - first_index counts r)%Z) (filter (ownsb counts r) (draws stream nums j))) /\
  (forall r, (r < length counts)%nat -> forall local,
     In local (nth j (get_samples_calls stream nums (sampler_init counts r)) []) -> (0 <= local < nth r counts 0)%Z) /\
  ((forall v, In v (draws stream nums j) -> 0 <= v < sumZ counts)%Z ->
     sumN (map (fun r => length (nth j (get_samples_calls stream nums (sampler_init counts r)) [])) (seq 0 (length counts)))
     = nth j nums 0%nat).
Proof.
  intros P Lj.
  assert (C : forall r, (r < length counts)%nat ->
     nth j (get_samples_calls stream nums (sampler_init counts r)) [] =
     map (fun v => (v - first_index counts r)%Z) (filter (ownsb counts r) (draws stream nums j))).
  { intros r Lr. pose proof (calls_spec stream counts r nums O Lr P j Lj) as H. exact H. }
  assert (A : forall r, (r < length counts)%nat -> forall local,
     In local (nth j (get_samples_calls stream nums (sampler_init counts r)) []) <->
     exists v, In v (draws stream nums j) /\ owns counts r v /\ local = (v - first_index counts r)%Z).
  { intros r Lr local. rewrite C by auto. rewrite in_map_iff. split.
    - intros (v & <- & I). apply filter_In in I. destruct I as [I O]. apply ownsb_iff in O. eauto.
    - intros (v & I & O & ->). exists v. split; auto. apply filter_In. split; auto. apply ownsb_iff; auto. }
  split; auto. split.
  - intros r Lr local I. apply A in I; auto. destruct I as (v & _ & O & ->). unfold owns in O. lia.
  - intros H. transitivity (length (draws stream nums j)); [|unfold draws; rewrite map_length, seq_length; auto].
    rewrite <- (sum_filter (draws stream nums j) (length counts) (fun r v => ownsb counts r v)).
    + f_equal. apply map_ext_in. intros r I. apply in_seq in I. rewrite C by lia. apply map_length.
    + intros v I. destruct (owner_exists counts v P (H v I)) as (r & [L O] & U). exists r. split.
      * split; auto. apply ownsb_iff; auto.
      * intros r' [L' O']. apply U. split; auto. apply ownsb_iff; auto.
Qed.
