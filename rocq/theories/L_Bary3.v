From Verif Require Import M_Loop S_Loop L_Loop M_Bary S_Bary L_RealBase L_Bary L_Bary2.
From Coq Require Import Lia Lra List Bool.
Import ListNotations.

Lemma forr_own n (g : nat -> nat) (h : nat -> R -> R) (body : nat -> buf -> buf) (b : buf) : (forall i j, (i < n)%nat -> (j < n)%nat -> g i = g j -> i = j) ->
  (forall i d, (i < n)%nat -> body i d (g i) = h i (d (g i)) /\ forall j, j <> g i -> body i d j = d j) ->
  (forall i, (i < n)%nat -> forr n body b (g i) = h i (b (g i))) /\ (forall j, (forall i, (i < n)%nat -> j <> g i) -> forr n body b j = b j).
Proof.
  induction n as [|n IH]; intros Hinj Hb; [rewrite forr_0; split; [lia|auto]|]. rewrite forr_S.
  destruct IH as [A B]; [intros; apply Hinj; auto; lia|intros; apply Hb; lia|]. destruct (Hb n (forr n body b) ltac:(lia)) as [C E]. split.
  - intros i Hi. destruct (Nat.eq_dec i n) as [->|Hne].
    + rewrite C, B; auto. intros i' Hi' Eq. apply Hinj in Eq; lia.
    + rewrite E; [apply A; lia|]. intros Eq. apply Hne. apply Hinj; auto; lia.
  - intros j Hj. rewrite E by (apply Hj; lia). apply B. intros i Hi. apply Hj. lia.
Qed.
Lemma forr_pair {A B} n (f : nat -> A -> A) (g : nat -> B -> B) a b : forr n (fun i st => (f i (fst st), g i (snd st))) (a, b) = (forr n f a, forr n g b).
Proof. induction n as [|n IH]; [reflexivity|]. rewrite !forr_S, IH. reflexivity. Qed.
Lemma forr_pair2 {A B} n N (f : nat -> nat -> A -> A) (g : nat -> nat -> B -> B) a b :
  forr n (fun i st => forr N (fun k st => (f i k (fst st), g i k (snd st))) st) (a, b) = (forr n (fun i s => forr N (f i) s) a, forr n (fun i s => forr N (g i) s) b).
Proof.
  rewrite (forr_ext n _ (fun i st => (forr N (f i) (fst st), forr N (g i) (snd st)))); [exact (forr_pair n (fun i s => forr N (f i) s) (fun i s => forr N (g i) s) a b)|]. intros i [s t] _. exact (forr_pair N (f i) (g i) s t).
Qed.
Lemma preprocess_block_spec N n coord z bw base div : (0 < N)%nat -> distinct n z ->
  match preprocess_weights_block N n coord z bw base div with
  | Some d => (forall b, (b < N)%nat -> node_weights n z bw (coord b) (fun i => d (base + (i * N + b))%nat)) /\
      (forall k, (k < base \/ base + n * N <= k)%nat -> d k = div k)
  | None => exists b, (b < N)%nat /\ (forall i, (i < n)%nat -> z i <> coord b) /\ sumn n (fun j => bw j / (z j - coord b)) = 0
  end.
Proof.
  intros HN Hd. unfold preprocess_weights_block. cbv zeta.
  assert (Hinj : forall i j, (i < n * N)%nat -> (j < n * N)%nat -> (base + i = base + j)%nat -> i = j) by (intros; lia).
  set (g := fun k => (base + k)%nat).
  (* zeros *)
  set (d0 := forr n _ div).
  assert (H0 : (forall k, (k < n * N)%nat -> d0 (base + k)%nat = 0) /\ (forall j, (forall k, (k < n * N)%nat -> j <> g k) -> d0 j = div j)).
  { unfold d0. rewrite (forr_nest n N (fun ix b d => upd d (base + (ix * N + b))%nat 0)) by auto. apply (forr_own (n * N) g (fun _ _ => 0)); auto.
    intros i d _. rewrite lane_eq by auto. split; [apply upd_same|intros; now apply upd_other]. }
  clearbody d0.
  (* nodes *)
  set (r1 := forr n _ (d0, fun _ => false)).
  set (cond := fun ix b => Req_bool (z ix - coord b) 0).
  set (fd := fun ix b (d : buf) => if cond ix b then upd d (base + (ix * N + b))%nat 1 else d).
  set (fo := fun ix b (o : nat -> bool) => if cond ix b then (fun j => if Nat.eqb j b then true else o j) else o).
  assert (E1 : r1 = (forr n (fun ix d => forr N (fd ix) d) d0, forr n (fun ix o => forr N (fo ix) o) (fun _ => false))).
  { unfold r1. rewrite <- forr_pair2. apply forr_ext. intros ix st _. apply forr_ext. intros b [d o] _. unfold fd, fo, cond. cbn [fst snd]. now destruct (Req_bool _ _). }
  clearbody r1. subst r1. cbn [fst snd].
  set (d1 := forr n (fun ix d => forr N (fd ix) d) d0). set (on := forr n (fun ix o => forr N (fo ix) o) (fun _ => false)).
  assert (H1 : (forall k, (k < n * N)%nat -> d1 (base + k)%nat = if cond (k / N)%nat (k mod N)%nat then 1 else 0) /\ (forall j, (forall k, (k < n * N)%nat -> j <> g k) -> d1 j = div j)).
  { unfold d1. rewrite (forr_nest n N fd) by auto. destruct (forr_own (n * N) g (fun k v => if cond (k / N)%nat (k mod N)%nat then 1 else v) (fun k s => fd (k / N)%nat (k mod N)%nat s) d0) as [A B]; auto.
    - intros i d _. unfold fd. rewrite lane_eq by auto. destruct (cond _ _); split; auto; [apply upd_same|intros; now apply upd_other].
    - destruct H0 as [H0 H0']. split; [intros k Hk; specialize (A k Hk); unfold g in A; rewrite A, H0; auto|]. intros j Hj. rewrite B; auto. }
  assert (Ho : forall b, (b < N)%nat -> (on b = true <-> exists i, (i < n)%nat /\ z i = coord b)).
  { unfold on. rewrite (forr_nest n N fo) by auto.
    assert (G : forall b, (b < N)%nat -> (forr (n * N) (fun k s => fo (k / N)%nat (k mod N)%nat s) (fun _ => false) b = true <-> exists k, (k < n * N)%nat /\ (k mod N = b)%nat /\ cond (k / N)%nat b = true)).
    { apply (forr_inv (fun m (o : nat -> bool) => forall b, (b < N)%nat -> (o b = true <-> exists k, (k < m)%nat /\ (k mod N = b)%nat /\ cond (k / N)%nat b = true))).
      - intros b _. split; [discriminate|]. intros (k & Hk & _). lia.
      - intros k o Hk IH b Hb. unfold fo. destruct (cond (k / N)%nat (k mod N)%nat) eqn:Ec.
        + destruct (Nat.eqb_spec b (k mod N)%nat) as [->|Hne].
          * split; auto. intros _. exists k. split; [lia|]. auto.
          * rewrite (IH b Hb). split; [intros (k' & Hk' & H); exists k'; split; [lia|auto]|]. intros (k' & Hk' & Hm & H). exists k'. split; auto.
            assert (k' <> k) by (intros ->; congruence). lia.
        + rewrite (IH b Hb). split; [intros (k' & Hk' & H); exists k'; split; [lia|auto]|]. intros (k' & Hk' & Hm & H). exists k'. split; auto.
          assert (k' <> k) by (intros ->; congruence). lia. }
    intros b Hb. rewrite (G b Hb). unfold cond. split.
    - intros (k & Hk & Hm & Hc). exists (k / N)%nat. split; [apply Nat.div_lt_upper_bound; lia|]. revert Hc. case Req_bool_spec; [lra|discriminate].
    - intros (i & Hi & E). exists (i * N + b)%nat. destruct (lane_div i N b Hb) as [-> ->]. split; [now apply lane_lt|]. split; auto. rewrite E. apply Req_bool_true. ring. }
  clearbody d1 on. clear fd fo.
  (* quotients *)
  match goal with |- context [forr n ?bd (d1, ?z0)] => set (r2 := forr n bd (d1, z0)) end.
  set (fd := fun ix b (d : buf) => upd d (base + (ix * N + b))%nat (if on b then d (base + (ix * N + b))%nat else bw ix / (z ix - coord b))).
  set (fo := fun ix b (o : buf) => upd o b (o b + bw ix / (z ix - coord b))).
  assert (E2 : r2 = (forr n (fun ix d => forr N (fd ix) d) d1, forr n (fun ix o => forr N (fo ix) o) (fun _ => 0) : buf)) by (unfold r2; now rewrite <- forr_pair2).
  clearbody r2. subst r2. cbn [fst snd].
  set (d2 := forr n (fun ix d => forr N (fd ix) d) d1). set (den := forr n (fun ix o => forr N (fo ix) o) (fun _ => 0) : buf).
  assert (H2 : (forall k, (k < n * N)%nat -> d2 (base + k)%nat = if on (k mod N)%nat then d1 (base + k)%nat else bw (k / N)%nat / (z (k / N)%nat - coord (k mod N)%nat)) /\ (forall j, (forall k, (k < n * N)%nat -> j <> g k) -> d2 j = div j)).
  { unfold d2. rewrite (forr_nest n N fd) by auto.
    destruct (forr_own (n * N) g (fun k v => if on (k mod N)%nat then v else bw (k / N)%nat / (z (k / N)%nat - coord (k mod N)%nat)) (fun k s => fd (k / N)%nat (k mod N)%nat s) d1) as [A B]; auto.
    - intros i d _. unfold fd. rewrite lane_eq by auto. split; [apply upd_same|intros; now apply upd_other].
    - destruct H1 as [_ H1]. split; [intros k Hk; specialize (A k Hk); unfold g in A; rewrite A; auto|]. intros j Hj. rewrite B; auto. }
  assert (Hden : forall b, (b < N)%nat -> den b = sumn n (fun j => bw j / (z j - coord b))).
  { intros b Hb. unfold den. destruct (forr_acc n N (fun b => b) (fun ix o => forr N (fo ix) o) (fun ix b => bw ix / (z ix - coord b)) (fun _ => 0)) as [A _].
    - intros ix o _. apply (forr_addto N (fun b => b) (fun b => bw ix / (z ix - coord b)) o). auto.
    - rewrite A by auto. ring. }
  clearbody d2 den. clear fd fo.
  destruct (existsb _ _) eqn:Ex.
  - apply existsb_exists in Ex as (b & Hb & E). apply in_seq in Hb. apply andb_true_iff in E as [E1' E2']. apply negb_true_iff in E1'. exists b. split; [lia|].
    rewrite Hden in E2' by lia. split; [|revert E2'; case Req_bool_spec; auto; discriminate].
    intros i Hi E. assert (on b = true) by (apply Ho; [lia|eauto]). congruence.
  - assert (Hok : forall b, (b < N)%nat -> on b = false -> den b <> 0).
    { intros b Hb Eo E. assert (Et : existsb (fun b => negb (on b) && Req_bool (den b) 0) (seq 0 N) = true).
      { apply existsb_exists. exists b. split; [apply in_seq; lia|]. rewrite Eo, E, Req_bool_true; auto. } congruence. }
    rewrite (forr_nest n N (fun ix b d => upd d (base + (ix * N + b))%nat (d (base + (ix * N + b))%nat * (if on b then 1 else 1 / den b)))) by auto.
    set (d3 := forr (n * N) _ d2).
    assert (H3 : (forall k, (k < n * N)%nat -> d3 (base + k)%nat = d2 (base + k)%nat * (if on (k mod N)%nat then 1 else 1 / den (k mod N)%nat)) /\ (forall j, (forall k, (k < n * N)%nat -> j <> g k) -> d3 j = div j)).
    { unfold d3. match goal with |- context [forr (n * N) ?bd d2] => destruct (forr_own (n * N) g (fun k v => v * (if on (k mod N)%nat then 1 else 1 / den (k mod N)%nat)) bd d2) as [A B]; auto end.
      - intros i d _. rewrite lane_eq by auto. split; [apply upd_same|intros; now apply upd_other].
      - destruct H2 as [_ H2]. split; [intros k Hk; specialize (A k Hk); unfold g in A; rewrite A; auto|]. intros j Hj. rewrite B; auto. }
    clearbody d3. destruct H3 as [H3 H3'], H2 as [H2 _], H1 as [H1 _]. split.
    + intros b Hb.
      assert (Hv : forall i, (i < n)%nat -> d3 (base + (i * N + b))%nat = if on b then (if cond i b then 1 else 0) else (bw i / (z i - coord b)) * (1 / sumn n (fun j => bw j / (z j - coord b)))).
      { intros i Hi. pose proof (lane_lt i n N b Hi Hb) as Hl. destruct (lane_div i N b Hb) as [Ea Eb]. rewrite H3, H2 by auto. rewrite Eb, Ea. destruct (on b) eqn:Eo.
        - rewrite H1 by auto. rewrite Ea, Eb. ring.
        - rewrite Hden by auto. reflexivity. }
      destruct (on b) eqn:Eo.
      * left. apply Ho in Eo as (k & Hk & Ek); auto. exists k. split; auto. split; auto. split.
        -- rewrite Hv by auto. unfold cond. rewrite Req_bool_true by lra. reflexivity.
        -- intros i Hi Hne. rewrite Hv by auto. unfold cond. rewrite Req_bool_false; auto. intros E. apply Hne. apply Hd; auto. lra.
      * right. split; [intros i Hi E; assert (on b = true) by (apply Ho; eauto); congruence|]. split; [rewrite <- Hden; auto|].
        intros i Hi. rewrite Hv by auto. unfold Rdiv. rewrite Rmult_1_l. reflexivity.
    + intros k Hk. apply H3'. intros i Hi. unfold g in *. lia.
Qed.
(** tensor product exactness *)
Lemma tensor2_ext n0 n1 v v' w0 w0' w1 w1' : (forall i j, (i < n0)%nat -> (j < n1)%nat -> v i j = v' i j) -> (forall i, (i < n0)%nat -> w0 i = w0' i) -> (forall i, (i < n1)%nat -> w1 i = w1' i) ->
  tensor2 n0 n1 v w0 w1 = tensor2 n0 n1 v' w0' w1'.
Proof. intros H H0 H1. apply sumn_ext. intros j Hj. apply sumn_ext. intros i Hi. rewrite H, H0, H1; auto. Qed.
Lemma tensor3_ext n0 n1 n2 v v' w0 w0' w1 w1' w2 w2' : (forall i j k, (i < n0)%nat -> (j < n1)%nat -> (k < n2)%nat -> v i j k = v' i j k) -> (forall i, (i < n0)%nat -> w0 i = w0' i) -> (forall i, (i < n1)%nat -> w1 i = w1' i) -> (forall i, (i < n2)%nat -> w2 i = w2' i) ->
  tensor3 n0 n1 n2 v w0 w1 w2 = tensor3 n0 n1 n2 v' w0' w1' w2'.
Proof. intros H H0 H1 H2. apply sumn_ext. intros k Hk. apply sumn_ext. intros j Hj. apply sumn_ext. intros i Hi. rewrite H, H0, H1, H2; auto. Qed.
Lemma sumn_pull2 n m (c : nat -> nat -> R) (u : nat -> R) (P : nat -> R) : (* sum_i u_i sum_j c_j i *)
  sumn n (fun i => u i * sumn m (fun j => c j i)) = sumn m (fun j => sumn n (fun i => u i * c j i)).
Proof. rewrite <- sumn_swap. apply sumn_ext. intros. now rewrite sumn_scal. Qed.
Lemma tensor2_poly n0 n1 z0 z1 x y w0 w1 a :
  (forall j, (j < n0)%nat -> sumn n0 (fun i => w0 i * z0 i ^ j) = x ^ j) -> (forall j, (j < n1)%nat -> sumn n1 (fun i => w1 i * z1 i ^ j) = y ^ j) ->
  tensor2 n0 n1 (fun i0 i1 => polynomial2 n0 n1 a (z0 i0) (z1 i1)) w0 w1 = polynomial2 n0 n1 a x y.
Proof.
  intros H0 H1. unfold tensor2, polynomial2.
  rewrite (sumn_ext n1 _ (fun i1 => w1 i1 * sumn n1 (fun k => sumn n0 (fun j => a j k * x ^ j * z1 i1 ^ k)))).
  - rewrite sumn_pull2 by exact (fun _ => 0). apply sumn_ext. intros k Hk. rewrite sumn_pull2 by exact (fun _ => 0). apply sumn_ext. intros j Hj.
    rewrite (sumn_ext n1 _ (fun i => (a j k * x ^ j) * (w1 i * z1 i ^ k))) by (intros; ring). rewrite sumn_scal, H1 by auto. ring.
  - intros i1 _. rewrite (sumn_ext n0 _ (fun i0 => w1 i1 * (w0 i0 * sumn n1 (fun k => sumn n0 (fun j => a j k * z0 i0 ^ j * z1 i1 ^ k))))) by (intros; ring).
    rewrite sumn_scal. f_equal. rewrite sumn_pull2 by exact (fun _ => 0). apply sumn_ext. intros k Hk. rewrite sumn_pull2 by exact (fun _ => 0). apply sumn_ext. intros j Hj.
    rewrite (sumn_ext n0 _ (fun i => (a j k * z1 i1 ^ k) * (w0 i * z0 i ^ j))) by (intros; ring). rewrite sumn_scal, H0 by auto. ring.
Qed.
Lemma tensor3_poly n0 n1 n2 z0 z1 z2 x y z w0 w1 w2 a :
  (forall j, (j < n0)%nat -> sumn n0 (fun i => w0 i * z0 i ^ j) = x ^ j) -> (forall j, (j < n1)%nat -> sumn n1 (fun i => w1 i * z1 i ^ j) = y ^ j) -> (forall j, (j < n2)%nat -> sumn n2 (fun i => w2 i * z2 i ^ j) = z ^ j) ->
  tensor3 n0 n1 n2 (fun i0 i1 i2 => polynomial3 n0 n1 n2 a (z0 i0) (z1 i1) (z2 i2)) w0 w1 w2 = polynomial3 n0 n1 n2 a x y z.
Proof.
  intros H0 H1 H2. unfold tensor3, polynomial3.
  rewrite (sumn_ext n2 _ (fun i2 => w2 i2 * sumn n2 (fun l => (polynomial2 n0 n1 (fun j k => a j k l) x y) * z2 i2 ^ l))).
  - rewrite sumn_pull2 by exact (fun _ => 0). apply sumn_ext. intros l Hl.
    rewrite (sumn_ext n2 _ (fun i => polynomial2 n0 n1 (fun j k => a j k l) x y * (w2 i * z2 i ^ l))) by (intros; ring). rewrite sumn_scal, H2 by auto.
    unfold polynomial2. rewrite <- sumn_scal_r. apply sumn_ext. intros k _. rewrite <- sumn_scal_r. reflexivity.
  - intros i2 _. rewrite (sumn_ext n1 _ (fun i1 => sumn n0 (fun i0 => polynomial2 n0 n1 (fun j k => sumn n2 (fun l => w2 i2 * (a j k l * z2 i2 ^ l))) (z0 i0) (z1 i1) * w0 i0 * w1 i1))).
    + change (tensor2 n0 n1 (fun i0 i1 => polynomial2 n0 n1 (fun j k => sumn n2 (fun l => w2 i2 * (a j k l * z2 i2 ^ l))) (z0 i0) (z1 i1)) w0 w1 = w2 i2 * sumn n2 (fun l => polynomial2 n0 n1 (fun j k => a j k l) x y * z2 i2 ^ l)).
      rewrite (tensor2_poly n0 n1 z0 z1 x y w0 w1 _ H0 H1). unfold polynomial2. rewrite <- sumn_scal.
      rewrite (sumn_ext n1 _ (fun k => sumn n2 (fun l => sumn n0 (fun j => w2 i2 * (a j k l * z2 i2 ^ l) * x ^ j * y ^ k)))).
      * rewrite sumn_swap. apply sumn_ext. intros l _. rewrite <- sumn_scal_r, <- sumn_scal. apply sumn_ext. intros k _. rewrite <- sumn_scal_r, <- sumn_scal. apply sumn_ext. intros; ring.
      * intros k _. rewrite sumn_swap. apply sumn_ext. intros j _. rewrite <- !sumn_scal_r. apply sumn_ext. intros; ring.
    + intros i1 _. apply sumn_ext. intros i0 _.
      transitivity ((w2 i2 * sumn n2 (fun l => sumn n1 (fun k => sumn n0 (fun j => a j k l * z0 i0 ^ j * z1 i1 ^ k * z2 i2 ^ l)))) * w0 i0 * w1 i1); [ring|]. f_equal. f_equal.
      unfold polynomial2. rewrite <- sumn_scal. rewrite (sumn_ext n1 _ (fun k => sumn n2 (fun l => sumn n0 (fun j => w2 i2 * (a j k l * z2 i2 ^ l) * z0 i0 ^ j * z1 i1 ^ k)))).
      * rewrite sumn_swap. apply sumn_ext. intros l _. rewrite <- sumn_scal. apply sumn_ext. intros k _. rewrite <- sumn_scal. apply sumn_ext. intros; ring.
      * intros k _. rewrite sumn_swap. apply sumn_ext. intros j _. rewrite <- !sumn_scal_r. apply sumn_ext. intros; ring.
Qed.
