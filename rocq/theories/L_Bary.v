From Verif Require Import M_Loop S_Loop L_Loop M_Bary S_Bary L_RealBase L_ListX.
From Coq Require Import Lia Lra Sorting.Permutation List.
Import ListNotations.

(** * divided differences *)
Definition fac (y u : R) : R := if Req_EM_T y u then 1 else y - u.
Fixpoint pn (y : R) (P : list R) : R := match P with [] => 1 | u :: r => fac y u * pn y r end.
Fixpoint D (L P : list R) (f : R -> R) : R := match L with [] => 0 | y :: r => f y / pn y P + D r P f end.
Lemma fac_nz y u : fac y u <> 0.
Proof. unfold fac. destruct (Req_EM_T y u); lra. Qed.
Lemma fac_same y : fac y y = 1.
Proof. unfold fac. destruct (Req_EM_T y y); lra. Qed.
Lemma fac_diff y u : y <> u -> fac y u = y - u.
Proof. unfold fac. destruct (Req_EM_T y u); [contradiction|lra]. Qed.
Lemma pn_nz y P : pn y P <> 0.
Proof. induction P; simpl; [lra|]. apply Rmult_integral_contrapositive. split; auto. apply fac_nz. Qed.
Lemma pn_perm y P Q : Permutation P Q -> pn y P = pn y Q.
Proof. induction 1; simpl; try congruence; ring. Qed.
Lemma D_permP L P Q f : Permutation P Q -> D L P f = D L Q f.
Proof. intros H. induction L; simpl; auto. rewrite IHL, (pn_perm a P Q H). reflexivity. Qed.
Lemma D_permL L K P f : Permutation L K -> D L P f = D K P f.
Proof. induction 1; simpl; try congruence; lra. Qed.
Lemma D_perm L K f : Permutation L K -> D L L f = D K K f.
Proof. intros H. rewrite (D_permL L K) by auto. now apply D_permP. Qed.
Lemma D_ext L P f g : (forall y, In y L -> f y = g y) -> D L P f = D L P g.
Proof. induction L; simpl; intros H; auto. rewrite (H a), IHL; auto. Qed.
Lemma D_lin L P f g c d : D L P (fun y => c * f y + d * g y) = c * D L P f + d * D L P g.
Proof. induction L; simpl; [ring|]. rewrite IHL. field. apply pn_nz. Qed.
Lemma D_factor a ys g : NoDup (a :: ys) -> D (a :: ys) (a :: ys) (fun y => (y - a) * g y) = D ys ys g.
Proof.
  intros H. inversion H as [|? ? Ha Hn]; subst. simpl. rewrite fac_same. replace ((a - a) * g a / (1 * pn a ys)) with 0 by (field; apply pn_nz). rewrite Rplus_0_l.
  assert (G : forall L, (forall y, In y L -> y <> a) -> D L (a :: ys) (fun y => (y - a) * g y) = D L ys g).
  { induction L as [|y L IH]; intros HL; simpl; auto. rewrite IH by (intros; apply HL; simpl; auto). rewrite fac_diff by (apply HL; simpl; auto).
    f_equal. field. split; [apply pn_nz|]. specialize (HL y (or_introl eq_refl)). lra. }
  apply G. intros y Hy ->. contradiction.
Qed.
Lemma D_one : forall n nodes, length nodes = S (S n) -> NoDup nodes -> D nodes nodes (fun _ => 1) = 0.
Proof.
  induction n as [|n IH]; intros [|a [|b ys]] Hl Hn; try discriminate.
  all: assert (Hab : a <> b) by (inversion Hn as [|? ? Ha ?]; intros ->; apply Ha; simpl; auto).
  all: assert (Hna : NoDup (a :: ys)) by (inversion Hn as [|? ? Ha Hb]; inversion Hb; subst; constructor; auto; intros Hi; apply Ha; simpl; auto).
  all: assert (Hnb : NoDup (b :: ys)) by (inversion Hn; auto).
  all: assert (E : (b - a) * D (a :: b :: ys) (a :: b :: ys) (fun _ => 1) = D (b :: ys) (b :: ys) (fun _ => 1) - D (a :: ys) (a :: ys) (fun _ => 1)).
  1,3: rewrite <- (D_factor a (b :: ys) (fun _ => 1)) by auto.
  1,2: rewrite <- (D_factor b (a :: ys) (fun _ => 1)) by (eapply Permutation_NoDup; [apply perm_swap|auto]).
  1,2: rewrite (D_perm (b :: a :: ys) (a :: b :: ys)) by apply perm_swap.
  1,2: rewrite (D_ext _ _ (fun y => (y - a) * 1) (fun y => 1 * y + (- a) * 1)) by (intros; ring).
  1,2: rewrite (D_ext _ _ (fun y => (y - b) * 1) (fun y => 1 * y + (- b) * 1)) by (intros; ring).
  1,2: rewrite (D_lin _ _ (fun y => y) (fun _ => 1)), (D_lin _ _ (fun y => y) (fun _ => 1)); ring.
  - destruct ys; [|discriminate]. simpl in E |- *. rewrite !fac_same in E |- *. assert (E1 : 1 / (1 * 1) = 1) by field. rewrite E1 in E.
    set (X := _ + _) in E |- *. assert (Hx : (b - a) * X = 0) by (rewrite E; ring). apply Rmult_integral in Hx as [Hx|Hx]; [lra|exact Hx].
  - rewrite (IH (b :: ys)), (IH (a :: ys)) in E by (auto; simpl in *; lia).
    assert (Hx : (b - a) * D (a :: b :: ys) (a :: b :: ys) (fun _ => 1) = 0) by (rewrite E; ring). apply Rmult_integral in Hx as [Hx|Hx]; [lra|exact Hx].
Qed.
Fixpoint ev (p : list R) (x : R) : R := match p with [] => 0 | c :: r => c + x * ev r x end.
Lemma factor_theorem p a : exists q, length q = pred (length p) /\ forall x, ev p x = ev p a + (x - a) * ev q x.
Proof.
  induction p as [|c p (q & Hl & Hq)]; [exists []; split; auto; intros; simpl; ring|]. destruct p as [|c' p].
  - exists []. split; auto. intros; simpl; ring.
  - exists (ev (c' :: p) a :: q). split; [simpl in *; lia|]. intros x. change (ev (c :: c' :: p) x) with (c + x * ev (c' :: p) x).
    change (ev (c :: c' :: p) a) with (c + a * ev (c' :: p) a). rewrite (Hq x). change (ev (?h :: q) x) with (h + x * ev q x).
    cbn [ev]. ring.
Qed.
Lemma D_poly : forall p nodes, (length p < length nodes)%nat -> NoDup nodes -> D nodes nodes (ev p) = 0.
Proof.
  intros p. remember (length p) as k eqn:Hk. revert p Hk. induction k as [|k IH]; intros p Hk nodes Hl Hn.
  - destruct p; [|discriminate]. rewrite (D_ext _ _ _ (fun y => 0 * (fun _ => 1) y + 0 * (fun _ => 1) y)) by (intros; simpl; ring). rewrite D_lin. ring.
  - destruct nodes as [|a ys]; [simpl in Hl; lia|]. destruct (factor_theorem p a) as (q & Hq & E).
    rewrite (D_ext _ _ (ev p) (fun y => ev p a * (fun _ => 1) y + 1 * ((y - a) * ev q y))) by (intros y _; rewrite (E y); ring).
    rewrite D_lin, D_factor by auto. destruct ys as [|b ys]; [simpl in Hl; lia|].
    rewrite (D_one (length ys) (a :: b :: ys)) by (auto; simpl; lia). rewrite (IH q); [ring|lia|simpl in *; lia|inversion Hn; auto].
Qed.
Lemma ev_mono j : exists p, length p = S j /\ forall x, ev p x = x ^ j.
Proof.
  induction j as [|j (p & Hl & Hp)]; [exists [1]; split; auto; intros; simpl; ring|]. exists (0 :: p). split; [simpl; lia|]. intros. simpl. rewrite Hp. ring.
Qed.
(** * connection with the indexed sums *)
Lemma pn_indexed n z i y : (i < n)%nat -> distinct n z -> y = z i -> pn y (map z (seq 0 n)) = prodn n (fun j => if Nat.eqb j i then 1 else z i - z j).
Proof.
  intros Hi Hd ->. assert (G : forall m, (m <= n)%nat -> pn (z i) (map z (seq 0 m)) = prodn m (fun j => if Nat.eqb j i then 1 else z i - z j)).
  { induction m as [|m IH]; intros Hm; [reflexivity|]. rewrite seq_S, map_app.
    assert (Ha : forall l u, pn (z i) (l ++ [u]) = pn (z i) l * fac (z i) u) by (induction l; intros; simpl; [ring|rewrite IHl; ring]).
    simpl. rewrite Ha, IH by lia. f_equal. destruct (Nat.eqb_spec m i) as [->|Hne]; [apply fac_same|]. apply fac_diff. intros E. apply Hne. symmetry. apply Hd; auto; lia. }
  now apply G.
Qed.
Lemma D_indexed n z P f : D (map z (seq 0 n)) P f = sumn n (fun i => f (z i) / pn (z i) P).
Proof.
  induction n as [|n IH]; [reflexivity|]. rewrite seq_S, map_app. assert (G : forall L u, D (L ++ [u]) P f = D L P f + f u / pn u P) by (induction L; intros; simpl; [lra|rewrite IHL; lra]).
  simpl. now rewrite G, IH.
Qed.
Lemma nodes_nodup n z : distinct n z -> NoDup (map z (seq 0 n)).
Proof. intros Hd. apply NoDup_map_inj_in; [apply seq_NoDup|]. intros i j Hi Hj. apply in_seq in Hi, Hj. apply Hd; lia. Qed.
Lemma bary_sum n z x p : distinct n z -> (forall i, (i < n)%nat -> z i <> x) -> (length p <= n)%nat ->
  sumn n (fun i => ev p (z i) / ((z i - x) * prodn n (fun j => if Nat.eqb j i then 1 else z i - z j))) = - (ev p x / pn x (map z (seq 0 n))).
Proof.
  intros Hd Hx Hl. pose proof (D_poly p (x :: map z (seq 0 n))) as H. simpl in H. rewrite map_length, seq_length in H. specialize (H ltac:(lia)).
  assert (Hn : NoDup (x :: map z (seq 0 n))).
  { constructor; [|now apply nodes_nodup]. intros Hi. apply in_map_iff in Hi as (i & E & Hi). apply in_seq in Hi. apply (Hx i); auto; lia. }
  specialize (H Hn). rewrite fac_same in H. rewrite D_indexed in H. rewrite Rmult_1_l in H.
  rewrite (sumn_ext n _ (fun i => ev p (z i) / pn (z i) (x :: map z (seq 0 n)))); [lra|].
  intros i Hi. cbn [pn]. rewrite (fac_diff _ _ (Hx i Hi)), (pn_indexed n z i (z i)); auto.
Qed.
(** * exactness *)
Lemma prodn_nz n f : (forall i, (i < n)%nat -> f i <> 0) -> prodn n f <> 0.
Proof. induction n as [|n IH]; simpl; intros H; [lra|]. apply Rmult_integral_contrapositive. split; auto. Qed.
Lemma node_prod_nz n z i : distinct n z -> (i < n)%nat -> prodn n (fun j => if Nat.eqb j i then 1 else z i - z j) <> 0.
Proof.
  intros Hd Hi. apply prodn_nz. intros j Hj. destruct (Nat.eqb_spec j i) as [->|Hne]; [lra|]. intros E. apply Hne. symmetry. apply Hd; auto. lra.
Qed.
Lemma bary_denominator n z bw x : (0 < n)%nat -> distinct n z -> barycentric n z bw -> (forall i, (i < n)%nat -> z i <> x) ->
  sumn n (fun j => bw j / (z j - x)) <> 0.
Proof.
  intros Hn Hd (c & Hc & Hb) Hx. pose proof (bary_sum n z x [1] Hd Hx ltac:(simpl; lia)) as H.
  rewrite (sumn_ext n _ (fun i => c * (ev [1] (z i) / ((z i - x) * prodn n (fun j => if Nat.eqb j i then 1 else z i - z j))))).
  - rewrite sumn_scal, H. cbn [ev]. rewrite Rmult_0_r, Rplus_0_r. apply Rmult_integral_contrapositive. split; auto.
    apply Ropp_neq_0_compat. unfold Rdiv. rewrite Rmult_1_l. apply Rinv_neq_0_compat, pn_nz.
  - intros i Hi. rewrite Hb by auto. cbn [ev]. field. split; [apply node_prod_nz; auto|]. specialize (Hx i Hi). lra.
Qed.
Lemma weights_sum n z bw x w : node_weights n z bw x w -> sumn n w = 1.
Proof.
  intros [(k & Hk & _ & Hw & Ho)|(Hx & Hs & Hw)].
  - rewrite (sumn_single n w k); auto.
  - rewrite (sumn_ext n w (fun i => (bw i / (z i - x)) * / sumn n (fun j => bw j / (z j - x)))) by (intros; rewrite Hw; auto). rewrite sumn_scal_r. now apply Rinv_r.
Qed.
Lemma weights_mono n z bw x w j : distinct n z -> barycentric n z bw -> node_weights n z bw x w -> (j < n)%nat -> sumn n (fun i => w i * z i ^ j) = x ^ j.
Proof.
  intros Hd Hb Hw Hj. destruct Hw as [(k & Hk & Ek & Hw & Ho)|(Hx & Hs & Hw)].
  - rewrite (sumn_single n _ k); auto; [rewrite Hw, Ek; ring|]. intros i Hi Hne. rewrite Ho by auto. ring.
  - destruct Hb as (c & Hc & Hb). set (T := sumn n (fun j => bw j / (z j - x))) in *.
    destruct (ev_mono j) as (p & Hp & Ep).
    pose proof (bary_sum n z x p Hd Hx ltac:(lia)) as H1. pose proof (bary_sum n z x [1] Hd Hx ltac:(simpl; lia)) as H2.
    assert (ET : T = c * - (ev [1] x / pn x (map z (seq 0 n)))).
    { rewrite <- H2, <- sumn_scal. apply sumn_ext. intros i Hi. rewrite Hb by auto. cbn [ev]. field. split; [apply node_prod_nz; auto|]. specialize (Hx i Hi). lra. }
    assert (EN : sumn n (fun i => w i * z i ^ j) = (c * - (ev p x / pn x (map z (seq 0 n)))) / T).
    { rewrite <- H1, <- sumn_scal. unfold Rdiv at 1. rewrite <- sumn_scal_r. apply sumn_ext. intros i Hi. rewrite Hw by auto. rewrite Hb by auto. rewrite Ep. field.
      repeat split; auto; [apply node_prod_nz; auto|]. specialize (Hx i Hi). lra. }
    rewrite EN, ET, Ep. cbn [ev]. field. repeat split; auto; try lra. apply pn_nz.
Qed.
Lemma weights_poly n z bw x w a : distinct n z -> barycentric n z bw -> node_weights n z bw x w -> (length a <= n)%nat ->
  sumn n (fun i => w i * polynomial a (z i)) = polynomial a x.
Proof.
  intros Hd Hb Hw Hl. unfold polynomial. rewrite (sumn_ext n _ (fun i => sumn (length a) (fun k => nth k a 0 * (w i * z i ^ k)))).
  - rewrite sumn_swap. apply sumn_ext. intros k Hk. rewrite sumn_scal, (weights_mono n z bw x w k); auto. lia.
  - intros i Hi. rewrite <- sumn_scal. apply sumn_ext. intros. ring.
Qed.
(** * the code *)
Lemma stride_inj base stride n : (1 <= stride)%nat -> forall i j, (i < n)%nat -> (j < n)%nat -> (base + i * stride = base + j * stride)%nat -> i = j.
Proof. intros Hs i j _ _ E. apply Nat.add_cancel_l in E. apply Nat.mul_cancel_r in E; auto. lia. Qed.
Lemma find_first (f : nat -> bool) n : match find f (seq 0 n) with
  | Some k => (k < n)%nat /\ f k = true
  | None => forall i, (i < n)%nat -> f i = false end.
Proof.
  destruct (find f (seq 0 n)) eqn:E.
  - apply find_some in E as [E1 E2]. apply in_seq in E1. split; auto. lia.
  - intros i Hi. eapply find_none in E; eauto. apply in_seq. lia.
Qed.
Lemma preprocess_spec n x z bw base stride div : (1 <= stride)%nat -> distinct n z ->
  match preprocess_weights n x z bw base stride div with
  | Some d => node_weights n z bw x (fun i => d (base + i * stride)%nat) /\ (forall k, (forall i, (i < n)%nat -> k <> (base + i * stride)%nat) -> d k = div k)
  | None => (forall i, (i < n)%nat -> z i <> x) /\ sumn n (fun j => bw j / (z j - x)) = 0
  end.
Proof.
  intros Hs Hd. unfold preprocess_weights. pose proof (stride_inj base stride n Hs) as Hinj.
  destruct (forr_write n (fun ix => (base + ix * stride)%nat) (fun _ => 0) div Hinj) as [Z1 Z2]. cbv zeta. set (d0 := forr n _ div) in *.
  pose proof (find_first (fun ix => Req_bool (z ix - x) 0) n) as Hf. destruct (find _ _) as [k|].
  - destruct Hf as [Hk Ek]. revert Ek. case Req_bool_spec; [|discriminate]. intros Ek _. split.
    + left. exists k. split; auto. split; [lra|]. split; [apply upd_same|]. intros i Hi Hne. rewrite upd_other; [now apply Z1|]. intros E. apply Hne. apply Hinj; auto.
    + intros j Hj. rewrite upd_other by (apply Hj; auto). apply Z2. auto.
  - assert (Hx : forall i, (i < n)%nat -> z i <> x) by (intros i Hi E; specialize (Hf i Hi); revert Hf; case Req_bool_spec; [discriminate|lra]).
    set (r := forr n _ (d0, 0)).
    assert (Hr : snd r = sumn n (fun j => bw j / (z j - x)) /\ fst r = forr n (fun ix d => upd d (base + ix * stride)%nat (bw ix / (z ix - x))) d0).
    { unfold r. assert (G : forall m, snd (forr m (fun ix st => (upd (fst st) (base + ix * stride)%nat (bw ix / (z ix - x)), snd st + bw ix / (z ix - x))) (d0, 0)) = sumn m (fun j => bw j / (z j - x)) /\
        fst (forr m (fun ix st => (upd (fst st) (base + ix * stride)%nat (bw ix / (z ix - x)), snd st + bw ix / (z ix - x))) (d0, 0)) = forr m (fun ix d => upd d (base + ix * stride)%nat (bw ix / (z ix - x))) d0).
      { induction m as [|m [A B]]; [split; reflexivity|]. rewrite !forr_S. cbn [fst snd]. rewrite A, B. split; reflexivity. } apply G. }
    destruct Hr as [R1 R2]. destruct (forr_write n (fun ix => (base + ix * stride)%nat) (fun ix => bw ix / (z ix - x)) d0 Hinj) as [W1 W2]. cbv zeta in W1, W2.
    rewrite <- R2 in W1, W2. rewrite R1. case Req_bool_spec; intros E; [auto|].
    destruct (forr_mulby n (fun ix => (base + ix * stride)%nat) (fun _ => 1 / sumn n (fun j => bw j / (z j - x))) (fst r) Hinj) as [M1 M2]. cbv zeta in M1, M2.
    split.
    + right. split; auto. split; auto. intros i Hi. rewrite M1, W1 by auto. unfold Rdiv. rewrite Rmult_1_l. reflexivity.
    + intros k Hk. rewrite M2, W2 by auto. apply Z2. auto.
Qed.
(** ** loop nests *)
Lemma forr_nest {A} n N (body : nat -> nat -> A -> A) st : (0 < N)%nat ->
  forr n (fun i s => forr N (fun b s => body i b s) s) st = forr (n * N) (fun k s => body (k / N)%nat (k mod N)%nat s) st.
Proof.
  intros HN. assert (Hadd : forall a m (g : nat -> A -> A) s, forr (a + m) g s = forr m (fun i s => g (a + i)%nat s) (forr a g s)).
  { intros a m g s. induction m as [|m IH]; [now rewrite Nat.add_0_r, forr_0|]. rewrite Nat.add_succ_r, !forr_S, IH. reflexivity. }
  induction n as [|n IH]; [reflexivity|]. rewrite forr_S, IH. replace (S n * N)%nat with (n * N + N)%nat by lia. rewrite Hadd.
  apply forr_ext. intros b s Hb. f_equal.
  - rewrite Nat.add_comm, Nat.div_add, Nat.div_small by lia. lia.
  - rewrite Nat.add_comm, Nat.mod_add, Nat.mod_small by lia. lia.
Qed.
Lemma forr_acc n L (g : nat -> nat) body (F : nat -> nat -> R) o :
  (forall i o, (i < n)%nat -> (forall l, (l < L)%nat -> body i o (g l) = o (g l) + F i l) /\ (forall k, (forall l, (l < L)%nat -> k <> g l) -> body i o k = o k)) ->
  (forall l, (l < L)%nat -> forr n body o (g l) = o (g l) + sumn n (fun i => F i l)) /\ (forall k, (forall l, (l < L)%nat -> k <> g l) -> forr n body o k = o k).
Proof.
  induction n as [|n IH]; intros H; [split; intros; rewrite forr_0; simpl; auto; lra|].
  destruct IH as [A B]; [intros i o' Hi; apply H; lia|].
  destruct (H n (forr n body o) ltac:(lia)) as [C E]. split.
  - intros l Hl. rewrite forr_S, C, A by auto. simpl. lra.
  - intros k Hk. rewrite forr_S, E, B by auto. reflexivity.
Qed.
