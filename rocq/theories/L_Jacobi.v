From Verif Require Import M_Jacobi S_Jacobi L_Coord.

Lemma rsum_ext n f g : (forall i, (i < n)%nat -> f i = g i) -> rsum n f = rsum n g.
Proof. induction n; cbn; intros H; auto. rewrite IHn, H; auto. Qed.
Lemma rsum_add n f g : rsum n (fun i => f i + g i) = rsum n f + rsum n g.
Proof. induction n; cbn; lra. Qed.
Lemma rsum_scal n k f : rsum n (fun i => k * f i) = k * rsum n f.
Proof. induction n; cbn; lra. Qed.
Lemma rsum_shift n f : rsum (S n) f = f O + rsum n (fun i => f (S i)).
Proof. induction n; [cbn; lra|]. cbn [rsum] in *. rewrite IHn. lra. Qed.
Lemma rsum_split n m f : rsum (n + m) f = rsum n f + rsum m (fun i => f (n + i)%nat).
Proof. induction m; [rewrite Nat.add_0_r; cbn; lra|]. rewrite Nat.add_succ_r. cbn [rsum]. rewrite IHm. lra. Qed.
Lemma rsum_zero n f : (forall i, (i < n)%nat -> f i = 0) -> rsum n f = 0.
Proof. induction n; cbn; intros H; auto. rewrite IHn, H; auto; lra. Qed.

Lemma jcoef_out a b n k : (n < k)%nat -> jcoef a b n k = 0.
Proof. intros H. unfold jcoef. rewrite (proj2 (Nat.leb_gt _ _)) by auto. auto. Qed.
Lemma Jacobi_more a b n K z : (n < K)%nat -> Jacobi a b n z = rsum K (fun k => jcoef a b n k * ((z - 1) / 2) ^ k).
Proof.
  intros H. unfold Jacobi. remember (K - (n + 1))%nat as d eqn:Ed. assert (K = (n + 1) + d)%nat as -> by lia. clear Ed. rewrite (rsum_split (n + 1) d).
  rewrite (rsum_zero d); [lra|]. intros i _. rewrite jcoef_out by lia. ring.
Qed.

Lemma INR_fact n : INR (fact n) <> 0.
Proof. apply not_0_INR. apply fact_neq_0. Qed.
Lemma fact_S n : INR (fact (S n)) = (INR n + 1) * INR (fact n).
Proof. change (fact (S n)) with ((S n) * fact n)%nat. rewrite mult_INR, S_INR. ring. Qed.

Section Rec.
  Variables a b : nat.
  (** three-term recurrence at order n + 2 *)
  Definition recA (n : nat) : R := let n := INR n + 2 in let s := INR a + INR b in 2 * n * (n + s) * (2 * n + s - 2).
  Definition recB (n : nat) : R := let n := INR n + 2 in let s := INR a + INR b in (2 * n + s - 1) * ((INR a - INR b) * s).
  Definition recC (n : nat) : R := let n := INR n + 2 in let s := INR a + INR b in (2 * n + s - 1) * (2 * n + s) * (2 * n + s - 2).
  Definition recD (n : nat) : R := let n := INR n + 2 in let s := INR a + INR b in 2 * (n + INR a - 1) * (n + INR b - 1) * (2 * n + s).

  Ltac facts := repeat match goal with |- context [INR (fact (S ?n))] => rewrite (fact_S n) end.
  Ltac nonz := repeat split; try apply INR_fact; try (apply Rgt_not_eq; repeat match goal with |- context [INR ?x] =>
      match goal with H : 0 <= INR x |- _ => fail 1 | _ => pose proof (pos_INR x) end end; lra).

  Lemma coef_rec0 n : recA n * jcoef a b (S (S n)) 0 = (recB n + recC n) * jcoef a b (S n) 0 - recD n * jcoef a b n 0.
  Proof.
    unfold jcoef. cbn [Nat.leb]. rewrite !Nat.sub_0_r.
    replace (S (S n) + 0 + a + b)%nat with (S (S (n + a + b))) by lia.
    replace (S (S n) + a + b)%nat with (S (S (n + a + b))) by lia.
    replace (S n + 0 + a + b)%nat with (S (n + a + b)) by lia.
    replace (S n + a + b)%nat with (S (n + a + b)) by lia.
    replace (n + 0 + a + b)%nat with (n + a + b)%nat by lia.
    replace (S (S n) + a)%nat with (S (S (n + a))) by lia.
    replace (S n + a)%nat with (S (n + a)) by lia.
    replace (a + 0)%nat with a by lia.
    facts. change (INR (fact 0)) with 1. rewrite ?S_INR, ?plus_INR. unfold recA, recB, recC, recD.
    field. nonz.
  Qed.
  (** k = S k', n = k + j. *)
  Lemma coef_rec1 k j : let n := (S k + j)%nat in
    recA n * jcoef a b (S (S n)) (S k) = (recB n + recC n) * jcoef a b (S n) (S k) + 2 * recC n * jcoef a b (S n) k - recD n * jcoef a b n (S k).
  Proof.
    cbv zeta. unfold jcoef.
    rewrite !(proj2 (Nat.leb_le _ _)) by lia.
    replace (S (S (S k + j)) + S k + a + b)%nat with (S (S (S (S (k + j + k + a + b))))) by lia.
    replace (S (S k + j) + S k + a + b)%nat with (S (S (S (k + j + k + a + b)))) by lia.
    replace (S (S k + j) + k + a + b)%nat with (S (S (k + j + k + a + b))) by lia.
    replace (S k + j + S k + a + b)%nat with (S (S (k + j + k + a + b))) by lia.
    replace (S (S (S k + j)) + a + b)%nat with (S (S (S k + j + a + b))) by lia.
    replace (S (S k + j) + a + b)%nat with (S (S k + j + a + b)) by lia.
    replace (S (S (S k + j)) - S k)%nat with (S (S j)) by lia.
    replace (S (S k + j) - S k)%nat with (S j) by lia.
    replace (S (S k + j) - k)%nat with (S (S j)) by lia.
    replace (S k + j - S k)%nat with j by lia.
    replace (S (S (S k + j)) + a)%nat with (S (S (S k + j + a))) by lia.
    replace (S (S k + j) + a)%nat with (S (S k + j + a)) by lia.
    replace (a + S k)%nat with (S (a + k)) by lia.
    facts. rewrite ?S_INR, ?plus_INR, ?S_INR. unfold recA, recB, recC, recD. rewrite ?plus_INR, ?S_INR.
    generalize (INR_fact (S k + j + a)) (INR_fact (k + j + k + a + b)) (INR_fact j) (INR_fact (a + k)) (INR_fact k) (INR_fact (S k + j + a + b)).
    generalize (INR (fact (S k + j + a))) (INR (fact (k + j + k + a + b))) (INR (fact j)) (INR (fact (a + k))) (INR (fact k)) (INR (fact (S k + j + a + b))).
    pose proof (pos_INR k). pose proof (pos_INR j). pose proof (pos_INR a). pose proof (pos_INR b).
    intros f1 f2 f3 f4 f5 f6 N1 N2 N3 N4 N5 N6.
    generalize dependent (INR k). generalize dependent (INR j). generalize dependent (INR a). generalize dependent (INR b). intros vb Hb va Ha vj Hj vk Hk.
    field. repeat split; auto; lra.
  Qed.
  (** k = n + 1 where the order is n + 2 *)
  Lemma coef_rec2 n : recA n * jcoef a b (S (S n)) (S n) = (recB n + recC n) * jcoef a b (S n) (S n) + 2 * recC n * jcoef a b (S n) n - recD n * jcoef a b n (S n).
  Proof.
    rewrite (jcoef_out a b n (S n)) by lia. unfold jcoef. rewrite !(proj2 (Nat.leb_le _ _)) by lia.
    replace (S (S n) - S n)%nat with 1%nat by lia.
    replace (S n - S n)%nat with O by lia.
    replace (S n - n)%nat with 1%nat by lia.
    change (INR (fact 1)) with 1. change (INR (fact 0)) with 1.
    replace (S (S n) + S n + a + b)%nat with (S (S (S (n + n + a + b)))) by lia.
    replace (S n + S n + a + b)%nat with (S (S (n + n + a + b))) by lia.
    replace (S n + n + a + b)%nat with (S (n + n + a + b)) by lia.
    replace (S (S n) + a + b)%nat with (S (S (n + a + b))) by lia.
    replace (S n + a + b)%nat with (S (n + a + b)) by lia.
    replace (S (S n) + a)%nat with (S (S (n + a))) by lia.
    replace (S n + a)%nat with (S (n + a)) by lia.
    replace (a + S n)%nat with (S (n + a)) by lia.
    replace (a + n)%nat with (n + a)%nat by lia.
    facts. rewrite ?S_INR, ?plus_INR, ?S_INR. unfold recA, recB, recC, recD. rewrite ?plus_INR, ?S_INR.
    generalize (INR_fact (n + a)) (INR_fact (n + n + a + b)) (INR_fact n) (INR_fact (n + a + b)).
    generalize (INR (fact (n + a))) (INR (fact (n + n + a + b))) (INR (fact n)) (INR (fact (n + a + b))).
    pose proof (pos_INR n). pose proof (pos_INR a). pose proof (pos_INR b). intros f1 f2 f3 f4 N1 N2 N3 N4.
    field. repeat split; auto; lra.
  Qed.
  Lemma coef_rec3 n : recA n * jcoef a b (S (S n)) (S (S n)) = (recB n + recC n) * jcoef a b (S n) (S (S n)) + 2 * recC n * jcoef a b (S n) (S n) - recD n * jcoef a b n (S (S n)).
  Proof.
    rewrite (jcoef_out a b n (S (S n))), (jcoef_out a b (S n) (S (S n))) by lia. unfold jcoef. rewrite !(proj2 (Nat.leb_le _ _)) by lia.
    replace (S (S n) - S (S n))%nat with O by lia.
    replace (S n - S n)%nat with O by lia.
    change (INR (fact 0)) with 1.
    replace (S (S n) + S (S n) + a + b)%nat with (S (S (S (S (n + n + a + b))))) by lia.
    replace (S n + S n + a + b)%nat with (S (S (n + n + a + b))) by lia.
    replace (S (S n) + a + b)%nat with (S (S (n + a + b))) by lia.
    replace (S n + a + b)%nat with (S (n + a + b)) by lia.
    replace (S (S n) + a)%nat with (S (S (n + a))) by lia.
    replace (S n + a)%nat with (S (n + a)) by lia.
    replace (a + S (S n))%nat with (S (S (n + a))) by lia.
    replace (a + S n)%nat with (S (n + a))%nat by lia.
    facts. rewrite ?S_INR, ?plus_INR, ?S_INR. unfold recA, recB, recC, recD. rewrite ?plus_INR, ?S_INR.
    generalize (INR_fact (n + a)) (INR_fact (n + n + a + b)) (INR_fact n) (INR_fact (n + a + b)).
    generalize (INR (fact (n + a))) (INR (fact (n + n + a + b))) (INR (fact n)) (INR (fact (n + a + b))).
    pose proof (pos_INR n). pose proof (pos_INR a). pose proof (pos_INR b). intros f1 f2 f3 f4 N1 N2 N3 N4.
    field. repeat split; auto; lra.
  Qed.
  Lemma coef_rec n k : recA n * jcoef a b (S (S n)) (S k) = (recB n + recC n) * jcoef a b (S n) (S k) + 2 * recC n * jcoef a b (S n) k - recD n * jcoef a b n (S k).
  Proof.
    destruct (le_lt_dec (S k) n) as [H|H].
    - pose proof (coef_rec1 k (n - S k)) as E. cbv zeta in E. replace (S k + (n - S k))%nat with n in E by lia. exact E.
    - destruct (Nat.eq_dec k n) as [->|H1]; [apply coef_rec2|].
      destruct (Nat.eq_dec k (S n)) as [->|H2]; [apply coef_rec3|].
      rewrite !jcoef_out by lia. ring.
  Qed.
  Lemma Jacobi_rec n z : recA n * Jacobi a b (S (S n)) z = (recB n + recC n * z) * Jacobi a b (S n) z - recD n * Jacobi a b n z.
  Proof.
    rewrite (Jacobi_more a b (S (S n)) (S (S (S n)))), (Jacobi_more a b n (S (S (S n)))) by lia.
    set (x := (z - 1) / 2). replace z with (1 + 2 * x) at 1 by (unfold x; field).
    replace ((recB n + recC n * (1 + 2 * x)) * Jacobi a b (S n) z) with
      ((recB n + recC n) * Jacobi a b (S n) z + 2 * recC n * (x * Jacobi a b (S n) z)) by ring.
    rewrite (Jacobi_more a b (S n) (S (S (S n)))) at 1 by lia. rewrite (Jacobi_more a b (S n) (S (S n))) by lia. fold x.
    set (u := fun k : nat => jcoef a b (S (S n)) k). set (v := fun k : nat => jcoef a b (S n) k). set (w := fun k : nat => jcoef a b n k).
    change (recA n * rsum (S (S (S n))) (fun k => u k * x ^ k) =
      (recB n + recC n) * rsum (S (S (S n))) (fun k => v k * x ^ k) + 2 * recC n * (x * rsum (S (S n)) (fun k => v k * x ^ k)) - recD n * rsum (S (S (S n))) (fun k => w k * x ^ k)).
    assert (E0 : recA n * u O = (recB n + recC n) * v O - recD n * w O) by apply coef_rec0.
    assert (E1 : forall k, recA n * u (S k) = (recB n + recC n) * v (S k) + 2 * recC n * v k - recD n * w (S k)) by (intros; apply coef_rec).
    clearbody u v w. generalize (recA n) (recB n + recC n) (2 * recC n) (recD n) E0 E1. intros A B C D F0 F1. generalize (S (S n)). intros m.
    rewrite !(rsum_shift m). cbn [pow].
    assert (G : A * rsum m (fun i => u (S i) * (x * x ^ i)) = B * rsum m (fun i => v (S i) * (x * x ^ i)) + C * (x * rsum m (fun i => v i * x ^ i)) - D * rsum m (fun i => w (S i) * (x * x ^ i))).
    { induction m as [|m IH]; cbn [rsum]; [ring|].
      replace (A * (rsum m (fun i => u (S i) * (x * x ^ i)) + u (S m) * (x * x ^ m))) with
        (A * rsum m (fun i => u (S i) * (x * x ^ i)) + (A * u (S m)) * (x * x ^ m)) by ring. rewrite IH, F1. ring. }
    replace (A * (u O * 1 + rsum m (fun i => u (S i) * (x * x ^ i)))) with (A * u O + A * rsum m (fun i => u (S i) * (x * x ^ i))) by ring.
    rewrite G, F0. ring.
  Qed.
  Lemma Jacobi_0 z : Jacobi a b 0 z = 1.
  Proof. unfold Jacobi. cbn [Nat.add rsum]. unfold jcoef. cbn [Nat.leb pow Nat.sub Nat.add]. rewrite Nat.add_0_r. change (INR (fact 0)) with 1.
    pose proof (INR_fact a). pose proof (INR_fact (a + b)). field; auto. Qed.
  Lemma Jacobi_1 z : Jacobi a b 1 z = 1/2 * (2 * (INR a + 1) + (INR a + INR b + 2) * (z - 1)).
  Proof.
    unfold Jacobi. cbn [Nat.add rsum]. unfold jcoef. cbn [Nat.leb pow Nat.sub Nat.add].
    rewrite Nat.add_0_r. replace (a + 1)%nat with (S a) by lia. facts. change (INR (fact 0)) with 1. rewrite ?S_INR, ?plus_INR, ?S_INR. change (INR 0) with 0.
    pose proof (INR_fact a). pose proof (INR_fact (a + b)). pose proof (pos_INR a). pose proof (pos_INR b). field. repeat split; auto; lra.
  Qed.
End Rec.

Lemma recA_pos a b n : 0 < recA a b n.
Proof. unfold recA. pose proof (pos_INR n). pose proof (pos_INR a). pose proof (pos_INR b). repeat apply Rmult_lt_0_compat; lra. Qed.
Lemma Jacobi_SS a b n z : Jacobi a b (S (S n)) z = / recA a b n * ((recB a b n + recC a b n * z) * Jacobi a b (S n) z + - recD a b n * Jacobi a b n z).
Proof.
  pose proof (recA_pos a b n). apply (Rmult_eq_reg_l (recA a b n)); [|lra]. rewrite <- Rmult_assoc, Rinv_r by lra. rewrite Jacobi_rec. ring.
Qed.

(** ** The functions *)
Lemma forr_inv {S} (I : nat -> S -> Prop) n body st : I O st -> (forall i s, (i < n)%nat -> I i s -> I (Datatypes.S i) (body i s)) -> I n (forr n body st).
Proof.
  unfold forr. intros H0 H. assert (G : forall m, (m <= n)%nat -> I m (fold_left (fun s i => body i s) (seq 0 m) st)).
  { induction m; intros Hm; [exact H0|]. rewrite seq_S, fold_left_app. cbn [fold_left]. rewrite Nat.add_0_l. apply H; [lia|]. apply IHm; lia. }
  apply G; auto.
Qed.
Lemma jacobi_ok p z alpha beta : jacobi_c p z alpha beta = Some (Jacobi alpha beta p z).
Proof.
  unfold jacobi_c. destruct p as [|[|p]]; cbn [Nat.eqb].
  - rewrite Jacobi_0. auto.
  - rewrite Jacobi_1. f_equal. rewrite ?mult_INR, ?plus_INR. simpl INR. field.
  - cbv zeta. set (pn := 1/8 * _). set (pnm1 := 1/2 * _).
    assert (E1 : pnm1 = Jacobi alpha beta 1 z) by (rewrite Jacobi_1; unfold pnm1; rewrite ?mult_INR, ?plus_INR; simpl INR; field).
    assert (E2 : pn = Jacobi alpha beta 2 z).
    { rewrite Jacobi_SS, Jacobi_0, Jacobi_1. unfold pn, recA, recB, recC, recD. rewrite ?mult_INR, ?plus_INR, ?mult_INR, ?plus_INR. simpl INR.
      pose proof (pos_INR alpha). pose proof (pos_INR beta). field. repeat split; lra. }
    destruct (Nat.eqb_spec p 0) as [->|Hp]; [cbn [Nat.eqb]; rewrite E2; auto|].
    assert (G : forr (S (S p) - 2) (jacobi_step z alpha beta) (Some (pn, pnm1)) = Some (Jacobi alpha beta (S (S p)) z, Jacobi alpha beta (S p) z)).
    { replace (S (S p) - 2)%nat with p by lia.
      apply (forr_inv (fun i st => st = Some (Jacobi alpha beta (S (S i)) z, Jacobi alpha beta (S i) z))); [rewrite E1, E2; auto|].
      intros i s _ ->. unfold jacobi_step. cbv zeta. replace (3 + i - 1)%nat with (S (S i)) by lia.
      rewrite rdiv_ok by (apply not_0_INR; nia). do 2 f_equal. rewrite (Jacobi_SS alpha beta (S i)).
      unfold pochhammer, forr. cbn [seq fold_left]. unfold recA, recB, recC, recD.
      rewrite ?mult_INR, ?plus_INR, ?mult_INR, ?plus_INR, ?S_INR, ?mult_INR, ?plus_INR. simpl INR.
      pose proof (pos_INR alpha). pose proof (pos_INR beta). pose proof (pos_INR i). field. repeat split; lra. }
    rewrite G. destruct p; [lia|]. auto.
Qed.
