(** Lemmas for C109: the analysis of L_DoubleExpr for inputs that carry an error themselves. *)
From Coq Require Import QArith Qreals Qabs.
From Flocq Require Import Core.
From Verif Require Import M_RealBase L_RealBase M_Grid M_Double S_Double L_Double L_Double2 M_DoubleExpr L_DoubleExpr.
From Coq Require Import List.
Import ListNotations.
Open Scope R_scope.

(** input [n] is at most B M^d in magnitude and off by at most E M^d, where [be n] = (d, B, E) *)
Fixpoint ana2 (be : nat -> nat * Q * Q) (e : ex) : option (nat * Q * Q) :=
  match e with
  | EVar n => Some (be n)
  | ELit m k => Some (0%nat, litq m k, 0%Q)
  | ENeg a => ana2 be a
  | EAdd a b | ESub a b =>
      match ana2 be a, ana2 be b with
      | Some (d, B, E), Some (d', B', E') =>
          if Nat.eqb d d' then Some (d, Qred (B + B')%Q, round_err (B + B') (E + E')) else None
      | _, _ => None
      end
  | EMul a b =>
      match ana2 be a, ana2 be b with
      | Some (d, B, E), Some (d', B', E') =>
          if Nat.leb (d + d') 1 then Some ((d + d')%nat, Qred (B * B')%Q, round_err (B * B') (E * B' + B * E' + E * E')) else None
      | _, _ => None
      end
  end.

Section Ana2.
  Context (be : nat -> nat * Q * Q) (envR envD : nat -> R) (M : R).
  Context (HM : bpow radix2 (-500) <= M <= bpow radix2 500).
  Definition input2_ok (n : nat) : Prop := let '(d, B, E) := be n in (d <= 1)%nat /\ Rabs (envR n) <= Q2R B * M ^ d /\ Rabs (envD n - envR n) <= Q2R E * M ^ d.
  Notation within := (within M).
  Let round_ok := round_ok M HM.
  Let exact_ok := exact_ok M HM.
  Let fl_bounded := fl_bounded M HM.
  Let within_mag := within_mag M.
  Fixpoint qbounded2 (e : ex) : bool :=
    match ana2 be e with
    | Some (_, B, E) => Qle_bool (B + E)%Q 1000000 &&
        match e with EVar _ | ELit _ _ => true | ENeg a => qbounded2 a | EAdd a b | ESub a b | EMul a b => qbounded2 a && qbounded2 b end
    | None => false
    end.
  Lemma ana2_ok contract : forall e place d B E, ana2 be e = Some (d, B, E) -> qbounded2 e = true -> (forall n, In n (vars e) -> input2_ok n) ->
    (d <= 1)%nat /\ exists x, deval contract place envD e = Some x /\ within d B E (evalR envR e) x.
  Proof.
    induction e as [n|m k|a IHa|a IHa b IHb|a IHa b IHb|a IHa b IHb]; intros place d B E HA HB Hin; cbn [vars] in Hin.
    - cbn [ana2] in HA. injection HA as HA. pose proof (Hin n (or_introl eq_refl)) as H. unfold input2_ok in H. rewrite HA in H. destruct H as (H0 & H1 & H2).
      split; [auto|]. exists (envD n). split; [reflexivity|]. split; auto.
    - cbn [ana2] in HA. injection HA as <- <- <-. split; [lia|]. eexists. split; [reflexivity|]. cbn [evalR]. split; [rewrite Q2R_lit; cbn [pow]; lra|].
      rewrite Rminus_diag_eq, Rabs_R0 by reflexivity. unfold Q2R. cbn. lra.
    - cbn [qbounded2] in HB. rewrite HA in HB. apply andb_prop in HB as [_ HB]. cbn [ana2] in HA. destruct (IHa (false :: place) d B E HA HB Hin) as (Hd & x & X1 & X2 & X3).
      split; [auto|]. exists (- x). cbn [deval evalR]. rewrite X1. split; [reflexivity|]. split; [rewrite Rabs_Ropp; auto|].
      replace (- x - - evalR envR a) with (- (x - evalR envR a)) by ring. rewrite Rabs_Ropp. auto.
    - cbn [qbounded2] in HB. rewrite HA in HB. apply andb_prop in HB as [HQ HB]. apply andb_prop in HB as [HBa HBb]. apply Qle_bool_iff, Qle_Rle in HQ.
      cbn [ana2] in HA. destruct (ana2 be a) as [[[da Ba] Ea]|] eqn:Aa; [|discriminate]. destruct (ana2 be b) as [[[db Bb] Eb]|] eqn:Ab; [|discriminate].
      destruct (Nat.eqb_spec da db) as [<-|]; [|discriminate]. apply (f_equal (fun o => match o with Some v => v | None => (d, B, E) end)) in HA. apply pair_equal_spec in HA as [HA <-]. apply pair_equal_spec in HA as [<- <-].
      destruct (IHa (false :: place) _ _ _ eq_refl HBa (fun n H => Hin n (in_or_app _ _ n (or_introl H)))) as (Hd & x & X1 & X2 & X3). destruct (IHb (true :: place) _ _ _ eq_refl HBb (fun n H => Hin n (in_or_app _ _ n (or_intror H)))) as (_ & y & Y1 & Y2 & Y3).
      split; [auto|]. cbn [deval evalR]. rewrite X1, Y1. cbn [bind].
      assert (W1 : Rabs (evalR envR a + evalR envR b) <= Q2R (Ba + Bb) * M ^ da). { rewrite Q2R_plus, Rmult_plus_distr_r. eapply Rle_trans; [apply Rabs_triang|lra]. }
      assert (W2 : Rabs (x + y - (evalR envR a + evalR envR b)) <= Q2R (Ea + Eb) * M ^ da).
      { rewrite Q2R_plus, Rmult_plus_distr_r. replace (x + y - (evalR envR a + evalR envR b)) with ((x - evalR envR a) + (y - evalR envR b)) by ring. eapply Rle_trans; [apply Rabs_triang|lra]. }
      assert (F : fl (x + y) = Some (rnd (x + y))).
      { apply (fl_bounded _ (Qred (Ba + Bb) + round_err (Ba + Bb) (Ea + Eb))%Q da); [auto| |]. 
        - apply (within_mag _ _ _ (evalR envR a + evalR envR b)). apply exact_ok; auto.
        - eapply Rle_trans; [exact HQ|]. unfold Q2R. cbn. lra. }
      rewrite F. eexists. split; [reflexivity|]. apply (round_ok da _ _ _ (x + y)); auto.
    - cbn [qbounded2] in HB. rewrite HA in HB. apply andb_prop in HB as [HQ HB]. apply andb_prop in HB as [HBa HBb]. apply Qle_bool_iff, Qle_Rle in HQ.
      cbn [ana2] in HA. destruct (ana2 be a) as [[[da Ba] Ea]|] eqn:Aa; [|discriminate]. destruct (ana2 be b) as [[[db Bb] Eb]|] eqn:Ab; [|discriminate].
      destruct (Nat.eqb_spec da db) as [<-|]; [|discriminate]. apply (f_equal (fun o => match o with Some v => v | None => (d, B, E) end)) in HA. apply pair_equal_spec in HA as [HA <-]. apply pair_equal_spec in HA as [<- <-].
      destruct (IHa (false :: place) _ _ _ eq_refl HBa (fun n H => Hin n (in_or_app _ _ n (or_introl H)))) as (Hd & x & X1 & X2 & X3). destruct (IHb (true :: place) _ _ _ eq_refl HBb (fun n H => Hin n (in_or_app _ _ n (or_intror H)))) as (_ & y & Y1 & Y2 & Y3).
      split; [auto|]. cbn [deval evalR]. rewrite X1, Y1. cbn [bind].
      assert (W1 : Rabs (evalR envR a - evalR envR b) <= Q2R (Ba + Bb) * M ^ da).
      { rewrite Q2R_plus, Rmult_plus_distr_r. unfold Rminus. eapply Rle_trans; [apply Rabs_triang|]. rewrite Rabs_Ropp. lra. }
      assert (W2 : Rabs (x - y - (evalR envR a - evalR envR b)) <= Q2R (Ea + Eb) * M ^ da).
      { rewrite Q2R_plus, Rmult_plus_distr_r. replace (x - y - (evalR envR a - evalR envR b)) with ((x - evalR envR a) + - (y - evalR envR b)) by ring. eapply Rle_trans; [apply Rabs_triang|]. rewrite Rabs_Ropp. lra. }
      assert (F : fl (x - y) = Some (rnd (x - y))).
      { apply (fl_bounded _ (Qred (Ba + Bb) + round_err (Ba + Bb) (Ea + Eb))%Q da); [auto| |].
        - apply (within_mag _ _ _ (evalR envR a - evalR envR b)). apply exact_ok; auto.
        - eapply Rle_trans; [exact HQ|]. unfold Q2R. cbn. lra. }
      rewrite F. eexists. split; [reflexivity|]. apply (round_ok da _ _ _ (x - y)); auto.
    - cbn [qbounded2] in HB. rewrite HA in HB. apply andb_prop in HB as [HQ HB]. apply andb_prop in HB as [HBa HBb]. apply Qle_bool_iff, Qle_Rle in HQ.
      cbn [ana2] in HA. destruct (ana2 be a) as [[[da Ba] Ea]|] eqn:Aa; [|discriminate]. destruct (ana2 be b) as [[[db Bb] Eb]|] eqn:Ab; [|discriminate].
      destruct (Nat.leb_spec (da + db) 1) as [Hd|]; [|discriminate]. apply (f_equal (fun o => match o with Some v => v | None => (d, B, E) end)) in HA. apply pair_equal_spec in HA as [HA <-]. apply pair_equal_spec in HA as [<- <-].
      destruct (IHa (false :: place) _ _ _ eq_refl HBa (fun n H => Hin n (in_or_app _ _ n (or_introl H)))) as (_ & x & X1 & X2 & X3). destruct (IHb (true :: place) _ _ _ eq_refl HBb (fun n H => Hin n (in_or_app _ _ n (or_intror H)))) as (_ & y & Y1 & Y2 & Y3).
      split; [auto|]. cbn [deval evalR]. rewrite X1, Y1. cbn [bind].
      set (r := evalR envR a) in *. set (s := evalR envR b) in *.
      pose proof (Rabs_pos r) as P1. pose proof (Rabs_pos s) as P2. pose proof (Rabs_pos (x - r)) as P3. pose proof (Rabs_pos (y - s)) as P4.
      assert (W1 : Rabs (r * s) <= Q2R (Ba * Bb) * M ^ (da + db)).
      { rewrite Q2R_mult, pow_add, Rabs_mult. replace (Q2R Ba * Q2R Bb * (M ^ da * M ^ db)) with ((Q2R Ba * M ^ da) * (Q2R Bb * M ^ db)) by ring. apply Rmult_le_compat; auto. }
      assert (W2 : Rabs (x * y - r * s) <= Q2R (Ea * Bb + Ba * Eb + Ea * Eb) * M ^ (da + db)).
      { rewrite !Q2R_plus, !Q2R_mult, pow_add.
        replace (x * y - r * s) with ((x - r) * s + r * (y - s) + (x - r) * (y - s)) by ring.
        eapply Rle_trans; [apply Rabs_triang|]. eapply Rle_trans; [apply Rplus_le_compat_r; apply Rabs_triang|]. rewrite !Rabs_mult.
        assert (Z1 : Rabs (x - r) * Rabs s <= (Q2R Ea * M ^ da) * (Q2R Bb * M ^ db)) by (apply Rmult_le_compat; auto).
        assert (Z2 : Rabs r * Rabs (y - s) <= (Q2R Ba * M ^ da) * (Q2R Eb * M ^ db)) by (apply Rmult_le_compat; auto).
        assert (Z3 : Rabs (x - r) * Rabs (y - s) <= (Q2R Ea * M ^ da) * (Q2R Eb * M ^ db)) by (apply Rmult_le_compat; auto).
        replace ((Q2R Ea * Q2R Bb + Q2R Ba * Q2R Eb + Q2R Ea * Q2R Eb) * (M ^ da * M ^ db)) with
          ((Q2R Ea * M ^ da) * (Q2R Bb * M ^ db) + (Q2R Ba * M ^ da) * (Q2R Eb * M ^ db) + (Q2R Ea * M ^ da) * (Q2R Eb * M ^ db)) by ring. lra. }
      assert (F : fl (x * y) = Some (rnd (x * y))).
      { apply (fl_bounded _ (Qred (Ba * Bb) + round_err (Ba * Bb) (Ea * Bb + Ba * Eb + Ea * Eb))%Q (da + db)); [auto| |].
        - apply (within_mag _ _ _ (r * s)). apply exact_ok; auto.
        - eapply Rle_trans; [exact HQ|]. unfold Q2R. cbn. lra. }
      destruct (contract place).
      + eexists. split; [reflexivity|]. apply exact_ok; auto.
      + rewrite F. eexists. split; [reflexivity|]. apply (round_ok (da + db) _ _ _ (x * y)); auto.
  Qed.
End Ana2.
