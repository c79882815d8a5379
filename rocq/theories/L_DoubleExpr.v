(** Lemmas for C108: a bound on the rounding error of an expression, computed from the expression. *)
From Coq Require Import QArith Qreals Qabs.
From Flocq Require Import Core.
From Verif Require Import M_RealBase L_RealBase M_Grid M_Double S_Double L_Double L_Double2 M_DoubleExpr.
From Coq Require Import List.
Import ListNotations.
Open Scope R_scope.

Definition uq : Q := 1 # (2 ^ 53).
Definition eta : Q := 1 # (2 ^ 100).
(** [ana be e]: the value is at most B M^d in magnitude and off by at most E M^d, where input [n] is at most [snd (be n)] M^[fst (be n)];
    degrees 0 and 1 only *)
Definition litq (m k : Z) : Q := if (0 <=? k)%Z then inject_Z (Z.abs m * 2 ^ k) else Z.abs m # Z.to_pos (2 ^ (- k)).
Definition round_err (B E : Q) : Q := Qred (E + uq * (B + E) + eta)%Q.
Fixpoint ana (be : nat -> nat * Q) (e : ex) : option (nat * Q * Q) :=
  match e with
  | EVar n => Some (fst (be n), snd (be n), 0%Q)
  | ELit m k => Some (0%nat, litq m k, 0%Q)
  | ENeg a => ana be a
  | EAdd a b | ESub a b =>
      match ana be a, ana be b with
      | Some (d, B, E), Some (d', B', E') =>
          if Nat.eqb d d' then Some (d, Qred (B + B')%Q, round_err (B + B') (E + E')) else None
      | _, _ => None
      end
  | EMul a b =>
      match ana be a, ana be b with
      | Some (d, B, E), Some (d', B', E') =>
          if Nat.leb (d + d') 1 then Some ((d + d')%nat, Qred (B * B')%Q, round_err (B * B') (E * B' + B * E' + E * E')) else None
      | _, _ => None
      end
  end.

Lemma Q2R_red q : Q2R (Qred q) = Q2R q.
Proof. apply Qeq_eqR. apply Qred_correct. Qed.
Lemma Q2R_uq : Q2R uq = u.
Proof. rewrite <- u_eq. unfold uq, Q2R, unit_roundoff. cbn [Qnum Qden]. rewrite Rmult_1_l. f_equal. rewrite <- (bpow_nat 53). rewrite <- (IZR_Zpower radix2) by lia. reflexivity. Qed.
Lemma Q2R_eta : Q2R eta = bpow radix2 (-100).
Proof.
  unfold eta, Q2R. cbn [Qnum Qden]. rewrite Rmult_1_l. replace (-100)%Z with (- (100))%Z by reflexivity. rewrite bpow_opp.
  rewrite <- (IZR_Zpower radix2) by lia. reflexivity.
Qed.
Lemma Q2R_lit m k : Q2R (litq m k) = Rabs (IZR m * bpow radix2 k).
Proof.
  rewrite Rabs_mult, (Rabs_pos_eq (bpow _ _)) by apply bpow_ge_0. rewrite <- abs_IZR. unfold litq. destruct (Z.leb_spec 0 k) as [H|H].
  - unfold Q2R, inject_Z. cbn [Qnum Qden]. rewrite Rinv_1, Rmult_1_r, mult_IZR. f_equal. rewrite <- (IZR_Zpower radix2) by auto. reflexivity.
  - unfold Q2R. cbn [Qnum Qden]. f_equal. rewrite Z2Pos.id by (apply Z.pow_pos_nonneg; lia). replace k with (- (- k))%Z at 2 by lia. rewrite bpow_opp. f_equal.
    rewrite <- (IZR_Zpower radix2) by lia. reflexivity.
Qed.

Fixpoint vars (e : ex) : list nat :=
  match e with EVar n => [n] | ELit _ _ => [] | ENeg a => vars a | EAdd a b | ESub a b | EMul a b => vars a ++ vars b end.
Section Ana.
  Context (be : nat -> nat * Q) (env : nat -> R) (M : R).
  Context (HM : bpow radix2 (-500) <= M <= bpow radix2 500).
  Definition input_ok (n : nat) : Prop := (fst (be n) <= 1)%nat /\ Rabs (env n) <= Q2R (snd (be n)) * M ^ fst (be n).

  Lemma M_pos : 0 < M. Proof. pose proof (bpow_gt_0 radix2 (-500)). lra. Qed.
  Lemma Md_pos d : 0 < M ^ d. Proof. apply pow_lt, M_pos. Qed.
  Lemma eta_ok d : (d <= 1)%nat -> bpow radix2 (-1075) <= Q2R eta * M ^ d.
  Proof.
    intros H. rewrite Q2R_eta. destruct d as [|[|]]; [|  |lia]; cbn [pow]; rewrite Rmult_1_r.
    - apply bpow_le. lia.
    - apply Rle_trans with (bpow radix2 (-100) * bpow radix2 (-500)); [rewrite <- bpow_plus; apply bpow_le; lia|].
      apply Rmult_le_compat_l; [apply bpow_ge_0|lra].
  Qed.
  Definition small (q : Q) : Prop := (0 <= q /\ q <= 1000000)%Q.
  Definition within (d : nat) (B E : Q) (r x : R) : Prop := Rabs r <= Q2R B * M ^ d /\ Rabs (x - r) <= Q2R E * M ^ d.
  Lemma round_ok d B E r x y : (d <= 1)%nat -> Rabs r <= Q2R B * M ^ d -> Rabs (x - r) <= Q2R E * M ^ d -> y = rnd x -> within d (Qred B) (round_err B E) r y.
  Proof.
    intros Hd H1 H2 ->. split; [rewrite Q2R_red; auto|]. unfold round_err. rewrite Q2R_red, !Q2R_plus, Q2R_mult, Q2R_plus, Q2R_uq. rewrite !Rmult_plus_distr_r.
    pose proof (rnd_any_err x) as N. pose proof (eta_ok d Hd) as T. pose proof u_pos.
    assert (X : Rabs x <= Q2R B * M ^ d + Q2R E * M ^ d). { replace x with (r + (x - r)) by ring. eapply Rle_trans; [apply Rabs_triang|lra]. }
    assert (Y : u * Rabs x <= u * (Q2R B * M ^ d + Q2R E * M ^ d)) by (apply Rmult_le_compat_l; lra).
    replace (rnd x - r) with ((rnd x - x) + (x - r)) by ring. eapply Rle_trans; [apply Rabs_triang|]. lra.
  Qed.
  Lemma exact_ok d B E r x : (d <= 1)%nat -> Rabs r <= Q2R B * M ^ d -> Rabs (x - r) <= Q2R E * M ^ d -> within d (Qred B) (round_err B E) r x.
  Proof.
    intros Hd H1 H2. split; [rewrite Q2R_red; auto|]. unfold round_err. rewrite Q2R_red, !Q2R_plus, Q2R_mult, Q2R_plus, Q2R_uq. rewrite !Rmult_plus_distr_r.
    pose proof (eta_ok d Hd) as T. pose proof u_pos. pose proof (bpow_ge_0 radix2 (-1075)). pose proof (Rabs_pos r). pose proof (Rabs_pos (x - r)).
    assert (0 <= u * (Q2R B * M ^ d + Q2R E * M ^ d)) by (apply Rmult_le_pos; lra). lra.
  Qed.
  (** the bounds stay below 2^20, so that nothing overflows *)
  Fixpoint qbounded (e : ex) : bool :=
    match ana be e with
    | Some (_, B, E) => Qle_bool (B + E)%Q 1000000 &&
        match e with EVar _ | ELit _ _ => true | ENeg a => qbounded a | EAdd a b | ESub a b | EMul a b => qbounded a && qbounded b end
    | None => false
    end.
  Lemma fl_bounded x b d : (d <= 1)%nat -> Rabs x <= Q2R b * M ^ d -> Q2R b <= 1000000 -> fl x = Some (rnd x).
  Proof.
    intros Hd Hx Hb. apply (fl_bpow x 600); [lia|]. eapply Rle_trans; [exact Hx|].
    apply Rle_trans with (1000000 * M ^ d). { apply Rmult_le_compat_r; [left; apply Md_pos|auto]. }
    assert (M ^ d <= bpow radix2 500). { destruct d as [|[|]]; [| |lia]; cbn [pow]; [change 1 with (bpow radix2 0); apply bpow_le; lia|lra]. }
    apply Rle_trans with (bpow radix2 20 * bpow radix2 500); [|rewrite <- bpow_plus; apply bpow_le; lia].
    apply Rmult_le_compat; [lra|left; apply Md_pos|cbn; lra|auto].
  Qed.
  Lemma within_mag d B E r x : within d B E r x -> Rabs x <= Q2R (B + E) * M ^ d.
  Proof. intros [H1 H2]. rewrite Q2R_plus, Rmult_plus_distr_r. replace x with (r + (x - r)) by ring. eapply Rle_trans; [apply Rabs_triang|lra]. Qed.

  Lemma ana_ok contract : forall e place d B E, ana be e = Some (d, B, E) -> qbounded e = true -> (forall n, In n (vars e) -> input_ok n) ->
    (d <= 1)%nat /\ exists x, deval contract place env e = Some x /\ within d B E (evalR env e) x.
  Proof.
    induction e as [n|m k|a IHa|a IHa b IHb|a IHa b IHb|a IHa b IHb]; intros place d B E HA HB Hin; cbn [vars] in Hin.
    - cbn [ana] in HA. injection HA as <- <- <-. destruct (Hin n (or_introl eq_refl)) as [H1 H2]. split; [auto|]. exists (env n). split; [reflexivity|]. split; [auto|].
      cbn [evalR]. rewrite Rminus_diag_eq, Rabs_R0 by reflexivity. unfold Q2R. cbn. lra.
    - cbn [ana] in HA. injection HA as <- <- <-. split; [lia|]. eexists. split; [reflexivity|]. cbn [evalR]. split; [rewrite Q2R_lit; cbn [pow]; lra|].
      rewrite Rminus_diag_eq, Rabs_R0 by reflexivity. unfold Q2R. cbn. lra.
    - cbn [qbounded] in HB. rewrite HA in HB. apply andb_prop in HB as [_ HB]. cbn [ana] in HA. destruct (IHa (false :: place) d B E HA HB Hin) as (Hd & x & X1 & X2 & X3).
      split; [auto|]. exists (- x). cbn [deval evalR]. rewrite X1. split; [reflexivity|]. split; [rewrite Rabs_Ropp; auto|].
      replace (- x - - evalR env a) with (- (x - evalR env a)) by ring. rewrite Rabs_Ropp. auto.
    - cbn [qbounded] in HB. rewrite HA in HB. apply andb_prop in HB as [HQ HB]. apply andb_prop in HB as [HBa HBb]. apply Qle_bool_iff, Qle_Rle in HQ.
      cbn [ana] in HA. destruct (ana be a) as [[[da Ba] Ea]|] eqn:Aa; [|discriminate]. destruct (ana be b) as [[[db Bb] Eb]|] eqn:Ab; [|discriminate].
      destruct (Nat.eqb_spec da db) as [<-|]; [|discriminate]. apply (f_equal (fun o => match o with Some v => v | None => (d, B, E) end)) in HA. apply pair_equal_spec in HA as [HA <-]. apply pair_equal_spec in HA as [<- <-].
      destruct (IHa (false :: place) _ _ _ eq_refl HBa (fun n H => Hin n (in_or_app _ _ n (or_introl H)))) as (Hd & x & X1 & X2 & X3). destruct (IHb (true :: place) _ _ _ eq_refl HBb (fun n H => Hin n (in_or_app _ _ n (or_intror H)))) as (_ & y & Y1 & Y2 & Y3).
      split; [auto|]. cbn [deval evalR]. rewrite X1, Y1. cbn [bind].
      assert (W1 : Rabs (evalR env a + evalR env b) <= Q2R (Ba + Bb) * M ^ da). { rewrite Q2R_plus, Rmult_plus_distr_r. eapply Rle_trans; [apply Rabs_triang|lra]. }
      assert (W2 : Rabs (x + y - (evalR env a + evalR env b)) <= Q2R (Ea + Eb) * M ^ da).
      { rewrite Q2R_plus, Rmult_plus_distr_r. replace (x + y - (evalR env a + evalR env b)) with ((x - evalR env a) + (y - evalR env b)) by ring. eapply Rle_trans; [apply Rabs_triang|lra]. }
      assert (F : fl (x + y) = Some (rnd (x + y))).
      { apply (fl_bounded _ (Qred (Ba + Bb) + round_err (Ba + Bb) (Ea + Eb))%Q da); [auto| |]. 
        - apply (within_mag _ _ _ (evalR env a + evalR env b)). apply exact_ok; auto.
        - eapply Rle_trans; [exact HQ|]. unfold Q2R. cbn. lra. }
      rewrite F. eexists. split; [reflexivity|]. apply (round_ok da _ _ _ (x + y)); auto.
    - cbn [qbounded] in HB. rewrite HA in HB. apply andb_prop in HB as [HQ HB]. apply andb_prop in HB as [HBa HBb]. apply Qle_bool_iff, Qle_Rle in HQ.
      cbn [ana] in HA. destruct (ana be a) as [[[da Ba] Ea]|] eqn:Aa; [|discriminate]. destruct (ana be b) as [[[db Bb] Eb]|] eqn:Ab; [|discriminate].
      destruct (Nat.eqb_spec da db) as [<-|]; [|discriminate]. apply (f_equal (fun o => match o with Some v => v | None => (d, B, E) end)) in HA. apply pair_equal_spec in HA as [HA <-]. apply pair_equal_spec in HA as [<- <-].
      destruct (IHa (false :: place) _ _ _ eq_refl HBa (fun n H => Hin n (in_or_app _ _ n (or_introl H)))) as (Hd & x & X1 & X2 & X3). destruct (IHb (true :: place) _ _ _ eq_refl HBb (fun n H => Hin n (in_or_app _ _ n (or_intror H)))) as (_ & y & Y1 & Y2 & Y3).
      split; [auto|]. cbn [deval evalR]. rewrite X1, Y1. cbn [bind].
      assert (W1 : Rabs (evalR env a - evalR env b) <= Q2R (Ba + Bb) * M ^ da).
      { rewrite Q2R_plus, Rmult_plus_distr_r. unfold Rminus. eapply Rle_trans; [apply Rabs_triang|]. rewrite Rabs_Ropp. lra. }
      assert (W2 : Rabs (x - y - (evalR env a - evalR env b)) <= Q2R (Ea + Eb) * M ^ da).
      { rewrite Q2R_plus, Rmult_plus_distr_r. replace (x - y - (evalR env a - evalR env b)) with ((x - evalR env a) + - (y - evalR env b)) by ring. eapply Rle_trans; [apply Rabs_triang|]. rewrite Rabs_Ropp. lra. }
      assert (F : fl (x - y) = Some (rnd (x - y))).
      { apply (fl_bounded _ (Qred (Ba + Bb) + round_err (Ba + Bb) (Ea + Eb))%Q da); [auto| |].
        - apply (within_mag _ _ _ (evalR env a - evalR env b)). apply exact_ok; auto.
        - eapply Rle_trans; [exact HQ|]. unfold Q2R. cbn. lra. }
      rewrite F. eexists. split; [reflexivity|]. apply (round_ok da _ _ _ (x - y)); auto.
    - cbn [qbounded] in HB. rewrite HA in HB. apply andb_prop in HB as [HQ HB]. apply andb_prop in HB as [HBa HBb]. apply Qle_bool_iff, Qle_Rle in HQ.
      cbn [ana] in HA. destruct (ana be a) as [[[da Ba] Ea]|] eqn:Aa; [|discriminate]. destruct (ana be b) as [[[db Bb] Eb]|] eqn:Ab; [|discriminate].
      destruct (Nat.leb_spec (da + db) 1) as [Hd|]; [|discriminate]. apply (f_equal (fun o => match o with Some v => v | None => (d, B, E) end)) in HA. apply pair_equal_spec in HA as [HA <-]. apply pair_equal_spec in HA as [<- <-].
      destruct (IHa (false :: place) _ _ _ eq_refl HBa (fun n H => Hin n (in_or_app _ _ n (or_introl H)))) as (_ & x & X1 & X2 & X3). destruct (IHb (true :: place) _ _ _ eq_refl HBb (fun n H => Hin n (in_or_app _ _ n (or_intror H)))) as (_ & y & Y1 & Y2 & Y3).
      split; [auto|]. cbn [deval evalR]. rewrite X1, Y1. cbn [bind].
      set (r := evalR env a) in *. set (s := evalR env b) in *.
      pose proof (Rabs_pos r) as P1. pose proof (Rabs_pos s) as P2. pose proof (Rabs_pos (x - r)) as P3. pose proof (Rabs_pos (y - s)) as P4.
      assert (W1 : Rabs (r * s) <= Q2R (Ba * Bb) * M ^ (da + db)).
      { rewrite Q2R_mult, pow_add, Rabs_mult. replace (Q2R Ba * Q2R Bb * (M ^ da * M ^ db)) with ((Q2R Ba * M ^ da) * (Q2R Bb * M ^ db)) by ring. apply Rmult_le_compat; auto. }
      assert (W2 : Rabs (x * y - r * s) <= Q2R (Ea * Bb + Ba * Eb + Ea * Eb) * M ^ (da + db)).
      { rewrite !Q2R_plus, !Q2R_mult, pow_add.
        replace (x * y - r * s) with ((x - r) * s + r * (y - s) + (x - r) * (y - s)) by ring.
        eapply Rle_trans; [apply Rabs_triang|]. eapply Rle_trans; [apply Rplus_le_compat_r; apply Rabs_triang|]. rewrite !Rabs_mult.
        assert (Z1 : Rabs (x - r) * Rabs s <= (Q2R Ea * M ^ da) * (Q2R Bb * M ^ db)) by (apply Rmult_le_compat; auto).
        assert (Z2 : Rabs r * Rabs (y - s) <= (Q2R Ba * M ^ da) * (Q2R Eb * M ^ db)) by (apply Rmult_le_compat; auto).
        assert (Z3 : Rabs (x - r) * Rabs (y - s) <= (Q2R Ea * M ^ da) * (Q2R Eb * M ^ db)) by (apply Rmult_le_compat; auto).
        replace ((Q2R Ea * Q2R Bb + Q2R Ba * Q2R Eb + Q2R Ea * Q2R Eb) * (M ^ da * M ^ db)) with
          ((Q2R Ea * M ^ da) * (Q2R Bb * M ^ db) + (Q2R Ba * M ^ da) * (Q2R Eb * M ^ db) + (Q2R Ea * M ^ da) * (Q2R Eb * M ^ db)) by ring. lra. }
      assert (F : fl (x * y) = Some (rnd (x * y))).
      { apply (fl_bounded _ (Qred (Ba * Bb) + round_err (Ba * Bb) (Ea * Bb + Ba * Eb + Ea * Eb))%Q (da + db)); [auto| |].
        - apply (within_mag _ _ _ (r * s)). apply exact_ok; auto.
        - eapply Rle_trans; [exact HQ|]. unfold Q2R. cbn. lra. }
      destruct (contract place).
      + eexists. split; [reflexivity|]. apply exact_ok; auto.
      + rewrite F. eexists. split; [reflexivity|]. apply (round_ok (da + db) _ _ _ (x * y)); auto.
  Qed.
End Ana.
