From Coq Require Import Bool.
From Verif Require Import M_Rma.
Definition count (t : nat) (l : list nat) : nat := count_occ Nat.eq_dec l t.
Fixpoint nsum (f : nat -> nat) (n : nat) : nat := match n with O => 0 | S k => nsum f k + f k end.
Lemma nsum_ext f f' n : (forall a, a < n -> f a = f' a) -> nsum f n = nsum f' n.
Proof. induction n as [|n IH]; intros H; simpl; auto. rewrite IH by auto. rewrite H by lia. reflexivity. Qed.
Lemma nsum_zero n : nsum (fun _ => 0) n = 0.
Proof. induction n; simpl; auto. lia. Qed.
Lemma nsum_upd f f' n r d : r < n -> (forall a, a <> r -> f' a = f a) -> f' r = f r + d -> nsum f' n = nsum f n + d.
Proof.
  induction n as [|n IH]; intros Hr H E; [lia|]. simpl. destruct (Nat.eq_dec r n) as [->|].
  - rewrite E. rewrite (nsum_ext f' f n) by (intros; apply H; lia). lia.
  - rewrite IH by (auto; lia). rewrite (H n) by lia. lia.
Qed.
Local Arguments Nat.leb : simpl never.
Local Arguments Nat.ltb : simpl never.
Section Proof.
  Context (n : nat) (sends : nat -> nat -> list nat).
  Hypothesis Hs : forall k a t, In t (sends k a) -> t < n.
  (** what rank [a] has added so far to the window of [r] in round [k] *)
  Definition contrib (s : rstate) (a k r : nat) : nat :=
    if Nat.ltb k (rs_round s) then count r (sends k a)
    else if Nat.eqb (rs_round s) k && Nat.leb 3 (rs_phase s) then count r (sends k a) - count r (rs_rest s)
    else 0.
  Record inv (g : gstate) : Prop := {
    i_phase : forall r, r < n -> rs_phase (gs_rank g r) <= 5;
    i_rest : forall r, r < n -> 3 <= rs_phase (gs_rank g r) ->
       exists pre, sends (rs_round (gs_rank g r)) r = pre ++ rs_rest (gs_rank g r) /\ (4 <= rs_phase (gs_rank g r) -> rs_rest (gs_rank g r) = []);
    i_b1 : forall r q, r < n -> q < n -> 3 <= rs_phase (gs_rank g r) -> reached (gs_rank g q) (rs_round (gs_rank g r)) 2;
    i_b2 : forall r q, r < n -> q < n -> 5 <= rs_phase (gs_rank g r) -> reached (gs_rank g q) (rs_round (gs_rank g r)) 4;
    i_b3 : forall r q k, r < n -> q < n -> rs_round (gs_rank g r) = S k -> reached (gs_rank g q) k 4;
    i_win : forall r, r < n -> 1 <= rs_phase (gs_rank g r) ->
       gs_win g r = nsum (fun a => contrib (gs_rank g a) a (rs_round (gs_rank g r)) r) n;
    i_len : forall r, r < n -> length (rs_reads (gs_rank g r)) = rs_round (gs_rank g r);
    i_reads : forall r k v, r < n -> nth_error (rs_reads (gs_rank g r)) k = Some v ->
       v = nsum (fun a => count r (sends k a)) n }.

  Lemma inv_init : inv ginit.
  Proof.
    constructor; simpl; intros; try lia; auto. destruct k; discriminate.
  Qed.
  Ltac upd r x := unfold upd_fun; destruct (Nat.eqb_spec x r); [subst x|].
  Lemma reached_mono (s s' : rstate) k p :
    (rs_round s' = rs_round s /\ rs_phase s <= rs_phase s' \/ rs_round s < rs_round s') -> reached s k p -> reached s' k p.
  Proof. unfold reached. intros H [H1|[H1 H2]]; lia. Qed.
  Lemma contrib_round s a k r : k < rs_round s -> contrib s a k r = count r (sends k a).
  Proof. intros H. unfold contrib. apply Nat.ltb_lt in H. now rewrite H. Qed.

  Lemma inv_step g g' r : inv g -> r < n -> gstep n sends r g g' -> inv g'.
  Proof.
    intros I Hr St. destruct I as [Iph Irest Ib1 Ib2 Ib3 Iwin Ilen Irds].
    (* every step only moves rank r forward *)
    assert (Hmono : exists s', gs_rank g' = upd_fun (gs_rank g) r s' /\
       (rs_round s' = rs_round (gs_rank g r) /\ rs_phase (gs_rank g r) <= rs_phase s' \/ (rs_round (gs_rank g r) < rs_round s'))).
    { inversion St; subst; eexists; (split; [reflexivity|]); simpl; lia. }
    destruct Hmono as (s' & Es & Hm).
    assert (Hre : forall q k p, reached (gs_rank g q) k p -> reached (gs_rank g' q) k p).
    { intros q k p H. rewrite Es. unfold upd_fun. destruct (Nat.eqb_spec q r); [subst|auto]. eapply reached_mono; eauto. }
    assert (Hoth : forall q, q <> r -> gs_rank g' q = gs_rank g q).
    { intros q H. rewrite Es. unfold upd_fun. destruct (Nat.eqb_spec q r); [congruence|auto]. }
    assert (Hself : gs_rank g' r = s').
    { rewrite Es. unfold upd_fun. now rewrite Nat.eqb_refl. }
    (* windows: enough to follow the contribution of r and the window writes *)
    assert (Hcon : forall q k, q <> r -> forall t, contrib (gs_rank g' q) q k t = contrib (gs_rank g q) q k t).
    { intros. now rewrite Hoth. }
    pose proof (Iph r Hr) as Pr.
    constructor.
    - intros q Hq. destruct (Nat.eq_dec q r) as [->|]; [rewrite Hself|rewrite Hoth by auto; auto].
      rewrite <- Hself. inversion St; subst; simpl; unfold upd_fun; rewrite Nat.eqb_refl; simpl; lia.
    - intros q Hq. destruct (Nat.eq_dec q r) as [->|]; [|rewrite Hoth by auto; auto].
      inversion St; subst; simpl; unfold upd_fun; rewrite Nat.eqb_refl; simpl; intros H3; try lia.
      + exists []. split; auto. lia.
      + destruct (Irest r Hr ltac:(lia)) as (pre & E & _). rewrite H0 in E. exists (pre ++ [t]). rewrite <- app_assoc. split; auto. lia.
      + destruct (Irest r Hr ltac:(lia)) as (pre & E & _). rewrite H0 in E. eauto.
      + destruct (Irest r Hr ltac:(lia)) as (pre & E & H4). exists pre. split; auto. intros; apply H4; lia.
    - intros a q Ha Hq H3. apply Hre. destruct (Nat.eq_dec a r) as [->|]; [|rewrite Hoth in * by auto; auto].
      revert H3. rewrite Hself. rewrite <- Hself.
      inversion St; subst; simpl; unfold upd_fun; rewrite ?Nat.eqb_refl; simpl; intros H3; try lia; auto; try (apply (Ib1 r q); auto; lia).
    - intros a q Ha Hq H3. apply Hre. destruct (Nat.eq_dec a r) as [->|]; [|rewrite Hoth in * by auto; auto].
      inversion St; subst; revert H3; simpl; unfold upd_fun; rewrite ?Nat.eqb_refl; simpl; intros H3; try lia; auto.
    - intros a q k Ha Hq. intros Ek. apply Hre. destruct (Nat.eq_dec a r) as [->|].
      + inversion St; subst; revert Ek; simpl; unfold upd_fun; rewrite ?Nat.eqb_refl; simpl; intros Ek; try (eapply (Ib3 r q); eauto; fail).
        injection Ek as <-. apply Ib2; auto. lia.
      + rewrite Hoth in Ek by auto. apply (Ib3 a q k); auto.
    - intros t Ht H1.
      (* the round of t and whether it is the moving rank *)
      inversion St; subst; simpl in *.
      + (* zero *)
        upd r t; unfold upd_fun in H1; rewrite ?Nat.eqb_refl in H1; simpl in *.
        * symmetry. transitivity (nsum (fun _ => 0) n); [|apply nsum_zero].
          apply nsum_ext. intros a Ha. unfold upd_fun. destruct (Nat.eqb_spec a r).
          -- subst. unfold contrib. simpl. rewrite Nat.ltb_irrefl, Nat.eqb_refl. reflexivity.
          -- unfold contrib. destruct (Nat.ltb_spec (rs_round (gs_rank g r)) (rs_round (gs_rank g a))) as [Hl|Hl].
             ++ exfalso. destruct (rs_round (gs_rank g a)) as [|k] eqn:Ek; [lia|].
                destruct (Ib3 a r k Ha Hr Ek) as [?|[? ?]]; lia.
             ++ destruct (Nat.eqb_spec (rs_round (gs_rank g a)) (rs_round (gs_rank g r))) as [E|]; simpl; auto.
                destruct (Nat.leb_spec 3 (rs_phase (gs_rank g a))); auto. exfalso.
                destruct (Ib1 a r Ha Hr ltac:(lia)) as [?|[? ?]]; lia.
        * destruct (Nat.eqb_spec t r); [congruence|]. rewrite Iwin by auto. apply nsum_ext. intros a Ha. upd r a; auto.
          unfold contrib. simpl. rewrite H. reflexivity.
      + (* enter *)
        assert (Hc : forall a k x, contrib (upd_fun (gs_rank g) r {| rs_round := rs_round (gs_rank g r); rs_phase := 2; rs_rest := rs_rest (gs_rank g r); rs_reads := rs_reads (gs_rank g r) |} a) a k x = contrib (gs_rank g a) a k x).
        { intros. upd r a; auto. unfold contrib. simpl. rewrite H. reflexivity. }
        erewrite nsum_ext; [|intros; apply Hc]. unfold upd_fun in H1 |- *. destruct (Nat.eqb_spec t r); [subst|]; simpl in *; apply Iwin; auto; lia.
      + (* wait *)
        assert (Hc : forall a k x, contrib (upd_fun (gs_rank g) r {| rs_round := rs_round (gs_rank g r); rs_phase := 3; rs_rest := sends (rs_round (gs_rank g r)) r; rs_reads := rs_reads (gs_rank g r) |} a) a k x = contrib (gs_rank g a) a k x).
        { intros. upd r a; auto. unfold contrib. simpl. rewrite H. destruct (Nat.ltb k (rs_round (gs_rank g r))); auto.
          destruct (Nat.eqb_spec (rs_round (gs_rank g r)) k); simpl; auto. subst. lia. }
        erewrite nsum_ext; [|intros; apply Hc]. unfold upd_fun in H1 |- *. destruct (Nat.eqb_spec t r); [subst|]; simpl in *; apply Iwin; auto; lia.
      + (* accumulate to t0 *)
        rename t0 into d.
        destruct (Irest r Hr ltac:(lia)) as (pre & E & _). rewrite H0 in E.
        assert (Hd : d < n) by (apply (Hs (rs_round (gs_rank g r)) r); rewrite E; apply in_app_iff; simpl; auto).
        assert (Hround : rs_round (gs_rank g d) = rs_round (gs_rank g r) /\ 2 <= rs_phase (gs_rank g d)).
        { destruct (Ib1 r d Hr Hd ltac:(lia)) as [Hl|[? ?]]; [|lia]. exfalso.
          destruct (rs_round (gs_rank g d)) as [|k] eqn:Ek; [lia|]. destruct (Ib3 d r k Hd Hr Ek) as [?|[? ?]]; lia. }
        set (s1 := {| rs_round := rs_round (gs_rank g r); rs_phase := 3; rs_rest := rest; rs_reads := rs_reads (gs_rank g r) |}) in *.
        assert (Hk : rs_round (upd_fun (gs_rank g) r s1 t) = rs_round (gs_rank g t)).
        { unfold upd_fun. destruct (Nat.eqb_spec t r); subst; reflexivity. }
        rewrite Hk. clear Hk.
        assert (H1' : 1 <= rs_phase (gs_rank g t)).
        { unfold upd_fun in H1. destruct (Nat.eqb_spec t r); subst; auto. lia. }
        assert (Hcr : contrib s1 r (rs_round (gs_rank g t)) t =
                      contrib (gs_rank g r) r (rs_round (gs_rank g t)) t + (if Nat.eqb t d then 1 else 0)).
        { unfold contrib, s1. simpl. rewrite H, H0. simpl.
          destruct (Nat.ltb_spec (rs_round (gs_rank g t)) (rs_round (gs_rank g r))) as [Hl|Hl].
          - destruct (Nat.eqb_spec t d); [subst; lia|lia].
          - destruct (Nat.eqb_spec (rs_round (gs_rank g r)) (rs_round (gs_rank g t))) as [Ek|Ek]; simpl.
            + rewrite <- Ek, E. unfold count. rewrite count_occ_app. simpl.
              destruct (Nat.eq_dec d t), (Nat.eqb_spec t d); try congruence; lia.
            + destruct (Nat.eqb_spec t d); [subst; lia|lia]. }
        symmetry. eapply eq_trans; [apply (nsum_upd (fun a => contrib (gs_rank g a) a (rs_round (gs_rank g t)) t) _ n r (if Nat.eqb t d then 1 else 0)); [exact Hr| |]|].
        * intros a Ha. unfold upd_fun. destruct (Nat.eqb_spec a r); [congruence|auto].
        * unfold upd_fun. rewrite Nat.eqb_refl. exact Hcr.
        * cbv beta. rewrite <- Iwin by auto. unfold upd_fun. destruct (Nat.eqb_spec t d); [subst; lia|lia].
      + (* barrier *)
        assert (Hc : forall a k x, contrib (upd_fun (gs_rank g) r {| rs_round := rs_round (gs_rank g r); rs_phase := 4; rs_rest := []; rs_reads := rs_reads (gs_rank g r) |} a) a k x = contrib (gs_rank g a) a k x).
        { intros. upd r a; auto. unfold contrib. simpl. rewrite H, H0. reflexivity. }
        erewrite nsum_ext; [|intros; apply Hc]. unfold upd_fun in H1 |- *. destruct (Nat.eqb_spec t r); [subst|]; simpl in *; apply Iwin; auto; lia.
      + (* leave *)
        assert (Hc : forall a k x, contrib (upd_fun (gs_rank g) r {| rs_round := rs_round (gs_rank g r); rs_phase := 5; rs_rest := rs_rest (gs_rank g r); rs_reads := rs_reads (gs_rank g r) |} a) a k x = contrib (gs_rank g a) a k x).
        { intros. upd r a; auto. unfold contrib. simpl. rewrite H. reflexivity. }
        erewrite nsum_ext; [|intros; apply Hc]. unfold upd_fun in H1 |- *. destruct (Nat.eqb_spec t r); [subst|]; simpl in *; apply Iwin; auto; lia.
      + (* read *)
        unfold upd_fun in H1. destruct (Nat.eqb_spec t r) as [->|Hne]; [simpl in H1; lia|].
        assert (Hc : forall a, contrib (upd_fun (gs_rank g) r {| rs_round := S (rs_round (gs_rank g r)); rs_phase := 0; rs_rest := []; rs_reads := rs_reads (gs_rank g r) ++ [gs_win g r] |} a) a (rs_round (gs_rank g t)) t = contrib (gs_rank g a) a (rs_round (gs_rank g t)) t).
        { intros. upd r a; auto. unfold contrib. simpl. rewrite H. destruct (Irest r Hr ltac:(lia)) as (_ & _ & Hr0). rewrite (Hr0 ltac:(lia)). simpl.
          destruct (Nat.ltb_spec (rs_round (gs_rank g t)) (S (rs_round (gs_rank g r)))), (Nat.ltb_spec (rs_round (gs_rank g t)) (rs_round (gs_rank g r)));
            try lia; destruct (Nat.eqb_spec (rs_round (gs_rank g r)) (rs_round (gs_rank g t))); simpl; try lia.
          - rewrite andb_false_r. reflexivity. }
        unfold upd_fun at 2. destruct (Nat.eqb_spec t r); [congruence|].
        erewrite nsum_ext; [|intros; apply Hc]. apply Iwin; auto.
    - intros q Hq. destruct (Nat.eq_dec q r) as [->|]; [|rewrite Hoth by auto; auto].
      inversion St; subst; simpl; unfold upd_fun; rewrite Nat.eqb_refl; simpl; auto. rewrite app_length. simpl. rewrite Ilen by auto. lia.
    - intros q k v Hq. destruct (Nat.eq_dec q r) as [->|]; [|rewrite Hoth by auto; auto].
      inversion St; subst; simpl; unfold upd_fun; rewrite Nat.eqb_refl; simpl; auto. intros Hv.
      destruct (Nat.lt_ge_cases k (length (rs_reads (gs_rank g r)))) as [Hl|Hl].
      + rewrite nth_error_app1 in Hv by auto. eauto.
      + rewrite nth_error_app2 in Hv by auto. destruct (k - length (rs_reads (gs_rank g r))) as [|j] eqn:Ej; [|destruct j; discriminate].
        simpl in Hv. injection Hv as <-. assert (k = rs_round (gs_rank g r)) as -> by (rewrite <- (Ilen r Hr); lia).
        rewrite Iwin by (auto; lia). apply nsum_ext. intros a Ha. unfold contrib.
        destruct (Ib2 r a Hr Ha ltac:(lia)) as [Hx|[Hx Hy]].
        * apply Nat.ltb_lt in Hx. now rewrite Hx.
        * rewrite Hx, Nat.ltb_irrefl, Nat.eqb_refl. destruct (Nat.leb_spec 3 (rs_phase (gs_rank g a))); [|lia]. simpl.
          destruct (Irest a Ha ltac:(lia)) as (_ & _ & E0). rewrite (E0 Hy). simpl. lia.
  Qed.
  Lemma inv_reach g : greach n sends g -> inv g.
  Proof. induction 1; [apply inv_init|eapply inv_step; eauto]. Qed.
  (** no deadlock *)
  Lemma some_min (f : nat -> nat) : 0 < n -> exists r, r < n /\ forall q, q < n -> f r <= f q.
  Proof.
    clear Hs. induction n as [|m IH]; [lia|]. intros _. destruct m as [|m].
    - exists 0. split; auto. intros q Hq. assert (q = 0) by lia. now subst.
    - destruct (IH ltac:(lia)) as (r & Hr & H). destruct (Nat.le_gt_cases (f r) (f (S m))).
      + exists r. split; [lia|]. intros q Hq. destruct (Nat.eq_dec q (S m)) as [->|]; [lia|apply H; lia].
      + exists (S m). split; auto. intros q Hq. destruct (Nat.eq_dec q (S m)) as [->|]; [lia|]. specialize (H q ltac:(lia)). lia.
  Qed.
  Lemma progress g : 0 < n -> greach n sends g -> exists r g', r < n /\ gstep n sends r g g'.
  Proof.
    intros Hn Hg. pose proof (inv_reach g Hg) as [Iph _ _ _ _ _ _ _].
    destruct (some_min (fun q => rs_round (gs_rank g q) * 6 + rs_phase (gs_rank g q)) Hn) as (r & Hr & Hmin).
    exists r. pose proof (Iph r Hr) as Pr.
    assert (Hre : forall q p, q < n -> p <= rs_phase (gs_rank g r) -> reached (gs_rank g q) (rs_round (gs_rank g r)) p).
    { intros q p Hq Hp. specialize (Hmin q Hq). pose proof (Iph q Hq). unfold reached. nia. }
    destruct (rs_phase (gs_rank g r)) as [|[|[|[|[|[|]]]]]] eqn:Ep; [| | | | | |lia].
    - eexists. split; auto. now apply SZero.
    - eexists. split; auto. now apply SEnter.
    - eexists. split; auto. apply SWait; auto.
    - destruct (rs_rest (gs_rank g r)) as [|t rest] eqn:Et; eexists; (split; [auto|]); [apply SBarrier|eapply SAcc]; eauto.
    - eexists. split; auto. apply SLeave; auto.
    - eexists. split; auto. now apply SRead.
  Qed.
End Proof.
