From Coq Require Import Bool Sorting.Permutation.
From Verif Require Import M_Rma L_Rma M_Rounds.
Local Arguments Nat.eqb : simpl never.

Definition cntf (k s t : nat) (l : list (nat * nat * nat)) : nat :=
  length (filter (fun m => (fst (fst m) =? k) && (snd (fst m) =? s) && (snd m =? t)) l).
Lemma cntf_app k s t l l' : cntf k s t (l ++ l') = cntf k s t l + cntf k s t l'.
Proof. unfold cntf. now rewrite filter_app, app_length. Qed.
Lemma cntf_cons k s t m l : cntf k s t (m :: l) = (if (fst (fst m) =? k) && (snd (fst m) =? s) && (snd m =? t) then 1 else 0) + cntf k s t l.
Proof. unfold cntf. simpl. destruct (_ && _); reflexivity. Qed.
Lemma cntf_in k s t l : In (k, s, t) l -> 1 <= cntf k s t l.
Proof.
  intros H. apply in_split in H as (l1 & l2 & ->). rewrite cntf_app, cntf_cons. simpl. rewrite !Nat.eqb_refl. simpl. lia.
Qed.
Lemma nsum_add f g n : nsum (fun a => f a + g a) n = nsum f n + nsum g n.
Proof. induction n; simpl; lia. Qed.
Lemma nsum_le f g n : (forall a, a < n -> f a <= g a) -> nsum f n <= nsum g n.
Proof. induction n; intros H; simpl; [lia|]. pose proof (H n ltac:(lia)). specialize (IHn ltac:(auto)). lia. Qed.
Lemma nsum_eq_pointwise f g n : (forall a, a < n -> f a <= g a) -> nsum g n <= nsum f n -> forall a, a < n -> f a = g a.
Proof.
  induction n as [|n IH]; intros H E a Ha; [lia|]. simpl in E. pose proof (H n ltac:(lia)). pose proof (nsum_le f g n ltac:(auto)).
  destruct (Nat.eq_dec a n) as [->|]; [lia|]. apply IH; auto; lia.
Qed.
Lemma nsum_single n s : s < n -> nsum (fun a => if Nat.eq_dec s a then 1 else 0) n = 1.
Proof.
  intros H. rewrite (nsum_upd (fun _ => 0) _ n s 1); auto; [now rewrite nsum_zero| |].
  - intros a Ha. destruct (Nat.eq_dec s a); [congruence|reflexivity].
  - destruct (Nat.eq_dec s s); [reflexivity|congruence].
Qed.
Lemma length_by_source n (l : list nat) : (forall s, In s l -> s < n) -> length l = nsum (fun a => count a l) n.
Proof.
  unfold count. induction l as [|s l IH]; intros H; simpl; [now rewrite nsum_zero|].
  rewrite (nsum_ext _ (fun a => (if Nat.eq_dec s a then 1 else 0) + count_occ Nat.eq_dec l a)) by (intros a _; destruct (Nat.eq_dec s a); reflexivity).
  rewrite nsum_add, nsum_single by (apply H; simpl; auto). rewrite IH by (intros; apply H; simpl; auto). reflexivity.
Qed.
Lemma count_app t l l' : count t (l ++ l') = count t l + count t l'.
Proof. apply count_occ_app. Qed.

Section Inv.
  Context (n : nat) (sends : nat -> nat -> list nat).
  Hypothesis Hs : forall k a t, In t (sends k a) -> t < n.
  Notation rnd x r := (rs_round (gs_rank (xs_g x) r)).
  Notation pha x r := (rs_phase (gs_rank (xs_g x) r)).
  Definition gotc (x : xstate) (t k s : nat) : nat := count s (map fst (xs_got x t k)).
  Record xinv (x : xstate) : Prop := {
    v_reach : greach n sends (xs_g x);
    v_idle : forall r, r < n -> 1 <= pha x r \/ rnd x r = 0 -> xs_out x r = [] /\ xs_in x r = 0;
    v_out : forall r t, r < n -> In t (xs_out x r) -> t < n;
    v_tag : forall t j s k, t < n -> In (s, k) (xs_got x t j) -> k = j /\ s < n;
    v_empty : forall t j, t < n -> rnd x t <= j -> xs_got x t j = [];
    v_fl : forall k s t, In (k, s, t) (xs_flight x) -> s < n /\ t < n /\ k < rnd x s;
    v_cons : forall s t k, s < n -> t < n -> k < rnd x s ->
      cntf k s t (xs_flight x) + gotc x t k s + (if rnd x s =? k + 1 then count t (xs_out x s) else 0) = count t (sends k s);
    v_zero : forall s t k, s < n -> t < n -> rnd x s <= k -> cntf k s t (xs_flight x) = 0 /\ gotc x t k s = 0;
    v_len : forall t j, t < n -> j < rnd x t ->
      length (xs_got x t j) + (if rnd x t =? j + 1 then xs_in x t else 0) = nsum (fun a => count t (sends j a)) n }.
  Lemma xinv_init : xinv xinit.
  Proof. constructor; simpl; intros; auto; try lia; try tauto. constructor. Qed.

  Lemma gotc_le x : xinv x -> forall s t k, s < n -> t < n -> gotc x t k s <= count t (sends k s).
  Proof.
    intros I s t k Hs' Ht. destruct (Nat.lt_ge_cases k (rnd x s)) as [H|H].
    - pose proof (v_cons x I s t k Hs' Ht H). lia.
    - destruct (v_zero x I s t k Hs' Ht H). lia.
  Qed.
  Lemma got_len x : xinv x -> forall t j, t < n -> length (xs_got x t j) = nsum (fun a => gotc x t j a) n.
  Proof.
    intros I t j Ht. rewrite <- (map_length fst). apply length_by_source. intros s Hi. apply in_map_iff in Hi as ([s' k] & <- & Hi).
    now apply (v_tag x I t j s' k) in Hi.
  Qed.
  Lemma behind x : xinv x -> forall r q, r < n -> q < n -> forall k, rnd x r = S k -> k <= rnd x q /\ (rnd x q = k -> 4 <= pha x q).
  Proof.
    intros I r q Hr Hq k E. destruct (i_b3 n sends (xs_g x) (inv_reach n sends Hs _ (v_reach x I)) r q k Hr Hq E) as [H|[H H']]; lia.
  Qed.
  (** once all receives of exchange j are done every message of it has been received *)
  Lemma done_counts x : xinv x -> forall t j, t < n -> received_all x t j -> forall s, s < n -> gotc x t j s = count t (sends j s).
  Proof.
    intros I t j Ht Hd. apply nsum_eq_pointwise; [intros; now apply gotc_le|].
    change (nsum (fun a => count t (sends j a)) n <= nsum (fun a => gotc x t j a) n).
    rewrite <- (got_len x I t j Ht). destruct Hd as [Hd|[Hd Hi]].
    - pose proof (v_len x I t j Ht ltac:(lia)) as H. destruct (Nat.eqb_spec (rnd x t) (j + 1)); lia.
    - pose proof (v_len x I t j Ht ltac:(lia)) as H. destruct (Nat.eqb_spec (rnd x t) (j + 1)); lia.
  Qed.
  (** a message in flight to a rank that is receiving belongs to the exchange it is in *)
  Lemma match_round x r k s m : xinv x -> r < n -> xs_in x r = S m -> In (k, s, r) (xs_flight x) -> rnd x r = k + 1 /\ s < n /\ pha x r = 0.
  Proof.
    intros I Hr Hi Hf. destruct (v_fl x I k s r Hf) as (H1 & _ & H2).
    assert (Hp : pha x r = 0 /\ rnd x r <> 0).
    { destruct (Nat.eq_dec (pha x r) 0), (Nat.eq_dec (rnd x r) 0); auto; exfalso; destruct (v_idle x I r Hr) as [_ ?]; lia. }
    destruct Hp as [Hp Hr0]. split; [|auto].
    destruct (rnd x r) as [|j] eqn:Ej; [lia|]. destruct (Nat.lt_trichotomy k j) as [Hlt|[->|Hgt]]; [| lia |].
    - exfalso. assert (Hd : received_all x r k) by (left; lia). pose proof (done_counts x I r k Hr Hd s H1) as E.
      pose proof (v_cons x I s r k H1 Hr H2). pose proof (cntf_in k s r _ Hf). lia.
    - exfalso. destruct (rnd x s) as [|k'] eqn:Es; [lia|]. destruct (behind x I s r H1 Hr k' Es) as [A B]. rewrite Ej in *.
      assert (k' = S j) by lia. specialize (B ltac:(lia)). lia.
  Qed.
  Lemma step_rounds r g g' : gstep n sends r g g' -> rs_phase (gs_rank g r) <> 5 ->
    (forall q, rs_round (gs_rank g' q) = rs_round (gs_rank g q)) /\ (forall q, q <> r -> gs_rank g' q = gs_rank g q).
  Proof.
    intros St H. assert (E : exists s', gs_rank g' = upd_fun (gs_rank g) r s' /\ rs_round s' = rs_round (gs_rank g r)).
    { inversion St; subst; try (eexists; split; [reflexivity|reflexivity]). congruence. }
    destruct E as (s' & E & Er). rewrite E. split; intros q; unfold upd_fun; destruct (Nat.eqb_spec q r); subst; auto. congruence.
  Qed.
  Lemma step_read r g g' : gstep n sends r g g' -> rs_phase (gs_rank g r) = 5 ->
    gs_rank g' = upd_fun (gs_rank g) r (mkRS (S (rs_round (gs_rank g r))) 0 [] (rs_reads (gs_rank g r) ++ [gs_win g r])).
  Proof. intros St H. inversion St; subst; try congruence. reflexivity. Qed.

  Lemma xinv_step x x' r : xinv x -> r < n -> xstep n sends r x x' -> xinv x'.
  Proof.
    intros I Hr St. destruct St as [g' Hp5 Hp0 Hg|g' Hp5 Hg|t rest Ho|k s m f1 f2 Hi Hf].
    - destruct (step_rounds r _ _ Hg Hp5) as [Er Eo]. destruct I as [I1 I2 I3 I4 I5 I6 I7 I8 I9].
      constructor; cbn [xs_g xs_out xs_in xs_got xs_flight]; intros; rewrite ?Er in *; eauto.
      + eapply GStep; eauto.
      + rename r0 into q. destruct (Nat.eq_dec q r) as [->|Hne]; [|rewrite Eo in * by auto; auto].
        destruct (Nat.eq_dec (pha x r) 0); [auto|]. apply I2; auto. lia.
    - pose proof (step_read r _ _ Hg Hp5) as Eg. pose proof (GStep n sends _ _ r (v_reach x I) Hr Hg) as Hreach'.
      destruct I as [I1 I2 I3 I4 I5 I6 I7 I8 I9].
      set (k := rnd x r) in *.
      assert (Hread : gs_win (xs_g x) r = nsum (fun a => count r (sends k a)) n).
      { apply (i_reads n sends g' (inv_reach n sends Hs g' Hreach') r k _ Hr). rewrite Eg. unfold upd_fun. rewrite Nat.eqb_refl. cbn [rs_reads].
        pose proof (i_len n sends _ (inv_reach n sends Hs _ I1) r Hr) as El. rewrite nth_error_app2 by lia. rewrite El. fold k. now rewrite Nat.sub_diag. }
      assert (Er : forall q, rs_round (gs_rank g' q) = if q =? r then S k else rnd x q).
      { intros q. rewrite Eg. unfold upd_fun. destruct (q =? r); reflexivity. }
      assert (Ep : forall q, rs_phase (gs_rank g' q) = if q =? r then 0 else pha x q).
      { intros q. rewrite Eg. unfold upd_fun. destruct (q =? r); reflexivity. }
      destruct (I2 r Hr ltac:(lia)) as [Ho0 Hi0].
      constructor; cbn [xs_g xs_out xs_in xs_got xs_flight].
      + exact Hreach'.
      + intros q Hq. rewrite Er, Ep. unfold upd_fun. destruct (Nat.eqb_spec q r) as [->|Hne]; [lia|]. intros H. apply I2; auto.
      + intros q t Hq. unfold upd_fun. destruct (Nat.eqb_spec q r) as [->|Hne]; [apply Hs|apply I3; auto].
      + exact I4.
      + intros t j Ht. rewrite Er. destruct (Nat.eqb_spec t r) as [->|Hne]; intros H; apply I5; auto. fold k. lia.
      + intros k' s t H. destruct (I6 _ _ _ H) as (A & B & C). split; [auto|]. split; [auto|]. rewrite Er. destruct (Nat.eqb_spec s r) as [->|]; auto; fold k in C; lia.
      + intros s t k' Hs' Ht. rewrite Er. unfold gotc. cbn [xs_got]. fold (gotc x t k' s). unfold upd_fun. destruct (Nat.eqb_spec s r) as [->|Hne].
        * intros H. destruct (Nat.eqb_spec (S k) (k' + 1)) as [E|E].
          -- assert (k' = k) by lia. subst k'. destruct (I8 r t k Hr Ht ltac:(fold k; lia)) as [-> ->]. reflexivity.
          -- pose proof (I7 r t k' Hr Ht ltac:(fold k; lia)) as E'. fold k in E'. rewrite Ho0 in E'. unfold count in E' at 1. simpl in E'. destruct (k =? k' + 1); lia.
        * intros H. apply I7; auto.
      + intros s t k' Hs' Ht. rewrite Er. unfold gotc. cbn [xs_got]. fold (gotc x t k' s). destruct (Nat.eqb_spec s r) as [->|Hne]; intros H; apply I8; auto. fold k. lia.
      + intros t j Ht. rewrite Er. unfold upd_fun. destruct (Nat.eqb_spec t r) as [->|Hne].
        * intros H. destruct (Nat.eqb_spec (S k) (j + 1)) as [E|E].
          -- assert (j = k) by lia. subst j. rewrite (I5 r k Hr) by (fold k; lia). simpl. exact Hread.
          -- pose proof (I9 r j Hr ltac:(fold k; lia)) as E'. fold k in E'. rewrite Hi0 in E'. destruct (k =? j + 1); lia.
        * intros H. apply I9; auto.
    - assert (Hp : pha x r = 0 /\ rnd x r <> 0).
      { destruct (Nat.eq_dec (pha x r) 0), (Nat.eq_dec (rnd x r) 0); auto; exfalso; destruct (v_idle x I r Hr) as [E ?]; try lia; congruence. }
      destruct Hp as [Hp Hr0]. destruct I as [I1 I2 I3 I4 I5 I6 I7 I8 I9].
      assert (Htn : t < n) by (apply (I3 r); auto; rewrite Ho; simpl; auto).
      constructor; cbn [xs_g xs_out xs_in xs_got xs_flight]; auto.
      + intros q Hq H. unfold upd_fun. destruct (Nat.eqb_spec q r) as [->|Hne]; [lia|auto].
      + intros q t' Hq. unfold upd_fun. destruct (Nat.eqb_spec q r) as [->|Hne]; intros H; [apply (I3 r t'); auto; rewrite Ho; simpl; auto|apply (I3 q t'); auto].
      + intros k' s t' H. apply in_app_iff in H as [H|[H|[]]]; [apply I6; auto|]. injection H as <- <- <-. split; [auto|]. split; [auto|]. lia.
      + intros s t' k' Hs' Ht' H. unfold gotc. cbn [xs_got]. fold (gotc x t' k' s). pose proof (I7 s t' k' Hs' Ht' H) as E. rewrite cntf_app, cntf_cons. cbn [fst snd].
        change (cntf k' s t' []) with 0. unfold upd_fun. destruct (Nat.eqb_spec s r) as [->|Hne].
        * rewrite Nat.eqb_refl. rewrite Ho in E. unfold count in *. simpl in E. destruct (Nat.eqb_spec (rnd x r) (k' + 1)) as [Ek|Ek].
          -- assert (Ek' : rnd x r - 1 = k') by lia. rewrite (proj2 (Nat.eqb_eq _ _) Ek'). destruct (Nat.eq_dec t t'), (Nat.eqb_spec t t'); simpl; try congruence; lia.
          -- destruct (Nat.eqb_spec (rnd x r - 1) k'); [lia|]. simpl. lia.
        * destruct (Nat.eqb_spec r s); [congruence|]. rewrite andb_false_r. simpl. lia.
      + intros s t' k' Hs' Ht' H. unfold gotc. cbn [xs_got]. fold (gotc x t' k' s). rewrite cntf_app, cntf_cons. cbn [fst snd]. change (cntf k' s t' []) with 0.
        destruct (I8 s t' k' Hs' Ht' H) as [-> ->]. split; auto.
        destruct (Nat.eqb_spec (rnd x r - 1) k') as [E1|], (Nat.eqb_spec r s) as [E2|]; simpl; auto. subst. lia.
    - assert (Hin : In (k, s, r) (xs_flight x)) by (rewrite Hf; apply in_app_iff; simpl; auto).
      destruct (match_round x r k s m I Hr Hi Hin) as (Hk & Hsn & Hp0). destruct I as [I1 I2 I3 I4 I5 I6 I7 I8 I9].
      assert (Ek : rnd x r - 1 = k) by lia.
      assert (Hg : forall t j, upd_fun (xs_got x) r (upd_fun (xs_got x r) (rnd x r - 1) (xs_got x r (rnd x r - 1) ++ [(s, k)])) t j =
                if (t =? r) && (j =? k) then xs_got x r k ++ [(s, k)] else xs_got x t j).
      { intros t j. unfold upd_fun. rewrite Ek. destruct (Nat.eqb_spec t r) as [->|]; simpl; try destruct (j =? k); auto. }
      assert (Hgc : forall t j a, count a (map fst (if (t =? r) && (j =? k) then xs_got x r k ++ [(s, k)] else xs_got x t j)) =
                gotc x t j a + (if (k =? j) && (s =? a) && (r =? t) then 1 else 0)).
      { intros t j a. unfold gotc. destruct (Nat.eqb_spec t r) as [->|], (Nat.eqb_spec j k) as [->|]; simpl; rewrite ?Nat.eqb_refl; try (rewrite map_app, count_app); unfold count; cbn [map fst count_occ andb].
        - destruct (Nat.eq_dec s a), (Nat.eqb_spec s a); simpl; congruence || lia.
        - destruct (Nat.eqb_spec k j); [congruence|]. simpl. lia.
        - destruct (Nat.eqb_spec r t); [congruence|]. rewrite andb_false_r. lia.
        - destruct (Nat.eqb_spec k j); [congruence|]. simpl. lia. }
      assert (Hc : forall a b c, cntf a b c (xs_flight x) = cntf a b c (f1 ++ f2) + (if (k =? a) && (s =? b) && (r =? c) then 1 else 0)).
      { intros. rewrite Hf, !cntf_app, cntf_cons. cbn [fst snd]. lia. }
      constructor; cbn [xs_g xs_out xs_in xs_got xs_flight]; auto.
      + intros q Hq H. unfold upd_fun. destruct (Nat.eqb_spec q r) as [->|Hne]; [lia|auto].
      + intros t j s' k' Ht. rewrite Hg. destruct (Nat.eqb_spec t r) as [->|], (Nat.eqb_spec j k) as [->|]; simpl; try apply I4; auto.
        intros H. apply in_app_iff in H as [H|[H|[]]]; [apply (I4 r k); auto|]. injection H as <- <-. auto.
      + intros t j Ht H. rewrite Hg. destruct (Nat.eqb_spec t r) as [->|], (Nat.eqb_spec j k) as [->|]; simpl; try apply I5; auto. lia.
      + intros k' s' t H. apply I6. rewrite Hf. apply in_app_iff in H. apply in_app_iff. simpl. tauto.
      + intros s' t k' Hs' Ht H. unfold gotc. cbn [xs_got]. rewrite Hg, Hgc. pose proof (I7 s' t k' Hs' Ht H) as E. rewrite Hc in E. lia.
      + intros s' t k' Hs' Ht H. unfold gotc. cbn [xs_got]. rewrite Hg, Hgc. destruct (I8 s' t k' Hs' Ht H) as [E1 E2]. rewrite Hc in E1.
        destruct (I6 _ _ _ Hin) as (_ & _ & Hlt).
        destruct ((k =? k') && (s =? s') && (r =? t)) eqn:E; [lia|]. lia.
      + intros t j Ht H. rewrite Hg. unfold upd_fun. pose proof (I9 t j Ht H) as E. destruct (Nat.eqb_spec t r) as [->|]; simpl; auto.
        destruct (Nat.eqb_spec j k) as [->|]; simpl.
        * rewrite app_length. simpl. rewrite Hk, Nat.eqb_refl in *. rewrite Hi in E. lia.
        * destruct (Nat.eqb_spec (rnd x r) (j + 1)); [lia|auto].
  Qed.
  Lemma xinv_reach x : xreach n sends x -> xinv x.
  Proof. induction 1; [apply xinv_init|eapply xinv_step; eauto]. Qed.

  Lemma sources x : xreach n sends x -> (forall k a, NoDup (sends k a)) -> forall t j, t < n -> received_all x t j ->
    Permutation (map fst (xs_got x t j)) (filter (fun s => existsb (Nat.eqb t) (sends j s)) (seq 0 n)).
  Proof.
    intros Hx Hn t j Ht Hd. pose proof (xinv_reach x Hx) as I. apply (Permutation_count_occ Nat.eq_dec). intros s.
    assert (Hnd : NoDup (filter (fun s => existsb (Nat.eqb t) (sends j s)) (seq 0 n))) by apply NoDup_filter, seq_NoDup.
    assert (Hex : forall a, existsb (Nat.eqb t) (sends j a) = true <-> In t (sends j a)).
    { intros a. rewrite existsb_exists. split; [intros (y & Hy & E); apply Nat.eqb_eq in E; subst; auto|intros; exists t; split; auto; apply Nat.eqb_refl]. }
    destruct (Nat.lt_ge_cases s n) as [Hlt|Hge].
    - change (count_occ Nat.eq_dec (map fst (xs_got x t j)) s) with (gotc x t j s). rewrite (done_counts x I t j Ht Hd s Hlt). unfold count.
      destruct (in_dec Nat.eq_dec t (sends j s)) as [Hi|Hi].
      + rewrite (proj1 (NoDup_count_occ' Nat.eq_dec _) (Hn j s) t Hi).
        symmetry. apply (proj1 (NoDup_count_occ' Nat.eq_dec _) Hnd s). apply filter_In. split; [apply in_seq; lia|]. now apply Hex.
      + rewrite (proj1 (count_occ_not_In Nat.eq_dec _ _) Hi). symmetry. apply count_occ_not_In. intros H. apply filter_In in H as [_ H]. apply Hex in H. auto.
    - transitivity 0; [|symmetry]; apply count_occ_not_In.
      + intros H. apply in_map_iff in H as ([s' k'] & <- & H). apply (v_tag x I t j) in H; auto. simpl in Hge. lia.
      + intros H. apply filter_In in H as [H _]. apply in_seq in H. lia.
  Qed.

  Lemma xprogress x : 0 < n -> xreach n sends x -> exists r x', r < n /\ xstep n sends r x x'.
  Proof.
    intros Hn Hx. pose proof (xinv_reach x Hx) as I.
    destruct (progress n sends Hs (xs_g x) Hn (v_reach x I)) as (r & g' & Hr & St).
    destruct (Nat.eq_dec (pha x r) 5) as [E5|N5]; [eexists r, _; split; [auto|]; eapply XRead; eauto|].
    destruct (xs_out x r) as [|t rest] eqn:Eo; [|eexists r, _; split; [auto|]; eapply XSend; eauto].
    destruct (xs_in x r) as [|m] eqn:Ei; [eexists r, _; split; [auto|]; eapply XProto; eauto|].
    (* r waits for a message *)
    assert (Hp : pha x r = 0 /\ rnd x r <> 0).
    { destruct (Nat.eq_dec (pha x r) 0), (Nat.eq_dec (rnd x r) 0); auto; exfalso; destruct (v_idle x I r Hr) as [? E]; lia. }
    destruct Hp as [Hp Hr0]. destruct (rnd x r) as [|k] eqn:Ek; [lia|].
    assert (Hcase : (exists s, s < n /\ gotc x r k s < count r (sends k s)) \/ (forall s, s < n -> gotc x r k s = count r (sends k s))).
    { assert (G : forall m, m <= n -> (exists s, s < m /\ gotc x r k s < count r (sends k s)) \/ (forall s, s < m -> gotc x r k s = count r (sends k s))).
      { induction m0 as [|m0 IH]; intros Hm; [right; lia|]. destruct (IH ltac:(lia)) as [(s & ? & ?)|H]; [left; exists s; split; auto|].
        pose proof (gotc_le x I m0 r k ltac:(lia) Hr). destruct (Nat.eq_dec (gotc x r k m0) (count r (sends k m0))) as [E|E].
        - right. intros s Hs'. destruct (Nat.eq_dec s m0) as [->|]; auto. apply H. lia.
        - left. exists m0. split; auto. lia. }
      destruct (G n (le_n n)) as [(s & A & B)|H]; [left; eauto|right; auto]. }
    destruct Hcase as [(s & Hs' & Hlt)|Hall].
    - destruct (behind x I r s Hr Hs' k Ek) as [A B]. destruct (Nat.lt_ge_cases k (rnd x s)) as [Hk|Hk].
      + pose proof (v_cons x I s r k Hs' Hr Hk) as E. destruct (Nat.eq_dec (cntf k s r (xs_flight x)) 0) as [Z0|NZ].
        * destruct (Nat.eqb_spec (rnd x s) (k + 1)); [|lia]. destruct (xs_out x s) as [|t rest] eqn:Es; [unfold count in E at 1; simpl in E; lia|].
          exists s. eexists. split; auto. eapply XSend; eauto.
        * assert (Hin : exists m0, In m0 (xs_flight x) /\ m0 = (k, s, r)).
          { unfold cntf in NZ. destruct (filter (fun m => (fst (fst m) =? k) && (snd (fst m) =? s) && (snd m =? r)) (xs_flight x)) as [|m0 l] eqn:Ef; [simpl in NZ; lia|].
            assert (Hi : In m0 (m0 :: l)) by (simpl; auto). rewrite <- Ef in Hi. apply filter_In in Hi as [Hi Hb]. exists m0. split; auto.
            apply andb_true_iff in Hb as [Hb H3]. apply andb_true_iff in Hb as [H1 H2]. apply Nat.eqb_eq in H1, H2, H3. destruct m0 as [[a b] c]. simpl in *. congruence. }
          destruct Hin as (m0 & Hin & ->). apply in_split in Hin as (f1 & f2 & Ef). exists r. eexists. split; auto. eapply XRecv; eauto.
      + assert (Es : rnd x s = k) by lia. specialize (B Es). pose proof (i_phase n sends _ (inv_reach n sends Hs _ (v_reach x I)) s Hs') as Hph.
        destruct (Nat.eq_dec (pha x s) 5) as [E5|]; [exists s; eexists; split; auto; eapply XRead; [auto|now apply SRead]|].
        assert (E4 : pha x s = 4) by lia. exists s. eexists. split; auto. eapply XProto; [auto|intros; lia|]. apply SLeave; auto.
        intros q Hq. rewrite Es. destruct (behind x I r q Hr Hq k Ek) as [C D]. unfold reached. destruct (Nat.eq_dec (rnd x q) k); [right; auto|left; lia].
    - exfalso. pose proof (v_len x I r k Hr ltac:(lia)) as E. rewrite Ek in E. replace (S k =? k + 1) with true in E by (symmetry; apply Nat.eqb_eq; lia).
      rewrite (got_len x I r k Hr) in E. rewrite (nsum_ext (fun a => gotc x r k a) (fun a => count r (sends k a)) n Hall) in E. lia.
  Qed.

  (** with sends that wait for their receive: a send and the receive that takes it, in one go *)
  Lemma sync_progress x : 0 < n -> xreach n sends x -> xs_flight x = [] ->
    exists r x', r < n /\ xs_flight x' = [] /\
      (xstep n sends r x x' \/ exists t y, t < n /\ xstep n sends r x y /\ xs_flight y <> [] /\ xstep n sends t y x').
  Proof.
    intros Hn Hx Hfl. pose proof (xinv_reach x Hx) as I.
    (* a rank with something left to send *)
    assert (Hsend : forall s t rest, s < n -> xs_out x s = t :: rest -> exists r x', r < n /\ xs_flight x' = [] /\
      (xstep n sends r x x' \/ exists t y, t < n /\ xstep n sends r x y /\ xs_flight y <> [] /\ xstep n sends t y x')).
    { intros s t rest Hs' Eo. assert (Htn : t < n) by (apply (v_out x I s); auto; rewrite Eo; simpl; auto).
      assert (Hp : pha x s = 0 /\ rnd x s <> 0).
      { destruct (Nat.eq_dec (pha x s) 0), (Nat.eq_dec (rnd x s) 0); auto; exfalso; destruct (v_idle x I s Hs') as [E ?]; try lia; congruence. }
      destruct Hp as [Hp Hr0]. destruct (rnd x s) as [|k] eqn:Ek; [lia|].
      destruct (behind x I s t Hs' Htn k Ek) as [A B].
      destruct (Nat.lt_ge_cases k (rnd x t)) as [Hk|Hk].
      - assert (Hin : xs_in x t <> 0).
        { intros Hz. assert (Hd : received_all x t k) by (unfold received_all; destruct (Nat.eq_dec (rnd x t) (k + 1)); [right; auto|left; lia]).
          pose proof (done_counts x I t k Htn Hd s Hs') as E1. pose proof (v_cons x I s t k Hs' Htn ltac:(lia)) as E2.
          rewrite Ek in E2. replace (S k =? k + 1) with true in E2 by (symmetry; apply Nat.eqb_eq; lia). rewrite Eo in E2.
          unfold count in E2 at 1. simpl in E2. destruct (Nat.eq_dec t t); [|congruence]. lia. }
        destruct (xs_in x t) as [|m] eqn:Ei; [congruence|].
        exists s. eexists. split; [auto|]. split; [|right; exists t; eexists; split; [auto|]; split; [eapply XSend; eauto|]].
        2:{ split; [cbn [xs_flight]; rewrite Hfl; discriminate|]. eapply (XRecv n sends t _ _ s m [] []); cbn [xs_in xs_flight]; [exact Ei|rewrite Hfl; reflexivity]. }
        reflexivity.
      - assert (Es : rnd x t = k) by lia. specialize (B Es). pose proof (i_phase n sends _ (inv_reach n sends Hs _ (v_reach x I)) t Htn) as Hph.
        destruct (Nat.eq_dec (pha x t) 5) as [E5|]; [exists t; eexists; split; [auto|split; [|left; eapply XRead; [auto|now apply SRead]]]; exact Hfl|].
        assert (E4 : pha x t = 4) by lia. exists t. eexists. split; [auto|]. split; [|left; eapply XProto; [auto|intros; lia|]; apply SLeave; auto]; [exact Hfl|].
        intros q Hq. rewrite Es. destruct (behind x I s q Hs' Hq k Ek) as [C D]. unfold reached. destruct (Nat.eq_dec (rnd x q) k); [right; auto|left; lia]. }
    destruct (xprogress x Hn Hx) as (r & x' & Hr & St). destruct St as [g' H5 H0 Hg|g' H5 Hg|t rest Eo|k s m f1 f2 Ei Ef].
    - exists r. eexists. split; [auto|]. split; [|left; eapply XProto; eauto]. exact Hfl.
    - exists r. eexists. split; [auto|]. split; [|left; eapply XRead; eauto]. exact Hfl.
    - eapply Hsend; eauto.
    - rewrite Hfl in Ef. destruct f1; discriminate.
  Qed.

  (** how many actions a rank has taken *)
  Definition sent_upto (k r : nat) : nat := nsum (fun j => length (sends j r)) k.
  Definition within (st : rstate) (r : nat) : nat :=
    match rs_phase st with 3 => 3 + (length (sends (rs_round st) r) - length (rs_rest st)) | S (S (S (S p))) => 4 + p + length (sends (rs_round st) r) | p => p end.
  Definition actions (x : xstate) (r : nat) : nat :=
    6 * rnd x r + sent_upto (rnd x r) r + within (gs_rank (xs_g x) r) r + (sent_upto (rnd x r) r - length (xs_out x r)) + nsum (fun j => length (xs_got x r j)) (rnd x r).
  Lemma nsum_mono f a b : a <= b -> nsum f a <= nsum f b.
  Proof. induction 1; simpl; lia. Qed.
  Lemma out_le x : xinv x -> forall r, r < n -> length (xs_out x r) <= sent_upto (rnd x r) r.
  Proof.
    intros I r Hr. destruct (rnd x r) as [|k] eqn:Ek; [destruct (v_idle x I r Hr ltac:(auto)) as [-> _]; simpl; lia|].
    transitivity (length (sends k r)); [|unfold sent_upto; simpl; lia].
    rewrite (length_by_source n (xs_out x r)), (length_by_source n (sends k r)); [|apply Hs|intros t Ht; now apply (v_out x I r t)].
    apply nsum_le. intros t Ht. pose proof (v_cons x I r t k Hr Ht ltac:(lia)) as E. rewrite Ek in E. replace (S k =? k + 1) with true in E by (symmetry; apply Nat.eqb_eq; lia). lia.
  Qed.
  Lemma step_within r g g' : inv n sends g -> r < n -> gstep n sends r g g' -> rs_phase (gs_rank g r) <> 5 -> within (gs_rank g' r) r = within (gs_rank g r) r + 1.
  Proof.
    intros I Hr St H5. inversion St; subst; cbn [gs_rank]; unfold upd_fun; rewrite Nat.eqb_refl; unfold within; cbn [rs_phase rs_round rs_rest];
      repeat match goal with E : rs_phase _ = _ |- _ => rewrite E in * end; try lia.
    - destruct (i_rest n sends g I r Hr ltac:(lia)) as (pre & E & _). rewrite H0 in E. rewrite E, H0, app_length. simpl. lia.
    - rewrite H0. simpl. lia.
  Qed.
  Lemma within_le g r : inv n sends g -> r < n -> within (gs_rank g r) r <= 5 + length (sends (rs_round (gs_rank g r)) r).
  Proof. intros I Hr. pose proof (i_phase n sends g I r Hr). unfold within. destruct (rs_phase (gs_rank g r)) as [|[|[|[|[|[|]]]]]]; lia. Qed.
  Lemma actions_step x x' r : xinv x -> xinv x' -> r < n -> xstep n sends r x x' -> actions x' r = actions x r + 1 /\ forall q, q < n -> q <> r -> actions x' q = actions x q.
  Proof.
    intros I I' Hr St. pose proof (inv_reach n sends Hs _ (v_reach x I)) as J. destruct St as [g' H5 H0 Hg|g' H5 Hg|t rest Ho|k s m f1 f2 Hi Hf].
    - destruct (step_rounds r _ _ Hg H5) as [Er Eo]. split.
      + unfold actions. cbn [xs_g xs_out xs_got]. rewrite Er, (step_within r _ _ J Hr Hg H5). lia.
      + intros q Hq Hne. unfold actions. cbn [xs_g xs_out xs_got]. now rewrite Eo.
    - pose proof (step_read r _ _ Hg H5) as Eg. destruct (v_idle x I r Hr ltac:(lia)) as [Ho _]. split.
      + unfold actions. cbn [xs_g xs_out xs_got]. rewrite Eg. unfold upd_fun. rewrite Nat.eqb_refl. cbn [rs_round]. unfold within. cbn [rs_phase]. rewrite H5.
        unfold sent_upto. cbn [nsum]. rewrite (v_empty x I r (rnd x r) Hr) by lia. rewrite Ho. cbn [length]. lia.
      + intros q Hq Hne. unfold actions. cbn [xs_g xs_out xs_got]. rewrite Eg. unfold upd_fun. destruct (Nat.eqb_spec q r); [congruence|reflexivity].
    - split.
      + pose proof (out_le x I r Hr) as Hle. rewrite Ho in Hle. unfold actions. cbn [xs_g xs_out xs_got]. unfold upd_fun. rewrite Nat.eqb_refl. rewrite Ho. simpl in *. lia.
      + intros q Hq Hne. unfold actions. cbn [xs_g xs_out xs_got]. unfold upd_fun. destruct (Nat.eqb_spec q r); [congruence|reflexivity].
    - assert (Hin : In (k, s, r) (xs_flight x)) by (rewrite Hf; apply in_app_iff; simpl; auto).
      destruct (match_round x r k s m I Hr Hi Hin) as (Hk & _ & _). split.
      + unfold actions. cbn [xs_g xs_out xs_got]. rewrite Hk. replace (k + 1 - 1) with k by lia.
        rewrite (nsum_upd (fun j => length (xs_got x r j)) _ (k + 1) k 1); [lia|lia| |].
        * intros a Ha. unfold upd_fun. rewrite Nat.eqb_refl. destruct (Nat.eqb_spec a k); [congruence|reflexivity].
        * unfold upd_fun. rewrite !Nat.eqb_refl, app_length. reflexivity.
      + intros q Hq Hne. unfold actions. cbn [xs_g xs_out xs_got]. unfold upd_fun. destruct (Nat.eqb_spec q r); [congruence|reflexivity].
  Qed.
  Lemma xrun_reach l x : xrun n sends l x -> xreach n sends x.
  Proof. induction 1; [constructor|econstructor; eauto]. Qed.
  Lemma xrun_actions l x : xrun n sends l x -> l = nsum (actions x) n.
  Proof.
    induction 1 as [|l x x' r H IH Hr St].
    - symmetry. rewrite (nsum_ext _ (fun _ => 0)); [apply nsum_zero|]. intros a _. reflexivity.
    - pose proof (xinv_reach x (xrun_reach _ _ H)) as I. pose proof (xinv_step _ _ _ I Hr St) as I'.
      destruct (actions_step x x' r I I' Hr St) as [E1 E2].
      rewrite (nsum_ext (actions x') (fun a => if a =? r then actions x r + 1 else actions x a)).
      2:{ intros a Ha. destruct (Nat.eqb_spec a r) as [->|Hne]; auto. }
      rewrite (nsum_upd (actions x) _ n r 1 Hr); [lia| |].
      + intros a Ha. destruct (Nat.eqb_spec a r); congruence.
      + now rewrite Nat.eqb_refl.
  Qed.
  Lemma actions_le x K r : xinv x -> r < n -> rnd x r <= K ->
    actions x r <= 6 * (K + 1) + 2 * sent_upto (K + 1) r + nsum (fun j => nsum (fun a => count r (sends j a)) n) K.
  Proof.
    intros I Hr HK. pose proof (within_le _ r (inv_reach n sends Hs _ (v_reach x I)) Hr) as Hw. unfold actions.
    assert (A : sent_upto (rnd x r) r + length (sends (rnd x r) r) <= sent_upto (K + 1) r).
    { change (nsum (fun j => length (sends j r)) (S (rnd x r)) <= nsum (fun j => length (sends j r)) (K + 1)). apply nsum_mono. lia. }
    assert (B : nsum (fun j => length (xs_got x r j)) (rnd x r) <= nsum (fun j => nsum (fun a => count r (sends j a)) n) K).
    { transitivity (nsum (fun j => nsum (fun a => count r (sends j a)) n) (rnd x r)); [|apply nsum_mono; auto].
      apply nsum_le. intros j Hj. pose proof (v_len x I r j Hr Hj). lia. }
    lia.
  Qed.
  Lemma runs_bounded K : exists B, forall l x, xrun n sends l x -> (forall r, r < n -> rnd x r <= K) -> l <= B.
  Proof.
    exists (nsum (fun r => 6 * (K + 1) + 2 * sent_upto (K + 1) r + nsum (fun j => nsum (fun a => count r (sends j a)) n) K) n).
    intros l x H HK. rewrite (xrun_actions l x H). apply nsum_le. intros r Hr. apply actions_le; auto. apply xinv_reach. eapply xrun_reach; eauto.
  Qed.
End Inv.
